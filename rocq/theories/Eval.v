(** Evaluation calls of SILMB: pos_phd, ospa and gospa (include/lmb.hpp:210-331),
    which transform targets to a common local frame and back in place.

    [local], [global]: PDF::transform_to_local(origin) and transform_to_global()
    (target.hpp:92-102 hands them on); [pos], [mean]: PDF::pos() and mean();
    [ne]: cf::ll2ne_i of a true state (cf.hpp:127-131 on its first two
    coordinates).  The distances of ospa and gospa are computed by Metric.v. *)
From Coq Require Import List Arith ZArith Bool Reals.
Import ListNotations.
From Verif Require Import Res Scalar RTree CC Tracker TrackerOps Metric.
Local Open Scope nat_scope.

(** Conversion of a rounded-down double to int: undefined if the value is not in
    the range of int (also for infinities and NaN). *)
Definition floor_int (x : ext R) : res Z :=
  match x with
  | Fin r => let z := Int_part r in
             if (Z.leb (-2147483648) z && Z.leb z 2147483647)%bool then Ok z else UB
  | _ => UB
  end.

Section Eval.
Context {P Rep : Type}.
Variable pos : P -> point.
Variable mean : P -> list R.
Variable local : point -> P -> P.
Variable global : P -> P.
Variable ne : point -> list R -> list R.
Notation target := (target (P := P)).
Notation tracker := (tracker (P := P)).

Definition with_pdf (t : target) (p : P) : target :=
  mkTarget (tg_id t) (tg_r t) p (tg_cid t) (tg_new t) (tg_t0 t).

(** transform_to_local(origin) followed by transform_to_global(), in place
    (lmb.hpp:226-228, 268-270, 319-321). *)
Definition reframe (o : point) (t : target) : target := with_pdf t (global (local o (tg_pdf t))).

(** ** pos_phd, lmb.hpp:210-239 *)

(** The cell of a sample, lmb.hpp:230-232: both coordinates are converted. *)
Definition cell (corner grid s : ext R * ext R) : res (Z * Z) :=
  x <- floor_int (xdiv (nsub extR (fst s) (fst corner)) (fst grid));;
  y <- floor_int (xdiv (nsub extR (snd s) (snd corner)) (snd grid));;
  Ok (x, y).

(** Lines 232-235 for one sample; the matrix is a list of its rows' entries one
    row after the other. *)
Definition add_sample (nx ny : nat) (corner grid : ext R * ext R) (r : ext R) (s : ext R * ext R) (m : list (ext R)) :
    res (list (ext R)) :=
  '(x, y) <- cell corner grid s;;
  if (Z.ltb x (Z.of_nat nx) && Z.ltb y (Z.of_nat ny) && Z.leb 0 x && Z.leb 0 y)%bool then
    let k := Z.to_nat x * ny + Z.to_nat y in
    v <- get m k;; set m k (nadd extR v r)
  else Ok m.

(** Lines 227-237 for the [k]-th target found; [samples k s]: the s-th of the
    1000 columns after sample_pos (columns that it leaves unwritten, C42,
    included). *)
Definition phd_target (nx ny : nat) (corner grid : ext R * ext R) (samples : nat -> nat -> ext R * ext R) (o : point)
    (ka : nat * addr) (s : list (ext R) * tracker) : res (list (ext R) * tracker) :=
  let '(m, st) := s in
  t <- deref st (snd ka);;
  st <- write st (snd ka) (reframe o t);;
  m <- for_loop 1000 0 (fun i m => add_sample nx ny corner grid (tg_r t) (samples (fst ka) i) m) m;;
  Ok (m, st).

(** [nebox]: fov.neaabbox(origin), bbox.hpp:98-103; [nx], [ny]: size. *)
Definition pos_phd (fov : rect (ext R)) (o : point) (nebox : rect (ext R)) (nx ny : nat)
    (samples : nat -> nat -> ext R * ext R) (st : tracker) : res (list (ext R) * tracker) :=
  let side lo hi n := xdiv (nsub extR hi lo) (Fin (INR n)) in
  let grid := (side (min0 nebox) (max0 nebox) nx, side (min1 nebox) (max1 nebox) ny) in
  let corner := (min0 nebox, min1 nebox) in
  l <- query fov st;;
  '(m, st) <- for_each (phd_target nx ny corner grid samples o) (combine (seq 0 (length l)) l)
                (repeat (Fin 0%R) (nx * ny), st);;
  Ok (map (fun v => xdiv v (Fin 1000%R)) m, st).

(** ** ospa and gospa, lmb.hpp:241-331 *)

(** Lines 241-250 (288-297): the origin. *)
Definition centre (truth : list (list R)) (st : tracker) : res point :=
  ts <- map_res (deref st) (targets st);;
  let ps := map (fun y => (nth 0 y 0, nth 1 y 0)%R) truth ++ map (fun t => pos (tg_pdf t)) ts in
  let n := INR (length truth + length ts) in
  Ok (fold_left (fun a p => a + fst p)%R ps 0%R / n, fold_left (fun a p => a + snd p)%R ps 0%R / n)%R.

(** Lines 252-286 and 299-331: [dist] is [Metric.ospa fuel] or [Metric.gospa
    fuel]; no target and no true state give the score 0 there. *)
Definition evaluate (dist : list (list R) -> list (list R) -> R -> R -> res (ext R))
    (truth : list (list R)) (o : point) (c p : R) (st : tracker) : res (ext R * tracker) :=
  ts <- map_res (deref st) (targets st);;
  st <- for_each (apply_to (fun _ => reframe o)) (targets st) st;;
  v <- dist (map (fun t => mean (local o (tg_pdf t))) ts) (map (ne o) truth) c p;;
  Ok (v, st).

(** ** Histories with evaluation calls *)
Inductive ecall :=
| Call (c : call (P := P) (Rep := Rep))
| Phd (fov : rect (ext R)) (o : point) (nebox : rect (ext R)) (nx ny : nat) (samples : nat -> nat -> ext R * ext R)
| Score (g : bool) (fuel : nat) (truth : list (list R)) (origin : option point) (c p : R).

(** [g]: gospa instead of ospa; without [origin] it is the mean of all positions. *)
Definition score (g : bool) (fuel : nat) (truth : list (list R)) (origin : option point) (c p : R) (st : tracker) :
    res (ext R * tracker) :=
  o <- match origin with Some o => Ok o | None => centre truth st end;;
  evaluate (if g then gospa fuel else ospa fuel) truth o c p st.

Variable vol : rect (ext R) -> ext R.
Variable box : P -> rect (ext R).
Variable covnorm : P -> ext R.
Variables r_lim cov_lim rB_max : R.

Definition after {A} (x : res (A * tracker)) : res tracker := '(_, st) <- x;; Ok st.

Inductive ecall_step (st : tracker) : ecall -> res tracker -> Prop :=
| es_call c o : call_step vol box covnorm r_lim cov_lim rB_max st c o -> ecall_step st (Call c) o
| es_phd fov o nebox nx ny samples :
    ecall_step st (Phd fov o nebox nx ny samples) (after (pos_phd fov o nebox nx ny samples st))
| es_score g fuel truth origin c p :
    ecall_step st (Score g fuel truth origin c p) (after (score g fuel truth origin c p st)).

Inductive ecalls : tracker -> list ecall -> res tracker -> Prop :=
| el_nil st : ecalls st [] (Ok st)
| el_cons st c cs st' o : ecall_step st c (Ok st') -> ecalls st' cs o -> ecalls st (c :: cs) o
| el_ub st c cs : ecall_step st c UB -> ecalls st (c :: cs) UB
| el_end st c cs : ecall_step st c OutOfFuel -> ecalls st (c :: cs) OutOfFuel.
End Eval.
