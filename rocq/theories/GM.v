(** Model of include/gm.hpp (Gaussian mixtures).

    A component is its weight and the rest of the Gaussian (mean, covariance),
    a value of an arbitrary type [G].  Weights are real numbers; the only
    division that can be 0/0 is [nw / wsum] in join (Cluster.below follows IEEE).
    [sortf] stands for std::sort, whose order of equal elements is unspecified. *)
From Coq Require Import List Arith ZArith Bool Reals.
Import ListNotations.
From Verif Require Import Res Scalar Cluster.
Local Open Scope nat_scope.

(** GM's default template argument, gm.hpp:18. *)
Definition MAX_COMPONENTS : nat := 200.

Section GM.
Context {G : Type}.
(** Gaussian_::w and the other members, gaussian.hpp:18-20. *)
Definition comp : Type := R * G.
Variable sortf : list comp -> list comp.
(** Params::cw_lim *)
Variable cw_lim : R.

(** The sum computed by gm.hpp:45-46. *)
Definition wsum (c : list comp) : R := fold_left (fun a g => (a + fst g)%R) c 0%R.

(** GM::normalize (and clear), gm.hpp:44-55, 87-90: components and eta. *)
Definition normalize (c : list comp) : list comp * R :=
  let eta := wsum c in
  if Rltb (1 / 100000000) eta then (map (fun g => ((fst g / eta)%R, snd g)) c, eta) else ([], 0%R).

(** GM::correct, gm.hpp:92-104; [upd i] is Gaussian_::correct of component [i]
    (gaussian.hpp:30-42) for the given report and sensor. *)
Definition gm_correct (upd : nat -> comp -> comp) (c : list comp) : list comp * R :=
  normalize (map (fun ic => upd (fst ic) (snd ic)) (combine (seq 0 (length c)) c)).

(** GM::missed, gm.hpp:106-113; [pd i] is the sensor's pD of component [i].  The
    components do not change; eta becomes the sum, 1 - eta is returned. *)
Definition missed_eta (pd : nat -> R) (c : list comp) : R :=
  fold_left (fun eta ic => (eta + fst (snd ic) * pd (fst ic))%R) (combine (seq 0 (length c)) c) 0%R.
Definition gm_missed (pd : nat -> R) (c : list comp) : R := (1 - missed_eta pd c)%R.

(** GM::linear_update, gm.hpp:115-121 (weights are kept). *)
Definition gm_linear (f : G -> G) (c : list comp) : list comp := map (fun g => (fst g, f (snd g))) c.

(** GM::prune, gm.hpp:155-164.  The second component of the result is the new
    eta, if it is set. *)
Definition prune (c : list comp) : list comp * option R :=
  let c := firstn MAX_COMPONENTS (sortf (filter (fun g => negb (Rltb (fst g) cw_lim)) c)) in
  match c with
  | [] => ([], None)
  | _ => (fst (normalize c), Some (snd (normalize c)))
  end.

(** operator+ and operator+=, gm.hpp:130-143. *)
Definition plus (a b : list comp) : list comp := fst (prune (a ++ b)).

(** std::pair's operator<. *)
Definition pair_ltb (x y : R * nat) : bool :=
  if Rltb (fst x) (fst y) then true else if Rltb (fst y) (fst x) then false else snd x <? snd y.

(** priority_queue::top and pop: a greatest pair, and the others. *)
Fixpoint pop_top (q : list (R * nat)) : option ((R * nat) * list (R * nat)) :=
  match q with
  | [] => None
  | x :: q =>
      match pop_top q with
      | None => Some (x, [])
      | Some (y, q') => if pair_ltb x y then Some (y, x :: q') else Some (x, y :: q')
      end
  end.

(** The loop gm.hpp:182-195; [k] iterations are left. *)
Fixpoint join_loop (k : nat) (w : list R) (pdfs : list (list comp)) (wi : list nat)
    (q : list (R * nat)) (ws : R) (c : list comp) : res (list comp) :=
  match k with
  | O => Ok c
  | S k =>
      match pop_top q with
      | None => Ok c
      | Some ((nw, j), q) =>
          let ws := (ws + nw)%R in
          if below cw_lim nw ws then Ok c
          else
            p <- get pdfs j;;
            i <- get wi j;;
            g <- get p i;;
            let c := c ++ [(nw, snd g)] in
            wi <- set wi j (S i);;
            if S i <? length p then
              g <- get p (S i);;
              wj <- get w j;;
              join_loop k w pdfs wi (((wj * fst g)%R, j) :: q) ws c
            else join_loop k w pdfs wi q ws c
      end
  end.

(** gm.hpp:170-179: the first component of each mixture. *)
Definition join_start (w : list R) (pdfs : list (list comp)) : list (R * nat) :=
  flat_map (fun wpj => match snd (fst wpj) with
                       | [] => []
                       | g :: _ => [((fst (fst wpj) * fst g)%R, snd wpj)]
                       end)
           (combine (combine w pdfs) (seq 0 (length w))).

(** GM::join, gm.hpp:166-197, up to the normalisation: the joined components
    with their scaled weights. *)
Definition join_raw (w : list R) (pdfs : list (list comp)) : res (list comp) :=
  if length pdfs <? length w then UB
  else
    let pdfs := map sortf (firstn (length w) pdfs) in
    join_loop MAX_COMPONENTS w pdfs (repeat 0 (length w)) (join_start w pdfs) 0%R [].

Definition join (w : list R) (pdfs : list (list comp)) : res (list comp * R) :=
  c <- join_raw w pdfs;; Ok (normalize c).

(** GM::mean, gm.hpp:229-236, coordinate by coordinate: [x g] is one coordinate
    of the component's mean. *)
Definition mean (x : G -> R) (c : list comp) : R := fold_left (fun m g => (m + fst g * x (snd g))%R) c 0%R.
(** GM::cov, gm.hpp:238-250, one entry: [p g] is that entry of the component's
    covariance, [x] and [y] the coordinates of its row and column. *)
Definition cov (p : G -> R) (x y : G -> R) (c : list comp) : R :=
  fold_left (fun s g => (s + fst g * (p (snd g) + (x (snd g) - mean x c) * (y (snd g) - mean y c)))%R) c 0%R.

(** GM::sample_pos, gm.hpp:218-227: for every column of the result the component
    that wrote it.  [unsigned csamples] truncates; a negative product is taken
    as undefined (the conversion of numbers in (-1,0) gives 0). *)
Definition sample_cols (cols : nat) (c : list comp) : res (list (option nat)) :=
  '(cs, _) <- fold_left (fun acc ig =>
      '(out, col) <- acc;;
      let x := Int_part (fst (snd ig) * INR cols) in
      if Z.ltb x 0 then UB
      else
        let n := Z.to_nat x in
        if cols <? col + n then UB
        else Ok (firstn col out ++ repeat (Some (fst ig)) n ++ skipn (col + n) out, col + n))
    (combine (seq 0 (length c)) c) (Ok (repeat None cols, 0));;
  Ok cs.
End GM.

(** ** Boxes *)

(** AABBox, bbox.hpp: lower and upper corner. *)
Record aabb := mkAabb { min0 : R; min1 : R; max0 : R; max1 : R }.

(** GM::update_local_bbox for [aabbox], gm.hpp:57-77.  [x0 g], [x1 g] are the
    component's position, [cbox g] is c[i].aabbox(nstd).  None: unchanged. *)
Definition local_aabbox {G} (x0 x1 : G -> R) (cbox : G -> aabb) (c : list (comp (G := G))) : option aabb :=
  match c with
  | [] => None
  | g :: _ =>
      Some (fold_left (fun b h =>
              mkAabb (Rmin (min0 b) (min0 (cbox (snd h)))) (Rmin (min1 b) (min1 (cbox (snd h))))
                     (Rmax (max0 b) (max0 (cbox (snd h)))) (Rmax (max1 b) (max1 (cbox (snd h)))))
            c (mkAabb (x0 (snd g)) (x1 (snd g)) (x0 (snd g)) (x1 (snd g))))
  end.
