(** The particle filter: include/pf.hpp.  Weights are real numbers; the states of
    the particles, the frames and the boxes are abstract. *)
From Coq Require Import List Arith Bool Reals.
Import ListNotations.
From Verif Require Import Res Scalar.
Local Open Scope R_scope.

(** Eigen's sum, and std::accumulate. *)
Definition rsum (l : list R) : R := fold_right Rplus 0 l.

Section PF.
(** [X]: a column of x; [L]: cf::LL; [B]: BBox. *)
Context {X L B : Type}.
(** The number of particles (template parameter N). *)
Variable N : nat.
(** std::sort of indices by the comparison w[i] > w[j] (pf.hpp:176-177). *)
Variable srt : list R -> list nat -> list nat.
(** cf::ll2ne_i and cf::ne2ll_i on the position of a particle (pf.hpp:243-262),
    pos() (231-233), BBox::from_gaussian of pos() and poscov() (126) and
    BBox::llbbox (260). *)
Variables (ll2ne ne2ll : L -> X -> X) (pos : list R -> list X -> L) (gauss_box : list R -> list X -> B) (llbox : L -> B -> B).

(** pf.hpp:45-55.  aabbox is computed from bbox, _llaabbox is never assigned;
    both are left out. *)
Record pf := mkPf { pw : list R; px : list X; valid : bool; eta : R; perm : list nat; bbox : B; origin : L }.

(** pf.hpp:163-166. *)
Definition invalidate (p : pf) : pf := mkPf (pw p) (px p) false 0 (perm p) (bbox p) (origin p).

(** pf.hpp:115-122. *)
Definition normalize (p : pf) : pf :=
  let e := rsum (pw p) in
  if Rltb (1 / 100000000) e
  then mkPf (map (fun a => a / e) (pw p)) (px p) (valid p) e (perm p) (bbox p) (origin p)
  else invalidate (mkPf (pw p) (px p) (valid p) e (perm p) (bbox p) (origin p)).

(** pf.hpp:85-91; [f] multiplies by F.  The process noise is not used. *)
Definition linear_update (f : X -> X) (p : pf) : pf :=
  mkPf (pw p) (map f (px p)) (valid p) (eta p) (perm p) (bbox p) (origin p).

(** w[i] *= f(x.col(i)) for all particles (pf.hpp:97-100, 108-110); there are
    as many weights as columns. *)
Definition scale (f : X -> R) (p : pf) : pf :=
  mkPf (map (fun a => fst a * f (snd a)) (combine (pw p) (px p))) (px p) (valid p) (eta p) (perm p) (bbox p) (origin p).

(** pf.hpp:93-103; [pd] is s.pD of the particle, [lik] z.likelihood / z.kappa.
    The result is eta. *)
Definition correct (pd lik : L -> X -> R) (p : pf) : pf * R :=
  let p := normalize (scale (fun x => pd (origin p) x * lik (origin p) x) p) in (p, eta p).

(** pf.hpp:105-113. *)
Definition missed (pd : L -> X -> R) (p : pf) : pf * R :=
  let p := normalize (scale (pd (origin p)) p) in (p, 1 - eta p).

(** pf.hpp:124-128. *)
Definition update_local_bbox (p : pf) : pf :=
  if negb (valid p) then p
  else mkPf (pw p) (px p) (valid p) (eta p) (perm p) (gauss_box (pw p) (px p)) (origin p).

(** pf.hpp:138-142. *)
Definition neff (p : pf) : R := 1 / rsum (map (fun a => a * a) (pw p)).

(** The partial sums, pf.hpp:147. *)
Fixpoint cdf (s : R) (l : list R) : list R :=
  match l with [] => [] | a :: l => (s + a) :: cdf (s + a) l end.

(** while (cdf[j] < u) { ++j; }, pf.hpp:156, on what is left of cdf. *)
Fixpoint advance (l : list R) (j : nat) (u : R) : res (list R * nat) :=
  match l with
  | [] => UB
  | c :: l' => if Rltb c u then advance l' (S j) u else Ok (l, j)
  end.

(** The loop of pf.hpp:154-158 for i, i + 1, ..., one thread. *)
Fixpoint pick_cols (x : list X) (l : list R) (j : nat) (us : list R) : res (list X) :=
  match us with
  | [] => Ok []
  | u :: us => '(l, j) <- advance l j u;; c <- get x j;; r <- pick_cols x l j us;; Ok (c :: r)
  end.

(** pf.hpp:144-161; [u01] is urand(). *)
Definition resample (u01 : R) (p : pf) : res pf :=
  if negb (valid p) then Ok p
  else
    let w0 := 1 / INR N in
    x2 <- pick_cols (px p) (cdf 0 (pw p)) 0 (map (fun i => u01 * w0 + INR i * w0) (seq 0 N));;
    Ok (mkPf (repeat w0 N) x2 (valid p) (eta p) (perm p) (bbox p) (origin p)).

(** pf.hpp:175-178. *)
Definition prepare_sort (p : pf) : pf := mkPf (pw p) (px p) (valid p) (eta p) (srt (pw p) (perm p)) (bbox p) (origin p).

(** pf.hpp:180-186. *)
Definition wsorted (p : pf) (n : nat) : res R := k <- get (perm p) n;; get (pw p) k.
Definition msorted (p : pf) (n : nat) : res X := k <- get (perm p) n;; get (px p) k.

(** std::tuple<double, unsigned, unsigned> and its order. *)
Definition entry := (R * nat * nat)%type.
Definition elt (a b : entry) : bool :=
  let '(u, j, n) := a in let '(v, k, m) := b in
  Rltb u v || (negb (Rltb v u) && (Nat.ltb j k || (negb (Nat.ltb k j) && Nat.ltb n m))).

(** top() and pop() of the priority queue: the largest entry and the others. *)
Fixpoint take_top (q : list entry) : option (entry * list entry) :=
  match q with
  | [] => None
  | e :: q =>
      match take_top q with
      | None => Some (e, [])
      | Some (m, r) => if elt e m then Some (m, e :: r) else Some (e, m :: r)
      end
  end.

(** pf.hpp:192-195; [ps] after prepare_sort. *)
Fixpoint fill (j : nat) (aw : list R) (ps : list pf) : res (list entry) :=
  match aw with
  | [] => Ok []
  | a :: aw =>
      match ps with
      | [] => UB
      | p :: ps => v <- wsorted p 0;; q <- fill (S j) aw ps;; Ok ((a * v, j, 0%nat) :: q)
      end
  end.

(** pf.hpp:197-209.  The loop writes column i of the target in round i; here
    the columns are returned in order.  top() of an empty queue is UB. *)
Fixpoint merge (rounds : nat) (aw : list R) (ps : list pf) (q : list entry) : res (list (R * X)) :=
  match rounds with
  | O => Ok []
  | S rounds =>
      match take_top q with
      | None => UB
      | Some ((nw, j, n), q) =>
          p <- get ps j;;
          x <- msorted p n;;
          q <- (if Nat.ltb (S n) N then a <- get aw j;; v <- wsorted p (S n);; Ok ((a * v, j, S n) :: q) else Ok q);;
          r <- merge rounds aw ps q;;
          Ok ((nw, x) :: r)
      end
  end.

(** pf.hpp:188-212. *)
Definition join (u01 : R) (p : pf) (aw : list R) (ps : list pf) : res pf :=
  let ps := map prepare_sort ps in
  q <- fill 0 aw ps;;
  r <- merge N aw ps q;;
  resample u01 (normalize (mkPf (map fst r) (map snd r) (valid p) (eta p) (perm p) (bbox p) (origin p))).

(** pf.hpp:243-253. *)
Definition transform_to_local (o : L) (p : pf) : pf :=
  mkPf (pw p) (map (ll2ne o) (px p)) (valid p) (eta p) (perm p) (bbox p) o.

(** pf.hpp:255-262. *)
Definition transform_to_global (p : pf) : pf :=
  let p := update_local_bbox p in
  mkPf (pw p) (map (ne2ll (origin p)) (px p)) (valid p) (eta p) (perm p) (llbox (origin p) (bbox p)) (origin p).

(** The constructors, pf.hpp:57-83.  The first two leave w, x and eta
    uninitialised, the third draws x; [w], [x], [e] and [o] are what is there. *)
Definition construct (w : list R) (x : list X) (e : R) (b0 : B) (o : L) : pf :=
  transform_to_global (transform_to_local (pos w x) (mkPf w x false e (seq 0 N) b0 o)).

(** The calls a target makes on its density (target.hpp, models.hpp,
    cluster.hpp); join replaces the density by a mix of others, corrected copies. *)
Inductive op :=
| OMove (f : X -> X) | OCorrect (pd lik : L -> X -> R) | OMissed (pd : L -> X -> R)
| ONormalize | OResample (u : R) | OUpdateBox | OSort
| OJoin (u : R) (aw : list R) (ps : list pf) | OLocal (o : L) | OGlobal.

Definition step (o : op) (p : pf) : res pf :=
  match o with
  | OMove f => Ok (linear_update f p)
  | OCorrect pd lik => Ok (fst (correct pd lik p))
  | OMissed pd => Ok (fst (missed pd p))
  | ONormalize => Ok (normalize p)
  | OResample u => resample u p
  | OUpdateBox => Ok (update_local_bbox p)
  | OSort => Ok (prepare_sort p)
  | OJoin u aw ps => join u p aw ps
  | OLocal o => Ok (transform_to_local o p)
  | OGlobal => Ok (transform_to_global p)
  end.

Fixpoint run (os : list op) (p : pf) : res pf :=
  match os with [] => Ok p | o :: os => p <- step o p;; run os p end.
End PF.
Arguments pf : clear implicits.

(** mean() and cov(), pf.hpp:214-229; a particle is given by its coordinates. *)
Definition pmean (w : list R) (x : list (nat -> R)) (a : nat) : R :=
  rsum (map (fun i => snd i a * fst i) (combine w x)).
Definition pcov (w : list R) (x : list (nat -> R)) (a b : nat) : R :=
  rsum (map (fun i => (snd i a - pmean w x a) * fst i * (snd i b - pmean w x b)) (combine w x)).
