(** The OSPA and GOSPA (alpha = 2) distances between two finite families of
    points, as defined in the literature, by matchings; nothing here refers to
    matrices or to a solver. *)
From Coq Require Import List Arith Reals.
Import ListNotations.
From Verif Require Import LapSpec.
Local Open Scope R_scope.

(** Euclidean distance. *)
Definition edist (x y : list R) : R :=
  sqrt (Rsum (map (fun k => (nth k x 0 - nth k y 0) ^ 2) (seq 0 (Nat.min (length x) (length y))))).

(** x^p for x >= 0, p > 0. *)
Definition rpow (x p : R) : R := if Req_EM_T x 0 then 0 else Rpower x p.

(** Pairs of an index below [M] and one below [N], no index used twice. *)
Definition matching (M N : nat) (g : list (nat * nat)) : Prop :=
  NoDup (map fst g) /\ NoDup (map snd g) /\
  forall a, In a g -> (fst a < M)%nat /\ (snd a < N)%nat.

Section Distances.
Variables (X Y : list (list R)) (c p : R).
Let d (a : nat * nat) : R := edist (nth (fst a) X []) (nth (snd a) Y []).
Let n := Nat.max (length X) (length Y).

(** Mean over the larger set of the cut-off distances to the power p, an
    unmatched element counting c. *)
Definition ospa_of (g : list (nat * nat)) : R :=
  rpow ((Rsum (map (fun a => rpow (Rmin c (d a)) p) g)
         + INR (n - length g) * rpow c p) / INR n) (/ p).

Definition is_ospa (v : R) : Prop :=
  (n = 0%nat /\ v = 0) \/
  ((0 < n)%nat /\
   (exists g, matching (length X) (length Y) g /\ v = ospa_of g) /\
   forall g, matching (length X) (length Y) g -> v <= ospa_of g).

(** Sum over the matched pairs of the distance to the power p, each unmatched
    element of either set counting c^p / 2. *)
Definition gospa_of (g : list (nat * nat)) : R :=
  rpow (Rsum (map (fun a => rpow (d a) p) g)
        + INR (length X + length Y - 2 * length g) * (rpow c p / 2)) (/ p).

Definition is_gospa (v : R) : Prop :=
  (exists g, matching (length X) (length Y) g /\ v = gospa_of g) /\
  forall g, matching (length X) (length Y) g -> v <= gospa_of g.
End Distances.
