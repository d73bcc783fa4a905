(** Specification of mixtures: weights, what normalising, joining and pruning
    must give. *)
From Coq Require Import List Arith Reals Permutation Sorted.
Import ListNotations.
From Verif Require Import GM.
Local Open Scope nat_scope.

Section Spec.
Context {G : Type}.
Notation comp := (comp (G := G)).

(** Total weight. *)
Fixpoint total (c : list comp) : R := match c with [] => 0%R | g :: c => (fst g + total c)%R end.
Definition nonneg (c : list comp) : Prop := forall g, In g c -> (0 <= fst g)%R.
(** Non-increasing weights. *)
Definition decreasing (c : list comp) : Prop := StronglySorted (fun a b => (fst b <= fst a)%R) c.

(** std::sort on the reversed range: the same components by non-increasing
    weight, equal weights in any order. *)
Definition valid_sort (sortf : list comp -> list comp) : Prop :=
  forall c, Permutation c (sortf c) /\ decreasing (sortf c).

(** [c'] is [c] normalised: the weights are in the same proportions and sum to
    1; a mixture of almost no weight becomes empty. *)
Definition normalised (c c' : list comp) (eta : R) : Prop :=
  ((1 / 100000000 < total c)%R /\ eta = total c /\
   map snd c' = map snd c /\ map (fun g => (fst g * total c)%R) c' = map fst c /\ total c' = 1%R) \/
  ((total c <= 1 / 100000000)%R /\ c' = [] /\ eta = 0%R).

(** The components of all mixtures with their weights scaled by [w]. *)
Definition scaled (w : list R) (pdfs : list (list comp)) : list comp :=
  flat_map (fun wp => map (fun g => ((fst wp * fst g)%R, snd g)) (snd wp)) (combine w pdfs).

Fixpoint rsum {A} (f : A -> R) (l : list A) : R := match l with [] => 0%R | x :: l => (f x + rsum f l)%R end.

(** A sequence of chosen and left out components, the chosen ones no lighter. *)
Definition heaviest (c rest : list comp) : Prop :=
  decreasing c /\ forall x y, In x c -> In y rest -> (fst y <= fst x)%R.
End Spec.

(** Inclusion of boxes. *)
Definition inside_box (a b : aabb) : Prop :=
  (min0 b <= min0 a /\ min1 b <= min1 a /\ max0 a <= max0 b /\ max1 a <= max1 b)%R.
Definition point_in (x0 x1 : R) (b : aabb) : Prop := (min0 b <= x0 <= max0 b /\ min1 b <= x1 <= max1 b)%R.
