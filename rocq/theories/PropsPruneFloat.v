(** Property C114: pruning a mixture and adding mixtures, in IEEE double arithmetic
    (include/gm.hpp).

    [sorts sortf]: the sort orders numbers by falling weight, equal weights in any order.
    [heaviest limit c kept]: [kept] are the heaviest of [c], at most 200, that reach the
    limit.  [shared kept out]: [out] has the components of [kept], each with its share of
    the weight. *)
From Coq Require Import List ZArith Reals Lra Lia Bool.
Import ListNotations.
From Flocq Require Import Core BinarySingleNaN.
From Coq Require Import Floats.
From Verif Require Import FloatBase GMFloatSpec JoinFloatSpec JoinFloatWitness PruneFloat PruneFloatSpec PruneFloatProofs.
Local Open Scope R_scope.

(** C114.  Pruning keeps the heaviest components that reach the limit and shares the
    weight out anew.  If their weights add up to nearly nothing, nothing is left. *)
Theorem C114_prune : forall G sortf cw_lim (c : list (float * G)),
  sorts sortf -> fin cw_lim -> (forall g, In g c -> upto (bpow radix2 900) (fst g)) ->
  exists kept, heaviest (val cw_lim) c kept /\
    (0.99e-8 <= exact_sum (map fst kept) /\ shared kept (fprune sortf cw_lim c) \/
     exact_sum (map fst kept) <= 1.01e-8 /\ fprune sortf cw_lim c = []).
Proof. intros G. exact prune_ok. Qed.
Print Assumptions C114_prune.

(** Adding mixtures does the same to the components of both. *)
Theorem C114_plus : forall G sortf cw_lim (a b : list (float * G)),
  sorts sortf -> fin cw_lim -> (forall g, In g a \/ In g b -> upto (bpow radix2 900) (fst g)) ->
  exists kept, heaviest (val cw_lim) (a ++ b) kept /\
    (0.99e-8 <= exact_sum (map fst kept) /\ shared kept (fplus sortf cw_lim a b) \/
     exact_sum (map fst kept) <= 1.01e-8 /\ fplus sortf cw_lim a b = []).
Proof. intros G. exact plus_ok. Qed.
Print Assumptions C114_plus.

(** Two mixtures with weights 0.7, 0.3 and 0.995, 0.005: one component is below the
    limit, and the others come in the order of their weights. *)
Example C114_example :
  (forall g, In g [(0.7, 1%nat); (0.3, 2%nat)]%float \/ In g [(0.995, 3%nat); (0.005, 4%nat)]%float -> upto (bpow radix2 900) (fst g)) /\
  fin 0.01%float /\ sorts (@insertion nat) /\
  map snd (fplus insertion 0.01 [(0.7, 1%nat); (0.3, 2%nat)] [(0.995, 3%nat); (0.005, 4%nat)])%float = [3; 1; 2]%nat /\
  forallb (fun g => PrimFloat.ltb 0.1 (fst g) && PrimFloat.ltb (fst g) 0.6)
    (fplus insertion 0.01 [(0.7, 1%nat); (0.3, 2%nat)] [(0.995, 3%nat); (0.005, 4%nat)])%float = true.
Proof.
  split; [|split; [apply fin_SF; reflexivity|split; [apply insertion_sorts|split; vm_compute; reflexivity]]].
  apply small_weights. vm_compute. reflexivity.
Qed.
(** Nothing reaches the limit: nothing is left. *)
Example C114_nothing : fprune insertion 0.01 [(0.005, 1%nat); (0.002, 2%nat)]%float = [] := eq_refl.
(** A weight that is not a number passes the limit, and leaves every weight not a
    number: the hypothesis on the weights cannot be dropped. *)
Example C114_not_a_number :
  forallb (fun g => negb (PrimFloat.eqb (fst g) (fst g))) (fprune insertion 0.01 [(nan, 1%nat); (0.5, 2%nat)]%float) = true.
Proof. vm_compute. reflexivity. Qed.
