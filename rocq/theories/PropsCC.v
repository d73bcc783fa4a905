(** Properties C01-C03: connected components. *)
From Coq Require Import List Arith Relations.
Import ListNotations.
From Verif Require Import Res CC CCSpec CCProofs.

(** C01.  With symmetric connections, drawing components until none is left
    yields each known node exactly once, and a component is exactly the set of
    nodes linked by a chain of connections. *)
Theorem C01_components_partition : forall ops,
  symmetric_links ops ->
  exists cs, components (cc_build ops) = Ok cs /\
    NoDup (concat cs) /\
    (forall x, In x (concat cs) <-> known ops x) /\
    (forall c, In c cs -> c <> []) /\
    (forall c x y, In c cs -> In x c -> (In y c <-> chain ops x y)).
Proof. exact components_partition_lemma. Qed.
Print Assumptions C01_components_partition.

(** A symmetric graph with two components meets the hypothesis of C01. *)
Example C01_example :
  let ops := [Init 5; Connect 5 [2; 5]; Init 2; Connect 2 [5; 2]; Connect 9 [9]] in
  symmetric_links ops /\ components (cc_build ops) = Ok [[2; 5]; [9]].
Proof.
  split; [|reflexivity].
  intros x y (cs & Hc & Hy); simpl in Hc.
  destruct Hc as [H|[H|[H|[H|[H|[]]]]]]; inversion H; subst; simpl in Hy;
    repeat (destruct Hy as [Hy|Hy]; [subst|]); try destruct Hy;
    first [ exists [2; 5]; split; simpl; tauto
          | exists [5; 2]; split; simpl; tauto
          | exists [9]; split; simpl; tauto ].
Qed.

(** C02.  For any connections, one-way ones included, a call returns exactly
    what is reachable from the smallest known node, without repetition, and
    forgets exactly these nodes.  It returns false iff no node is known. *)
Theorem C02_component_is_reachable_set : forall ops x,
  known ops x -> (forall y, known ops y -> x <= y) ->
  exists out m',
    get_component (cc_build ops) = Ok (Some (out, m')) /\
    NoDup out /\
    (forall y, In y out <-> chain ops x y) /\
    (forall k, map_find m' k = if existsb (Nat.eqb k) out then None
                               else map_find (cc_build ops) k).
Proof. exact component_correct_lemma. Qed.
Print Assumptions C02_component_is_reachable_set.

Theorem C02_component_none : forall ops,
  get_component (cc_build ops) = Ok None <-> forall x, ~ known ops x.
Proof. exact component_none_lemma. Qed.
Print Assumptions C02_component_none.

(** One-way connections 1 -> 3 -> 4, 7 -> 4. *)
Example C02_example :
  let ops := [Init 7; Connect 7 [4]; Connect 1 [3]; Connect 3 [4]] in
  known ops 1 /\ (forall y, known ops y -> 1 <= y) /\
  get_component (cc_build ops) = Ok (Some ([1; 3; 4], [(7, [4])])).
Proof.
  split; [right; exists [3]; simpl; tauto|]; split; [|reflexivity].
  intros y [H|[cs H]]; simpl in H;
    repeat (destruct H as [H|H]; [inversion H; subst; auto with arith|]); destruct H.
Qed.

(** C03 is false of the code: connecting 1 -> 0 only, node 0 is reported in the
    first component and again in the second. *)
Theorem C03_one_component_per_node_refuted :
  exists ops cs, components (cc_build ops) = Ok cs /\ ~ NoDup (concat cs).
Proof.
  exists [Init 0; Init 1; Connect 1 [0]], [[0]; [1; 0]].
  split; [reflexivity|].
  simpl; intros H; inversion H; subst; apply H2; simpl; auto.
Qed.
Print Assumptions C03_one_component_per_node_refuted.
