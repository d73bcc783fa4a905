(** What a missed detection says about a mixture. *)
From Coq Require Import List Arith Reals Permutation.
Import ListNotations.
From Verif Require Import GM.
Local Open Scope nat_scope.

(** [c'] is what is left of the mixture [c] (numbered; [kept] in the order of
    [c'], [rest] was cut) after [f] moved every component, and the weights of any
    two components in [c'] relate as their weights in [c] times [factor]. *)
Definition reweighted {G} (f : G -> G) (factor : nat -> R) (c c' : list (comp (G := G))) : Prop :=
  exists kept rest, Permutation (kept ++ rest) (combine (seq 0 (length c)) c) /\
    Forall2 (fun k g' => snd g' = f (snd (snd k))) kept c' /\
    forall a b i j g h g' h', nth_error kept a = Some (i, g) -> nth_error kept b = Some (j, h) ->
      nth_error c' a = Some g' -> nth_error c' b = Some h' ->
      (fst g' * (fst h * factor j) = fst h' * (fst g * factor i))%R.
