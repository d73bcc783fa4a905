(** Expectations under a mixture. *)
From Coq Require Import List Reals.
Import ListNotations.
From Verif Require Import GM.

(** The probability that a mixture gives to something that a component gives the
    probability [phi]; the expectation of [phi]. *)
Fixpoint prob {G} (phi : G -> R) (c : list (comp (G := G))) : R :=
  match c with [] => 0%R | g :: c => (fst g * phi (snd g) + prob phi c)%R end.
