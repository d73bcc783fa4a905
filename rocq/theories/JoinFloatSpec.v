(** Specification for joining mixtures in doubles. *)
From Coq Require Import List Reals Permutation Sorted.
Import ListNotations.
From Flocq Require Import Core.
From Coq Require Import Floats.
From Verif Require Import FloatBase GMFloatSpec GMSpec LossSpec.
Local Open Scope R_scope.

(** std::sort on the reversed range, for weights that are numbers: the same components
    by non-increasing weight, equal weights in any order. *)
Definition sorts {G} (sortf : list (float * G) -> list (float * G)) : Prop :=
  forall p, (forall g, In g p -> fin (fst g)) ->
    Permutation p (sortf p) /\ StronglySorted (fun a b => val (fst b) <= val (fst a)) (sortf p).

(** The values of the weights. *)
Definition reals {G} (p : list (float * G)) : list (R * G) := map (fun g => (val (fst g), snd g)) p.

(** Mixtures with weights of at most 1, in proportions of at most 2 (a row of
    association probabilities). *)
Definition mixtures_ok {G} (w : list float) (pdfs : list (list (float * G))) : Prop :=
  (forall x, In x w -> upto 2 x) /\ (forall p g, In p pdfs -> In g p -> upto 1 (fst g)).

(** Number of components of the mixtures that take part. *)
Definition components {G} (w : list float) (pdfs : list (list (float * G))) : nat :=
  length (concat (firstn (length w) pdfs)).

(** ** Joining
    The probability that all the mixtures together give to what a component gives the
    probability [phi], before normalising, and their weight. *)
Definition mixed {G} (phi : G -> R) (w : list float) (pdfs : list (list (float * G))) : R :=
  rsum (fun wp => val (fst wp) * prob phi (reals (snd wp))) (combine w pdfs).
Definition weight {G} (w : list float) (pdfs : list (list (float * G))) : R := mixed (fun _ => 1) w pdfs.

(** What joining returns, the part [lost] of the weight being dropped.  Components are
    dropped only beyond the first 200, or when one has the part [cw] of the weight. *)
Definition joined {G} (cw : R) (w : list float) (pdfs : list (list (float * G))) (c : list (float * G)) (eta lost : R) : Prop :=
  let n := INR (components w pdfs) in
  let k := INR (length c) in
  0 < weight w pdfs /\ 0 <= lost < 1 /\ (length c <= components w pdfs)%nat /\
  Rabs (eta - (1 - lost) * weight w pdfs) <= (2 * k + 4) * bpow radix2 (-53) * weight w pdfs /\
  (forall phi, (forall g, 0 <= phi g <= 1) ->
     Rabs (prob phi (reals c) - mixed phi w pdfs / weight w pdfs) <= lost + (4 * k + 10) * bpow radix2 (-53)) /\
  lost * n <= (n - k) * (1 + bpow radix2 (-40)) /\
  (length c = 200%nat \/ lost <= (n - k) * (cw * (1 + bpow radix2 (-40)) + bpow radix2 (-1000))).

(** A mixture as the next update expects it: at most 200 components, with weights that
    add up to 1 up to rounding. *)
Definition mixture_ready {G} (c : list (float * G)) : Prop :=
  (1 <= length c <= 200)%nat /\ (forall g, In g c -> upto 1 (fst g)) /\
  Rabs (exact_sum (map fst c) - 1) <= (4 * INR (length c) + 4) * bpow radix2 (-53).

(** Each component has about the part [cw] of the weight up to it. *)
Definition kept {G} (cw : R) (c : list (float * G)) : Prop :=
  forall a x b, c = a ++ x :: b ->
    cw * (1 - bpow radix2 (-40)) * (exact_sum (map fst a) + val (fst x)) <= val (fst x) + bpow radix2 (-1000).
