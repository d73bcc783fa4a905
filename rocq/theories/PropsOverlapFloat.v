(** Property C115: the overlap of Gaussians and mixtures with a box, in IEEE double
    arithmetic (include/gaussian.hpp, include/gm.hpp).

    Whether each of the 1000 samples is within the box is given.  [fsum] adds up in any
    order ([fsums]), as the threads of a reduction may.  [sample_share]: the share of
    samples within.  [mixture_share]: its mean by weight, not rounded. *)
From Coq Require Import List ZArith Reals Lra Lia Bool.
Import ListNotations.
From Flocq Require Import Core BinarySingleNaN.
From Coq Require Import Floats.
From Verif Require Import FloatBase ClusterFloat ClusterFloatWitness GMFloatSpec OverlapFloat OverlapFloatSpec OverlapFloatProofs.
Local Open Scope R_scope.

(** C115.  The overlap of a Gaussian is a number between 0 and 1, the double nearest to
    the share of samples within, however the threads divide the samples. *)
Theorem C115_gaussian : forall fsum, (forall l, fsums l (fsum l)) -> forall b, length b = 1000%nat ->
  upto 1 (fgauss_overlap fsum b) /\ val (fgauss_overlap fsum b) = rnd (sample_share b).
Proof. exact gauss_overlap. Qed.
Print Assumptions C115_gaussian.

(** It is 1 only when all samples are within and 0 only when none is. *)
Theorem C115_ends : forall fsum, (forall l, fsums l (fsum l)) -> forall b, length b = 1000%nat ->
  (val (fgauss_overlap fsum b) = 1 <-> forall x, In x b -> x = true) /\
  (val (fgauss_overlap fsum b) = 0 <-> forall x, In x b -> x = false).
Proof. exact gauss_ends. Qed.
Print Assumptions C115_ends.

(** The overlap of a mixture is a number that is not negative, and close to the share by
    weight in whatever order it is added up. *)
Theorem C115_mixture : forall fsum, (forall l, fsums l (fsum l)) -> forall c,
  (forall g, In g c -> upto 1 (fst g) /\ length (snd g) = 1000%nat) -> (Z.of_nat (length c) <= 2 ^ 20)%Z ->
  let n := INR (length c) in let s := fgm_overlap fsum c in
  fin s /\ 0 <= val s /\ Rabs (val s - mixture_share c) <= (2 * n + 4) * bpow radix2 (-53) * mixture_share c + n * bpow radix2 (-1073).
Proof. exact gm_overlap. Qed.
Print Assumptions C115_mixture.

(** Weights 0.25 and 0.75, with 200 and with all of the samples within. *)
Definition some_within : list bool := repeat true 200 ++ repeat false 800.
Definition two : list (float * list bool) := [(0.25%float, some_within); (0.75%float, repeat true 1000)].
Example C115_example :
  (forall l, fsums l (left_sum l)) /\ (forall g, In g two -> upto 1 (fst g) /\ length (snd g) = 1000%nat) /\
  PrimFloat.eqb (fgauss_overlap left_sum some_within) 0.2 = true /\ PrimFloat.eqb (fgm_overlap left_sum two) 0.8 = true.
Proof.
  split; [apply left_sum_ok|]. split; [|split; vm_compute; reflexivity].
  intros g [<-|[<-|[]]]; (split; [|reflexivity]); (split; [apply fin_SF; reflexivity|]); cbn [fst]; rewrite val_SF; cbv -[IZR Rmult Rplus Rinv Rle]; lra.
Qed.
