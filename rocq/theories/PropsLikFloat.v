(** Properties of the likelihood and of the correction of a mixture in doubles. *)
From Coq Require Import List Reals ZArith Arith.
From Flocq Require Import Core.
From Coq Require Import Floats.
Import ListNotations.
From Verif Require Import FloatBase ClusterFloat ClusterFloatClose ClusterFloatWitness KalmanFloat KalmanFloatSpec PredictFloatWitness KalmanCorrSpec KalmanCorrMain GMFloatSpec.
From Verif Require Import LikFloat LikFloatSpec LikFloatProofs MixFloat MixFloatSpec MixFloatProofs MixFloatWitness.
Local Open Scope R_scope.

Theorem C104_double_likelihood : forall sum expf powf x P z V K,
  (forall l, fsums l (sum l)) -> exp_accurate expf -> square_accurate powf ->
  finite4 P -> symmetric4 P -> definite4 P -> definite2 V ->
  (forall i j, (i < 4)%nat -> (j < 4)%nat -> mid0 (val (P i j))) -> (forall i j, (i < 2)%nat -> (j < 2)%nat -> mid0 (val (V i j))) ->
  1 <= K <= 1000 -> untied K P V ->
  (forall i, (i < 4)%nat -> fin (x i) /\ Rabs (val (x i)) <= bpow radix2 200) -> (forall i, (i < 2)%nat -> fin (z i) /\ Rabs (val (z i)) <= bpow radix2 200) ->
  (forall i, (i < 2)%nat -> mid0 (val (z i) - val (x i))) ->
  forall D, inverts2 P V D ->
  let l := flikelihood sum expf powf x P z V in let q := distance2 D x z in
  fin l /\
  (q <= 900 -> Rabs (val l - innovation_density P V D x z) <= (bpow radix2 (-39) + bpow radix2 (-47) * (K * K) * (1 + q)) * innovation_density P V D x z) /\
  (900 < q -> let far := bpow radix2 (-640) / R_sqrt.sqrt (sprd P V 0 0 * sprd P V 1 1 - sprd P V 0 1 * sprd P V 0 1) in
     0 <= val l <= far /\ 0 <= innovation_density P V D x z <= far).
Proof. exact double_likelihood. Qed.
Print Assumptions C104_double_likelihood.

(** Variances 100 with correlated axes; a report of variances 2 and covariance 1 at a
    distance of 28 and 5. *)
Example likelihood_slanted : forall sum, (forall l, fsums l (sum l)) -> exists q, q <= 9 /\
  Rabs (val (flikelihood sum exp_double square at1 tilted report slant) - innovation_density tilted slant slantD at1 report) <=
    (bpow radix2 (-39) + bpow radix2 (-47) * (2 * 2) * (1 + q)) * innovation_density tilted slant slantD at1 report.
Proof.
  intros sum Hs. destruct first_ok as ((A1 & A2 & A3 & A4) & (A5 & A6) & A7 & A8 & A9 & A10).
  destruct slant_ok as (_ & _ & _ & _ & B5 & _). exists (distance2 slantD at1 report). rewrite first_distance.
  destruct (C104_double_likelihood sum exp_double square at1 tilted report slant 2 Hs exp_double_accurate square_ok A1 A2 A3 A4 A5 A6 two_small A7 A8 A9 A10 slantD B5) as (_ & H & _).
  rewrite first_distance in H. split; [exact near_small|]. apply H, near_900.
Qed.

Theorem C105_double_mixture : forall sum expf powf pD kappa z V K cs,
  (forall l, fsums l (sum l)) -> exp_accurate expf -> square_accurate powf -> upto 1 pD -> kappa_ok kappa -> 1 <= K <= 1000 ->
  (forall c, In c cs -> upto 1 (fc_w c) /\ (fc_k c <= 1000)%nat /\ regular K z V (fc_x c) (fc_P c)) -> (Z.of_nat (length cs) <= 2 ^ 20)%Z ->
  let out := fmix_correct sum expf powf pD kappa z V cs in let n := INR (length cs) in let T := evidence pD kappa z V cs in
  (out = ([], 0%float) /\ T <= 1.02e-8) \/
  (fin (snd out) /\ 0.98e-8 <= T /\
   Rabs (val (snd out) - T) <= (bpow radix2 (-36) * (K * K) + (3 * n + 12) * bpow radix2 (-53)) * T /\
   Forall2 (fun c r => upto 1 (fst r) /\
     Rabs (val (fst r) - joint_weight pD kappa z V c / T) <=
       (3 * bpow radix2 (-36) * (K * K) + (5 * n + 30) * bpow radix2 (-53)) * (joint_weight pD kappa z V c / T) + bpow radix2 (-150) /\
     near_update K z V c (fst (snd r)) (snd (snd r))) cs (fst out)).
Proof. exact mixture_close. Qed.
Print Assumptions C105_double_mixture.

(** Two components, one far from the report and in view, the other near and half in view. *)
Example mixture_of_two : forall sum, (forall l, fsums l (sum l)) ->
  let out := fmix_correct sum exp_double square hpd kap report slant pair in
  fin (snd out) /\ Rabs (val (snd out) - evidence hpd kap report slant pair) <=
    (bpow radix2 (-36) * (2 * 2) + (3 * INR 2 + 12) * bpow radix2 (-53)) * evidence hpd kap report slant pair.
Proof.
  intros sum Hs out. destruct pair_ok as (A & B & C).
  destruct (C105_double_mixture sum exp_double square hpd kap report slant 2 pair Hs exp_double_accurate square_ok A B two_small C pair_few) as [[_ H]|(H1 & _ & H2 & _)].
  - exfalso. exact (Rlt_not_le _ _ pair_evidence H).
  - split; [exact H1|exact H2].
Qed.
