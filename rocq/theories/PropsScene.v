(** Property C106: the update of a cluster in doubles, from means and covariances. *)
From Coq Require Import List Arith ZArith Reals Lra.
From Flocq Require Import Core.
From Coq Require Import Floats.
Import ListNotations.
From Verif Require Import Res Scalar Murty FloatBase Cluster ClusterSpec ClusterProofs ClusterFloat ClusterFloatClose ClusterFloatWitness.
From Verif Require Import KalmanFloat GMFloatSpec LikFloatSpec MixFloatWitness SceneFloat SceneFloatSpec SceneFloatProofs SceneFloatWitness.
Local Open Scope R_scope.

(** The probabilities are the marginals of the hypotheses used, weighted by the exact
    product over the targets of existence, detection and Gaussian density of the report
    relative to clutter, up to 2^-18 and, for each target with n components, (44 n + 240)
    2^-32 + 2^-33 K^2, where 1 - 1/K bounds the squared correlation of the coordinates
    of an innovation ([untied] in [regular]).  The hypotheses used are all whose factors
    exceed 1.02e-8, or [nhyp_max], or one of them has (nearly) a share below [w_lim]. *)
Theorem C106_update_from_gaussians : forall K sum expf powf logf reports pD gs pick fsum w_lim nhyp_max fuel out,
  (forall l, fsums l (sum l)) -> exp_accurate expf -> square_accurate powf -> log_accurate logf ->
  upto (1 - bpow radix2 (-20)) pD -> 1 <= K <= 1000 ->
  (forall z, In z reports -> kappa_ok (fr_kappa z)) -> Forall (scene_ok K reports) gs ->
  (0 < length gs <= 30)%nat -> (Z.of_nat (length reports) <= 90000)%Z ->
  (forall tick q, q <> [] -> (pick tick q < length q)%nat) -> (forall l, fsums l (fsum l)) -> PrimFloat.leb nhyp_max 1048576 = true ->
  fupdate sum expf powf reports logf pD pick fsum w_lim nhyp_max fuel gs = Ok out ->
  scene_slack K gs <= / 4 -> fc_n out <> 0%nat -> fin (fc_w out) -> bpow radix2 (-600) <= FloatBase.val (fc_w out) <= bpow radix2 900 ->
  let N := length reports in let M := length gs in let X := map (described pD reports) gs in let W := weight N X in
  exists ds, length ds = fc_n out /\ NoDup ds /\ (forall s, In s ds -> hypothesis N X s) /\
  ((forall s, hypothesis N X s ->
      (forall i, (i < M)%nat -> 1.02e-8 < choice_weight N M i (nth i X no_target) (nth i s 0%nat)) -> In s ds) \/
   PrimFloat.leb nhyp_max (nofnat floatN (fc_n out)) = true \/
   exists s, In s ds /\ (fin w_lim -> W s / sum_over W ds <= FloatBase.val w_lim + bpow radix2 (-20) + 4 * scene_slack K gs)) /\
  (forall i j, (i < M)%nat -> (j <= N)%nat -> let x := nth (i * (N + 1) + j) (fc_R out) nan in
     fin x /\ Rabs (FloatBase.val x - marginal N W ds i j) <= bpow radix2 (-20) + 4 * scene_slack K gs) /\
  (forall i, (i < M)%nat -> let x := nth i (fc_r out) nan in
     fin x /\ Rabs (FloatBase.val x - sum_over (marginal N W ds i) (seq 0 (N + 1))) <= bpow radix2 (-18) + 4 * scene_slack K gs) /\
  (forall j, (j < N)%nat -> let x := nth j (fc_rB out) nan in
     fin x /\ Rabs (FloatBase.val x - (1 - sum_over (fun i => marginal N W ds i j) (seq 0 M))) <= bpow radix2 (-19) + 4 * scene_slack K gs).
Proof.
  intros K sum expf powf logf reports pD gs pick fsum w_lim nhyp_max fuel out Hsm He Hp Hl HpD HK Hk Hg HM HN Hpk Hf Hm Hrun Hsl Hn Hw Hr.
  exact (scene sum expf powf logf Hsm He Hp Hl reports pD K HpD HK Hk gs Hg HM HN pick fsum w_lim nhyp_max Hpk Hf Hm fuel out Hrun Hsl Hn Hw Hr).
Qed.
Print Assumptions C106_update_from_gaussians.

(** A report and two targets with correlated components. *)
Example C106_example : exists out,
  (forall l, fsums l (left_sum l)) /\ exp_accurate scene_exp /\ square_accurate square /\ log_accurate scene_log /\
  upto (1 - bpow radix2 (-20)) hpd /\ (forall z, In z scene_reports -> kappa_ok (fr_kappa z)) /\
  Forall (scene_ok 2 scene_reports) scene_targets /\ scene_slack 2 scene_targets <= / 4 /\
  (forall tick q, q <> [] -> (first_top floatN tick q < length q)%nat) /\
  fupdate left_sum scene_exp square scene_reports scene_log hpd (first_top floatN) left_sum 0.000001 100 60 scene_targets = Ok out /\
  fc_n out = 9%nat /\ fin (fc_w out) /\ / 2 <= FloatBase.val (fc_w out) <= 2.
Proof.
  destruct scene_run as (out & H). exists out. split; [exact left_sum_ok|]. split; [exact scene_exp_ok|]. split; [exact square_ok|]. split; [exact scene_log_ok|].
  split; [exact scene_pd|]. split; [exact scene_reports_ok|]. split; [exact scene_targets_ok|]. split; [exact scene_small|]. split; [exact first_in|exact H].
Qed.
