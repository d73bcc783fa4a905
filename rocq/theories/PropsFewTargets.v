(** Property C110: a cluster of at most five targets is corrected in doubles without
    any condition on what happens inside. *)
From Coq Require Import List Arith ZArith Reals Lra Lia.
From Flocq Require Import Core.
From Coq Require Import Floats.
Import ListNotations.
From Verif Require Import Res Scalar Murty MurtyFloatMain FloatBase Cluster ClusterSpec ClusterProofs ClusterFloat ClusterFloatClose ClusterFloatWitness.
From Verif Require Import KalmanFloat GMFloatSpec LikFloatSpec MixFloatWitness SceneFloat SceneFloatSpec SceneFloatWitness.
From Verif Require Import JoinFloatSpec JoinFloatWitness StepFloat StepFloatSpec FewTargetsProofs.
Local Open Scope R_scope.

(** The association finds a hypothesis and the total weight of the hypotheses neither
    overflows nor underflows, however many hypotheses the parameters allow. *)
Theorem C110_total_weight : forall K sum expf powf logf reports pD gs pick fsum w_lim nhyp_max fuel out,
  (forall l, fsums l (sum l)) -> exp_accurate expf -> square_accurate powf -> log_accurate logf ->
  upto (1 - bpow radix2 (-20)) pD -> 1 <= K <= 1000 ->
  (forall z, In z reports -> kappa_ok (fr_kappa z)) -> Forall (scene_ok K reports) gs ->
  (0 < length gs <= 5)%nat -> (Z.of_nat (length reports) <= 90000)%Z ->
  (forall tick q, q <> [] -> (pick tick q < length q)%nat) -> top_pick pick -> PrimFloat.leb nhyp_max 1048576 = true ->
  fupdate sum expf powf reports logf pD pick fsum w_lim nhyp_max fuel gs = Ok out ->
  (0 < fc_n out)%nat /\ fin (fc_w out) /\ bpow radix2 (-600) <= FloatBase.val (fc_w out) <= bpow radix2 900.
Proof.
  intros K sum expf powf logf reports pD gs pick fsum w_lim nhyp_max fuel out Hs He Hp Hl HpD HK Hk Hg HM HN Hpick Htop Hmax Hrun.
  destruct (few_range sum expf powf logf Hs He Hp Hl reports pD K HpD HK Hk gs Hg HM HN pick fsum w_lim nhyp_max Hpick Htop Hmax fuel out Hrun) as (H1 & H2).
  exact (conj (proj1 (Nat.neq_0_lt_0 _) H1) H2).
Qed.
Print Assumptions C110_total_weight.

(** So the correction returns, whatever the parameters, and every target is as in C108. *)
Theorem C110_few_targets : forall K sum expf powf logf reports pD gs pick fsum w_lim nhyp_max sortf cw_lim,
  (forall l, fsums l (sum l)) -> exp_accurate expf -> square_accurate powf -> log_accurate logf ->
  upto (1 - bpow radix2 (-20)) pD -> 1 <= K <= 1000 ->
  (forall z, In z reports -> kappa_ok (fr_kappa z)) -> Forall (scene_ok K reports) gs ->
  (0 < length gs <= 5)%nat -> (Z.of_nat (length reports) <= 90000)%Z ->
  (forall tick q, q <> [] -> (pick tick q < length q)%nat) -> top_pick pick ->
  (forall l, fsums l (fsum l)) -> PrimFloat.leb nhyp_max 1048576 = true ->
  sorts sortf -> (fin cw_lim /\ 0 <= FloatBase.val cw_lim <= / 2) ->
  (forall g, In g gs -> (Z.of_nat (length (gt_c g) * (length reports + 1)) <= 2 ^ 20)%Z) ->
  let N := length reports in let M := length gs in let X := map (described pD reports) gs in let W := ClusterSpec.weight N X in
  (forall fuel, fstep sum expf powf reports sortf cw_lim logf pD pick fsum w_lim nhyp_max fuel gs <> UB) /\
  exists fuel0 out ds ts,
  (forall fuel, (fuel0 <= fuel)%nat -> fstep sum expf powf reports sortf cw_lim logf pD pick fsum w_lim nhyp_max fuel gs = Ok (out, ts)) /\
  length ds = fc_n out /\ ds <> [] /\ NoDup ds /\ (forall s, In s ds -> hypothesis N X s) /\
  ((forall s, hypothesis N X s ->
      (forall i, (i < M)%nat -> 1.02e-8 < choice_weight N M i (nth i X no_target) (nth i s 0%nat)) -> In s ds) \/
   PrimFloat.leb nhyp_max (nofnat floatN (fc_n out)) = true \/
   exists s, In s ds /\ (fin w_lim -> W s / sum_over W ds <= FloatBase.val w_lim + bpow radix2 (-20) + 4 * scene_slack K gs)) /\
  Forall2 (fun ig rc => updated K (FloatBase.val cw_lim) pD reports (scene_slack K gs) (marginal N W ds (fst ig)) (snd ig) (fst rc) (snd rc))
    (combine (seq 0 M) gs) ts.
Proof.
  intros K sum expf powf logf reports pD gs pick fsum w_lim nhyp_max sortf cw_lim Hs He Hp Hl HpD HK Hk Hg HM HN Hpick Htop Hsum Hmax Hsort Hcw Hbig.
  exact (few_ok sum expf powf logf Hs He Hp Hl reports pD K HpD HK Hk gs Hg HM HN pick fsum w_lim nhyp_max Hpick Htop Hsum Hmax sortf cw_lim Hsort Hcw Hbig).
Qed.
Print Assumptions C110_few_targets.

(** The scene of C108: a report and two targets with correlated components; the queue
    takes the first element that no other comes before. *)
Example C110_example :
  (forall l, fsums l (left_sum l)) /\ exp_accurate scene_exp /\ square_accurate square /\ log_accurate scene_log /\
  upto (1 - bpow radix2 (-20)) hpd /\ (forall z, In z scene_reports -> kappa_ok (fr_kappa z)) /\
  Forall (scene_ok 2 scene_reports) scene_targets /\ length scene_targets = 2%nat /\ length scene_reports = 1%nat /\
  (forall tick q, q <> [] -> (first_top floatN tick q < length q)%nat) /\ top_pick (first_top floatN) /\
  PrimFloat.leb 100 1048576 = true /\ sorts (G := fvec * fmat) insertion /\
  (fin 0.000001%float /\ 0 <= FloatBase.val 0.000001%float <= / 2) /\
  (forall g, In g scene_targets -> (Z.of_nat (length (gt_c g) * (length scene_reports + 1)) <= 2 ^ 20)%Z).
Proof.
  split; [exact left_sum_ok|]. split; [exact scene_exp_ok|]. split; [exact square_ok|]. split; [exact scene_log_ok|].
  split; [exact scene_pd|]. split; [exact scene_reports_ok|]. split; [exact scene_targets_ok|]. split; [reflexivity|]. split; [reflexivity|].
  split; [exact first_in|]. split; [exact first_top_ftop|]. split; [reflexivity|]. split; [apply insertion_sorts|].
  split; [split; [apply fin_SF; reflexivity|values; lra]|]. intros g [<-|[<-|[]]]; discriminate.
Qed.
