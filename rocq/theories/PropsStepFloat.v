(** Property C108: the correction of a cluster in doubles, from means and covariances
    to means and covariances. *)
From Coq Require Import List Arith ZArith Reals Lra Lia.
From Flocq Require Import Core.
From Coq Require Import Floats.
Import ListNotations.
From Verif Require Import Res Scalar Murty FloatBase Cluster ClusterSpec ClusterProofs ClusterFloat ClusterFloatClose ClusterFloatWitness.
From Verif Require Import KalmanFloat GMFloatSpec LikFloatSpec MixFloatWitness SceneFloat SceneFloatSpec SceneFloatWitness.
From Verif Require Import JoinFloatSpec JoinFloatWitness StepFloat StepFloatSpec StepFloatProofs.
Local Open Scope R_scope.

(** When the association returns, so does the correction, and each target is as
    [updated] says: its existence probability is near the sum of its marginals under the
    exact weights of the hypotheses used (as in C106), and its mixture gives to anything
    nearly the probability that the exact mixture does in which a component corrected by
    a report has the marginal of the report times its share of the density, except for
    what joining drops. *)
Theorem C108_cluster_correction : forall K sum expf powf logf reports pD gs sortf cw_lim pick fsum w_lim nhyp_max fuel out,
  (forall l, fsums l (sum l)) -> exp_accurate expf -> square_accurate powf -> log_accurate logf ->
  upto (1 - bpow radix2 (-20)) pD -> 1 <= K <= 1000 ->
  (forall z, In z reports -> kappa_ok (fr_kappa z)) -> Forall (scene_ok K reports) gs ->
  (0 < length gs <= 30)%nat -> (Z.of_nat (length reports) <= 90000)%Z ->
  (forall g, In g gs -> (Z.of_nat (length (gt_c g) * (length reports + 1)) <= 2 ^ 20)%Z) ->
  sorts sortf -> (fin cw_lim /\ 0 <= FloatBase.val cw_lim <= / 2) ->
  (forall tick q, q <> [] -> (pick tick q < length q)%nat) -> (forall l, fsums l (fsum l)) -> PrimFloat.leb nhyp_max 1048576 = true ->
  scene_slack K gs <= / 4 ->
  fupdate sum expf powf reports logf pD pick fsum w_lim nhyp_max fuel gs = Ok out ->
  fc_n out <> 0%nat -> fin (fc_w out) -> bpow radix2 (-600) <= FloatBase.val (fc_w out) <= bpow radix2 900 ->
  let N := length reports in let M := length gs in let X := map (described pD reports) gs in let W := ClusterSpec.weight N X in
  exists ds ts, fstep sum expf powf reports sortf cw_lim logf pD pick fsum w_lim nhyp_max fuel gs = Ok (out, ts) /\
  length ds = fc_n out /\ NoDup ds /\ (forall s, In s ds -> hypothesis N X s) /\
  ((forall s, hypothesis N X s ->
      (forall i, (i < M)%nat -> 1.02e-8 < choice_weight N M i (nth i X no_target) (nth i s 0%nat)) -> In s ds) \/
   PrimFloat.leb nhyp_max (nofnat floatN (fc_n out)) = true \/
   exists s, In s ds /\ (fin w_lim -> W s / sum_over W ds <= FloatBase.val w_lim + bpow radix2 (-20) + 4 * scene_slack K gs)) /\
  Forall2 (fun ig rc => updated K (FloatBase.val cw_lim) pD reports (scene_slack K gs) (marginal N W ds (fst ig)) (snd ig) (fst rc) (snd rc))
    (combine (seq 0 M) gs) ts.
Proof.
  intros K sum expf powf logf reports pD gs sortf cw_lim pick fsum w_lim nhyp_max fuel out.
  exact (step_ok sum expf powf logf reports pD K gs sortf cw_lim pick fsum w_lim nhyp_max fuel out).
Qed.
Print Assumptions C108_cluster_correction.

(** Without a hypothesis every target is left as it was. *)
Theorem C108_no_hypothesis : forall sum expf powf logf reports pD gs sortf cw_lim pick fsum w_lim nhyp_max fuel out,
  fupdate sum expf powf reports logf pD pick fsum w_lim nhyp_max fuel gs = Ok out -> fc_n out = 0%nat ->
  exists ts, fstep sum expf powf reports sortf cw_lim logf pD pick fsum w_lim nhyp_max fuel gs = Ok (out, ts) /\
  Forall2 (fun g rc => fst rc = gt_r g /\ snd rc = gt_c g) gs ts.
Proof.
  intros sum expf powf logf reports pD gs sortf cw_lim pick fsum w_lim nhyp_max fuel out H H0.
  exists (map (fun g => (gt_r g, gt_c g)) gs). split; [unfold fstep; rewrite H; simpl; rewrite H0; reflexivity|].
  clear. induction gs; constructor; auto.
Qed.
Print Assumptions C108_no_hypothesis.

(** For mixtures of at most 200 components, as joining leaves them, K at most 100 and at
    most 5000 reports the error of the factors is at most 1/40000: existence probabilities
    are within 1.1e-4 of the exact marginals. *)
Theorem C108_usual_sizes : forall K sum expf powf logf reports pD gs sortf cw_lim pick fsum w_lim nhyp_max fuel out,
  (forall l, fsums l (sum l)) -> exp_accurate expf -> square_accurate powf -> log_accurate logf ->
  upto (1 - bpow radix2 (-20)) pD -> 1 <= K <= 100 ->
  (forall z, In z reports -> kappa_ok (fr_kappa z)) -> Forall (scene_ok K reports) gs ->
  (0 < length gs <= 30)%nat -> (Z.of_nat (length reports) <= 5000)%Z ->
  (forall g, In g gs -> (length (gt_c g) <= 200)%nat) ->
  sorts sortf -> (fin cw_lim /\ 0 <= FloatBase.val cw_lim <= / 2) ->
  (forall tick q, q <> [] -> (pick tick q < length q)%nat) -> (forall l, fsums l (fsum l)) -> PrimFloat.leb nhyp_max 1048576 = true ->
  fupdate sum expf powf reports logf pD pick fsum w_lim nhyp_max fuel gs = Ok out ->
  fc_n out <> 0%nat -> fin (fc_w out) -> bpow radix2 (-600) <= FloatBase.val (fc_w out) <= bpow radix2 900 ->
  let N := length reports in let M := length gs in let X := map (described pD reports) gs in let W := ClusterSpec.weight N X in
  exists ds ts, fstep sum expf powf reports sortf cw_lim logf pD pick fsum w_lim nhyp_max fuel gs = Ok (out, ts) /\
  length ds = fc_n out /\ NoDup ds /\ (forall s, In s ds -> hypothesis N X s) /\
  ((forall s, hypothesis N X s ->
      (forall i, (i < M)%nat -> 1.02e-8 < choice_weight N M i (nth i X no_target) (nth i s 0%nat)) -> In s ds) \/
   PrimFloat.leb nhyp_max (nofnat floatN (fc_n out)) = true \/
   exists s, In s ds /\ (fin w_lim -> W s / sum_over W ds <= FloatBase.val w_lim + 11 / 100000)) /\
  Forall2 (fun ig rc => updated K (FloatBase.val cw_lim) pD reports (/ 40000) (marginal N W ds (fst ig)) (snd ig) (fst rc) (snd rc))
    (combine (seq 0 M) gs) ts.
Proof.
  intros K sum expf powf logf reports pD gs sortf cw_lim pick fsum w_lim nhyp_max fuel out.
  exact (usual_ok sum expf powf logf reports pD K gs sortf cw_lim pick fsum w_lim nhyp_max fuel out).
Qed.
Print Assumptions C108_usual_sizes.

Definition sizes (r : res (fcorrected * list (float * list gcomp))) : list (bool * nat) :=
  match r with Ok (_, ts) => map (fun rc => (PrimFloat.ltb 0.25 (fst rc), length (snd rc))) ts | _ => [] end.

(** A report and two targets with correlated components: four and two components after
    the correction, and the targets likelier than 1/4. *)
Example C108_example : exists out,
  (forall l, fsums l (left_sum l)) /\ exp_accurate scene_exp /\ square_accurate square /\ log_accurate scene_log /\
  upto (1 - bpow radix2 (-20)) hpd /\ (forall z, In z scene_reports -> kappa_ok (fr_kappa z)) /\
  Forall (scene_ok 2 scene_reports) scene_targets /\ scene_slack 2 scene_targets <= / 4 /\
  (forall g, In g scene_targets -> (Z.of_nat (length (gt_c g) * (length scene_reports + 1)) <= 2 ^ 20)%Z) /\
  sorts (G := fvec * fmat) insertion /\ (fin 0.000001%float /\ 0 <= FloatBase.val 0.000001%float <= / 2) /\
  (forall tick q, q <> [] -> (first_top floatN tick q < length q)%nat) /\
  fupdate left_sum scene_exp square scene_reports scene_log hpd (first_top floatN) left_sum 0.000001 100 60 scene_targets = Ok out /\
  (fc_n out = 9%nat /\ fin (fc_w out) /\ / 2 <= FloatBase.val (fc_w out) <= 2) /\
  (forall g, In g scene_targets -> (length (gt_c g) <= 200)%nat) /\
  sizes (fstep left_sum scene_exp square scene_reports insertion 0.000001 scene_log hpd (first_top floatN) left_sum 0.000001 100 60 scene_targets) = [(true, 4); (true, 2)]%nat.
Proof.
  destruct scene_run as (out & H1 & H2). exists out. split; [exact left_sum_ok|]. split; [exact scene_exp_ok|]. split; [exact square_ok|]. split; [exact scene_log_ok|].
  split; [exact scene_pd|]. split; [exact scene_reports_ok|]. split; [exact scene_targets_ok|]. split; [exact scene_small|].
  split; [intros g [<-|[<-|[]]]; discriminate|]. split; [apply insertion_sorts|]. split; [split; [apply fin_SF; reflexivity|values; lra]|].
  split; [exact first_in|]. split; [exact H1|]. split; [exact H2|].
  split; [intros g [<-|[<-|[]]]; cbn [gt_c length]; lia|]. vm_compute. reflexivity.
Qed.
