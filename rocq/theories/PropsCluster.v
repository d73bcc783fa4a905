(** Properties C19-C24: association of reports with targets in a cluster
    (include/cluster.hpp, include/target.hpp), in exact arithmetic with
    infinities and NaN.

    [correct] takes the [N] reports' likelihoods for each target and returns the
    number of hypotheses used [c_n], the association probabilities [c_R] (rows of
    [N + 1], stored one after the other), the existence probabilities [c_r] and
    the birth weights [c_rB].  [expf] stands for std::exp, [pick] for the
    unspecified choice of std::priority_queue among equals. *)
From Coq Require Import List Arith Reals Lra Lia.
Import ListNotations.
From Verif Require Import Res Scalar Lap LapSpec Murty MurtyMain Cluster ClusterSpec ClusterMain.
Local Open Scope nat_scope.

(** The correction is defined and ends, whatever exp does. *)
Theorem C20_correction_returns : forall expf pick w_lim nhyp_max N ts,
  valid_pick pick -> (forall t, In t ts -> valid_target N t) -> length ts <= 30 ->
  (forall fuel, correct expf pick w_lim nhyp_max fuel N ts <> UB) /\
  exists fuel0 out, forall fuel, fuel0 <= fuel -> correct expf pick w_lim nhyp_max fuel N ts = Ok out.
Proof. intros expf pick wl nh N ts Hp Ht Hl. exact (correct_returns expf pick Hp wl nh N ts Ht Hl). Qed.
Print Assumptions C20_correction_returns.

(** C19, the correction part. *)
Theorem C19_correction_bounds : forall expf pick w_lim nhyp_max fuel N ts out,
  valid_pick pick -> (forall t, In t ts -> valid_target N t) -> length ts <= 30 ->
  no_underflow expf N ts ->
  correct expf pick w_lim nhyp_max fuel N ts = Ok out ->
  length (c_r out) = length ts /\
  forall i, i < length ts -> exists x, nth i (c_r out) NaN = Fin x /\ (0 <= x <= 1)%R.
Proof. intros expf pick wl nh fuel N ts out Hp Ht Hl He Hr. exact (r_bounds expf pick wl nh fuel N ts out Hp Ht Hl Hr He). Qed.
Print Assumptions C19_correction_bounds.

(** C20. *)
Theorem C20_report_mass_split : forall expf pick w_lim nhyp_max fuel N ts out,
  valid_pick pick -> (forall t, In t ts -> valid_target N t) -> length ts <= 30 ->
  no_underflow expf N ts ->
  correct expf pick w_lim nhyp_max fuel N ts = Ok out ->
  length (c_rB out) = N /\
  forall j, j < N -> exists b, nth j (c_rB out) NaN = Fin b /\ (0 <= b <= 1)%R /\
    (ts = [] -> b = 1%R) /\
    (ts <> [] -> exists p,
       (forall i, i < length ts -> nth (i * (N + 1) + j) (c_R out) NaN = Fin (p i) /\ (0 <= p i)%R) /\
       Rplus (sum_over p (seq 0 (length ts))) b = 1%R).
Proof. intros expf pick wl nh fuel N ts out Hp Ht Hl He Hr. exact (rB_split expf pick wl nh fuel N ts out Hp Ht Hl Hr He). Qed.
Print Assumptions C20_report_mass_split.

(** C21.  [all] lists every joint hypothesis once. *)
Theorem C21_exact_marginals : forall pick w_lim nhyp_max fuel N ts out all,
  valid_pick pick -> (forall t, In t ts -> valid_target N t) -> length ts <= 30 -> ts <> [] ->
  correct exp pick w_lim nhyp_max fuel N ts = Ok out ->
  NoDup all -> (forall s, In s all <-> hypothesis N ts s) ->
  ((w_lim <= 0)%R -> (INR (length all) <= nhyp_max)%R -> c_n out = length all) /\
  (c_n out = length all -> forall i j, i < length ts -> j <= N ->
     nth (i * (N + 1) + j) (c_R out) NaN = Fin (marginal N (weight N ts) all i j)).
Proof.
  intros pick wl nh fuel N ts out all Hp Ht Hl Hne Hr Hnd Hall.
  exact (exact_marginals_exp pick wl nh fuel N ts out all Hp Ht Hl Hne Hr Hnd Hall).
Qed.
Print Assumptions C21_exact_marginals.

(** C22. *)
Theorem C22_truncation_keeps_best : forall pick w_lim nhyp_max fuel N ts out,
  valid_pick pick -> (forall t, In t ts -> valid_target N t) -> length ts <= 30 -> ts <> [] ->
  correct exp pick w_lim nhyp_max fuel N ts = Ok out ->
  exists ds,
    c_n out = length ds /\ NoDup ds /\ 1 <= length ds /\
    (forall i j, i < length ts -> j <= N ->
       nth (i * (N + 1) + j) (c_R out) NaN = Fin (marginal N (weight N ts) ds i j)) /\
    (forall d, In d ds -> hypothesis N ts d) /\
    (forall d s, In d ds -> hypothesis N ts s -> ~ In s ds -> (weight N ts s <= weight N ts d)%R) /\
    (length ds <= 1 \/ (INR (length ds - 1) < nhyp_max)%R) /\
    (forall s, hypothesis N ts s -> ~ In s ds ->
       (nhyp_max <= INR (length ds))%R \/ (weight N ts s < w_lim * sum_over (weight N ts) ds)%R).
Proof.
  intros pick wl nh fuel N ts out Hp Ht Hl Hne Hr.
  exact (truncation_exp pick wl nh fuel N ts out Hp Ht Hl Hne Hr).
Qed.
Print Assumptions C22_truncation_keeps_best.

(** C22 for a whole number nhyp_max. *)
Theorem C22_at_most_nhyp_max : forall pick w_lim K fuel N ts out,
  valid_pick pick -> (forall t, In t ts -> valid_target N t) -> length ts <= 30 -> ts <> [] ->
  correct exp pick w_lim (INR K) fuel N ts = Ok out ->
  1 <= c_n out <= Nat.max 1 K.
Proof.
  intros pick wl K fuel N ts out Hp Ht Hl Hne Hr.
  exact (at_most pick wl K fuel N ts out Hp Ht Hl Hne Hr).
Qed.
Print Assumptions C22_at_most_nhyp_max.

(** C23. *)
Theorem C23_missed_detection_bayes : forall pick w_lim nhyp_max fuel r m out,
  valid_pick pick -> (0 < r < 1)%R -> (0 < m <= 1)%R -> (w_lim <= 1)%R -> (1 < nhyp_max)%R ->
  correct exp pick w_lim nhyp_max fuel 0 [mkTin r [] m] = Ok out ->
  let x := (r * m / (r * m + (1 - r)))%R in
  c_r out = [Fin (if Rlt_dec x (1 / 1000000) then 0%R else x)].
Proof. exact lone_target. Qed.
Print Assumptions C23_missed_detection_bayes.

(** C24 is false: if exp underflows to 0 for arguments below -746 (as IEEE
    double exp does), a cluster of two certain targets with a perfect sensor and
    one report gets the birth weight NaN. *)
Theorem C24_weights_are_numbers_refuted : forall expf pick w_lim nhyp_max,
  (forall x, (x <= -746)%R -> expf x = 0%R) -> valid_pick pick ->
  exists fuel N ts out,
    (forall t, In t ts -> valid_target N t) /\ length ts <= 30 /\
    (exists s, hypothesis N ts s) /\
    correct expf pick w_lim nhyp_max fuel N ts = Ok out /\
    In NaN (c_rB out).
Proof. exact nan_witness. Qed.
Print Assumptions C24_weights_are_numbers_refuted.

(** In general: all hypotheses underflow, then every birth weight is NaN and
    every target gets existence probability 0. *)
Theorem C24_total_underflow : forall expf pick w_lim nhyp_max fuel N ts out,
  valid_pick pick -> (forall t, In t ts -> valid_target N t) -> 0 < length ts <= 30 ->
  (forall s, hypothesis N ts s -> expf (ln (weight N ts s)) = 0%R) ->
  correct expf pick w_lim nhyp_max fuel N ts = Ok out ->
  c_rB out = repeat NaN N /\ c_r out = repeat (Fin 0%R) (length ts).
Proof. exact underflow. Qed.
Print Assumptions C24_total_underflow.

(** The hypotheses are met: two targets and two reports. *)
Definition ex_ts : list target_in := [mkTin (1/2) [2; 1/10] (1/10); mkTin (9/10) [0; 3] (1/5)]%R.

Example cluster_hypotheses_met :
  valid_pick (first_top extR) /\ (forall t, In t ex_ts -> valid_target 2 t) /\ length ex_ts <= 30 /\ ex_ts <> [] /\
  no_underflow exp 2 ex_ts /\
  (exists fuel out, correct exp (first_top extR) 0.01 100 fuel 2 ex_ts = Ok out) /\
  hypothesis 2 ex_ts [0; 1] /\ weight 2 ex_ts [0; 1] = (27 / 10)%R.
Proof.
  assert (Ht : forall t, In t ex_ts -> valid_target 2 t).
  { intros t Hin. simpl in Hin. destruct Hin as [<-|[<-|[]]]; unfold valid_target; simpl; repeat split; try lra;
      intros l Hl; repeat (destruct Hl as [<-|Hl]; [lra|]); destruct Hl. }
  assert (Hl : length ex_ts <= 30) by (simpl; lia).
  assert (Hw : weight 2 ex_ts [0; 1] = (27 / 10)%R) by (unfold weight, choice_weight; simpl; lra).
  split; [exact first_top_valid|]. split; auto. split; auto. split; [discriminate|].
  split; [apply exp_no_underflow|]. split; [|split; auto].
  - destruct (correct_returns exp (first_top extR) first_top_valid 0.01 100 2 ex_ts Ht Hl) as [_ (f & o & H)].
    exists f, o. apply H. auto.
  - split; [reflexivity|]. split; [repeat constructor; simpl; lia|].
    split; [|rewrite Hw; lra]. intros j Hj. simpl in *. repeat (destruct Hj as [<-|Hj]; [lia|]). destruct Hj.
Qed.

(** A complete enumeration, for one target and one report (C21). *)
Example c21_enumeration :
  let ts := [mkTin (1/2) [2] (1/10)]%R in
  let all := [[0]; [1]; [2]] in
  NoDup all /\ (forall s, In s all <-> hypothesis 1 ts s) /\
  marginal 1 (weight 1 ts) all 0 0 = (1 / (1 + 1/20 + 1/2))%R.
Proof.
  set (ts := [mkTin (1/2) [2] (1/10)]%R).
  assert (W0 : weight 1 ts [0] = 1%R) by (unfold weight, choice_weight; simpl; lra).
  assert (W1 : weight 1 ts [1] = (1/20)%R) by (unfold weight, choice_weight; simpl; lra).
  assert (W2 : weight 1 ts [2] = (1/2)%R).
  { unfold weight, choice_weight; simpl. destruct (Req_EM_T (1/2) 1); lra. }
  cbv zeta. split; [repeat constructor; simpl; intuition discriminate|]. split.
  - intros s. split.
    + intros Hs. simpl in Hs. destruct Hs as [<-|[<-|[<-|[]]]];
        (split; [reflexivity|split; [repeat constructor; simpl; tauto|split; [intros j [<-|[]]; simpl; lia|]]]);
        rewrite ?W0, ?W1, ?W2; lra.
    + intros (Hl & _ & Hb & _). destruct s as [|j [|j' s]]; try discriminate. simpl in Hb.
      assert (j < 3) by (apply Hb; auto). destruct j as [|[|[|j]]]; simpl; auto; lia.
  - unfold marginal, says. simpl. rewrite W0, W1, W2. field.
Qed.

(** C23's formula on r = 1/2, m = 1/10. *)
Example c23_value : (1/2 * (1/10) / (1/2 * (1/10) + (1 - 1/2)) = 1/11)%R.
Proof. lra. Qed.
