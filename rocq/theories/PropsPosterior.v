(** How far a correction of one cluster is from the exact posterior of the
    multi-target model (PosteriorSpec.v).  The proofs are in PosteriorMain.v. *)
From Coq Require Import List Arith Bool Reals Lra Lia.
Import ListNotations.
From Verif Require Import Res Scalar Lap Murty MurtyMain Cluster ClusterSpec ClusterProofs ClusterMain PosteriorSpec PosteriorProofs PosteriorMain PropsCluster.
Local Open Scope nat_scope.

(** Every probability that a correction computes differs from the exact one by at
    most the share of the fates left out, or of the impossible ones
    let in (whose weight is at most exp(-30000) times likelihoods), whichever is
    larger. The fates used are the most likely ones; unless nhyp_max stopped the
    loop, the ones left out each have less than w_lim of the weight used. *)
Theorem C98_near_posterior : forall N ts,
  (forall t, In t ts -> valid_target N t) -> forall pick, valid_pick pick -> forall w_lim nhyp_max, length ts <= 30 -> ts <> [] ->
  forall fuel out, correct exp pick w_lim nhyp_max fuel N ts = Ok out ->
  forall all, NoDup all -> (forall q, In q all <-> joint N (length ts) q) -> (0 < sum_over (joint_weight ts) all)%R ->
  exists used spurious,
  NoDup used /\ incl used all /\ length used <= c_n out /\ (0 <= spurious)%R /\
  (forall q u, In u used -> In q all -> ~ In q used -> (joint_weight ts q <= joint_weight ts u)%R) /\
  (forall q, In q all -> ~ In q used -> joint_weight ts q = 0%R \/ (nhyp_max <= INR (c_n out))%R \/
     (joint_weight ts q < w_lim * (sum_over (joint_weight ts) used + spurious))%R) /\
  (forall L, (1 <= L)%R ->
     (forall i j, i < length ts -> j < N -> (t_r (nth i ts no_target) * nth j (t_lik (nth i ts no_target)) 0 <= L)%R) ->
     (forall i, i < length ts -> (t_r (nth i ts no_target) * t_miss (nth i ts no_target) <= L)%R) ->
     (spurious <= INR (c_n out) * (tiny * L ^ (length ts - 1)))%R) /\
  let e := (Rmax (sum_over (joint_weight ts) all - sum_over (joint_weight ts) used) spurious / sum_over (joint_weight ts) all)%R in
  (forall i j, i < length ts -> j < N -> exists p, nth (i * (N + 1) + j) (c_R out) NaN = Fin p /\ (Rabs (p - posterior ts all (caused i j)) <= e)%R) /\
  (forall i, i < length ts -> exists p, nth (i * (N + 1) + N) (c_R out) NaN = Fin p /\ (Rabs (p - posterior ts all (missed i)) <= e)%R) /\
  (forall i, i < length ts -> exists p, (Rabs (p - posterior ts all (alive i)) <= e)%R /\
     nth i (c_r out) NaN = Fin (if Rlt_dec p (1 / 1000000) then 0%R else p)) /\
  (forall j, j < N -> exists b, nth j (c_rB out) NaN = Fin b /\ (Rabs (b - (1 - posterior ts all (taken j))) <= e)%R).
Proof. exact posterior_close. Qed.
Print Assumptions C98_near_posterior.

(** In numbers: with w_lim as the only limit, existence and birth probabilities are
    within K w_lim (1 + z) or z of the exact ones, where K is the number of joint
    fates and z the share of impossible choices. *)
Theorem C98_error_bound : forall N ts,
  (forall t, In t ts -> valid_target N t) -> forall pick, valid_pick pick -> forall w_lim nhyp_max, length ts <= 30 -> ts <> [] ->
  forall fuel out, correct exp pick w_lim nhyp_max fuel N ts = Ok out ->
  forall all, NoDup all -> (forall q, In q all <-> joint N (length ts) q) -> (0 < sum_over (joint_weight ts) all)%R ->
  forall L, (0 <= w_lim)%R -> (INR (c_n out) < nhyp_max)%R -> (1 <= L)%R ->
  (forall i j, i < length ts -> j < N -> (t_r (nth i ts no_target) * nth j (t_lik (nth i ts no_target)) 0 <= L)%R) ->
  (forall i, i < length ts -> (t_r (nth i ts no_target) * t_miss (nth i ts no_target) <= L)%R) ->
  let z := (INR (c_n out) * (tiny * L ^ (length ts - 1)) / sum_over (joint_weight ts) all)%R in
  let e := Rmax (INR (length all) * w_lim * (1 + z)) z in
  (forall i, i < length ts -> exists p, (Rabs (p - posterior ts all (alive i)) <= e)%R /\
     nth i (c_r out) NaN = Fin (if Rlt_dec p (1 / 1000000) then 0%R else p)) /\
  (forall j, j < N -> exists b, nth j (c_rB out) NaN = Fin b /\ (Rabs (b - (1 - posterior ts all (taken j))) <= e)%R).
Proof. exact posterior_bound. Qed.
Print Assumptions C98_error_bound.

(** The joint fates can always be listed. *)
Theorem C98_fates_listed : forall N M, exists all, NoDup all /\ forall q, In q all <-> joint N M q.
Proof. exact joint_listed. Qed.
Print Assumptions C98_fates_listed.

(** The hypotheses are met by the two targets and two reports of PropsCluster.v; the fates
    (report 0, report 1) weigh 27/10. *)
Example C98_hypotheses_met : exists fuel out all,
  correct exp (first_top extR) 0.01 100 fuel 2 ex_ts = Ok out /\ NoDup all /\ (forall q, In q all <-> joint 2 (length ex_ts) q) /\
  (0 < sum_over (joint_weight ex_ts) all)%R /\ joint_weight ex_ts [Seen 0; Seen 1] = (27 / 10)%R /\
  (forall i j, i < length ex_ts -> j < 2 -> (t_r (nth i ex_ts no_target) * nth j (t_lik (nth i ex_ts no_target)) 0 <= 3)%R) /\
  (forall i, i < length ex_ts -> (t_r (nth i ex_ts no_target) * t_miss (nth i ex_ts no_target) <= 3)%R).
Proof.
  destruct cluster_hypotheses_met as (Hp & Ht & Hl & Hne & _ & (fuel & out & Hr) & _).
  destruct (joint_listed 2 (length ex_ts)) as (all & H1 & H2).
  assert (W : joint_weight ex_ts [Seen 0; Seen 1] = (27 / 10)%R) by (unfold joint_weight; cbn; lra).
  exists fuel, out, all. split; auto. split; auto. split; auto. split.
  - assert (In [Seen 0; Seen 1] all) as Hi.
    { apply H2. split; auto. split; [intros j [E|[E|[]]]; injection E as <-; lia|].
      intros i k j Hi Hk. cbn in Hi, Hk. destruct i as [|[|]]; destruct k as [|[|]]; cbn; try lia; intros A B; try reflexivity; congruence. }
    apply in_split in Hi. destruct Hi as (l1 & l2 & ->). rewrite sumf_app, sumf_cons, W.
    assert (forall l, (0 <= sum_over (joint_weight ex_ts) l)%R) as P by (intros l; apply sumf_nonneg; intros q _; apply (joint_nonneg 2 ex_ts Ht)).
    pose proof (P l1). pose proof (P l2). lra.
  - split; auto. split.
    + intros i j Hi Hj. destruct i as [|[|]]; [| |cbn in Hi; lia]; destruct j as [|[|]]; try lia; cbn; lra.
    + intros i Hi. destruct i as [|[|]]; [| |cbn in Hi; lia]; cbn; lra.
Qed.
