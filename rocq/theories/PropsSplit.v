(** A correction of one cluster against the posterior of the whole scene
    (SplitSpec.v).  The proofs are in SplitMain.v. *)
From Coq Require Import List Arith Bool Reals Lra Lia.
Import ListNotations.
From Verif Require Import Res Scalar Lap Murty MurtyMain Cluster ClusterSpec ClusterProofs ClusterMain PosteriorSpec PosteriorProofs PosteriorMain SplitSpec SplitProofs SplitMain PropsCluster.
Local Open Scope nat_scope.

(** What a cluster says of its own targets and reports differs from what the
    whole scene says by at most the probability that some target caused a report
    of the other side. *)
Theorem C99_cluster_near_scene : forall Nc Nr tc tr,
  (forall t, In t (tc ++ tr) -> valid_target (Nc + Nr) t) ->
  forall all allc, NoDup all -> (forall q, In q all <-> joint (Nc + Nr) (length (tc ++ tr)) q) ->
  NoDup allc -> (forall q, In q allc <-> joint Nc (length tc) q) ->
  (0 < sum_over (joint_weight (tc ++ tr)) all)%R -> (0 < sum_over (joint_weight (map (near Nc) tc)) allc)%R ->
  let x := posterior (tc ++ tr) all (crosses Nc (length tc)) in
  let close A := (Rabs (posterior (map (near Nc) tc) allc A - posterior (tc ++ tr) all A) <= x)%R in
  (forall i j, i < length tc -> j < Nc -> close (caused i j)) /\ (forall i, i < length tc -> close (missed i)) /\
  (forall i, i < length tc -> close (alive i)) /\ (forall j, j < Nc -> close (taken j)).
Proof. exact split_close. Qed.
Print Assumptions C99_cluster_near_scene.

(** If no target can cause a report of the other side, the two agree. *)
Theorem C99_exact_if_apart : forall Nc Nr tc tr,
  (forall t, In t (tc ++ tr) -> valid_target (Nc + Nr) t) ->
  forall all allc, NoDup all -> (forall q, In q all <-> joint (Nc + Nr) (length (tc ++ tr)) q) ->
  NoDup allc -> (forall q, In q allc <-> joint Nc (length tc) q) ->
  (0 < sum_over (joint_weight (tc ++ tr)) all)%R -> (0 < sum_over (joint_weight (map (near Nc) tc)) allc)%R ->
  (forall t j, In t tc -> Nc <= j -> nth j (t_lik t) 0%R = 0%R) -> (forall t j, In t tr -> j < Nc -> nth j (t_lik t) 0%R = 0%R) ->
  let same A := posterior (map (near Nc) tc) allc A = posterior (tc ++ tr) all A in
  (forall i j, i < length tc -> j < Nc -> same (caused i j)) /\ (forall i, i < length tc -> same (missed i)) /\
  (forall i, i < length tc -> same (alive i)) /\ (forall j, j < Nc -> same (taken j)).
Proof. exact apart_exact. Qed.
Print Assumptions C99_exact_if_apart.

(** So the existence and birth probabilities of a corrected cluster are within
    the bound of C98 plus the probability of a crossing of those of the scene. *)
Theorem C99_correction_near_scene : forall Nc Nr tc tr,
  (forall t, In t (tc ++ tr) -> valid_target (Nc + Nr) t) ->
  forall all allc, NoDup all -> (forall q, In q all <-> joint (Nc + Nr) (length (tc ++ tr)) q) ->
  NoDup allc -> (forall q, In q allc <-> joint Nc (length tc) q) ->
  (0 < sum_over (joint_weight (tc ++ tr)) all)%R -> (0 < sum_over (joint_weight (map (near Nc) tc)) allc)%R ->
  forall pick, valid_pick pick -> forall w_lim nhyp_max, length tc <= 30 -> tc <> [] ->
  forall fuel out, correct exp pick w_lim nhyp_max fuel Nc (map (near Nc) tc) = Ok out ->
  forall L, (0 <= w_lim)%R -> (INR (c_n out) < nhyp_max)%R -> (1 <= L)%R ->
  (forall i j, i < length tc -> j < Nc -> (t_r (nth i tc no_target) * nth j (t_lik (nth i tc no_target)) 0 <= L)%R) ->
  (forall i, i < length tc -> (t_r (nth i tc no_target) * t_miss (nth i tc no_target) <= L)%R) ->
  let z := (INR (c_n out) * (tiny * L ^ (length tc - 1)) / sum_over (joint_weight (map (near Nc) tc)) allc)%R in
  let e := (Rmax (INR (length allc) * w_lim * (1 + z)) z + posterior (tc ++ tr) all (crosses Nc (length tc)))%R in
  (forall i, i < length tc -> exists p, (Rabs (p - posterior (tc ++ tr) all (alive i)) <= e)%R /\
     nth i (c_r out) NaN = Fin (if Rlt_dec p (1 / 1000000) then 0%R else p)) /\
  (forall j, j < Nc -> exists b, nth j (c_rB out) NaN = Fin b /\ (Rabs (b - (1 - posterior (tc ++ tr) all (taken j))) <= e)%R).
Proof. exact scene_bound. Qed.
Print Assumptions C99_correction_near_scene.

(** The hypotheses are met by the two targets and two reports of PropsCluster.v,
    cut into two clusters of one target and one report; the fates that the cut
    forbids include one of weight 9/1000. *)
Example C99_hypotheses_met : 
  let tc := [mkTin (1/2) [2; 1/10] (1/10)]%R in let tr := [mkTin (9/10) [0; 3] (1/5)]%R in
  (forall t, In t (tc ++ tr) -> valid_target (1 + 1) t) /\
  exists all allc fuel out,
  NoDup all /\ (forall q, In q all <-> joint (1 + 1) (length (tc ++ tr)) q) /\
  NoDup allc /\ (forall q, In q allc <-> joint 1 (length tc) q) /\
  (0 < sum_over (joint_weight (tc ++ tr)) all)%R /\ (0 < sum_over (joint_weight (map (near 1) tc)) allc)%R /\
  correct exp (first_top extR) 0.01 100 fuel 1 (map (near 1) tc) = Ok out /\
  crosses 1 1 [Seen 1; Missed] = true /\ joint_weight (tc ++ tr) [Seen 1; Missed] = (9 / 1000)%R.
Proof.
  intros tc tr. destruct cluster_hypotheses_met as (Hp & Ht & _). change ex_ts with (tc ++ tr) in Ht. split; [exact Ht|].
  destruct (joint_listed 2 2) as (all & A1 & A2). destruct (joint_listed 1 1) as (allc & C1 & C2).
  assert (V : forall t, In t (map (near 1) tc) -> valid_target 1 t).
  { intros t H. apply in_map_iff in H. destruct H as (u & <- & Hu). apply (near_valid 1 1). apply Ht, in_app_iff. auto. }
  destruct (correct_returns exp (first_top extR) Hp 0.01 100 1 (map (near 1) tc) V) as [_ (fuel & out & Hr)]; [cbn; lia|].
  assert (P : forall N M ts l q, (forall t, In t ts -> valid_target N t) -> (forall q, In q l <-> joint N M q) -> joint N M q -> (0 < joint_weight ts q)%R -> (0 < sum_over (joint_weight ts) l)%R).
  { intros N M ts l q Hv Hl Hq Hw. apply Hl in Hq. apply in_split in Hq. destruct Hq as (l1 & l2 & ->). rewrite sumf_app, sumf_cons.
    assert (K : forall l, (0 <= sum_over (joint_weight ts) l)%R) by (intros l; apply sumf_nonneg; intros p _; apply (joint_nonneg N ts Hv)).
    pose proof (K l1). pose proof (K l2). lra. }
  exists all, allc, fuel, out. split; auto. split; auto. split; auto. split; auto. split; [|split; [|split; [|split]]].
  - apply (P 2 2 _ _ [Absent; Absent]); auto; [|unfold joint_weight; cbn; lra]. split; auto. split; [intros j [E|[E|[]]]; discriminate|].
    intros i k j _ _ E. destruct i as [|[|[|]]]; discriminate.
  - apply (P 1 1 _ _ [Absent]); auto; [|unfold joint_weight; cbn; lra]. split; auto. split; [intros j [E|[]]; discriminate|].
    intros i k j _ _ E. destruct i as [|[|]]; discriminate.
  - apply Hr. auto.
  - reflexivity.
  - unfold joint_weight. cbn. lra.
Qed.
