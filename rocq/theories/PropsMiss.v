(** What a missed detection does to a target's mixture (C76).

    A target in view that no report gates is updated alone, with no reports (C25,
    TrackerSpec.v [k_lone]).  [detects s id 0 i]: the probability with which the
    sensor would have detected component [i].  [reweighted f factor c c']
    (MissSpec.v): the weights of the components left relate as before times
    [factor]. *)
From Coq Require Import List Arith NArith Bool Reals Lra Lia Permutation.
Import ListNotations.
From Verif Require Import Res Scalar LapBase RTree RTreeSpec RTreeInst Murty MurtyMain Cluster ClusterSpec ClusterMain
  GM GMSpec GMProofs Tracker TrackerSpec TrackerProofs TrackerCluster TrackerMain TrackerHist TrackerOps TrackerOpsSpec TrackerOpsProofs TrackerOpsMain
  PropsGM PropsTrackerOps StepSpec StepProofs NearWitness MissSpec MissProofs MissWitness.
Local Open Scope nat_scope.

(** A target that is live after a history (its cluster id may have been written). *)
Definition reached {G BB Rep} (op : ops G BB Rep) pm expf pick sortf unit n (t : target (P := pdf (G := G) (BB := BB))) : Prop :=
  exists cs st x, Forall (request op pm expf pick sortf n) cs /\
    calls (volR unit) p_box (p_norm op) (r_lim pm) (cov_lim pm) (rB_max pm) new_tracker cs (Ok st) /\
    In x (live st) /\ tg_r t = tg_r (snd x) /\ tg_pdf t = tg_pdf (snd x).

Lemma reached_good {G BB Rep} (op : ops G BB Rep) pm pick sortf unit n t :
  sound_ops op -> valid_sort sortf -> valid_pick pick ->
  (0 < tscale pm)%R -> (0 < r_lim pm)%R -> (0 <= rB_max pm <= 1)%R -> (0 < unit)%R ->
  reached op pm exp pick sortf unit n t -> Forall good [t].
Proof.
  intros H1 H2 H3 H5 H6 H7 H8 (cs & st & x & Hr & H & Hx & E1 & E2). constructor; [|constructor]. unfold good. rewrite E1, E2.
  exact (history_bounds op pm exp pick sortf H1 H2 H3 (fun N ts => exp_no_underflow N ts) H5 H6 H7 unit H8 n cs st Hr H x Hx).
Qed.

(** A target that no report gates keeps the relative weights of its components,
    wherever the sensor looked. *)
Theorem C76_missed_weights : forall (G BB Rep : Type) (op : ops G BB Rep) pm pick sortf unit n t s fuel ts' rs',
  sound_ops op -> valid_sort sortf -> valid_pick pick ->
  (0 < tscale pm)%R -> (0 < r_lim pm)%R -> (0 <= rB_max pm <= 1)%R -> (0 < unit)%R ->
  reached op pm exp pick sortf unit n t -> sound_sensor s ->
  cluster_update op pm exp pick sortf s fuel [] [t] = Some (ts', rs') ->
  exists t' o, ts' = [t'] /\
    reweighted (fun g => g_global op o (g_local op o g)) (fun _ => 1%R) (p_c (tg_pdf t)) (p_c (tg_pdf t')).
Proof.
  intros G BB Rep op pm pick sortf unit n t s fuel ts' rs' H1 H2 H3 H5 H6 H7 H8 Ht Hs E.
  pose proof (reached_good op pm pick sortf unit n t H1 H2 H3 H5 H6 H7 H8 Ht) as Hg.
  pose proof (cluster_value op pm pick sortf H1 s Hs H2 H3 fuel _ _ _ _ Hg E) as Hres.
  assert (L : length ts' = 1) by (destruct Hres as (? & ? & ? & ? & _ & _ & _ & L & _); exact L).
  destruct ts' as [|t' [|? ?]]; try discriminate. exists t'. destruct (miss_weights op pm s t t' rs' Hres) as (o & Ho). exists o. auto.
Qed.
Print Assumptions C76_missed_weights.

(** If the sensor would have detected all components alike, that is the posterior
    of the missed detection.  Missing: any other sensor, see below. *)
Theorem C76_bayes_partial : forall (G BB Rep : Type) (op : ops G BB Rep) pm pick sortf unit n t s fuel ts' rs' x,
  sound_ops op -> valid_sort sortf -> valid_pick pick ->
  (0 < tscale pm)%R -> (0 < r_lim pm)%R -> (0 <= rB_max pm <= 1)%R -> (0 < unit)%R ->
  reached op pm exp pick sortf unit n t -> sound_sensor s ->
  (forall i, i < length (p_c (tg_pdf t)) -> detects s (tg_id t) 0 i = x) ->
  cluster_update op pm exp pick sortf s fuel [] [t] = Some (ts', rs') ->
  exists t' o, ts' = [t'] /\
    reweighted (fun g => g_global op o (g_local op o g)) (fun i => (1 - detects s (tg_id t) 0 i)%R) (p_c (tg_pdf t)) (p_c (tg_pdf t')).
Proof.
  intros G BB Rep op pm pick sortf unit n t s fuel ts' rs' x H1 H2 H3 H5 H6 H7 H8 Ht Hs Hx E.
  destruct (C76_missed_weights G BB Rep op pm pick sortf unit n t s fuel ts' rs' H1 H2 H3 H5 H6 H7 H8 Ht Hs E) as (t' & o & Et & H).
  exists t', o. split; auto. apply (reweighted_const _ _ (1 - x)%R); auto. intros i Hi. rewrite (Hx i Hi). reflexivity.
Qed.
Print Assumptions C76_bayes_partial.

(** The full statement: the weights of the components of a missed target become
    those of Bayes' rule, w_i (1 - pD_i). *)
Definition missed_bayes : Prop := forall (G BB Rep : Type) (op : ops G BB Rep) pm pick sortf unit n t s fuel ts' rs',
  sound_ops op -> valid_sort sortf -> valid_pick pick ->
  (0 < tscale pm)%R -> (0 < r_lim pm)%R -> (0 <= rB_max pm <= 1)%R -> (0 < unit)%R ->
  reached op pm exp pick sortf unit n t -> sound_sensor s ->
  cluster_update op pm exp pick sortf s fuel [] [t] = Some (ts', rs') ->
  exists t' o, ts' = [t'] /\
    reweighted (fun g => g_global op o (g_local op o g)) (fun i => (1 - detects s (tg_id t) 0 i)%R) (p_c (tg_pdf t)) (p_c (tg_pdf t')).

(** Two reports at (0, 0) and (1, 1) give a target with a component at each; then
    a sensor that covers the second component only reports nothing. *)
Theorem C76_bayes_refuted : ~ missed_bayes.
Proof.
  intros Hall. destruct m_history as (f1 & f2 & st & a & t & Hr & Hrun & Hin & Htwo).
  assert (Ht : reached ex_op m_pm exp (first_top extR) isort 3 1 t).
  { exists [m_corr f1 [m_z1] 0%R; m_corr f2 [m_z2] 0%R], st, (a, t). split; [exact Hr|]. split; [exact Hrun|]. auto. }
  assert (H5 : (0 < tscale m_pm)%R) by (simpl; lra). assert (H6 : (0 < r_lim m_pm)%R) by (simpl; lra).
  assert (H7 : (0 <= rB_max m_pm <= 1)%R) by (simpl; lra). assert (H8 : (0 < 3)%R) by lra.
  pose proof (reached_good ex_op m_pm (first_top extR) isort 3 1 t ex_op_sound (isort_valid point) first_top_valid H5 H6 H7 H8 Ht) as Hg.
  destruct (cluster_update_returns ex_op m_pm exp (first_top extR) isort ex_op_sound m_sensor m_sensor_sound (isort_valid point) first_top_valid (fun N ts => exp_no_underflow N ts) [] [t] Hg ltac:(simpl; lia)) as (f0 & Hf).
  destruct (cluster_update ex_op m_pm exp (first_top extR) isort m_sensor f0 [] [t]) as [(ts', rs')|] eqn:E; [|destruct (Hf f0 (Nat.le_refl _) E)].
  destruct (Hall _ _ _ ex_op m_pm (first_top extR) isort 3%R 1 t m_sensor f0 ts' rs' ex_op_sound (isort_valid point) first_top_valid H5 H6 H7 H8 Ht m_sensor_sound E) as (t' & o & -> & Hw).
  pose proof (cluster_value ex_op m_pm (first_top extR) isort ex_op_sound m_sensor m_sensor_sound (isort_valid point) first_top_valid f0 _ _ _ _ Hg E) as Hres.
  eapply (m_other _ _ _ _ Htwo (m_kept _ _ _ _ Hres Htwo)); [|  |exact Hw].
  - intros g. cbn [g_global g_local ex_op]. apply m_back.
  - unfold detects. cbn [sn_pD sn_hits m_sensor Nat.eqb]. replace (INR 1000) with 1000%R by (rewrite INR_IZR_INZ; reflexivity). simpl INR. lra.
Qed.
Print Assumptions C76_bayes_refuted.

(** The hypotheses are met: the same target, and a sensor that covers all of it. *)
Example C76_hypotheses_met : exists t fuel ts' rs',
  reached ex_op m_pm exp (first_top extR) isort 3 1 t /\ length (p_c (tg_pdf t)) = 2 /\
  (forall i, i < length (p_c (tg_pdf t)) -> detects ex_sensor (tg_id t) 0 i = (9 / 10)%R) /\
  cluster_update ex_op m_pm exp (first_top extR) isort ex_sensor fuel [] [t] = Some (ts', rs').
Proof.
  destruct m_history as (f1 & f2 & st & a & t & Hr & Hrun & Hin & Htwo).
  assert (Ht : reached ex_op m_pm exp (first_top extR) isort 3 1 t).
  { exists [m_corr f1 [m_z1] 0%R; m_corr f2 [m_z2] 0%R], st, (a, t). split; [exact Hr|]. split; [exact Hrun|]. auto. }
  assert (H5 : (0 < tscale m_pm)%R) by (simpl; lra). assert (H6 : (0 < r_lim m_pm)%R) by (simpl; lra).
  assert (H7 : (0 <= rB_max m_pm <= 1)%R) by (simpl; lra). assert (H8 : (0 < 3)%R) by lra.
  pose proof (reached_good ex_op m_pm (first_top extR) isort 3 1 t ex_op_sound (isort_valid point) first_top_valid H5 H6 H7 H8 Ht) as Hg.
  destruct (cluster_update_returns ex_op m_pm exp (first_top extR) isort ex_op_sound ex_sensor ex_sensor_sound (isort_valid point) first_top_valid (fun N ts => exp_no_underflow N ts) [] [t] Hg ltac:(simpl; lia)) as (f0 & Hf).
  destruct (cluster_update ex_op m_pm exp (first_top extR) isort ex_sensor f0 [] [t]) as [(ts', rs')|] eqn:E; [|destruct (Hf f0 (Nat.le_refl _) E)].
  exists t, f0, ts', rs'. split; auto. split; [destruct Htwo as (w1 & w2 & _ & _ & _ & Hp); apply Permutation_length in Hp; exact Hp|].
  split; auto. intros i _. apply m_detects.
Qed.
