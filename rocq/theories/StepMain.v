(** The values of whole calls after any history. *)
From Coq Require Import List Arith NArith Bool Reals Lra Lia Permutation.
Import ListNotations.
From Verif Require Import Res Scalar LapBase RTree RTreeSpec RTreeInst Murty MurtyMain Cluster ClusterSpec ClusterMain
  GM GMSpec GMProofs Tracker TrackerSpec TrackerProofs TrackerCluster TrackerMain TrackerHist TrackerOps TrackerOpsSpec TrackerOpsProofs TrackerOpsMain
  StepSpec StepProofs.
Local Open Scope nat_scope.

Section Main.
Context {G BB Rep : Type}.
Variable op : ops G BB Rep.
Variable pm : params.

Lemma history_predict expf pick sortf : sound_ops op -> valid_sort sortf -> valid_pick pick -> (forall N ts, no_underflow expf N ts) ->
  (0 < tscale pm)%R -> (0 < r_lim pm)%R -> (0 <= rB_max pm <= 1)%R -> forall unit, (0 < unit)%R -> forall n cs st m time last,
  (cw_lim pm <= 1)%R -> (1 / 100000000 * INR (200 * (n + 1)) < r_lim pm)%R ->
  Forall (request op pm expf pick sortf n) cs ->
  calls (volR unit) p_box (p_norm op) (r_lim pm) (cov_lim pm) (rB_max pm) new_tracker cs (Ok st) ->
  (0 <= survival_prob m <= 1)%R -> (last <= time)%R ->
  (exists o, call_step (volR unit) p_box (p_norm op) (r_lim pm) (cov_lim pm) (rB_max pm) st (predict_op op pm m time last) o) /\
  forall o, call_step (volR unit) p_box (p_norm op) (r_lim pm) (cov_lim pm) (rB_max pm) st (predict_op op pm m time last) o ->
  exists st' image, o = Ok st' /\
    (forall a t, In (a, t) (live st) -> predicted op pm m time last t (image t)) /\
    (forall a t', In (a, t') (live st') <-> (exists t, In (a, t) (live st) /\ t' = image t) /\ fit (p_norm op) (r_lim pm) (cov_lim pm) t').
Proof.
  intros H1 H2 H3 H4 H5 H6 H7 unit H8 n cs st m time last H9 H10 Hr H Hm Hl. split; [eexists; apply cs_predict|].
  assert (Hc : consistent p_box st).
  { exact (calls_ok unit H8 _ p_box_real _ _ _ _ _ _ _ H (consistent_new _) (Forall_impl _ (request_sane op pm expf pick sortf H1 n) Hr)). }
  pose proof (history_density op pm expf pick sortf H1 H2 H3 H4 H5 H6 H7 unit H8 n cs st H9 H10 Hr H) as Hd.
  intros o Ho. inversion Ho; subst.
  destruct (predict_result unit H8 p_box p_box_real (p_norm op) (r_lim pm) (cov_lim pm) (fun _ => predict_target op pm m time last) st Hc) as (st' & E & Hlive).
  { intros a t. unfold predict_target. destruct (normalize _). reflexivity. }
  exists st', (predict_target op pm m time last). split; [exact E|]. split; [|exact Hlive].
  intros a t Hin. apply predict_value; auto. exact (Hd (a, t) Hin).
Qed.

Lemma history_correct pick sortf : sound_ops op -> valid_sort sortf -> valid_pick pick ->
  (0 < tscale pm)%R -> (0 < r_lim pm)%R -> (0 <= rB_max pm <= 1)%R -> forall unit, (0 < unit)%R -> forall n cs st st' s fuel scan time bb c,
  Forall (request op pm exp pick sortf n) cs ->
  calls (volR unit) p_box (p_norm op) (r_lim pm) (cov_lim pm) (rB_max pm) new_tracker cs (Ok st) ->
  sound_sensor s -> correct_op op pm exp pick sortf bb s fuel scan time = Correct c ->
  correct_call (volR unit) p_box (p_norm op) (r_lim pm) (cov_lim pm) (rB_max pm) c st (Ok st') ->
  correction_result p_box (p_norm op) (r_lim pm) (cov_lim pm) (rB_max pm) c st st' /\
  forall rs ts ts' rs',
    (forall t, In t ts -> exists x, In x (live st) /\ tg_r t = tg_r (snd x) /\ tg_pdf t = tg_pdf (snd x)) ->
    s_update c rs ts = Some (ts', rs') -> cluster_result op pm s rs ts ts' rs'.
Proof.
  intros H1 H2 H3 H5 H6 H7 unit H8 n cs st st' s fuel scan time bb c Hr H Hs Ec Hc.
  assert (Hex : forall N ts, no_underflow exp N ts) by (intros; apply exp_no_underflow).
  assert (Hcs : consistent p_box st).
  { exact (calls_ok unit H8 _ p_box_real _ _ _ _ _ _ _ H (consistent_new _) (Forall_impl _ (request_sane op pm exp pick sortf H1 n) Hr)). }
  pose proof (history_bounds op pm exp pick sortf H1 H2 H3 Hex H5 H6 H7 unit H8 n cs st Hr H) as Hb.
  assert (Hup : s_update c = cluster_update op pm exp pick sortf s fuel) by (inversion Ec; reflexivity).
  split.
  - apply (correct_result unit H8 p_box p_box_real (p_norm op) (r_lim pm) (cov_lim pm) (rB_max pm) (fun r p => prob r /\ weak_density (p_c p)) c st st'); auto.
    + assert (X : sane_call (Correct c)); [|exact X]. rewrite <- Ec. apply (request_sane op pm exp pick sortf H1 (length scan)). constructor; auto.
    + intros rs ts ts' rs' E Hg dx Hx. rewrite Hup in E.
      destruct (cluster_update_ok op pm exp pick sortf H1 s Hs H2 H3 Hex fuel rs ts ts' rs' Hg E) as (_ & E' & _). destruct (E' dx Hx) as (w & Ew & Hw). exists w. split; auto. lra.
  - intros rs ts ts' rs' Hts E. rewrite Hup in E. eapply (cluster_value op pm pick sortf H1 s Hs H2 H3); [|exact E].
    apply Forall_forall. intros t Ht. destruct (Hts t Ht) as (x & Hx & E1 & E2). unfold good. rewrite E1, E2. exact (Hb x Hx).
Qed.
End Main.
