(** Properties of whole calls (C71, C72): the values a prediction and a correction
    give to every target, after any history of calls. *)
From Coq Require Import List Arith NArith Bool Reals Lra Lia Permutation.
Import ListNotations.
From Verif Require Import Res Scalar LapBase RTree RTreeSpec RTreeInst Murty MurtyMain Cluster ClusterSpec ClusterMain
  GM GMSpec GMProofs Tracker TrackerSpec TrackerProofs TrackerCluster TrackerMain TrackerHist TrackerOps TrackerOpsSpec TrackerOpsProofs TrackerOpsMain
  PropsGM PropsTrackerOps StepSpec StepProofs StepMain.
Local Open Scope nat_scope.

(** *** C71 *)
Theorem C71_prediction_value : forall (G BB Rep : Type) (op : ops G BB Rep) pm expf pick sortf unit n cs st m time last,
  sound_ops op -> valid_sort sortf -> valid_pick pick -> (forall N ts, no_underflow expf N ts) ->
  (0 < tscale pm)%R -> (0 < r_lim pm)%R -> (0 <= rB_max pm <= 1)%R -> (0 < unit)%R ->
  (cw_lim pm <= 1)%R -> (1 / 100000000 * INR (200 * (n + 1)) < r_lim pm)%R ->
  Forall (request op pm expf pick sortf n) cs ->
  calls (volR unit) p_box (p_norm op) (r_lim pm) (cov_lim pm) (rB_max pm) new_tracker cs (Ok st) ->
  (0 <= survival_prob m <= 1)%R -> (last <= time)%R ->
  (exists o, call_step (volR unit) p_box (p_norm op) (r_lim pm) (cov_lim pm) (rB_max pm) st (predict_op op pm m time last) o) /\
  forall o, call_step (volR unit) p_box (p_norm op) (r_lim pm) (cov_lim pm) (rB_max pm) st (predict_op op pm m time last) o ->
  exists st' image, o = Ok st' /\
    (forall a t, In (a, t) (live st) -> predicted op pm m time last t (image t)) /\
    (forall a t', In (a, t') (live st') <-> (exists t, In (a, t) (live st) /\ t' = image t) /\ fit (p_norm op) (r_lim pm) (cov_lim pm) t').
Proof.
  intros G BB Rep op pm expf pick sortf unit n cs st m time last H1 H2 H3 H4 H5 H6 H7 H8 H9 H10 Hr H Hm Hl.
  exact (history_predict op pm expf pick sortf H1 H2 H3 H4 H5 H6 H7 unit H8 n cs st m time last H9 H10 Hr H Hm Hl).
Qed.
Print Assumptions C71_prediction_value.

(** *** C72 *)
Theorem C72_correction_value : forall (G BB Rep : Type) (op : ops G BB Rep) pm pick sortf unit n cs st st' s fuel scan time bb c,
  sound_ops op -> valid_sort sortf -> valid_pick pick ->
  (0 < tscale pm)%R -> (0 < r_lim pm)%R -> (0 <= rB_max pm <= 1)%R -> (0 < unit)%R ->
  Forall (request op pm exp pick sortf n) cs ->
  calls (volR unit) p_box (p_norm op) (r_lim pm) (cov_lim pm) (rB_max pm) new_tracker cs (Ok st) ->
  sound_sensor s -> correct_op op pm exp pick sortf bb s fuel scan time = Correct c ->
  correct_call (volR unit) p_box (p_norm op) (r_lim pm) (cov_lim pm) (rB_max pm) c st (Ok st') ->
  correction_result p_box (p_norm op) (r_lim pm) (cov_lim pm) (rB_max pm) c st st' /\
  forall rs ts ts' rs',
    (forall t, In t ts -> exists x, In x (live st) /\ tg_r t = tg_r (snd x) /\ tg_pdf t = tg_pdf (snd x)) ->
    s_update c rs ts = Some (ts', rs') -> cluster_result op pm s rs ts ts' rs'.
Proof.
  intros G BB Rep op pm pick sortf unit n cs st st' s fuel scan time bb c H1 H2 H3 H5 H6 H7 H8 Hr H Hs Ec Hc.
  exact (history_correct op pm pick sortf H1 H2 H3 H5 H6 H7 unit H8 n cs st st' s fuel scan time bb c Hr H Hs Ec Hc).
Qed.
Print Assumptions C72_correction_value.

(** ** The hypotheses are met: the history of C19 and C59. *)
Example ex_steps : exists f1 f2 st1 st2 c,
  let c1 := ex_corr f1 [(0, 0)%R; (50, 50)%R] 0%R in
  ex_run new_tracker [c1] (Ok st1) /\ length (live st1) = 2 /\ Forall ex_req [c1] /\
  (1 / 100000000 * INR (200 * (2 + 1)) < r_lim ex_pm)%R /\
  ex_corr f2 [(0, 1)%R] 1%R = Correct c /\
  correct_call (volR 3) p_box (p_norm ex_op) (r_lim ex_pm) (cov_lim ex_pm) (rB_max ex_pm) c st1 (Ok st2) /\
  correction_result p_box (p_norm ex_op) (r_lim ex_pm) (cov_lim ex_pm) (rB_max ex_pm) c st1 st2.
Proof.
  destruct ex_history as (f1 & f & st1 & st & Hq & Hrun & Hlen & _ & _ & Hlim). cbv zeta in *. set (c1 := ex_corr f1 [(0, 0)%R; (50, 50)%R] 0%R) in *.
  assert (R1 : Forall ex_req [c1]) by (inversion Hq; auto).
  assert (Hex : forall N ts, no_underflow exp N ts) by (intros; apply exp_no_underflow).
  assert (Ht : (0 < tscale ex_pm)%R) by (simpl; lra). assert (Hrl : (0 < r_lim ex_pm)%R) by (simpl; lra).
  assert (HrB : (0 <= rB_max ex_pm <= 1)%R) by (simpl; lra). assert (H3 : (0 < 3)%R) by lra.
  destruct (C19_corrections_complete _ _ _ ex_op ex_pm exp (first_top extR) isort 3 2 [c1] st1 ex_sensor [(0, 1)%R] 1 tt
    ex_op_sound (isort_valid point) first_top_valid Hex Ht Hrl HrB H3 R1 Hrun ex_sensor_sound ltac:(rewrite Hlen; lia)) as (f2 & Hf2).
  destruct (ex_corr f2 [(0, 1)%R] 1%R) as [|c] eqn:Ec; [discriminate|].
  destruct (Hf2 f2 (Nat.le_refl _) c Ec) as ((o & Ho) & Hend). destruct (Hend o Ho) as (st2 & ->).
  exists f1, f2, st1, st2, c. repeat (split; [solve [auto]|]).
  exact (proj1 (C72_correction_value _ _ _ ex_op ex_pm (first_top extR) isort 3 2 [c1] st1 st2 ex_sensor f2 [(0, 1)%R] 1 tt c
    ex_op_sound (isort_valid point) first_top_valid Ht Hrl HrB H3 R1 Hrun ex_sensor_sound Ec Ho)).
Qed.
