(** Histories that meet the hypotheses of theorems about histories, for any
    operations on Gaussians: two births, a prediction, a correction. *)
From Coq Require Import List Arith NArith Bool Reals Lra Lia Permutation.
Import ListNotations.
From Verif Require Import Res Scalar LapBase RTree RTreeSpec RTreeInst Murty MurtyMain Cluster ClusterSpec ClusterMain
  GM GMSpec GMProofs Tracker TrackerSpec TrackerProofs TrackerCluster TrackerMain TrackerHist TrackerOps TrackerOpsSpec TrackerOpsProofs TrackerOpsMain
  PropsGM PropsTrackerOps CompProofs.
Local Open Scope nat_scope.

Section Lively.
Context {G BB Rep : Type}.
Variable op : ops G BB Rep.
Hypothesis Hop : sound_ops op.
Variable bb : BB.
Notation run := (calls (Rep := Rep) (volR 3) (p_box (G := G) (BB := BB)) (p_norm op) (r_lim ex_pm) (cov_lim ex_pm) (rB_max ex_pm)).
Notation corr := (correct_op op ex_pm exp (first_top extR) isort bb).
Notation req := (request op ex_pm exp (first_top extR) isort).

Lemma run_snoc cs : forall st st1 c o, run st cs (Ok st1) ->
  call_step (volR 3) p_box (p_norm op) (r_lim ex_pm) (cov_lim ex_pm) (rB_max ex_pm) st1 c (Ok o) -> run st (cs ++ [c]) (Ok o).
Proof.
  induction cs as [|b cs IH]; intros st st1 c o H Hc; inversion H; subst; simpl.
  - eapply cl_cons; [exact Hc|apply cl_nil].
  - eapply cl_cons; eauto.
Qed.

Let Hex : forall N ts, no_underflow exp N ts.
Proof. intros; apply exp_no_underflow. Qed.
Let Ht : (0 < tscale ex_pm)%R. Proof. simpl. lra. Qed.
Let Hrl : (0 < r_lim ex_pm)%R. Proof. simpl. lra. Qed.
Let HrB : (0 <= rB_max ex_pm <= 1)%R. Proof. simpl. lra. Qed.
Let H3 : (0 < 3)%R. Proof. lra. Qed.
Let Hbox := p_box_real (G := G) (BB := BB).

Lemma lively_births (s : sensor (BB := BB)) z1 z2 t : sound_sensor s -> sn_lambdaB s = 1%R ->
  exists f st, run new_tracker [corr s f [z1; z2] t] (Ok st) /\ length (live st) = 2.
Proof.
  intros Hse Hlam. assert (Hc0 : consistent (p_box (G := G) (BB := BB)) new_tracker) by apply consistent_new.
  destruct (C19_corrections_complete _ _ _ op ex_pm exp (first_top extR) isort 3 2 [] new_tracker s [z1; z2] t bb
    Hop (isort_valid G) first_top_valid Hex Ht Hrl HrB H3 (Forall_nil _) (cl_nil _ _ _ _ _ _ _) Hse ltac:(simpl; lia)) as (f1 & Hf1).
  destruct (corr s f1 [z1; z2] t) as [|cr1] eqn:Ec1; [discriminate|].
  destruct (Hf1 f1 (Nat.le_refl _) cr1 Ec1) as ((o1 & Ho1) & Hend). destruct (Hend o1 Ho1) as (st1 & ->).
  exists f1, st1. rewrite Ec1. split; [eapply cl_cons; [apply cs_correct; exact Ho1|apply cl_nil]|].
  assert (Hs1 : sane_call (Correct cr1)).
  { rewrite <- Ec1. eapply (request_sane op ex_pm exp (first_top extR) isort Hop 2). constructor; auto. }
  destruct (correct_births_on 3 H3 _ Hbox (p_norm op) (r_lim ex_pm) (cov_lim ex_pm) (rB_max ex_pm) (fun _ _ => False) cr1 new_tracker st1 Hrl Hc0 Hs1)
    as (old & new & ws & rs & El & _ & Hold & Hlw & _ & Hsrc & Er & Hp & _); auto.
  { intros rs ts ts' rs' E Hf. destruct ts as [|t0 ts]; [|inversion Hf; contradiction]. inversion Ec1; subst cr1. cbn [s_update] in E.
    intros dx Hx. eapply (cluster_update_ok op ex_pm exp (first_top extR) isort Hop s Hse (isort_valid G) first_top_valid Hex) in E; [|constructor].
    destruct E as (_ & E & _). destruct (E dx Hx) as (w & Ew & Hw). exists w. split; auto. lra. }
  assert (Hold' : old = []) by (destruct old as [|(a, t0) old]; auto; destruct (Hold a t0 ltac:(simpl; auto)) as (t1 & [] & _)).
  assert (Hw1 : forall w, In w ws -> w = 1%R).
  { intros w Hw. destruct (Hsrc w Hw) as (rs0 & ts & ts' & rs' & d & E & Hin & Hf). destruct ts as [|t0 ts]; [|inversion Hf; contradiction].
    inversion Ec1; subst cr1. cbn [s_update] in E. unfold cluster_update in E. cbn in E. inversion E; subst. apply in_combine_r in Hin.
    apply repeat_spec in Hin. inversion Hin. reflexivity. }
  inversion Ec1; subst cr1. cbn [s_scan length] in Hlw. destruct ws as [|w1 [|w2 [|? ?]]]; try discriminate.
  assert (w1 = 1%R) by (apply Hw1; simpl; auto). assert (w2 = 1%R) by (apply Hw1; simpl; auto). subst.
  rewrite El. simpl. rewrite <- (map_length (fun x => tg_r (snd x)) new), Er, map_length, (Permutation_length Hp).
  cbn [s_lambdaB ex_pm r_lim rB_max]. rewrite Hlam. unfold birth_rs, Rsum. simpl. destruct (Rle_dec (5 / 100) (1 + (1 + 0))); [|exfalso; lra].
  destruct (Rle_dec (5 / 100) (1 * 1 / (1 + (1 + 0)))); auto. exfalso. lra.
Qed.

Lemma run_consistent n cs st : Forall (req n) cs -> run new_tracker cs (Ok st) -> consistent p_box st.
Proof.
  intros Hr H. exact (calls_ok 3 H3 _ Hbox _ _ _ _ _ _ _ H (consistent_new _)
    (Forall_impl _ (request_sane op ex_pm exp (first_top extR) isort Hop n) Hr)).
Qed.

Lemma live_targets (st : tracker (P := pdf (G := G) (BB := BB))) : listed st -> length (live st) = length (targets st).
Proof.
  intros (_ & Hl). unfold live. assert (Hall : forall a, In a (targets st) -> heap st a <> None) by (intros a Ha; apply Hl; auto). clear Hl.
  induction (targets st) as [|a l IH]; auto. simpl. rewrite app_length, IH by (intros; apply Hall; simpl; auto).
  specialize (Hall a ltac:(simpl; auto)). destruct (heap st a); [reflexivity|congruence].
Qed.

Lemma lively_predict n cs st m time last : Forall (req n) cs -> run new_tracker cs (Ok st) ->
  exists st', run new_tracker (cs ++ [predict_op op ex_pm m time last]) (Ok st') /\ length (live st') <= length (live st).
Proof.
  intros Hr H. pose proof (run_consistent n cs st Hr H) as Hc.
  destruct (predict_ok 3 H3 _ Hbox (p_norm op) (r_lim ex_pm) (cov_lim ex_pm) (fun _ => predict_target op ex_pm m time last) st Hc)
    as (st2 & Ep & Hc2 & _ & Hh & Ht2).
  exists st2. split; [eapply run_snoc; [exact H|]; rewrite <- Ep; apply cs_predict|].
  rewrite (live_targets st2) by apply Hc2. rewrite Ht2, (live_targets st) by apply Hc.
  clear. induction (targets st) as [|a l IH]; simpl; auto. destruct (heap st2 a); simpl; lia.
Qed.

Lemma lively_correct n (s : sensor (BB := BB)) scan t cs st : sound_sensor s -> Forall (req n) cs -> run new_tracker cs (Ok st) -> length (live st) <= 30 ->
  exists f st', run new_tracker (cs ++ [corr s f scan t]) (Ok st').
Proof.
  intros Hse Hr H H30.
  destruct (C19_corrections_complete _ _ _ op ex_pm exp (first_top extR) isort 3 n cs st s scan t bb
    Hop (isort_valid G) first_top_valid Hex Ht Hrl HrB H3 Hr H Hse H30) as (f & Hf).
  exists f. destruct (corr s f scan t) as [|cr] eqn:Ec; [discriminate|].
  destruct (Hf f (Nat.le_refl _) cr Ec) as ((o & Ho) & Hend). destruct (Hend o Ho) as (st' & ->).
  exists st'. eapply run_snoc; [exact H|]. apply cs_correct. exact Ho.
Qed.
End Lively.
