(** A history that gives a target two components, and a missed detection that
    tells them apart. *)
From Coq Require Import List Arith NArith Bool Reals Lra Lia Permutation.
Import ListNotations.
From Verif Require Import Res Scalar LapBase RTree RTreeSpec RTreeInst Murty MurtyMain Cluster ClusterSpec ClusterMain
  GM GMSpec GMProofs Tracker TrackerSpec TrackerProofs TrackerCluster TrackerMain TrackerHist TrackerOps TrackerOpsSpec TrackerOpsProofs TrackerOpsMain
  PropsGM PropsTrackerOps StepSpec StepProofs NearWitness MissSpec MissProofs.
Local Open Scope nat_scope.

(** params.hpp's defaults, but nothing is cut. *)
Definition m_pm : params := mkParams 0 (5 / 100) 100 (8 / 10) 0 150 1.
Definition m_z1 : point := (0, 0)%R.
Definition m_z2 : point := (1, 1)%R.
Notation m_corr := (correct_op ex_op m_pm exp (first_top extR) isort tt ex_sensor).
Notation m_req := (request ex_op m_pm exp (first_top extR) isort 1).
Notation m_run := (calls (volR 3) p_box (p_norm ex_op) (r_lim m_pm) (cov_lim m_pm) (rB_max m_pm)).
Notation m_call := (correct_call (volR 3) p_box (p_norm ex_op) (r_lim m_pm) (cov_lim m_pm) (rB_max m_pm)).

Lemma m_back o p : ex_shift o (ex_unshift o p) = p.
Proof. destruct p. unfold ex_shift, ex_unshift. cbn [fst snd]. f_equal; ring. Qed.

Lemma m_weighted fuel scan t cr : m_corr fuel scan t = Correct cr -> weighted_on (fun r p => prob r /\ weak_density (p_c p)) cr.
Proof.
  intros E. inversion E; subst. intros rs ts ts' rs' Eu Hg dx Hx. cbn [s_update] in Eu.
  eapply (cluster_update_ok ex_op m_pm exp (first_top extR) isort ex_op_sound ex_sensor ex_sensor_sound (isort_valid point) first_top_valid) in Eu.
  - destruct Eu as (_ & Eu & _). destruct (Eu dx Hx) as (w & Ew & Hw). exists w. split; auto. lra.
  - intros; apply exp_no_underflow.
  - exact Hg.
Qed.

Lemma m_sane n c : request ex_op m_pm exp (first_top extR) isort n c -> sane_call c.
Proof. intros H. eapply request_sane; [exact ex_op_sound|exact H]. Qed.

Lemma m_first f cr st : m_corr f [m_z1] 0%R = Correct cr -> m_call cr new_tracker (Ok st) ->
  exists a t, live st = [(a, t)] /\ tg_r t = Fin (8 / 10)%R /\ tg_pdf t = init_pdf ex_op tt m_z1.
Proof.
  intros E H. assert (H3 : (0 < 3)%R) by lra. assert (Hrl : (0 < r_lim m_pm)%R) by (simpl; lra).
  assert (Hbox := p_box_real (G := point) (BB := Datatypes.unit)).
  assert (Hc0 : consistent (p_box (G := point) (BB := Datatypes.unit)) new_tracker) by apply consistent_new.
  assert (Hs : sane_call (Correct cr)) by (rewrite <- E; apply (m_sane 1); constructor; [exact ex_sensor_sound|simpl; lia]).
  destruct (correct_result 3 H3 _ Hbox (p_norm ex_op) (r_lim m_pm) (cov_lim m_pm) (rB_max m_pm) _ cr new_tracker st Hrl Hc0 Hs (m_weighted _ _ _ _ E) ltac:(intros x []) H)
    as (inview & st1 & scan & cls & newt & all & old & new & _ & K & Hall & Hcl & El & Hold & Hnew).
  assert (Eo : old = []) by (destruct old as [|(a, t) old]; auto; destruct (proj1 (Hold a t) ltac:(simpl; auto)) as (t0 & [] & _)).
  inversion E; subst cr. cbn [s_scan length] in *. pose proof K as K'. destruct (one_report _ _ _ _ _ _ _ _ K) as (c & Hc & Er & Ht & _).
  assert (Et : cl_targets c = []) by (destruct (cl_targets c) as [|a l]; auto; destruct (proj1 (Ht a) ltac:(simpl; auto)) as (t & [] & _)).
  destruct (Hcl c Hc) as (ts & rs & ts' & dws & Ets & Ers & Eu & _ & Edw). rewrite Et in Ets. rewrite Er in Ers, Edw. cbn [map] in Ets, Ers, Edw.
  destruct ts as [|t ts]; [|discriminate]. cbn [nth_error] in Ers. destruct rs as [|z [|? ?]]; try discriminate. cbn [map] in Ers. injection Ers as ->.
  destruct dws as [|(d, w) [|? ?]]; try discriminate. cbn [map] in Edw. destruct all as [|x [|? ?]]; try discriminate. cbn [nth_error] in Edw. injection Edw as <-.
  cbn [s_update] in Eu. unfold cluster_update in Eu. cbn [length map all_some seq combine] in Eu. change (30 <? 0) with false in Eu. cbn iota in Eu.
  set (o := center ex_op [m_z1] []) in Eu. clearbody o.
  cbn -[ex_shift ex_unshift m_z1] in Eu. injection Eu as _ Ed Ew. rewrite m_back in Ed.
  subst d w. cbn [fst snd] in Hnew. assert (Hls : length scan = 1).
  { destruct K' as [_ _ _ _ _ _ _ _ _ _ _ (Hm & _) _]. apply (f_equal (@length _)) in Hm. rewrite !map_length in Hm. exact Hm. }
  destruct scan as [|r0 [|? ?]]; try discriminate. unfold newborns in Hnew. cbn [map combine s_lambdaB s_init s_time ex_sensor sn_lambdaB fst snd flat_map app Rsum fold_right] in Hnew.
  unfold Rsum in Hnew. cbn [fold_right] in Hnew.
  destruct (Rle_dec (r_lim m_pm) (1 + 0)) as [_|Hn]; [|exfalso; apply Hn; simpl; lra].
  destruct (Rle_dec (r_lim m_pm) (1 * 1 / (1 + 0))) as [_|Hn]; [|exfalso; apply Hn; simpl; lra]. cbn [app] in Hnew.
  apply Permutation_sym, Permutation_length_1_inv in Hnew. rewrite El, Eo. destruct new as [|(a, t) [|? ?]]; try discriminate. exists a, t. cbn [map snd] in Hnew.
  injection Hnew as E1 E2 _ _ _. split; [reflexivity|]. rewrite E1, E2. split; [|reflexivity]. f_equal. cbn [rB_max m_pm]. rewrite Rmin_right; lra.
Qed.

Lemma m_init : p_c (init_pdf ex_op tt m_z1) = [(1%R, m_z1)].
Proof.
  unfold init_pdf, pdf_global, pdf_local, gm_linear. cbn [p_c p_origin map fst snd r_init g_local g_global ex_op]. rewrite m_back. reflexivity.
Qed.

Lemma m_pos : p_pos ex_op [(1%R, m_z1)] = (0, 0)%R.
Proof. unfold p_pos, mean, m_z1. cbn. f_equal; field. Qed.

Lemma m_gate : meets (r_box ex_op m_z2) (p_box (init_pdf ex_op tt m_z1)).
Proof.
  unfold init_pdf. cbn [r_init ex_op]. fold ex_op. cbv zeta. rewrite m_pos. set (p := pdf_local _ _ _).
  assert (Ep : p_c p = [(1%R, (0, 0)%R)] /\ p_origin p = (0, 0)%R).
  { split; [|reflexivity]. unfold p, pdf_local, gm_linear. cbn [p_c map fst snd g_local ex_op]. unfold ex_unshift, m_z1. cbn [fst snd]. repeat f_equal; ring. }
  clearbody p. destruct Ep as (Ec & Eo). unfold meets, touches, p_box, pdf_global. cbv zeta. rewrite Ec, Eo.
  unfold local_aabbox, llaabbox. cbn.
  repeat split; apply le_FF_iff; unfold Rmin, Rmax; repeat destruct Rle_dec; lra.
Qed.

Lemma m_detects id j i : detects ex_sensor id j i = (9 / 10)%R.
Proof.
  unfold detects. cbn [sn_pD sn_hits ex_sensor]. replace (INR 1000) with 1000%R by (rewrite INR_IZR_INZ; reflexivity). field.
Qed.

(** The association of the second report: hit and miss both keep some weight. *)
Lemma m_hit ds : let tin := mkTin (8 / 10) [18 / 10]%R (1 / 10) in best_hypotheses m_pm 1 [tin] ds ->
  (5 / 100 <= marginal 1 (weight 1 [tin]) ds 0 0)%R /\ (1 / 100 <= marginal 1 (weight 1 [tin]) ds 0 1)%R.
Proof.
  intros tin (Hn & Hl & Hh & _ & _ & Hb). set (w := weight 1 [tin]) in *.
  assert (W : w [0] = (144 / 100)%R /\ w [1] = (8 / 100)%R /\ w [2] = (2 / 10)%R).
  { unfold w, weight, choice_weight. cbn [length seq prod_over nth Nat.ltb Nat.leb Nat.eqb Nat.add t_r t_lik t_miss tin].
    destruct (Req_EM_T (8 / 10) 1); [exfalso; lra|]. repeat split; lra. }
  assert (Hform : forall d, In d ds -> d = [0] \/ d = [1] \/ d = [2]).
  { intros d Hd. destruct (Hh d Hd) as (L & _ & B & _). destruct d as [|j [|? ?]]; try discriminate. pose proof (B j ltac:(simpl; auto)) as Bj. simpl in Bj.
    destruct j as [|[|[|j]]]; auto. exfalso. lia. }
  destruct W as (W0 & W1 & W2).
  assert (Hlen : length ds <= 3).
  { change 3 with (length [[0]; [1]; [2]]). apply NoDup_incl_length; auto. intros d Hd. destruct (Hform d Hd) as [->|[->| ->]]; simpl; auto. }
  assert (Hin : forall j, j < 2 -> In [j] ds).
  { intros j Hj. destruct (in_dec (list_eq_dec Nat.eq_dec) [j] ds) as [|Hno]; auto. exfalso.
    assert (Hhyp : hypothesis 1 [tin] [j]).
    { split; [reflexivity|]. split; [repeat constructor; simpl; auto|]. split; [intros i [<-|[]]; simpl; lia|]. fold w. destruct j as [|[|j]]; [rewrite W0; lra|rewrite W1; lra|lia]. }
    destruct (Hb [j] Hhyp Hno) as [Hb1|Hb1].
    - cbn [nhyp_max m_pm] in Hb1. apply le_INR in Hlen. change (INR 3) with (1 + 1 + 1)%R in Hlen. lra.
    - cbn [w_lim m_pm] in Hb1. rewrite Rmult_0_l in Hb1. destruct Hhyp as (_ & _ & _ & Hw). fold w in Hw. lra. }
  assert (Hw : forall d, In d ds -> (0 <= w d <= 144 / 100)%R) by (intros d Hd; destruct (Hform d Hd) as [->|[->| ->]]; lra).
  assert (Hs : (0 < sum_over w ds <= 432 / 100)%R).
  { split.
    - assert (w [0%nat] <= sum_over w ds)%R by (apply sum_over_ge; [intros; apply Hw; auto|apply Hin; lia]). lra.
    - pose proof (sum_over_le w ds (144 / 100) ltac:(intros; apply Hw; auto)) as H. apply le_INR in Hlen. change (INR 3) with (1 + 1 + 1)%R in Hlen. lra. }
  assert (H0 : forall j, j < 2 -> (w [j] / (432 / 100) <= marginal 1 w ds 0 j)%R).
  { intros j Hj. unfold marginal. pose proof (sum_over_ge (fun s => if says 1 0 j s then w s else 0%R) ds [j]) as H. cbv beta in H.
    assert (Es : says 1 0 j [j] = true) by (destruct j as [|[|j]]; [reflexivity|reflexivity|lia]). rewrite Es in H. cbv iota in H.
    specialize (H ltac:(intros d Hd; pose proof (Hw d Hd); destruct (says 1 0 j d); lra) (Hin j Hj)).
    pose proof (Hw [j] (Hin j Hj)). apply Rle_trans with (w [j] / sum_over w ds)%R.
    - unfold Rdiv. apply Rmult_le_compat_l; [lra|]. apply Rinv_le_contravar; lra.
    - unfold Rdiv. apply Rmult_le_compat_r; [left; apply Rinv_0_lt_compat; lra|exact H]. }
  pose proof (H0 0 ltac:(lia)) as A0. pose proof (H0 1 ltac:(lia)) as A1. rewrite W0 in A0. rewrite W1 in A1. split; lra.
Qed.

(** A density with two components. *)
Definition two_places (c : list (comp (G := point))) : Prop :=
  exists w1 w2, (0 < w1)%R /\ (0 < w2)%R /\ (w1 + w2 = 1)%R /\ Permutation c [(w1, m_z2); (w2, m_z1)].

Lemma m_second f cr st st' a t : m_corr f [m_z2] 0%R = Correct cr -> consistent p_box st ->
  live st = [(a, t)] -> tg_r t = Fin (8 / 10)%R -> tg_pdf t = init_pdf ex_op tt m_z1 -> m_call cr st (Ok st') ->
  exists t', In (a, t') (live st') /\ two_places (p_c (tg_pdf t')).
Proof.
  intros E Hc0 Hlive Hr Hpdf H. assert (H3 : (0 < 3)%R) by lra. assert (Hrl : (0 < r_lim m_pm)%R) by (simpl; lra).
  assert (Hbox := p_box_real (G := point) (BB := Datatypes.unit)).
  assert (Hs : sane_call (Correct cr)) by (rewrite <- E; apply (m_sane 1); constructor; [exact ex_sensor_sound|simpl; lia]).
  pose proof m_init as Hpc.
  assert (Hgood : prob (tg_r t) /\ weak_density (p_c (tg_pdf t))).
  { split; [exists (8 / 10)%R; split; [auto|lra]|]. rewrite Hpdf, Hpc. split; [intros g [<-|[]]; simpl; lra|]. right. unfold total. simpl. lra. }
  destruct (correct_result 3 H3 _ Hbox (p_norm ex_op) (r_lim m_pm) (cov_lim m_pm) (rB_max m_pm) _ cr st st' Hrl Hc0 Hs (m_weighted _ _ _ _ E)
    ltac:(intros x Hx; rewrite Hlive in Hx; destruct Hx as [<-|[]]; exact Hgood) H)
    as (inview & st1 & scan & cls & newt & all & old & new & _ & K & Hall & Hcl & El & Hold & Hnew).
  inversion E; subst cr. cbn [s_scan length map] in *. pose proof K as K'. destruct (one_report _ _ _ _ _ _ _ _ K) as (c & Hc & Er & Ht & Hnd).
  pose proof m_gate as Hgate.
  assert (Et : cl_targets c = [a]).
  { apply singleton; auto; [apply Ht; exists t; rewrite Hlive, Hpdf; split; [simpl; auto|exact Hgate]|]. intros b Hb. apply Ht in Hb. destruct Hb as (u & Hu & _).
    rewrite Hlive in Hu. destruct Hu as [Hu|[]]. congruence. }
  destruct K' as [_ _ _ _ _ _ _ _ _ Kcid _ (Kscan & _) _].
  assert (Ha : heap st a = Some t) by (apply live_In; [apply Hc0|rewrite Hlive; simpl; auto]).
  specialize (Kcid c a t Hc ltac:(rewrite Et; simpl; auto) Ha).
  destruct (Hcl c Hc) as (ts & rs & ts' & dws & Ets & Ers & Eu & Enew & Edw). rewrite Et in Ets, Enew. rewrite Er in Ers. cbn [map nth_error] in Ets, Ers, Enew.
  rewrite Kcid in Ets. destruct ts as [|t1 [|? ?]]; try discriminate. cbn [map] in Ets. injection Ets as Et1.
  destruct rs as [|z [|? ?]]; try discriminate. cbn [map] in Ers. injection Ers as ->.
  destruct ts' as [|t' [|? ?]]; try discriminate. cbn [map] in Enew. injection Enew as Enew. cbn [s_update] in Eu.
  assert (Er1 : tg_r t1 = Fin (8 / 10)%R) by (rewrite Et1; exact Hr). assert (Ep1 : p_c (tg_pdf t1) = [(1%R, m_z1)]) by (rewrite Et1; cbn [tg_pdf]; rewrite Hpdf; exact Hpc).
  assert (Hg1 : Forall good [t1]) by (constructor; [|constructor]; rewrite Et1; exact Hgood).
  pose proof (cluster_value ex_op m_pm (first_top extR) isort ex_op_sound ex_sensor ex_sensor_sound (isort_valid point) first_top_valid f [m_z2] [t1] [t'] _ Hg1 Eu) as Hres.
  unfold cluster_result in Hres. cbv zeta in Hres. destruct Hres as (frames & tins & css & ds & Hfr & Hl1 & Hl2 & _ & Hb & Hv & _).
  specialize (Hb ltac:(discriminate)). inversion Hfr as [|? c1 ? ? Hc1 Hf1]; subst. inversion Hf1; subst.
  destruct (Hv 0 _ c1 eq_refl eq_refl) as (tin & cs & u & c' & E1 & E2 & E3 & (Hw1 & Hw2 & Hw3 & Hw4 & Hw5) & _ & _ & _ & _ & Hglob & _ & Hlow & Hhigh).
  cbn [nth_error] in E3. injection E3 as <-. destruct tins as [|tin' [|? ?]]; try discriminate. cbn [nth_error] in E1. injection E1 as ->.
  match type of Hglob with context [g_global ex_op ?O] => set (o := O) in * end. clearbody o. rewrite Ep1 in Hc1. inversion Hc1 as [|g0 g1 ? ? (Hg & Hg') Hc2]; subst. inversion Hc2; subst. cbn [fst snd] in Hg, Hg'.
  destruct g1 as (w1, g1). cbn [fst snd] in Hg, Hg'. subst w1 g1. cbn [g_local ex_op] in *.
  rewrite map_length in Hw2, Hw3. destruct cs as [|cs0 [|? ?]]; try discriminate.
  assert (Hlik : t_lik tin = [18 / 10]%R /\ cs0 = [(1%R, ex_unshift o m_z2)]).
  { destruct (t_lik tin) as [|x [|? ?]]; try discriminate.
    specialize (Hw4 0 _ eq_refl). cbn [nth weighed] in Hw4. rewrite m_detects in Hw4. cbn [lik r_kappa gain ex_op fst snd r_local] in Hw4.
    destruct Hw4 as [(H1 & -> & M1 & M2 & _)|(Hx & _)]; unfold total in *; cbn [map fst snd] in *; [|exfalso; lra].
    destruct cs0 as [|(w0, g0) [|? ?]]; try discriminate. cbn [map fst snd] in M1, M2. injection M1 as ->. injection M2 as M2. split; [f_equal; lra|].
    replace w0 with 1%R; [reflexivity|]. apply (Rmult_eq_reg_r (18 / 10)); lra. }
  destruct Hlik as (Hlik & ->).
  assert (Etin : tin = mkTin (8 / 10) [18 / 10]%R (1 / 10)).
  { destruct tin as (r0, lk, ms). cbn [t_r t_lik t_miss] in *. rewrite Er1 in Hw1. injection Hw1 as <-. subst lk. cbn [miss fst] in Hw5. rewrite m_detects in Hw5. f_equal. lra. }
  subst tin. destruct (m_hit ds Hb) as (P0 & P1). cbn [length seq Nat.add sum_over] in Hhigh, Hlow.
  set (p0 := marginal 1 _ ds 0 0) in *. set (p1 := marginal 1 _ ds 0 1) in *.
  destruct (Hhigh ltac:(lra)) as (Hr' & Hm). cbn [map app] in Hm.
  destruct Hm as (k & rest & eta & Hp & _ & _ & Hrest & _ & Hnorm). unfold scaled in Hp. cbn [combine flat_map map fst snd app] in Hp.
  assert (Er0 : rest = []).
  { destruct Hrest as [Hrest|[Hrest|(y & Hy & _ & Hlt)]]; auto.
    - exfalso. apply Permutation_length in Hp. rewrite app_length, Hrest in Hp. simpl in Hp. lia.
    - exfalso. cbn [cw_lim m_pm] in Hlt. rewrite Rmult_0_l in Hlt.
      assert (Hy' : In y [((p0 * 1)%R, ex_unshift o m_z2); ((p1 * 1)%R, ex_unshift o m_z1)]) by (eapply Permutation_in; [exact Hp|apply in_or_app; auto]).
      destruct Hy' as [<-|[<-|[]]]; cbn [fst] in Hlt; lra. }
  subst rest. rewrite app_nil_r in Hp.
  assert (Et' : total k = (p0 * 1 + (p1 * 1 + 0))%R) by (exact (total_perm _ _ Hp)).
  assert (Htot : (1 / 100000000 < total k)%R) by (rewrite Et'; lra).
  destruct Hnorm as [(_ & _ & N1 & N2 & _)|(Hn & _)]; [|exfalso; lra].
  assert (Ec' : c' = map (fun g => ((fst g / total k)%R, snd g)) k).
  { clear -N1 N2 Htot. set (T := total k) in *. clearbody T. revert k N1 N2. induction c' as [|x c' IH]; intros [|y k] N1 N2; simpl in *; try discriminate; auto.
    injection N1 as N1 N1'. injection N2 as N2 N2'. f_equal; [|apply IH; auto]. destruct x as (x1, x2), y as (y1, y2). cbn [fst snd] in *. subst. f_equal. field. lra. }
  exists t'. split.
  - rewrite El. apply in_or_app. left. apply Hold. exists t. split; [rewrite Hlive; simpl; auto|]. split.
    + intros _. split; auto. split; [intros x Ex; rewrite Hr' in Ex; injection Ex as <-; cbn [r_lim m_pm]; lra|]. split; [rewrite Hr'; discriminate|].
      split; [intros x Ex; cbn in Ex; injection Ex as <-; simpl; lra|cbn; discriminate].
    + intros Hno. exfalso. apply Hno. exists c. rewrite Et. simpl. auto.
  - exists (p0 * 1 / total k)%R, (p1 * 1 / total k)%R. assert (0 < / total k)%R by (apply Rinv_0_lt_compat; lra).
    split; [apply Rmult_lt_0_compat; lra|]. split; [apply Rmult_lt_0_compat; lra|].
    split; [rewrite Et'; field; lra|].
    assert (Eg : p_c (tg_pdf t') = map (fun g => (fst g, ex_shift o (snd g))) c').
    { clear -Hglob. cbn [g_global ex_op] in Hglob. induction Hglob as [|x y l l' (A & B) _ IH]; simpl; auto. rewrite <- IH. f_equal. destruct y; simpl in *; subst; reflexivity. }
    rewrite Eg, Ec', map_map. cbn [fst snd]. rewrite (Permutation_map _ Hp). cbn [map fst snd]. rewrite !m_back. apply Permutation_refl.
Qed.

Lemma m_history : exists f1 f2 st2 a t,
  let c1 := m_corr f1 [m_z1] 0%R in
  let c2 := m_corr f2 [m_z2] 0%R in
  Forall m_req [c1; c2] /\ m_run new_tracker [c1; c2] (Ok st2) /\ In (a, t) (live st2) /\ two_places (p_c (tg_pdf t)).
Proof.
  assert (Hex : forall N ts, no_underflow exp N ts) by (intros; apply exp_no_underflow).
  assert (Ht : (0 < tscale m_pm)%R) by (simpl; lra). assert (Hrl : (0 < r_lim m_pm)%R) by (simpl; lra).
  assert (HrB : (0 <= rB_max m_pm <= 1)%R) by (simpl; lra). assert (H3 : (0 < 3)%R) by lra.
  pose proof (isort_valid point) as Hso. pose proof first_top_valid as Hpi. pose proof ex_op_sound as Hop. pose proof ex_sensor_sound as Hse.
  assert (Hbox := p_box_real (G := point) (BB := Datatypes.unit)).
  assert (Hc0 : consistent (p_box (G := point) (BB := Datatypes.unit)) new_tracker) by apply consistent_new.
  destruct (C19_corrections_complete _ _ _ ex_op m_pm exp (first_top extR) isort 3 1 [] new_tracker ex_sensor [m_z1] 0 tt
    Hop Hso Hpi Hex Ht Hrl HrB H3 (Forall_nil _) (cl_nil _ _ _ _ _ _ _) Hse ltac:(simpl; lia)) as (f1 & Hf1).
  destruct (m_corr f1 [m_z1] 0%R) as [|cr1] eqn:Ec1; [discriminate|].
  destruct (Hf1 f1 (Nat.le_refl _) cr1 Ec1) as ((o1 & Ho1) & Hend). destruct (Hend o1 Ho1) as (st1 & ->).
  assert (R1 : m_req (Correct cr1)) by (rewrite <- Ec1; constructor; [exact Hse|simpl; lia]).
  assert (Hrun1 : m_run new_tracker [Correct cr1] (Ok st1)) by (eapply cl_cons; [apply cs_correct; exact Ho1|apply cl_nil]).
  assert (Hc1 : consistent (p_box (G := point) (BB := Datatypes.unit)) st1)
    by exact (calls_ok 3 H3 _ Hbox _ _ _ _ _ _ _ Hrun1 Hc0 (Forall_cons _ (m_sane _ _ R1) (Forall_nil _))).
  destruct (m_first f1 cr1 st1 Ec1 Ho1) as (a & t1 & Hlive & Hr & Hp).
  destruct (C19_corrections_complete _ _ _ ex_op m_pm exp (first_top extR) isort 3 1 [Correct cr1] st1 ex_sensor [m_z2] 0 tt
    Hop Hso Hpi Hex Ht Hrl HrB H3 (Forall_cons _ R1 (Forall_nil _)) Hrun1 Hse ltac:(rewrite Hlive; simpl; lia)) as (f2 & Hf2).
  destruct (m_corr f2 [m_z2] 0%R) as [|cr2] eqn:Ec2; [discriminate|].
  destruct (Hf2 f2 (Nat.le_refl _) cr2 Ec2) as ((o2 & Ho2) & Hend2). destruct (Hend2 o2 Ho2) as (st2 & ->).
  assert (R2 : m_req (Correct cr2)) by (rewrite <- Ec2; constructor; [exact Hse|simpl; lia]).
  destruct (m_second f2 cr2 st1 st2 a t1 Ec2 Hc1 Hlive Hr Hp Ho2) as (t2 & Hin & Htwo).
  exists f1, f2, st2, a, t2. cbv zeta. rewrite Ec1, Ec2. split; [auto|].
  split; [eapply cl_cons; [apply cs_correct; exact Ho1|]; eapply cl_cons; [apply cs_correct; exact Ho2|apply cl_nil]|]. auto.
Qed.

(** A sensor that sees the components other than the first one. *)
Definition m_sensor : sensor (BB := Datatypes.unit) :=
  mkSensor (sn_fov ex_sensor) (fun _ => true) 1 (9 / 10) (fun _ _ i => if i =? 0 then 0 else 1000).
Lemma m_sensor_sound : sound_sensor m_sensor.
Proof. split; [repeat split; eexists; reflexivity|]. simpl. split; [lra|]. split; [lra|]. intros id j i. destruct (i =? 0); lia. Qed.

(** Nothing of the two components is lost, nor changed. *)
Lemma m_kept s (t t' : target (P := pdf (G := point) (BB := Datatypes.unit))) rs' :
  cluster_result ex_op m_pm s [] [t] [t'] rs' -> two_places (p_c (tg_pdf t)) -> Permutation (p_c (tg_pdf t')) (p_c (tg_pdf t)).
Proof.
  intros H (w1 & w2 & W1 & W2 & W & Hp). unfold cluster_result in H. cbv zeta in H. destruct H as (frames & tins & css & ds & Hf & _ & _ & _ & _ & Ht & _).
  inversion Hf as [|? c1 ? ? Hc1 Hf1]; subst. inversion Hf1; subst.
  destruct (Ht 0 t c1 eq_refl eq_refl) as (tin & cs & t2 & c' & _ & _ & E3 & Hw & _ & _ & _ & _ & Hglob & _ & Hlow & Hhigh).
  cbn [nth_error] in E3. injection E3 as <-.
  match type of Hglob with context [g_global ex_op ?O] => set (o := O) in * end. clearbody o.
  cbn [g_local g_global ex_op] in Hc1, Hglob.
  assert (Ec1 : c1 = map (fun g => (fst g, ex_unshift o (snd g))) (p_c (tg_pdf t))).
  { clear -Hc1. induction Hc1 as [|x y l l' (A & B) _ IH]; simpl; auto. rewrite <- IH. f_equal. destruct y; simpl in *; subst; reflexivity. }
  assert (Eg : p_c (tg_pdf t') = map (fun g => (fst g, ex_shift o (snd g))) c').
  { clear -Hglob. induction Hglob as [|x y l l' (A & B) _ IH]; simpl; auto. rewrite <- IH. f_equal. destruct y; simpl in *; subst; reflexivity. }
  assert (Hc' : Permutation c' c1).
  2:{ rewrite Eg, (Permutation_map _ Hc'), Ec1, map_map. cbn [fst snd].
      rewrite (map_ext _ (fun g => g)), map_id; [apply Permutation_refl|]. intros (w, g). cbn [fst snd]. rewrite m_back. reflexivity. }
  match type of Hlow with (?x < _)%R -> _ => destruct (Rlt_le_dec x (1 / 1000000)) as [Hl|Hl] end.
  { destruct (Hlow Hl) as (_ & ->). apply Permutation_refl. }
  destruct (Hhigh Hl) as (_ & Hm). destruct Hw as (_ & Hlen & _). destruct cs as [|? ?]; [|discriminate]. cbn [app seq length Nat.add map sum_over] in Hm, Hl.
  set (p := marginal _ _ _ _ _) in *. assert (Hp0 : (1 / 1000000 <= p)%R) by lra. clearbody p.
  assert (Hp1 : Permutation c1 [(w1, ex_unshift o m_z2); (w2, ex_unshift o m_z1)]) by (rewrite Ec1, (Permutation_map _ Hp); apply Permutation_refl).
  destruct Hm as (k & rest & eta & Hk & _ & _ & Hrest & _ & Hnorm). unfold scaled in Hk. cbn [combine flat_map map fst snd app] in Hk. rewrite app_nil_r in Hk.
  pose proof (Permutation_trans Hk (Permutation_map _ Hp1)) as Hk1. cbn [map fst snd] in Hk1.
  assert (P1 : (0 < p * w1)%R) by (apply Rmult_lt_0_compat; lra). assert (P2 : (0 < p * w2)%R) by (apply Rmult_lt_0_compat; lra).
  assert (Er0 : rest = []).
  { destruct Hrest as [Hrest|[Hrest|(y & Hy & _ & Hlt)]]; auto.
    - exfalso. apply Permutation_length in Hk1. rewrite app_length, Hrest in Hk1. simpl in Hk1. lia.
    - exfalso. cbn [cw_lim m_pm] in Hlt. rewrite Rmult_0_l in Hlt.
      assert (Hy' : In y [((p * w1)%R, ex_unshift o m_z2); ((p * w2)%R, ex_unshift o m_z1)]) by (eapply Permutation_in; [exact Hk1|apply in_or_app; auto]).
      destruct Hy' as [<-|[<-|[]]]; cbn [fst] in Hlt; lra. }
  subst rest. rewrite app_nil_r in Hk, Hk1.
  assert (Et : total k = p).
  { assert (Et' : total k = (p * w1 + (p * w2 + 0))%R) by (exact (total_perm _ _ Hk1)). rewrite Et'. replace w2 with (1 - w1)%R by lra. ring. }
  destruct Hnorm as [(_ & _ & N1 & N2 & _)|(Hn & _)]; [|exfalso; rewrite Et in Hn; lra]. rewrite Et in N2.
  assert (Ec' : c' = map (fun g => ((fst g / p)%R, snd g)) k).
  { clear -N1 N2 Hp0. revert k N1 N2. induction c' as [|x c' IH]; intros [|y k] N1 N2; simpl in *; try discriminate; auto.
    injection N1 as N1 N1'. injection N2 as N2 N2'. f_equal; [|apply IH; auto]. destruct x as (x1, x2), y as (y1, y2). cbn [fst snd] in *. subst. f_equal. field. lra. }
  rewrite Ec', (Permutation_map _ Hk), map_map. cbn [fst snd]. rewrite (map_ext _ (fun g => g)), map_id; [apply Permutation_refl|].
  intros (w, g). cbn [fst snd]. f_equal. field. lra.
Qed.

(** Such a density is not the posterior if the sensor sees one component only. *)
Lemma m_other (c c' : list (comp (G := point))) f factor : two_places c -> Permutation c' c -> (forall g, f g = g) ->
  factor 0 <> factor 1 -> reweighted f factor c c' -> False.
Proof.
  intros (w1 & w2 & W1 & W2 & _ & Hp) Hp' Hf Hne (kept & rest & Hk & Hk2 & Hr).
  assert (Hz : m_z1 <> m_z2) by (unfold m_z1, m_z2; intros E; injection E; lra).
  assert (Hl : length c = 2) by (apply Permutation_length in Hp; exact Hp). assert (Hl' : length c' = 2) by (apply Permutation_length in Hp'; congruence).
  destruct c as [|(u0, g0) [|(u1, g1) [|? ?]]]; try discriminate. cbn [length seq combine] in Hk.
  assert (Hu : (0 < u0)%R /\ (0 < u1)%R /\ g0 <> g1).
  { assert (E : forall x, In x [(u0, g0); (u1, g1)] -> x = (w1, m_z2) \/ x = (w2, m_z1)) by (intros x Hx; apply (Permutation_in _ Hp) in Hx; simpl in Hx; intuition).
    assert (Hn : NoDup [g0; g1]).
    { apply (Permutation_NoDup (l := [m_z2; m_z1])); [exact (Permutation_map snd (Permutation_sym Hp))|]. repeat constructor; simpl; intuition congruence. }
    inversion Hn as [|? ? Hni _]; subst.
    destruct (E (u0, g0)) as [E0|E0]; simpl; auto; destruct (E (u1, g1)) as [E1|E1]; simpl; auto; injection E0 as -> ->; injection E1 as -> ->; repeat split; auto; intros X; apply Hni; simpl; auto. }
  destruct Hu as (U0 & U1 & Hg).
  assert (Hlk : length kept = 2). { clear -Hk2 Hl'. revert Hl'. generalize 2. induction Hk2; intros n E; simpl in *; auto. destruct n; [discriminate|]. f_equal. apply IHHk2. congruence. }
  assert (Er : rest = []). { apply Permutation_length in Hk. rewrite app_length, Hlk in Hk. simpl in Hk. destruct rest; [auto|simpl in Hk; lia]. }
  subst rest. rewrite app_nil_r in Hk. destruct kept as [|a [|b [|? ?]]]; try discriminate. destruct c' as [|a' [|b' [|? ?]]]; try discriminate.
  pose proof (Hr 0 1 (fst a) (fst b) (snd a) (snd b) a' b') as Hab. cbn [nth_error] in Hab. rewrite <- !surjective_pairing in Hab. specialize (Hab eq_refl eq_refl eq_refl eq_refl).
  inversion Hk2 as [|? ? ? ? Ha Hk3]; subst. inversion Hk3 as [|? ? ? ? Hb _]; subst. rewrite Hf in Ha, Hb.
  destruct a' as (va, ga), b' as (vb, gb). cbn [fst snd] in *.
  destruct (Permutation_length_2 Hk) as [(-> & ->)|(-> & ->)]; cbn [fst snd] in *; subst;
    (destruct (Permutation_length_2 Hp') as [(E1 & E2)|(E1 & E2)]; inversion E1; inversion E2; subst; try congruence).
  - apply Hne. apply (Rmult_eq_reg_l (u0 * u1)); [|apply Rgt_not_eq, Rmult_lt_0_compat; lra]. lra.
  - apply Hne. apply (Rmult_eq_reg_l (u0 * u1)); [|apply Rgt_not_eq, Rmult_lt_0_compat; lra]. lra.
Qed.
