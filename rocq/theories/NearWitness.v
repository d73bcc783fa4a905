(** A run of the tracker in which a report a hundred metres from a target at the
    date line moves both to the other side of the Earth. *)
From Coq Require Import List Arith NArith ZArith Bool Reals Lra Lia Permutation.
Import ListNotations.
From Interval Require Import Tactic.
From Verif Require Cf CfMain CfSpec EvalGeo ViewProofs ViewEquator.
From Verif Require Import Res Scalar LapBase RTree RTreeSpec RTreeProofs RTreeInst CC Murty MurtyMain Cluster ClusterSpec ClusterMain GM GMSpec GMProofs
  Tracker TrackerSpec TrackerProofs TrackerCluster TrackerMain TrackerHist TrackerOps TrackerOpsSpec TrackerOpsProofs TrackerOpsMain PropsGM PropsTrackerOps
  EvalWitness StepSpec StepProofs NearSpec NearProofs.
Local Open Scope nat_scope.

(** Positions on the ellipsoid as Gaussians and reports, each with a box of one
    metre to each side; an update goes half way. *)
Definition d_mid (z g : point) : point := ((fst z + fst g) / 2, (snd z + snd g) / 2)%R.
Definition d_rbox (z : point) : rect (ext R) :=
  let lo := w_ll (-1, -1)%R z in let hi := w_ll (1, 1)%R z in
  mkRect (Fin (Rmin (fst lo) (fst hi))) (Fin (Rmin (snd lo) (snd hi))) (Fin (Rmax (fst lo) (fst hi))) (Fin (Rmax (snd lo) (snd hi))).
Definition d_op : ops point Datatypes.unit point := mkOps point Datatypes.unit point
  w_ll fst snd w_box (fun o g => Cf.ll2ne g o) (fun o g => w_ll g o) (fun _ _ g => g) (fun _ g => g)
  (fun _ => tt) (fun _ b => b) (fun _ => Fin 1%R) (fun z => z) (fun o z => Cf.ll2ne z o) (fun o z => w_ll z o)
  d_rbox (fun _ => (1 / 2)%R) (fun _ _ => 1%R) d_mid (fun z => z).
Definition d_sensor : sensor (BB := Datatypes.unit) := mkSensor w_world (fun _ => true) 1 (9 / 10) (fun _ _ _ => 1000).
Notation d_corr := (correct_op d_op ex_pm exp (first_top extR) isort tt d_sensor).
Notation d_run := (calls (volR 3) p_box (p_norm d_op) (r_lim ex_pm) (cov_lim ex_pm) (rB_max ex_pm)).
Notation d_req := (request d_op ex_pm exp (first_top extR) isort 1).
Definition d_z1 : point := (0, 180)%R.
Definition d_z2 : point := (0, -180 + 1 / 1000)%R.

Lemma d_op_sound : sound_ops d_op.
Proof. split; [intros; simpl; lra|]. split; [intros; simpl; lra|]. intros z. repeat split; eexists; reflexivity. Qed.
Lemma d_sensor_sound : sound_sensor d_sensor.
Proof. split; [repeat split; eexists; reflexivity|]. simpl. split; [lra|]. split; [lra|]. intros; lia. Qed.
Lemma d_earthly : earthly d_op.
Proof.
  unfold earthly, place. cbn [d_op g_x0 g_x1 g_local g_global r_pos r_local r_global]. split; [intros o g; symmetry; apply surjective_pairing|].
  split; [intros o g p E; rewrite <- surjective_pairing in *; unfold w_ll; rewrite E; reflexivity|]. split; [reflexivity|].
  intros o z p E. unfold w_ll. rewrite E. reflexivity.
Qed.
Lemma d_towards : towards d_op.
Proof.
  intros z g. cbn [d_op g_x0 g_x1 r_pos gain]. unfold d_mid, between, Rmin, Rmax. cbn [fst snd]. 
  split; (destruct (Rle_dec _ _); lra).
Qed.

(** ** Places and boxes *)
Lemma d_ll0 o : (-180 < o <= 180)%R -> w_ll (0, 0)%R (0, o)%R = (0, o)%R.
Proof.
  intros Ho. unfold w_ll. assert (E0 : (atan (0 / Cf.wgs_a) * 180 / PI = 0)%R) by (unfold Rdiv at 2; rewrite Rmult_0_l, atan_0; unfold Rdiv; ring).
  destruct (EvalGeo.ne2ll_equator 0 0 o) as (lat & E & _ & H0); try (rewrite Rabs_R0; lra); [rewrite E0; lra|].
  rewrite E, H0, E0, Rplus_0_r by auto. reflexivity.
Qed.

Lemma d_init l : (-180 < l <= 180)%R -> p_c (init_pdf d_op tt (0, l)%R) = [(1%R, (0, l)%R)] /\
  exists bb aa, init_pdf d_op tt (0, l)%R = pdf_global d_op (mkPdf [(1%R, (0, 0)%R)] bb aa (0, l)%R).
Proof.
  intros Hl. assert (E : exists bb aa, init_pdf d_op tt (0, l)%R = pdf_global d_op (mkPdf [(1%R, (0, 0)%R)] bb aa (0, l)%R)).
  { exists tt. eexists. unfold init_pdf. cbv zeta. unfold pdf_local. cbn [p_c p_bbox p_aabb]. unfold p_pos, GM.mean. cbn [fold_left fst snd g_x0 g_x1 d_op r_init].
    replace (0 + 1 * 0)%R with 0%R by ring. replace (0 + 1 * l)%R with l by ring. unfold gm_linear. cbn [map fst snd g_local d_op]. rewrite w_ne0. reflexivity. }
  split; auto. destruct E as (bb & aa & ->). unfold pdf_global. cbn [p_c p_origin]. unfold gm_linear. cbn [map fst snd g_global d_op]. rewrite d_ll0 by auto. reflexivity.
Qed.

(** One metre in degrees of longitude. *)
Definition d_t : R := (atan (1 / Cf.wgs_a) * 180 / PI)%R.
Lemma d_t_range : (0 < d_t < 1 / 10000)%R.
Proof.
  pose proof (ViewEquator.atan_deg_pos 1 ltac:(lra)). split; auto. pose proof CfMain.pi2_bound as HPI. unfold d_t.
  assert (atan (1 / Cf.wgs_a) < 1 / 6000000)%R.
  { pose proof (EvalGeo.atan_lt (1 / Cf.wgs_a) ltac:(unfold Cf.wgs_a; lra)). unfold Cf.wgs_a in *. lra. }
  apply (Rmult_lt_reg_r PI); [lra|]. unfold Rdiv at 1. rewrite Rmult_assoc, Rinv_l by lra. lra.
Qed.

Lemma d_box1 : exists l1 l2, (0 <= l1)%R /\ (0 <= l2)%R /\
  p_box (init_pdf d_op tt d_z1) = mkRect (Fin (- l1)%R) (Fin (-180 + d_t)%R) (Fin l2) (Fin (180 - d_t)%R).
Proof.
  pose proof d_t_range as Ht. destruct (d_init 180 ltac:(lra)) as (_ & bb & aa & E). unfold d_z1. rewrite E.
  unfold pdf_global. cbn [p_c p_origin]. unfold local_aabbox. cbn [fold_left snd g_x0 g_x1 g_box d_op]. unfold w_box. cbn [GM.min0 GM.min1 GM.max0 GM.max1 fst snd].
  replace (Rmin 0 (0 - 1)) with (-1)%R by (rewrite Rmin_right; lra). replace (Rmax 0 (0 + 1)) with 1%R by (rewrite Rmax_right; lra).
  destruct (ViewEquator.ne2ll_equator_sign 1 (-1) 180) as (l1 & Hl1 & _ & E1); [lra|rewrite Rabs_left; lra| |].
  { replace (-1)%R with (- (1))%R by lra. rewrite ViewEquator.atan_deg_opp. fold d_t. lra. }
  destruct (ViewEquator.ne2ll_equator_sign 1 1 (-180)) as (l2 & Hl2 & E2 & _); [lra|rewrite Rabs_pos_eq; lra|fold d_t; lra|].
  rewrite <- ViewEquator.date_line in E2. replace (-1 / Cf.wgs_a)%R with (- (1) / Cf.wgs_a)%R in E1 by (f_equal; lra). rewrite ViewEquator.atan_deg_opp in E1. fold d_t in E1, E2.
  replace (- (1))%R with (-1)%R in E1 by lra.
  exists l1, l2. split; auto. split; auto. unfold llaabbox. cbn [GM.min0 GM.min1 GM.max0 GM.max1 ne2ll d_op]. unfold w_ll. rewrite E1, E2. cbn [fst snd].
  unfold p_box. cbn [p_aabb GM.min0 GM.min1 GM.max0 GM.max1].
  rewrite (Rmin_left (- l1) l2), (Rmax_right (- l1) l2), (Rmin_left (- l1) l2), (Rmax_right (- l1) l2) by lra.
  rewrite (Rmin_right (180 + - d_t)), (Rmax_left (180 + - d_t)), Rmin_left, Rmax_right by lra. reflexivity.
Qed.

Lemma d_gate : meets (d_rbox d_z2) (p_box (init_pdf d_op tt d_z1)) /\ meets w_world (p_box (init_pdf d_op tt d_z1)).
Proof.
  pose proof d_t_range as Ht. destruct d_box1 as (l1 & l2 & H1 & H2 & ->). 
  destruct (ViewEquator.ne2ll_equator_sign 1 (-1) (-180 + 1 / 1000)) as (m1 & Hm1 & _ & E1); [lra|rewrite Rabs_left; lra| |].
  { replace (-1)%R with (- (1))%R by lra. rewrite ViewEquator.atan_deg_opp. fold d_t. lra. }
  destruct (ViewEquator.ne2ll_equator_sign 1 1 (-180 + 1 / 1000)) as (m2 & Hm2 & E2 & _); [lra|rewrite Rabs_pos_eq; lra|fold d_t; lra|].
  replace (-1 / Cf.wgs_a)%R with (- (1) / Cf.wgs_a)%R in E1 by (f_equal; lra). rewrite ViewEquator.atan_deg_opp in E1. fold d_t in E1, E2. replace (- (1))%R with (-1)%R in E1 by lra.
  unfold d_rbox, d_z2, w_ll. rewrite E1, E2. cbn [fst snd]. unfold meets, touches, w_world. cbn [RTree.min0 RTree.max0 RTree.min1 RTree.max1].
  rewrite (Rmin_left (- m1)), (Rmax_right (- m1)), Rmin_left, Rmax_right by lra.
  repeat split; apply le_FF_iff; lra.
Qed.

(** ** The clusters of a scan of one report *)
Section One.
Context {P Rep : Type}.
Variable box : P -> rect (ext R).
Notation tracker := (tracker (P := P)).

Lemma singleton {A} (l : list A) x : NoDup l -> In x l -> (forall y, In y l -> y = x) -> l = [x].
Proof.
  intros Hn Hx H. destruct l as [|y l]; [destruct Hx|]. rewrite (H y) in * by (simpl; auto). f_equal. destruct l as [|z l]; auto.
  inversion Hn as [|? ? Hy _]; subst. exfalso. apply Hy. rewrite <- (H z) by (simpl; auto). simpl. auto.
Qed.

Lemma NoDup_concat_in {A} (ls : list (list A)) l : NoDup (concat ls) -> In l ls -> NoDup l.
Proof.
  induction ls as [|x ls IH]; intros Hn Hin; [destruct Hin|]. simpl in Hn. destruct Hin as [<-|Hin].
  - clear IH. induction x as [|y x IH]; [constructor|]. inversion Hn as [|? ? H1 H2]; subst. constructor; auto. intros H. apply H1. apply in_or_app. auto.
  - apply IH; auto. clear IH. induction x as [|y x IH]; auto. inversion Hn; auto.
Qed.

Lemma one_report rbox all (st st1 : tracker) (z : Rep) scan cls :
  clustering box rbox all st [mkReport z NaN 0] st1 scan cls ->
  exists c, In c cls /\ cl_reports c = [0] /\
    (forall a, In a (cl_targets c) <-> exists t, In (a, t) (live st) /\ meets (rbox z) (box (tg_pdf t))) /\ NoDup (cl_targets c).
Proof.
  intros K. destruct K as [_ K1 K2 K3 _ K5 K6 _ _ _ _ _ _]. assert (H0 : In 0 (concat (map cl_reports cls))) by (apply K2; simpl; lia).
  apply in_concat in H0. destruct H0 as (l & Hl & H0). apply in_map_iff in Hl. destruct Hl as (c & <- & Hc). exists c. split; auto.
  assert (E : cl_reports c = [0]).
  { apply singleton; auto; [eapply NoDup_concat_in; [exact K1|apply in_map; auto]|]. intros j Hj.
    assert (j < 1); [|lia]. apply K2. apply in_concat. exists (cl_reports c). split; auto. apply in_map. auto. }
  split; auto. split; [|eapply NoDup_concat_in; [exact K3|apply in_map; auto]].
  intros a. rewrite (K6 c a Hc) by (rewrite E; discriminate). rewrite E. split.
  - intros (j & [<-|[]] & r & t & Ez & H1 & H2). simpl in Ez. injection Ez as <-. eauto.
  - intros (t & H1 & H2). exists 0. split; [simpl; auto|]. exists z, t. auto.
Qed.
End One.

(** ** The first report *)
Lemma d_center1 l : center d_op [(0, l)%R] [] = (0, l)%R.
Proof.
  unfold center. change (INR (length [(0, l)%R] + length [])) with 1%R. cbn [map app fold_left fst snd r_pos d_op]. f_equal; field.
Qed.

Lemma d_sane c n : request d_op ex_pm exp (first_top extR) isort n c -> sane_call c.
Proof. intros H. eapply request_sane; [exact d_op_sound|exact H]. Qed.

Lemma d_weighted fuel scan cr : d_corr fuel scan 0%R = Correct cr -> weighted_on (fun r p => prob r /\ weak_density (p_c p)) cr.
Proof.
  intros E. inversion E; subst. intros rs ts ts' rs' Eu Hg dx Hx. cbn [s_update] in Eu.
  eapply (cluster_update_ok d_op ex_pm exp (first_top extR) isort d_op_sound d_sensor d_sensor_sound (isort_valid point) first_top_valid) in Eu.
  - destruct Eu as (_ & Eu & _). destruct (Eu dx Hx) as (w & Ew & Hw). exists w. split; auto. lra.
  - intros; apply exp_no_underflow.
  - exact Hg.
Qed.

Lemma d_first f cr st : d_corr f [d_z1] 0%R = Correct cr ->
  correct_call (volR 3) p_box (p_norm d_op) (r_lim ex_pm) (cov_lim ex_pm) (rB_max ex_pm) cr new_tracker (Ok st) ->
  exists a t, live st = [(a, t)] /\ tg_r t = Fin (8 / 10)%R /\ tg_pdf t = init_pdf d_op tt d_z1.
Proof.
  intros E H. assert (H3 : (0 < 3)%R) by lra. assert (Hrl : (0 < r_lim ex_pm)%R) by (simpl; lra).
  assert (Hbox := p_box_real (G := point) (BB := Datatypes.unit)).
  assert (Hc0 : consistent (p_box (G := point) (BB := Datatypes.unit)) new_tracker) by apply consistent_new.
  assert (Hs : sane_call (Correct cr)) by (rewrite <- E; apply (d_sane _ 1); constructor; [exact d_sensor_sound|simpl; lia]).
  destruct (correct_result 3 H3 _ Hbox (p_norm d_op) (r_lim ex_pm) (cov_lim ex_pm) (rB_max ex_pm) _ cr new_tracker st Hrl Hc0 Hs (d_weighted _ _ _ E) ltac:(intros x []) H)
    as (inview & st1 & scan & cls & newt & all & old & new & _ & K & Hall & Hcl & El & Hold & Hnew).
  assert (Eo : old = []) by (destruct old as [|(a, t) old]; auto; destruct (proj1 (Hold a t) ltac:(simpl; auto)) as (t0 & [] & _)).
  inversion E; subst cr. cbn [s_scan length] in *. pose proof K as K'. destruct (one_report _ _ _ _ _ _ _ _ K) as (c & Hc & Er & Ht & _).
  assert (Et : cl_targets c = []) by (destruct (cl_targets c) as [|a l]; auto; destruct (proj1 (Ht a) ltac:(simpl; auto)) as (t & [] & _)).
  destruct (Hcl c Hc) as (ts & rs & ts' & dws & Ets & Ers & Eu & _ & Edw). rewrite Et in Ets. rewrite Er in Ers, Edw. cbn [map] in Ets, Ers, Edw.
  destruct ts as [|t ts]; [|discriminate]. cbn [nth_error] in Ers. destruct rs as [|z [|? ?]]; try discriminate. cbn [map] in Ers. injection Ers as ->.
  destruct dws as [|(d, w) [|? ?]]; try discriminate. cbn [map] in Edw. destruct all as [|x [|? ?]]; try discriminate. cbn [nth_error] in Edw. injection Edw as <-.
  cbn [s_update] in Eu. unfold cluster_update in Eu. cbn [length map all_some seq combine] in Eu. change (30 <? 0) with false in Eu. cbn iota in Eu.
  set (o := center d_op [d_z1] []) in Eu.
  assert (Eo' : o = (0, 180)%R) by exact (d_center1 180).
  cbn in Eu. injection Eu as _ Ed Ew. rewrite Eo' in Ed. unfold d_z1 in Ed. rewrite w_ne0, d_ll0 in Ed by lra.
  subst d w. cbn [fst snd] in Hnew. assert (Hls : length scan = 1).
  { destruct K' as [_ _ _ _ _ _ _ _ _ _ _ (Hm & _) _]. apply (f_equal (@length _)) in Hm. rewrite !map_length in Hm. exact Hm. }
  destruct scan as [|r0 [|? ?]]; try discriminate. unfold newborns in Hnew. cbn [map combine s_lambdaB s_init s_time d_sensor sn_lambdaB fst snd flat_map app Rsum fold_right] in Hnew.
  unfold Rsum in Hnew. cbn [fold_right] in Hnew.
  destruct (Rle_dec (r_lim ex_pm) (1 + 0)) as [_|Hn]; [|exfalso; apply Hn; simpl; lra].
  destruct (Rle_dec (r_lim ex_pm) (1 * 1 / (1 + 0))) as [_|Hn]; [|exfalso; apply Hn; simpl; lra]. cbn [app] in Hnew.
  apply Permutation_sym, Permutation_length_1_inv in Hnew. rewrite El, Eo. destruct new as [|(a, t) [|? ?]]; try discriminate. exists a, t. cbn [map snd] in Hnew.
  injection Hnew as E1 E2 _ _ _. split; [reflexivity|]. rewrite E1, E2. split; [|reflexivity]. f_equal. cbn [rB_max ex_pm]. rewrite Rmin_right; lra.
Qed.

(** ** The second report *)
Lemma sum_over_ge {A} (f : A -> R) l x : (forall y, In y l -> (0 <= f y)%R) -> In x l -> (f x <= sum_over f l)%R.
Proof.
  induction l as [|y l IH]; intros H Hx; [destruct Hx|]. simpl. assert (Hl : (0 <= sum_over f l)%R).
  { assert (Hn : forall y, In y l -> (0 <= f y)%R) by (intros; apply H; simpl; auto). clear -Hn. induction l as [|z l IH]; simpl; [lra|].
    pose proof (Hn z ltac:(simpl; auto)). specialize (IH ltac:(intros; apply Hn; simpl; auto)). lra. }
  pose proof (H y ltac:(simpl; auto)). destruct Hx as [->|Hx]; [lra|]. specialize (IH ltac:(intros; apply H; simpl; auto) Hx). lra.
Qed.
Lemma sum_over_le {A} (f : A -> R) l b : (forall y, In y l -> (f y <= b)%R) -> (sum_over f l <= b * INR (length l))%R.
Proof.
  induction l as [|y l IH]; intros H; [simpl; lra|]. cbn [sum_over length]. rewrite S_INR. pose proof (H y ltac:(simpl; auto)). specialize (IH ltac:(intros; apply H; simpl; auto)). lra.
Qed.

Lemma lone_hit ds : let tin := mkTin (8 / 10) [18 / 10]%R (1 / 10) in best_hypotheses ex_pm 1 [tin] ds ->
  (5 / 100 <= sum_over (marginal 1 (weight 1 [tin]) ds 0) (seq 0 (1 + 1)))%R.
Proof.
  intros tin (Hn & Hl & Hh & Hb & _). set (w := weight 1 [tin]) in *.
  assert (W : w [0] = (144 / 100)%R /\ w [1] = (8 / 100)%R /\ w [2] = (2 / 10)%R).
  { unfold w, weight, choice_weight. cbn [length seq prod_over nth Nat.ltb Nat.leb Nat.eqb Nat.add t_r t_lik t_miss tin]. 
    destruct (Req_EM_T (8 / 10) 1); [exfalso; lra|]. repeat split; lra. }
  assert (Hform : forall d, In d ds -> d = [0] \/ d = [1] \/ d = [2]).
  { intros d Hd. destruct (Hh d Hd) as (L & _ & B & _). destruct d as [|j [|? ?]]; try discriminate. pose proof (B j ltac:(simpl; auto)) as Bj. simpl in Bj.
    destruct j as [|[|[|j]]]; auto. exfalso. lia. }
  destruct W as (W0 & W1 & W2).
  assert (Hhit : In [0] ds).
  { destruct (in_dec (list_eq_dec Nat.eq_dec) [0] ds) as [|Hno]; auto. exfalso. destruct ds as [|d ds]; [simpl in Hl; lia|].
    assert (Hle : (w [0%nat] <= w d)%R). { apply Hb; auto; [simpl; auto|]. split; [reflexivity|]. split; [repeat constructor; simpl; auto|]. split; [intros j [<-|[]]; simpl; lia|]. fold w. rewrite W0. lra. }
    destruct (Hform d ltac:(simpl; auto)) as [->|[->| ->]]; [apply Hno; simpl; auto|rewrite W0, W1 in Hle; lra|rewrite W0, W2 in Hle; lra]. }
  assert (Hw : forall d, In d ds -> (0 <= w d <= 144 / 100)%R) by (intros d Hd; destruct (Hform d Hd) as [->|[->| ->]]; lra).
  assert (Hlen : length ds <= 3).
  { change 3 with (length [[0]; [1]; [2]]). apply NoDup_incl_length; auto. intros d Hd. destruct (Hform d Hd) as [->|[->| ->]]; simpl; auto. }
  assert (Hs : (144 / 100 <= sum_over w ds <= 432 / 100)%R).
  { split; [rewrite <- W0; apply sum_over_ge; auto; intros; apply Hw; auto|]. pose proof (sum_over_le w ds (144 / 100) ltac:(intros; apply Hw; auto)) as H.
    apply le_INR in Hlen. change (INR 3) with (1 + 1 + 1)%R in Hlen. lra. }
  cbn [seq Nat.add sum_over]. 
  assert (H1 : forall j, (0 <= marginal 1 w ds 0 j)%R).
  { intros j. unfold marginal. apply Rmult_le_pos; [|left; apply Rinv_0_lt_compat; lra]. clear -Hw. induction ds as [|d ds IH]; simpl; [lra|].
    specialize (IH ltac:(intros; apply Hw; simpl; auto)). pose proof (Hw d ltac:(simpl; auto)). destruct (says 1 0 j d); lra. }
  assert (H0 : (5 / 100 <= marginal 1 w ds 0 0)%R).
  { unfold marginal. pose proof (sum_over_ge (fun s => if says 1 0 0 s then w s else 0%R) ds [0]) as H. cbv beta in H. change (says 1 0 0 [0]) with true in H. cbv iota in H. rewrite W0 in H.
    specialize (H ltac:(intros d Hd; pose proof (Hw d Hd); destruct (says 1 0 0 d); lra) Hhit).
    apply Rmult_le_reg_r with (sum_over w ds); [lra|]. unfold Rdiv at 2. rewrite Rmult_assoc, Rinv_l by lra. lra. }
  pose proof (H1 1). lra.
Qed.

Lemma d_detects id j i : detects d_sensor id j i = (9 / 10)%R.
Proof.
  unfold detects. cbn [sn_pD sn_hits d_sensor]. replace (INR 1000) with 1000%R by (rewrite INR_IZR_INZ; reflexivity). field.
Qed.

Lemma d_second f cr st st' a t : d_corr f [d_z2] 0%R = Correct cr -> consistent p_box st ->
  live st = [(a, t)] -> tg_r t = Fin (8 / 10)%R -> tg_pdf t = init_pdf d_op tt d_z1 ->
  correct_call (volR 3) p_box (p_norm d_op) (r_lim ex_pm) (cov_lim ex_pm) (rB_max ex_pm) cr st (Ok st') ->
  (exists t', In (a, t') (live st')) /\
  forall x g, In x (live st') -> In g (p_c (tg_pdf (snd x))) -> exists l, snd g = (0, l)%R /\ (0 <= l <= 1 / 1000)%R.
Proof.
  intros E Hc0 Hlive Hr Hpdf H. assert (H3 : (0 < 3)%R) by lra. assert (Hrl : (0 < r_lim ex_pm)%R) by (simpl; lra).
  assert (Hbox := p_box_real (G := point) (BB := Datatypes.unit)).
  assert (Hs : sane_call (Correct cr)) by (rewrite <- E; apply (d_sane _ 1); constructor; [exact d_sensor_sound|simpl; lia]).
  destruct (d_init 180 ltac:(lra)) as (Hpc & _). fold d_z1 in Hpc. 
  assert (Hgood : prob (tg_r t) /\ weak_density (p_c (tg_pdf t))).
  { split; [exists (8 / 10)%R; split; [auto|lra]|]. rewrite Hpdf, Hpc. split; [intros g [<-|[]]; simpl; lra|]. right. unfold total. simpl. lra. }
  destruct (correct_result 3 H3 _ Hbox (p_norm d_op) (r_lim ex_pm) (cov_lim ex_pm) (rB_max ex_pm) _ cr st st' Hrl Hc0 Hs (d_weighted _ _ _ E)
    ltac:(intros x Hx; rewrite Hlive in Hx; destruct Hx as [<-|[]]; exact Hgood) H)
    as (inview & st1 & scan & cls & newt & all & old & new & _ & K & Hall & Hcl & El & Hold & Hnew).
  inversion E; subst cr. cbn [s_scan length map] in *. pose proof K as K'. destruct (one_report _ _ _ _ _ _ _ _ K) as (c & Hc & Er & Ht & Hnd).
  destruct d_gate as (Hgate & _).
  assert (Et : cl_targets c = [a]).
  { apply singleton; auto; [apply Ht; exists t; rewrite Hlive, Hpdf; split; [simpl; auto|exact Hgate]|]. intros b Hb. apply Ht in Hb. destruct Hb as (u & Hu & _).
    rewrite Hlive in Hu. destruct Hu as [Hu|[]]. congruence. }
  destruct K' as [_ _ _ _ _ _ _ _ _ Kcid _ (Kscan & _) _].
  assert (Ha : heap st a = Some t) by (apply live_In; [apply Hc0|rewrite Hlive; simpl; auto]).
  specialize (Kcid c a t Hc ltac:(rewrite Et; simpl; auto) Ha).
  destruct (Hcl c Hc) as (ts & rs & ts' & dws & Ets & Ers & Eu & Enew & Edw). rewrite Et in Ets, Enew. rewrite Er in Ers, Edw. cbn [map nth_error] in Ets, Ers, Edw, Enew.
  rewrite Kcid in Ets. destruct ts as [|t1 [|? ?]]; try discriminate. cbn [map] in Ets. injection Ets as Et1.
  destruct rs as [|z [|? ?]]; try discriminate. cbn [map] in Ers. injection Ers as ->.
  destruct dws as [|(d, w) [|? ?]]; try discriminate. cbn [map] in Edw. destruct all as [|x [|? ?]]; try discriminate. cbn [nth_error] in Edw. injection Edw as <-.
  destruct ts' as [|t' [|? ?]]; try discriminate. cbn [map] in Enew. injection Enew as Enew. cbn [s_update map fst snd] in Eu.
  assert (Er1 : tg_r t1 = Fin (8 / 10)%R) by (rewrite Et1; exact Hr). assert (Ep1 : p_c (tg_pdf t1) = [(1%R, d_z1)]) by (rewrite Et1; cbn [tg_pdf]; rewrite Hpdf; exact Hpc).
  assert (Hg1 : Forall good [t1]) by (constructor; [|constructor]; rewrite Et1; exact Hgood).
  pose proof (cluster_value d_op ex_pm (first_top extR) isort d_op_sound d_sensor d_sensor_sound (isort_valid point) first_top_valid f [d_z2] [t1] [t'] _ Hg1 Eu) as Hres.
  assert (Eo : center d_op [d_z2] [t1] = (0, 1 / 2000)%R).
  { unfold center. change (INR (length [d_z2] + length [t1])) with 2%R. cbn [map app]. rewrite Ep1. unfold p_pos, GM.mean. unfold d_z1, d_z2. cbn [fold_left fst snd r_pos g_x0 g_x1 d_op]. f_equal; field. }
  assert (Hch : forall l, (l = 180 \/ l = -180 + 1 / 1000)%R -> chord (1 / 2000) (1 / 2000) (Cf.wgs_a * Cf.sind (l - 1 / 2000))).
  { intros l Hl. assert (Es : Cf.sind (l - 1 / 2000) = Cf.sind (1 / 2000) \/ Cf.sind (l - 1 / 2000) = (- Cf.sind (1 / 2000))%R).
    { unfold Cf.sind. destruct Hl as [->| ->]; [left|right].
      - replace ((180 - 1 / 2000) * PI / 180)%R with (PI - 1 / 2000 * PI / 180)%R by field. apply sin_PI_x.
      - replace ((-180 + 1 / 1000 - 1 / 2000) * PI / 180)%R with (- (PI - 1 / 2000 * PI / 180))%R by field. rewrite sin_neg, sin_PI_x. reflexivity. }
    assert (Hp : (0 <= Cf.sind (1 / 2000))%R). { unfold Cf.sind. pose proof PI_RGT_0. apply sin_ge_0; lra. }
    assert (Hw : (0 < Cf.wgs_a)%R) by (unfold Cf.wgs_a; lra). unfold chord. destruct Es as [-> | ->]; nra. }
  destruct (moved_equator d_op ex_pm d_earthly d_towards d_sensor [d_z2] [t1] [t'] [(d, Fin w)] (1 / 2000) (1 / 2000) (1 / 2000) ltac:(lra) ltac:(lra) ltac:(lra) ltac:(lra) Eo) as (A & B); [| |exact Hres|].
  { intros u g [<-|[]] Hg. rewrite Ep1 in Hg. destruct Hg as [<-|[]]. exists 180%R. split; [reflexivity|auto]. }
  { intros z [<-|[]]. exists (-180 + 1 / 1000)%R. split; [reflexivity|auto]. }
  assert (Hd : exists l, d = (0, l)%R /\ (0 <= l <= 1 / 1000)%R).
  { destruct (B d ltac:(simpl; auto)) as (l & El' & Hl). exists l. split; [exact El'|lra]. }
  assert (Hfit : fit (p_norm d_op) (r_lim ex_pm) (cov_lim ex_pm) t').
  { unfold cluster_result in Hres. cbv zeta in Hres. destruct Hres as (frames & tins & css & ds & Hfr & Hl1 & Hl2 & _ & Hb & Hv & _).
    specialize (Hb ltac:(discriminate)). inversion Hfr as [|? c1 ? ? Hc1 Hf1]; subst. inversion Hf1; subst.
    destruct (Hv 0 _ c1 eq_refl eq_refl) as (tin & cs & u & c' & E1 & E2 & E3 & (Hw1 & Hw2 & Hw3 & Hw4 & Hw5) & _ & _ & _ & _ & _ & _ & Hlow & Hhigh).
    cbn [nth_error] in E3. injection E3 as <-. destruct tins as [|tin' [|? ?]]; try discriminate. cbn [nth_error] in E1. injection E1 as ->.
    set (o := (_, _)) in *. rewrite Ep1 in Hc1. inversion Hc1 as [|g0 g1 ? ? (Hg & _) Hc2]; subst. inversion Hc2; subst. cbn [fst] in Hg.
    assert (Etin : tin = mkTin (8 / 10) [18 / 10]%R (1 / 10)).
    { destruct tin as (r0, lk, ms). cbn [t_r t_lik t_miss] in *. rewrite Er1 in Hw1. injection Hw1 as <-. rewrite map_length in Hw3. cbn [length] in Hw3.
      destruct lk as [|x [|? ?]]; try discriminate. cbn [miss] in Hw5. rewrite d_detects, Hg in Hw5. f_equal; [|lra]. f_equal.
      specialize (Hw4 0 _ eq_refl). cbn [nth weighed] in Hw4. rewrite d_detects, Hg in Hw4. cbn [lik r_kappa d_op] in Hw4.
      destruct Hw4 as [(_ & -> & _)|(Hx & _)]; unfold total in *; cbn [fold_right rsum map fst] in *; lra. }
    subst tin. pose proof (lone_hit ds Hb) as Hh. cbv zeta in Hh. cbn [length] in Hhigh. destruct (Hhigh ltac:(lra)) as (Hr' & _).
    split; [intros x Ex; rewrite Hr' in Ex; injection Ex as <-; exact Hh|]. split; [rewrite Hr'; discriminate|]. 
    split; [intros x Ex; cbn in Ex; injection Ex as <-; simpl; lra|cbn; discriminate]. }
  split.
  - exists t'. rewrite El. apply in_or_app. left. apply Hold. exists t. split; [rewrite Hlive; simpl; auto|]. split; [intros _; auto|]. intros Hno. exfalso. apply Hno. exists c. rewrite Et. simpl. auto.
  - intros x g Hx Hg. rewrite El in Hx. apply in_app_or in Hx. destruct Hx as [Hx|Hx].
    + destruct x as (b, u). apply Hold in Hx. destruct Hx as (t0 & Hin & Hu & _). rewrite Hlive in Hin. destruct Hin as [Hin|[]]. injection Hin as <- <-.
      destruct Hu as (Hu & _); [exists c; rewrite Et; simpl; auto|]. assert (u = t') by congruence. subst u.
      destruct (A t' g ltac:(simpl; auto) Hg) as (l & Ep & Hl). exists l. split; [|lra]. rewrite <- Ep. apply surjective_pairing.
    + assert (Hp : tg_pdf (snd x) = init_pdf d_op tt d).
      { apply (in_map (fun x => (tg_r (snd x), tg_pdf (snd x), tg_cid (snd x), tg_new (snd x), tg_t0 (snd x)))) in Hx. apply (Permutation_in _ Hnew) in Hx.
        unfold newborns in Hx. destruct (Rle_dec _ _); [|destruct Hx]. apply in_flat_map in Hx. destruct Hx as ((k, dw) & Hk & Hx). apply in_combine_r in Hk. destruct Hk as [<-|[]].
        cbn [fst snd] in Hx. destruct (Rle_dec _ _); [|destruct Hx]. destruct Hx as [Hx|[]]. injection Hx as _ Hx _ _ _. symmetry. exact Hx. }
      destruct Hd as (l & -> & Hl). destruct (d_init l ltac:(lra)) as (Hc' & _). rewrite Hp, Hc' in Hg. destruct Hg as [<-|[]]. exists l. auto.
Qed.

(** ** Distances *)
Lemma apart_equator l m : apart (0, l)%R (0, m)%R = sqrt (Cf.wgs_a * Cf.wgs_a * (2 - 2 * Cf.cosd (l - m))).
Proof.
  unfold apart. f_equal. unfold Cf.ll2ecef, CfSpec.dist2. cbn [fst snd Cf.vx Cf.vy Cf.vz].
  assert (E0 : Cf.sind 0 = 0%R) by (unfold Cf.sind; replace (0 * PI / 180)%R with 0%R by (unfold Rdiv; ring); apply sin_0).
  assert (E1 : Cf.cosd 0 = 1%R) by (unfold Cf.cosd; replace (0 * PI / 180)%R with 0%R by (unfold Rdiv; ring); apply cos_0).
  rewrite E0, E1. rewrite !Rmult_0_r, Rminus_0_r, sqrt_1.
  unfold Cf.cosd, Cf.sind. replace ((l - m) * PI / 180)%R with (l * PI / 180 - m * PI / 180)%R by (unfold Rdiv; ring). set (x := (l * PI / 180)%R). set (y := (m * PI / 180)%R).
  rewrite cos_minus. pose proof (sin2_cos2 x) as H1. pose proof (sin2_cos2 y) as H2. unfold Rsqr in H1, H2. unfold Rdiv. rewrite Rinv_1.
  transitivity (Cf.wgs_a * Cf.wgs_a * ((sin x * sin x + cos x * cos x) + (sin y * sin y + cos y * cos y) - 2 * (cos x * cos y + sin x * sin y)))%R; [ring|rewrite H1, H2; ring].
Qed.

Lemma cosd_turn x : Cf.cosd (x - 180) = (- Cf.cosd x)%R.
Proof.
  unfold Cf.cosd. replace ((x - 180) * PI / 180)%R with (- (PI - x * PI / 180))%R by field. rewrite cos_neg. apply Rtrigo_facts.cos_pi_minus.
Qed.

Lemma d_far l : (0 <= l <= 1 / 1000)%R -> (12000000 <= apart (0, l)%R d_z1)%R /\ (12000000 <= apart (0, l)%R d_z2)%R.
Proof.
  intros Hl. unfold d_z1, d_z2. rewrite !apart_equator. rewrite cosd_turn. replace (l - (-180 + 1 / 1000))%R with (360 + ((l - 1 / 1000) - 180))%R by ring.
  assert (E : Cf.cosd (360 + (l - 1 / 1000 - 180)) = (- Cf.cosd (l - 1 / 1000))%R).
  { rewrite <- cosd_turn. unfold Cf.cosd. rewrite <- (cos_period ((l - 1 / 1000 - 180) * PI / 180) 1). f_equal. simpl. field. }
  rewrite E. assert (H : forall x, (-1 / 1000 <= x <= 1 / 1000)%R -> (12000000 <= sqrt (Cf.wgs_a * Cf.wgs_a * (2 - 2 * - Cf.cosd x)))%R).
  { intros x Hx. unfold Cf.cosd, Cf.wgs_a. interval. }
  split; apply H; lra.
Qed.

Lemma d_close : (apart d_z1 d_z2 <= 112)%R.
Proof.
  unfold d_z1, d_z2. rewrite apart_equator. replace (180 - (-180 + 1 / 1000))%R with (360 + - (1 / 1000))%R by ring.
  assert (E : Cf.cosd (360 + - (1 / 1000)) = cos (1 / 1000 * PI / 180)).
  { unfold Cf.cosd. rewrite <- (cos_neg (1 / 1000 * PI / 180)). rewrite <- (cos_period (- (1 / 1000 * PI / 180)) 1). f_equal. simpl. field. }
  rewrite E. apply Rle_trans with (sqrt (112 * 112)); [|rewrite sqrt_square; lra]. apply sqrt_le_1_alt. unfold Cf.wgs_a.
  set (x := (1 / 1000 * PI / 180)%R). assert (Hx : (0 < x <= 1746 / 100000000)%R) by (unfold x; split; interval).
  assert (Hc : (1 - x * x / 2 <= cos x)%R).
  { pose proof (cos_bound x 0 ltac:(pose proof PI2_3_2; lra) ltac:(pose proof PI2_3_2; lra)) as (Hc & _). unfold cos_approx, cos_term in Hc. simpl in Hc. lra. }
  nra.
Qed.

(** ** The run *)
Lemma d_history : exists f1 f2 st1 st2 a t1 t2,
  let c1 := d_corr f1 [d_z1] 0%R in
  let c2 := d_corr f2 [d_z2] 0%R in
  Forall d_req [c1; c2] /\
  d_run new_tracker [c1] (Ok st1) /\ live st1 = [(a, t1)] /\ p_c (tg_pdf t1) = [(1%R, d_z1)] /\
  d_run new_tracker [c1; c2] (Ok st2) /\ In (a, t2) (live st2) /\
  forall x g, In x (live st2) -> In g (p_c (tg_pdf (snd x))) ->
    (12000000 <= apart (place d_op (snd g)) d_z1)%R /\ (12000000 <= apart (place d_op (snd g)) d_z2)%R.
Proof.
  assert (Hex : forall N ts, no_underflow exp N ts) by (intros; apply exp_no_underflow).
  assert (Ht : (0 < tscale ex_pm)%R) by (simpl; lra). assert (Hrl : (0 < r_lim ex_pm)%R) by (simpl; lra).
  assert (HrB : (0 <= rB_max ex_pm <= 1)%R) by (simpl; lra). assert (H3 : (0 < 3)%R) by lra.
  pose proof (isort_valid point) as Hso. pose proof first_top_valid as Hpi. pose proof d_op_sound as Hop. pose proof d_sensor_sound as Hse.
  assert (Hbox := p_box_real (G := point) (BB := Datatypes.unit)).
  assert (Hc0 : consistent (p_box (G := point) (BB := Datatypes.unit)) new_tracker) by apply consistent_new.
  destruct (C19_corrections_complete _ _ _ d_op ex_pm exp (first_top extR) isort 3 1 [] new_tracker d_sensor [d_z1] 0 tt
    Hop Hso Hpi Hex Ht Hrl HrB H3 (Forall_nil _) (cl_nil _ _ _ _ _ _ _) Hse ltac:(simpl; lia)) as (f1 & Hf1).
  destruct (d_corr f1 [d_z1] 0%R) as [|cr1] eqn:Ec1; [discriminate|].
  destruct (Hf1 f1 (Nat.le_refl _) cr1 Ec1) as ((o1 & Ho1) & Hend). destruct (Hend o1 Ho1) as (st1 & ->).
  assert (R1 : d_req (Correct cr1)) by (rewrite <- Ec1; constructor; [exact Hse|simpl; lia]).
  assert (Hrun1 : d_run new_tracker [Correct cr1] (Ok st1)) by (eapply cl_cons; [apply cs_correct; exact Ho1|apply cl_nil]).
  assert (Hc1 : consistent (p_box (G := point) (BB := Datatypes.unit)) st1)
    by exact (calls_ok 3 H3 _ Hbox _ _ _ _ _ _ _ Hrun1 Hc0 (Forall_cons _ (d_sane _ _ R1) (Forall_nil _))).
  destruct (d_first f1 cr1 st1 Ec1 Ho1) as (a & t1 & Hlive & Hr & Hp).
  destruct (C19_corrections_complete _ _ _ d_op ex_pm exp (first_top extR) isort 3 1 [Correct cr1] st1 d_sensor [d_z2] 0 tt
    Hop Hso Hpi Hex Ht Hrl HrB H3 (Forall_cons _ R1 (Forall_nil _)) Hrun1 Hse ltac:(rewrite Hlive; simpl; lia)) as (f2 & Hf2).
  destruct (d_corr f2 [d_z2] 0%R) as [|cr2] eqn:Ec2; [discriminate|].
  destruct (Hf2 f2 (Nat.le_refl _) cr2 Ec2) as ((o2 & Ho2) & Hend2). destruct (Hend2 o2 Ho2) as (st2 & ->).
  assert (R2 : d_req (Correct cr2)) by (rewrite <- Ec2; constructor; [exact Hse|simpl; lia]).
  destruct (d_second f2 cr2 st1 st2 a t1 Ec2 Hc1 Hlive Hr Hp Ho2) as ((t2 & Hin) & Hall).
  exists f1, f2, st1, st2, a, t1, t2. cbv zeta. rewrite Ec1, Ec2. split; [auto|]. split; [exact Hrun1|]. split; [exact Hlive|].
  split; [rewrite Hp; apply (d_init 180); lra|]. split; [eapply cl_cons; [apply cs_correct; exact Ho1|]; eapply cl_cons; [apply cs_correct; exact Ho2|apply cl_nil]|].
  split; [exact Hin|]. intros x g Hx Hg. destruct (Hall x g Hx Hg) as (l & El & Hl). unfold place. cbn [g_x0 g_x1 d_op]. rewrite El. apply d_far. exact Hl.
Qed.
