(** A run in which scoring the tracker leads to undefined behaviour in a later
    correction: nine targets on the equator. *)
From Coq Require Import List Arith NArith ZArith Bool Reals Lra Lia Permutation.
Import ListNotations.
From Verif Require Cf CfMain EvalGeo.
From Verif Require Import Res Scalar LapBase RTree RTreeSpec RTreeProofs RTreeInst CC Murty MurtyMain Cluster ClusterSpec ClusterMain GM GMSpec GMProofs
  Tracker TrackerSpec TrackerProofs TrackerCluster TrackerMain TrackerHist TrackerOps TrackerOpsSpec TrackerOpsProofs TrackerOpsMain PropsGM PropsTrackerOps
  Metric MetricMain Eval EvalSpec EvalProofs EvalMain.
Local Open Scope nat_scope.

(** A position on the ellipsoid as Gaussian with a box of one metre to each side;
    every report is at latitude 0, longitude 30. *)
Definition w_box (g : point) : aabb := mkAabb (fst g - 1) (snd g - 1) (fst g + 1) (snd g + 1).
Definition w_ll (p o : point) : point := match Cf.ne2ll p o with Some q => q | None => (0, 0)%R end.
Definition w_world : rect (ext R) := mkRect (Fin (-90)%R) (Fin (-180)%R) (Fin 90%R) (Fin 180%R).
Definition w_op : ops point Datatypes.unit Datatypes.unit := mkOps point Datatypes.unit Datatypes.unit
  w_ll fst snd w_box (fun o g => Cf.ll2ne g o) (fun o g => w_ll g o) (fun _ _ g => g) (fun _ g => g)
  (fun _ => tt) (fun _ b => b) (fun _ => Fin 1%R) (fun _ => (0, 30)%R) (fun _ z => z) (fun _ z => z)
  (fun _ => w_world) (fun _ => (1 / 2)%R) (fun _ _ => 1%R) (fun _ g => g) (fun _ => (0, 30)%R).
Definition w_sensor : sensor (BB := Datatypes.unit) := mkSensor w_world (fun _ => true) 9 (1 - 1 / 10000000) (fun _ _ _ => 1000).
Notation w_pdf := (pdf (G := point) (BB := Datatypes.unit)).
Definition w_mean (p : w_pdf) : list R := [fst (p_pos w_op (p_c p)); snd (p_pos w_op (p_c p))].
Definition w_ne (o : point) (y : list R) : list R :=
  let q := Cf.ll2ne (nth 0 y 0, nth 1 y 0)%R o in [fst q; snd q].
Definition w_corr (fuel : nat) (scan : list Datatypes.unit) : call (P := w_pdf) (Rep := Datatypes.unit) :=
  correct_op w_op ex_pm exp (first_top extR) isort tt w_sensor fuel scan 0%R.
Definition w_truth : list (list R) := repeat [0; -30]%R 9.
Notation w_run := (calls (volR 3) p_box (p_norm w_op) (r_lim ex_pm) (cov_lim ex_pm) (rB_max ex_pm)).
Notation w_erun := (ecalls (fun p => p_pos w_op (p_c p)) w_mean (pdf_local w_op) (pdf_global w_op) w_ne
                      (volR 3) p_box (p_norm w_op) (r_lim ex_pm) (cov_lim ex_pm) (rB_max ex_pm)).
Notation w_req := (request w_op ex_pm exp (first_top extR) isort 9).

Lemma w_op_sound : sound_ops w_op.
Proof. split; [intros; simpl; lra|]. split; [intros; simpl; lra|]. intros z. repeat split; eexists; reflexivity. Qed.
Lemma w_sensor_sound : sound_sensor w_sensor.
Proof. split; [repeat split; eexists; reflexivity|]. simpl. split; [lra|]. split; [lra|]. intros; lia. Qed.

(** ** The boxes *)
Lemma w_local_box g : local_aabbox (g_x0 w_op) (g_x1 w_op) (g_box w_op) [(1%R, g)] = Some (w_box g).
Proof.
  unfold local_aabbox. cbn [fold_left snd g_x0 g_x1 g_box w_op]. unfold w_box. cbn [GM.min0 GM.min1 GM.max0 GM.max1]. f_equal.
  f_equal; (apply Rmin_right || apply Rmax_right); lra.
Qed.

Lemma w_global_box e o bb aa : (Rabs e <= 6378199)%R -> (-90 < o < 90)%R ->
  exists a b c d, p_box (pdf_global w_op (mkPdf [(1%R, (0, e)%R)] bb aa (0, o)%R)) = mkRect (Fin a) (Fin b) (Fin c) (Fin d) /\
    (-30 <= a <= c)%R /\ (c <= 30)%R /\ (b <= d)%R /\
    b = (o + atan ((e - 1) / Cf.wgs_a) * 180 / PI)%R /\ d = (o + atan ((e + 1) / Cf.wgs_a) * 180 / PI)%R.
Proof.
  intros He Ho. unfold pdf_global. cbn [p_c p_origin]. rewrite w_local_box. unfold llaabbox, w_box. cbn [GM.min0 GM.min1 GM.max0 GM.max1 fst snd].
  pose proof (Rle_abs e) as He1. pose proof (Rle_abs (- e)) as He2. rewrite Rabs_Ropp in He2.
  destruct (EvalGeo.ne2ll_equatorial (0 - 1) (e - 1) o) as (l1 & E1 & H1 & _); auto.
  { unfold Rabs; destruct (Rcase_abs _); lra. } { unfold Rabs; destruct (Rcase_abs _); lra. }
  destruct (EvalGeo.ne2ll_equatorial (0 + 1) (e + 1) o) as (l2 & E2 & H2 & _); auto.
  { unfold Rabs; destruct (Rcase_abs _); lra. } { unfold Rabs; destruct (Rcase_abs _); lra. }
  cbn [ne2ll w_op]. unfold w_ll. rewrite E1, E2. cbn [fst snd]. unfold p_box. cbn [p_aabb GM.min0 GM.min1 GM.max0 GM.max1].
  set (x1 := (o + atan ((e - 1) / Cf.wgs_a) * 180 / PI)%R). set (x2 := (o + atan ((e + 1) / Cf.wgs_a) * 180 / PI)%R).
  assert (Hx : (x1 <= x2)%R).
  { unfold x1, x2. pose proof PI_RGT_0 as HPI. assert (Ha : (0 < Cf.wgs_a)%R) by (unfold Cf.wgs_a; lra).
    assert (atan ((e - 1) / Cf.wgs_a) < atan ((e + 1) / Cf.wgs_a))%R.
    { apply atan_increasing. apply Rmult_lt_compat_r; [apply Rinv_0_lt_compat; auto|lra]. }
    apply Rplus_le_compat_l. apply Rmult_le_compat_r; [left; apply Rinv_0_lt_compat; auto|]. lra. }
  do 4 eexists. split; [reflexivity|]. rewrite !(Rmin_left x1 x2), !(Rmax_right x1 x2), ?(Rmin_left x1 x2), ?(Rmax_right x1 x2) by auto.
  pose proof (Rle_abs l1). pose proof (Rle_abs l2). pose proof (Rle_abs (- l1)) as h1. pose proof (Rle_abs (- l2)) as h2. rewrite Rabs_Ropp in h1, h2.
  split; [|split; [|split; [auto|split; reflexivity]]]; unfold Rmin, Rmax; repeat destruct (Rle_dec _ _); lra.
Qed.

Definition w_p0 : w_pdf := init_pdf w_op tt tt.
Definition w_p1 : w_pdf := pdf_global w_op (pdf_local w_op (0, 0)%R w_p0).

Lemma w_ll0 o : (-90 < o < 90)%R -> w_ll (0, 0)%R (0, o)%R = (0, o)%R.
Proof.
  intros Ho. unfold w_ll. destruct (EvalGeo.ne2ll_equatorial 0 0 o) as (lat & E & _ & H0); auto; try (rewrite Rabs_R0; lra).
  rewrite E, H0 by auto. unfold Rdiv at 1 2. rewrite Rmult_0_l, atan_0, Rmult_0_l, Rmult_0_l, Rplus_0_r. reflexivity.
Qed.
Lemma w_ne0 o : Cf.ll2ne (0, o)%R (0, o)%R = (0, 0)%R.
Proof.
  pose proof (EvalGeo.ll2ne_equator 0 o) as E. rewrite Rplus_0_r in E. rewrite E. f_equal. unfold Cf.sind. unfold Rdiv. rewrite !Rmult_0_l, sin_0, Rmult_0_r. reflexivity.
Qed.

Lemma w_p0_eq : exists bb aa, w_p0 = pdf_global w_op (mkPdf [(1%R, (0, 0)%R)] bb aa (0, 30)%R).
Proof.
  exists tt. eexists. unfold w_p0, init_pdf. cbv zeta. unfold pdf_local. cbn [p_c p_bbox p_aabb]. unfold p_pos, GM.mean. cbn [fold_left fst snd g_x0 g_x1 w_op r_init].
  replace (0 + 1 * 0)%R with 0%R by ring. replace (0 + 1 * 30)%R with 30%R by ring. unfold gm_linear. cbn [map fst snd g_local w_op]. rewrite w_ne0. reflexivity.
Qed.
Lemma w_p0_c : p_c w_p0 = [(1%R, (0, 30)%R)].
Proof.
  destruct w_p0_eq as (bb & aa & ->). unfold pdf_global. cbn [p_c p_origin]. unfold gm_linear. cbn [map fst snd g_global w_op]. rewrite w_ll0 by lra. reflexivity.
Qed.

Lemma w_p1_eq : exists bb aa, w_p1 = pdf_global w_op (mkPdf [(1%R, (0, Cf.wgs_a / 2)%R)] bb aa (0, 0)%R).
Proof.
  unfold w_p1, pdf_local. rewrite w_p0_c. unfold gm_linear. cbn [map fst snd g_local w_op].
  pose proof (EvalGeo.ll2ne_equator 30 0) as E. rewrite Rplus_0_l in E. rewrite E. unfold Cf.sind. replace (30 * PI / 180)%R with (PI / 6)%R by field.
  rewrite sin_PI6. replace (Cf.wgs_a * (1 / 2))%R with (Cf.wgs_a / 2)%R by field. eauto.
Qed.
Lemma w_p1_c : exists g, p_c w_p1 = [(1%R, g)].
Proof. destruct w_p1_eq as (bb & aa & ->). unfold pdf_global. cbn [p_c]. unfold gm_linear. cbn [map fst]. eauto. Qed.

Lemma w_box0 : exists a b c d, p_box w_p0 = mkRect (Fin a) (Fin b) (Fin c) (Fin d) /\ (-30 <= a <= c)%R /\ (c <= 30)%R /\ (29 < b <= d)%R /\ (d < 31)%R.
Proof.
  destruct w_p0_eq as (bb & aa & ->). destruct (w_global_box 0 30 bb aa) as (a & b & c & d & E & Ha & Hc & Hd & Eb & Ed).
  { rewrite Rabs_R0. lra. } { lra. }
  exists a, b, c, d. split; auto. split; auto. split; auto. pose proof CfMain.pi2_bound as HPI.
  assert (Hx : (0 < atan (1 / Cf.wgs_a) < 1 / 1000000)%R).
  { split; [rewrite <- atan_0; apply atan_increasing; unfold Cf.wgs_a; lra|]. pose proof (EvalGeo.atan_lt (1 / Cf.wgs_a) ltac:(unfold Cf.wgs_a; lra)). unfold Cf.wgs_a in *. lra. }
  replace ((0 - 1) / Cf.wgs_a)%R with (- (1 / Cf.wgs_a))%R in Eb by (unfold Cf.wgs_a; lra). rewrite atan_opp in Eb. rewrite Rplus_0_l in Ed.
  assert (Hy : (0 < atan (1 / Cf.wgs_a) * 180 / PI < 1)%R).
  { split; [apply Rmult_lt_0_compat; [lra|apply Rinv_0_lt_compat; lra]|]. apply (Rmult_lt_reg_r PI); [lra|]. unfold Rdiv at 1. rewrite Rmult_assoc, Rinv_l by lra. lra. }
  replace (- atan (1 / Cf.wgs_a) * 180 / PI)%R with (- (atan (1 / Cf.wgs_a) * 180 / PI))%R in Eb by (field; lra). lra.
Qed.

Lemma w_box1 : exists a b c d, p_box w_p1 = mkRect (Fin a) (Fin b) (Fin c) (Fin d) /\ (d < 29)%R.
Proof.
  destruct w_p1_eq as (bb & aa & ->). destruct (w_global_box (Cf.wgs_a / 2) 0 bb aa) as (a & b & c & d & E & Ha & Hc & Hd & Eb & Ed).
  { unfold Cf.wgs_a. rewrite Rabs_pos_eq; lra. } { lra. }
  exists a, b, c, d. split; auto. rewrite Ed, Rplus_0_l. pose proof CfMain.pi2_bound as HPI.
  assert (Hx : (atan ((Cf.wgs_a / 2 + 1) / Cf.wgs_a) < 501 / 1000)%R).
  { eapply Rlt_trans; [apply EvalGeo.atan_lt|]; unfold Cf.wgs_a; lra. }
  apply (Rmult_lt_reg_r PI); [lra|]. unfold Rdiv at 1. rewrite Rmult_assoc, Rinv_l by lra. lra.
Qed.

Lemma w_apart : ~ meets (p_box w_p1) (p_box w_p0).
Proof.
  destruct w_box0 as (a & b & c & d & E0 & _ & _ & Hb & _). destruct w_box1 as (a' & b' & c' & d' & E1 & Hd).
  rewrite E0, E1. intros (_ & _ & _ & H). cbn [RTree.min1 RTree.max1] in H. apply le_FF_iff in H. lra.
Qed.
Lemma w_seen : meets w_world (p_box w_p0).
Proof.
  destruct w_box0 as (a & b & c & d & E0 & Ha & Hc & Hb & Hd). rewrite E0. unfold meets, touches, w_world. cbn [RTree.min0 RTree.max0 RTree.min1 RTree.max1].
  repeat split; apply le_FF_iff; lra.
Qed.

(** ** A missed detection *)
Lemma w_pd id j i : pd w_sensor id j i = (1 - 1 / 10000000)%R.
Proof.
  unfold pd. cbn [sn_pD sn_hits w_sensor]. replace (INR 1000) with 1000%R by (rewrite INR_IZR_INZ; reflexivity). field.
Qed.

Lemma w_update : exists f0, forall fuel, f0 <= fuel -> forall (t : target (P := w_pdf)) g, tg_r t = Fin (8 / 10)%R -> p_c (tg_pdf t) = [(1%R, g)] ->
  exists t', cluster_update w_op ex_pm exp (first_top extR) isort w_sensor fuel [] [t] = Some ([t'], []) /\ tg_r t' = Fin 0%R.
Proof.
  set (tin := mkTin (8 / 10) [] (1 / 10000000)).
  assert (Hv : forall t, In t [tin] -> valid_target 0 t) by (intros t [<-|[]]; unfold valid_target; simpl; repeat split; try lra; tauto).
  destruct (correct_returns exp (first_top extR) first_top_valid (w_lim ex_pm) (nhyp_max ex_pm) 0 [tin] Hv ltac:(simpl; lia)) as (_ & f0 & out & Hrun).
  exists f0. intros fuel Hf t g Er Ec. specialize (Hrun fuel Hf).
  pose proof (lone_target (first_top extR) (w_lim ex_pm) (nhyp_max ex_pm) fuel (8 / 10) (1 / 10000000) out first_top_valid ltac:(lra) ltac:(lra)
    ltac:(simpl; lra) ltac:(simpl; lra) Hrun) as Hr. cbv zeta in Hr.
  destruct (Rlt_dec _ (1 / 1000000)) as [_|Hno]; [|exfalso; apply Hno; lra].
  unfold cluster_update. change (30 <? length [t]) with false. cbn iota. set (o := center w_op [] [t]). cbn [map]. 
  set (t1 := set_pdf t (tg_r t) (pdf_local w_op o (tg_pdf t)) (tg_new t)).
  assert (Et1 : target_input w_op w_sensor [] t1 = Some tin).
  { unfold target_input, t1. cbn [tg_r set_pdf]. rewrite Er. unfold against. cbn [length seq combine map tg_pdf tg_id].
    cbn [set_pdf tg_pdf pdf_local p_c]. rewrite Ec. unfold tin. do 2 f_equal. unfold gm_missed, missed_eta, gm_linear.
    cbn [map length seq combine fold_left fst snd]. rewrite w_pd. lra. }
  cbn [all_some]. rewrite Et1. cbn [length]. rewrite Hrun.
  unfold correct in Hrun. apply bind_ok in Hrun. destruct Hrun as (((n, ws), Rm) & _ & Eo).
  destruct n as [|n]; inversion Eo; subst out; cbn [c_r c_n c_R] in *.
  - exfalso. cbn in Hr. injection Hr as Hr. lra.
  - change (S n =? 0) with false. cbn iota. cbn [length seq combine map fst snd all_some]. set (row := row_of 0 0 _) in *. cbn [length seq map] in Hr. fold row in Hr.
    unfold target_update. destruct (target_correct row) as (r, joins) eqn:Et. cbn [fst] in Hr. injection Hr as ->.
    assert (joins = false) as ->.
    { unfold target_correct in Et. destruct (nle extR _ (esum row)) eqn:En; inversion Et; auto. exfalso. rewrite H0, le_FF in En.
      destruct (Rleb_spec (1 / 1000000) 0); [lra|discriminate]. }
    eexists. split; reflexivity.
Qed.

(** ** The run *)
Lemma for_all_apply {P} (f : target (P := P) -> target (P := P)) : forall l (st : tracker (P := P)), NoDup l -> (forall a, In a l -> heap st a <> None) ->
  exists st', for_each (apply_to (fun _ => f)) l st = Ok st' /\ tree st' = tree st /\ targets st' = targets st /\
    forall a, In a l -> heap st' a = option_map f (heap st a).
Proof.
  assert (Hk : forall l (st st' : tracker (P := P)), for_each (apply_to (fun _ => f)) l st = Ok st' -> forall a, ~ In a l -> heap st' a = heap st a).
  { induction l as [|b l IH]; intros st st' E a Ha; cbn [for_each] in E; [inversion E; auto|]. apply bind_ok in E. destruct E as (st1 & E1 & E).
    rewrite (IH st1 st' E) by (intros H; apply Ha; simpl; auto). unfold apply_to, write, deref in E1. destruct (heap st b); cbn [bind] in E1; inversion E1; subst.
    cbn [heap]. unfold heap_upd. destruct (Nat.eqb_spec a b) as [->|]; auto. exfalso. apply Ha. simpl; auto. }
  induction l as [|a l IH]; intros st Hn Hl; cbn [for_each]; [exists st; repeat (split; auto); intros a []|].
  inversion Hn as [|? ? Hna Hn']; subst. destruct (heap st a) as [t|] eqn:Et; [|destruct (Hl a ltac:(simpl; auto) Et)].
  assert (E1 : apply_to (fun _ => f) a st = Ok (mkTracker (heap_upd (heap st) a (Some (f t))) (targets st) (tree st) (next_id st))).
  { unfold apply_to, write, deref. rewrite Et. reflexivity. }
  rewrite E1. cbn [bind]. match goal with |- context [for_each _ _ ?s] => set (st1 := s) end.
  assert (Hh : forall b, heap st1 b = if b =? a then Some (f t) else heap st b) by (intros b; reflexivity).
  destruct (IH st1 Hn') as (st' & E & E2 & E3 & H). { intros b Hb. rewrite Hh. destruct (b =? a); [congruence|apply Hl; simpl; auto]. }
  exists st'. split; auto. split; auto. split; auto. intros b [<-|Hb].
  - rewrite (Hk _ _ _ E) by auto. rewrite Hh, Nat.eqb_refl, Et. reflexivity.
  - rewrite H by auto. rewrite Hh. destruct (Nat.eqb_spec b a) as [->|]; [contradiction|reflexivity].
Qed.

Lemma fold_sum (f : point -> R) x l : (forall p, In p l -> f p = x) -> forall a, fold_left (fun a p => a + f p)%R l a = (a + INR (length l) * x)%R.
Proof.
  induction l as [|p l IH]; intros H a; cbn [fold_left]; [simpl; lra|]. rewrite IH by (intros q Hq; apply H; simpl; auto).
  rewrite (H p) by (simpl; auto). cbn [length]. rewrite S_INR. ring.
Qed.

Lemma w_evaluation : exists f1 f2 f3,
  let c1 := w_corr f1 (repeat tt 9) in
  let c3 := w_corr f3 [] in
  let e := Score false f2 w_truth None 100 2 in
  Forall w_req [c1; c3; c3] /\
  w_erun new_tracker [Call c1; e; Call c3; Call c3] UB /\
  forall o, w_run new_tracker [c1; c3; c3] o -> o <> UB.
Proof.
  assert (Hex : forall N ts, no_underflow exp N ts) by (intros; apply exp_no_underflow).
  assert (Ht : (0 < tscale ex_pm)%R) by (simpl; lra). assert (Hrl : (0 < r_lim ex_pm)%R) by (simpl; lra).
  assert (HrB : (0 <= rB_max ex_pm <= 1)%R) by (simpl; lra). assert (H3 : (0 < 3)%R) by lra.
  pose proof (isort_valid point) as Hso. pose proof first_top_valid as Hpi. pose proof w_op_sound as Hop. pose proof w_sensor_sound as Hse.
  assert (Hbox := p_box_real (G := point) (BB := Datatypes.unit)).
  assert (Hc0 : consistent (p_box (G := point) (BB := Datatypes.unit)) new_tracker) by apply consistent_new.
  destruct (C19_corrections_complete _ _ _ w_op ex_pm exp (first_top extR) isort 3 9 [] new_tracker w_sensor (repeat tt 9) 0 tt
    Hop Hso Hpi Hex Ht Hrl HrB H3 (Forall_nil _) (cl_nil _ _ _ _ _ _ _) Hse ltac:(simpl; lia)) as (f1 & Hf1).
  fold (w_corr f1 (repeat tt 9)) in Hf1.
  destruct (w_corr f1 (repeat tt 9)) as [|cr1] eqn:Ec1; [discriminate|].
  destruct (Hf1 f1 (Nat.le_refl _) cr1 Ec1) as ((o1 & Ho1) & Hend). destruct (Hend o1 Ho1) as (st1 & ->).
  assert (R1 : w_req (Correct cr1)) by (rewrite <- Ec1; constructor; [exact Hse|simpl; lia]).
  assert (Hs1 : sane_call (Correct cr1)) by (eapply request_sane; [exact Hop|exact R1]).
  assert (Hrun1 : w_run new_tracker [Correct cr1] (Ok st1)) by (eapply cl_cons; [apply cs_correct; exact Ho1|apply cl_nil]).
  assert (Hc1 : consistent (p_box (G := point) (BB := Datatypes.unit)) st1)
    by exact (calls_ok 3 H3 _ Hbox _ _ _ _ _ _ _ Hrun1 Hc0 (Forall_cons _ Hs1 (Forall_nil _))).
  assert (Hlive : length (live st1) = 9 /\ forall x, In x (live st1) -> tg_r (snd x) = Fin (8 / 10)%R /\ tg_pdf (snd x) = w_p0).
  { destruct (correct_births_on 3 H3 _ Hbox (p_norm w_op) (r_lim ex_pm) (cov_lim ex_pm) (rB_max ex_pm) (fun _ _ => False) cr1 new_tracker st1 Hrl Hc0 Hs1)
      as (old & new & ws & rs & El & _ & Hold & Hlw & _ & Hsrc & Er & Hp & Hpdf); auto.
    { intros rs ts ts' rs' E Hf. destruct ts as [|t ts]; [|inversion Hf; contradiction]. inversion Ec1; subst cr1. cbn [s_update] in E.
      intros dx Hx. eapply (cluster_update_ok w_op ex_pm exp (first_top extR) isort Hop w_sensor Hse Hso Hpi Hex) in E; [|constructor].
      destruct E as (_ & E & _). destruct (E dx Hx) as (w & Ew & Hw). exists w. split; auto. lra. }
    assert (Hold' : old = []) by (destruct old as [|(a, t) old]; auto; destruct (Hold a t ltac:(simpl; auto)) as (t0 & [] & _)).
    assert (Hw1 : forall w, In w ws -> w = 1%R).
    { intros w Hw. destruct (Hsrc w Hw) as (rs0 & ts & ts' & rs' & d & E & Hin & Hf). destruct ts as [|t ts]; [|inversion Hf; contradiction].
      inversion Ec1; subst cr1. cbn [s_update] in E. unfold cluster_update in E. cbn in E. inversion E; subst. apply in_combine_r in Hin.
      apply repeat_spec in Hin. inversion Hin. reflexivity. }
    inversion Ec1; subst cr1. change (length ws = 9) in Hlw.
    assert (Ews : ws = repeat 1%R 9) by (rewrite <- Hlw; clear -Hw1; induction ws as [|w ws IH]; simpl; auto; rewrite (Hw1 w) by (simpl; auto); f_equal; apply IH; intros; apply Hw1; simpl; auto).
    assert (Ebr : birth_rs (r_lim ex_pm) (rB_max ex_pm) (sn_lambdaB w_sensor) ws = repeat (8 / 10)%R 9).
    { rewrite Ews. unfold birth_rs. replace (Rsum (repeat 1%R 9)) with 9%R by (unfold Rsum; simpl; lra). cbn [sn_lambdaB w_sensor ex_pm r_lim rB_max].
      destruct (Rle_dec (5 / 100) 9); [|exfalso; lra]. cbn [repeat flat_map]. destruct (Rle_dec (5 / 100) (1 * 9 / 9)); [|exfalso; lra].
      rewrite Rmin_right by lra. reflexivity. }
    change (Permutation rs (birth_rs (r_lim ex_pm) (rB_max ex_pm) (sn_lambdaB w_sensor) ws)) in Hp. rewrite Ebr in Hp. assert (Hrs : forall r, In r rs -> r = (8 / 10)%R) by (intros r Hin; eapply repeat_spec, Permutation_in; eauto).
    rewrite El, Hold'. cbn [app]. split.
    - rewrite <- (map_length (fun x => tg_r (snd x)) new), Er, map_length, (Permutation_length Hp), repeat_length. reflexivity.
    - intros x Hx. split; [|destruct (Hpdf x Hx) as (_ & _ & [] & ->); reflexivity].
      assert (Hin : In (tg_r (snd x)) (map Fin rs)) by (rewrite <- Er; apply (in_map (fun x => tg_r (snd x))); auto).
      apply in_map_iff in Hin. destruct Hin as (r & <- & Hr). rewrite (Hrs r Hr). reflexivity. }
  destruct Hlive as (Hlen & Hall). pose proof Hc1 as (Hls & Hidx & Hbal). pose proof Hls as (Hnd & Hheap).
  assert (Hin_live : forall a t, heap st1 a = Some t -> In (a, t) (live st1)).
  { intros a t E. unfold live. apply in_flat_map. exists a. rewrite E. split; [|simpl; auto]. apply Hheap. congruence. }
  assert (Htgt : forall a t, heap st1 a = Some t -> tg_r t = Fin (8 / 10)%R /\ tg_pdf t = w_p0) by (intros a t E; exact (Hall (a, t) (Hin_live a t E))).
  assert (Hlt : length (targets st1) = 9).
  { rewrite <- Hlen. unfold live. assert (Hal : forall a, In a (targets st1) -> heap st1 a <> None) by (intros a Ha; apply Hheap; auto). clear -Hal.
    induction (targets st1) as [|a l IH]; auto. cbn [flat_map]. rewrite app_length, <- IH by (intros; apply Hal; simpl; auto).
    specialize (Hal a ltac:(simpl; auto)). destruct (heap st1 a); [reflexivity|congruence]. }
  (* the evaluation *)
  assert (Hts : exists ts, map_res (deref st1) (targets st1) = Ok ts /\ length ts = 9 /\ forall t, In t ts -> tg_pdf t = w_p0).
  { rewrite <- Hlt. assert (Hal : forall a, In a (targets st1) -> heap st1 a <> None) by (intros a Ha; apply Hheap; auto). clear -Hal Htgt.
    induction (targets st1) as [|a l IH]; [exists []; repeat split; auto; intros t []|].
    destruct IH as (ts & E & L & H); [intros b Hb; apply Hal; simpl; auto|]. destruct (heap st1 a) as [t|] eqn:Et; [|destruct (Hal a ltac:(simpl; auto) Et)].
    exists (t :: ts). cbn [map_res]. unfold deref at 1. rewrite Et. cbn [bind]. rewrite E. cbn [bind length]. repeat split; auto.
    intros u [<-|Hu]; auto. eapply Htgt; eauto. }
  destruct Hts as (ts & Ets & Lts & Hts).
  assert (Ecen : centre (fun p => p_pos w_op (p_c p)) w_truth st1 = Ok (0, 0)%R).
  { unfold centre. rewrite Ets. cbn [bind]. f_equal. rewrite !fold_left_app.
    assert (Epos : forall p, In p (map (fun t => p_pos w_op (p_c (tg_pdf t))) ts) -> p = (0, 30)%R).
    { intros p Hp. apply in_map_iff in Hp. destruct Hp as (t & <- & Hin). rewrite (Hts t Hin), w_p0_c. unfold p_pos, GM.mean. cbn [fold_left fst snd g_x0 g_x1 w_op].
      f_equal; ring. }
    assert (Etr : forall p, In p (map (fun y => (nth 0 y 0, nth 1 y 0)%R) w_truth) -> p = (0, -30)%R).
    { intros p Hp. apply in_map_iff in Hp. destruct Hp as (y & <- & Hin). apply repeat_spec in Hin. subst y. reflexivity. }
    rewrite (fold_sum fst 0 (map (fun y => (nth 0 y 0, nth 1 y 0)%R) w_truth)) by (intros p Hp; rewrite (Etr p Hp); reflexivity).
    rewrite (fold_sum snd (-30) (map (fun y => (nth 0 y 0, nth 1 y 0)%R) w_truth)) by (intros p Hp; rewrite (Etr p Hp); reflexivity).
    rewrite (fold_sum fst 0) by (intros p Hp; rewrite (Epos p Hp); reflexivity).
    rewrite (fold_sum snd 30) by (intros p Hp; rewrite (Epos p Hp); reflexivity).
    rewrite !map_length, Lts. change (length w_truth) with 9. f_equal; simpl; lra. }
  destruct (for_all_apply (reframe (pdf_local w_op) (pdf_global w_op) (0, 0)%R) (targets st1) st1 Hnd) as (st2 & Est2 & Etree & Etgs & Hheap2).
  { intros a Ha. apply Hheap. auto. }
  destruct (ospa_bounded (map (fun t => w_mean (pdf_local w_op (0, 0)%R (tg_pdf t))) ts) (map (w_ne (0, 0)%R) w_truth) 100 2) as (_ & f2 & v & Hospa & _); [|lra|lra|].
  { rewrite !map_length, Lts. change (length w_truth) with 9. simpl. lia. }
  assert (Hscore : score (fun p => p_pos w_op (p_c p)) w_mean (pdf_local w_op) (pdf_global w_op) w_ne false f2 w_truth None 100 2 st1 = Ok (Fin v, st2)).
  { unfold score. rewrite Ecen. cbn [bind]. unfold evaluate. rewrite Ets. cbn [bind]. rewrite Est2. cbn [bind]. rewrite Hospa by lia. reflexivity. }
  (* the correction without reports *)
  destruct w_update as (f3 & Hup). exists f1, f2, f3. cbv zeta. rewrite Ec1.
  assert (R3 : w_req (w_corr f3 [])) by (constructor; [exact Hse|simpl; lia]).
  destruct (w_corr f3 []) as [|cr3] eqn:Ec3; [discriminate|].
  split; [auto|]. split.
  2:{ intros o Ho ->. assert (Hsane : Forall sane_call [Correct cr1; Correct cr3; Correct cr3]).
      { repeat apply Forall_cons; auto; eapply request_sane; eauto. }
      exact (calls_ok 3 H3 _ Hbox _ _ _ _ _ _ _ Ho Hc0 Hsane). }
  destruct (query_ok (p_box (G := point) (BB := Datatypes.unit)) st1 w_world Hc1) as (l & El & Hndl & Hl); [repeat split; eexists; reflexivity|].
  assert (Hhl : forall a, In a l -> exists t, heap st2 a = Some t /\ tg_r t = Fin (8 / 10)%R /\ tg_pdf t = w_p1).
  { intros a Ha. apply Hl in Ha. destruct Ha as (t & Et & _). destruct (Htgt a t Et) as (Er & Ep). exists (reframe (pdf_local w_op) (pdf_global w_op) (0, 0)%R t).
    split; [rewrite Hheap2, Et; [reflexivity|apply Hheap; congruence]|]. unfold reframe, with_pdf. cbn [tg_r tg_pdf]. rewrite Ep. auto. }
  assert (Hent : 8 < length (entries (tree st2))).
  { rewrite Etree. unfold indexed in Hidx. rewrite (Permutation_length Hidx), map_length, Hlen. lia. }
  assert (Hsame : forall e, In e (entries (tree st2)) -> fst e = p_box w_p0).
  { intros e He. rewrite Etree in He. unfold indexed in Hidx. apply (Permutation_in _ Hidx) in He. apply in_map_iff in He. destruct He as (x & <- & Hx).
    cbn [fst]. destruct (Hall x Hx) as (_ & ->). reflexivity. }
  assert (Escan : s_scan cr3 = [] /\ s_fov cr3 = w_world /\ (forall p, s_sees cr3 p = true) /\ s_update cr3 = cluster_update w_op ex_pm exp (first_top extR) isort w_sensor f3).
  { inversion Ec3. repeat split. }
  destruct Escan as (Es1 & Es2 & Es3 & Es4).
  assert (Eq2 : query (s_fov cr3) st2 = Ok l) by (rewrite Es2; unfold query in *; rewrite Etree; exact El).
  destruct (correct_doomed p_box (p_norm w_op) (r_lim ex_pm) (cov_lim ex_pm) (rB_max ex_pm) (volR 3) cr3 st2 l (tree st2) Es1 Hrl Es3 Eq2 Hndl eq_refl)
    as (st3 & Hcall & Etree3 & Hdead).
  { intros a Ha. destruct (Hhl a Ha) as (t & Et & Er & Ep). exists t. split; auto. intros cid. unfold doomed. exists (recid cid t).
    destruct w_p1_c as (g & Eg). destruct (Hup f3 (Nat.le_refl _) (recid cid t) g Er) as (t' & Eu & Er'); [cbn; rewrite Ep; exact Eg|].
    exists t'. split; auto. split; [|split; [rewrite Es4; exact Eu|]].
    - cbn [recid tg_pdf]. rewrite Ep. apply remove_stuck with (B := p_box w_p0); auto; [|apply w_apart]. rewrite Etree. exact Hbal.
    - unfold viable. rewrite Er', lt_FF. destruct (Rltb_spec 0 (r_lim ex_pm)); [reflexivity|contradiction]. }
  assert (Hne : exists a l', l = a :: l').
  { destruct (live st1) as [|(a, t) lv] eqn:Elv; [discriminate|]. assert (Hx : In (a, t) (live st1)) by (rewrite Elv; simpl; auto).
    unfold live in Hx. apply in_flat_map in Hx. destruct Hx as (b & _ & Hb). destruct (heap st1 b) as [u|] eqn:Eb; [|contradiction].
    destruct Hb as [E|[]]. injection E as -> ->. assert (Ha : In a l) by (apply Hl; exists t; split; auto; destruct (Htgt a t Eb) as (_ & ->); apply w_seen).
    destruct l as [|x l']; [contradiction|]. eauto. }
  eapply el_cons; [apply es_call, cs_correct; exact Ho1|].
  eapply el_cons; [replace (Ok st2) with (after (score (fun p => p_pos w_op (p_c p)) w_mean (pdf_local w_op) (pdf_global w_op) w_ne false f2 w_truth None 100 2 st1))
    by (rewrite Hscore; reflexivity); apply es_score|].
  eapply el_cons; [apply es_call, cs_correct; exact Hcall|].
  apply el_ub, es_call, cs_correct, cc_bad. unfold in_view. assert (query (s_fov cr3) st3 = Ok l) as -> by (unfold query in *; rewrite Etree3; exact Eq2).
  cbn [bind]. destruct Hne as (a & l' & ->). cbn [map_res]. unfold deref at 1. rewrite Hdead by (simpl; auto). reflexivity.
Qed.
