(** Properties of histories of the tracker with Gaussian mixtures (C19, C59).

    [op]: the operations on Gaussians, reports and coordinates, of which the
    theorems only need that likelihoods are not negative and clutter densities are
    positive ([sound_ops]).  [request ... n]: predictions forward in time and
    corrections with scans of at most [n] reports. *)
From Coq Require Import List Arith NArith Bool Reals Lra Lia Permutation.
Import ListNotations.
From Verif Require Import Res Scalar LapBase RTree RTreeSpec RTreeInst Murty MurtyMain Cluster ClusterSpec ClusterMain
  GM GMSpec GMProofs Tracker TrackerSpec TrackerProofs TrackerMain TrackerHist TrackerOps TrackerOpsSpec TrackerOpsProofs TrackerOpsMain PropsGM.
Local Open Scope nat_scope.

(** *** C19 *)
Theorem C19_tracker_bounds : forall (G BB Rep : Type) (op : ops G BB Rep) pm expf pick sortf unit n cs st,
  sound_ops op -> valid_sort sortf -> valid_pick pick -> (forall N ts, no_underflow expf N ts) ->
  (0 < tscale pm)%R -> (0 < r_lim pm)%R -> (0 <= rB_max pm <= 1)%R -> (0 < unit)%R ->
  Forall (request op pm expf pick sortf n) cs ->
  calls (volR unit) p_box (p_norm op) (r_lim pm) (cov_lim pm) (rB_max pm) new_tracker cs (Ok st) ->
  forall x, In x (live st) -> exists r, tg_r (snd x) = Fin r /\ (0 <= r <= 1)%R.
Proof.
  intros G BB Rep op pm expf pick sortf unit n cs st H1 H2 H3 H4 H5 H6 H7 H8 Hr H x Hx.
  exact (proj1 (history_bounds op pm expf pick sortf H1 H2 H3 H4 H5 H6 H7 unit H8 n cs st Hr H x Hx)).
Qed.
Print Assumptions C19_tracker_bounds.

(** The birth weights given to reports in a cluster of any live targets. *)
Theorem C19_birth_weights : forall (G BB Rep : Type) (op : ops G BB Rep) pm expf pick sortf unit n cs st s fuel rs ts ts' rs',
  sound_ops op -> valid_sort sortf -> valid_pick pick -> (forall N ts, no_underflow expf N ts) ->
  (0 < tscale pm)%R -> (0 < r_lim pm)%R -> (0 <= rB_max pm <= 1)%R -> (0 < unit)%R ->
  Forall (request op pm expf pick sortf n) cs ->
  calls (volR unit) p_box (p_norm op) (r_lim pm) (cov_lim pm) (rB_max pm) new_tracker cs (Ok st) ->
  sound_sensor s ->
  (forall t, In t ts -> exists x, In x (live st) /\ tg_r t = tg_r (snd x) /\ tg_pdf t = tg_pdf (snd x)) ->
  cluster_update op pm expf pick sortf s fuel rs ts = Some (ts', rs') ->
  forall dx, In dx rs' -> exists w, snd dx = Fin w /\ (0 <= w <= 1)%R.
Proof.
  intros G BB Rep op pm expf pick sortf unit n cs st s fuel rs ts ts' rs' H1 H2 H3 H4 H5 H6 H7 H8 Hr H Hs Hts E.
  destruct rs' as [|d rs']; [intros dx []|].
  pose proof (cluster_update_ok op pm expf pick sortf H1 s Hs H2 H3 H4 fuel rs ts ts' (d :: rs')) as X.
  apply X; auto. apply Forall_forall. intros t Ht. destruct (Hts t Ht) as (x & Hx & E1 & E2). unfold good. rewrite E1, E2.
  exact (history_bounds op pm expf pick sortf H1 H2 H3 H4 H5 H6 H7 unit H8 n cs st Hr H x Hx).
Qed.
Print Assumptions C19_birth_weights.

(** With at most 30 targets, a correction ends normally once the assignment
    loops have enough steps. *)
Theorem C19_corrections_complete : forall (G BB Rep : Type) (op : ops G BB Rep) pm expf pick sortf unit n cs st s scan time bb,
  sound_ops op -> valid_sort sortf -> valid_pick pick -> (forall N ts, no_underflow expf N ts) ->
  (0 < tscale pm)%R -> (0 < r_lim pm)%R -> (0 <= rB_max pm <= 1)%R -> (0 < unit)%R ->
  Forall (request op pm expf pick sortf n) cs ->
  calls (volR unit) p_box (p_norm op) (r_lim pm) (cov_lim pm) (rB_max pm) new_tracker cs (Ok st) ->
  sound_sensor s -> Peano.le (length (live st)) 30 ->
  exists f0, forall fuel, Peano.le f0 fuel ->
  forall c, correct_op op pm expf pick sortf bb s fuel scan time = Correct c ->
    (exists o, correct_call (volR unit) p_box (p_norm op) (r_lim pm) (cov_lim pm) (rB_max pm) c st o) /\
    forall o, correct_call (volR unit) p_box (p_norm op) (r_lim pm) (cov_lim pm) (rB_max pm) c st o -> exists st', o = Ok st'.
Proof.
  intros G BB Rep op pm expf pick sortf unit n cs st s scan time bb H1 H2 H3 H4 H5 H6 H7 H8 Hr H Hs H30.
  exact (correction_completes op pm expf pick sortf H1 H2 H3 H4 H5 H6 H7 unit H8 n s scan time bb cs st Hr H Hs H30).
Qed.
Print Assumptions C19_corrections_complete.

(** *** C59 *)
Theorem C59_densities_normalised : forall (G BB Rep : Type) (op : ops G BB Rep) pm expf pick sortf unit n cs st,
  sound_ops op -> valid_sort sortf -> valid_pick pick -> (forall N ts, no_underflow expf N ts) ->
  (0 < tscale pm)%R -> (0 < r_lim pm)%R -> (0 <= rB_max pm <= 1)%R -> (0 < unit)%R ->
  (cw_lim pm <= 1)%R -> (1 / 100000000 * INR (200 * (n + 1)) < r_lim pm)%R ->
  Forall (request op pm expf pick sortf n) cs ->
  calls (volR unit) p_box (p_norm op) (r_lim pm) (cov_lim pm) (rB_max pm) new_tracker cs (Ok st) ->
  forall x, In x (live st) -> density (p_c (tg_pdf (snd x))).
Proof.
  intros G BB Rep op pm expf pick sortf unit n cs st H1 H2 H3 H4 H5 H6 H7 H8 Hcw Hn Hr H.
  exact (history_density op pm expf pick sortf H1 H2 H3 H4 H5 H6 H7 unit H8 n cs st Hcw Hn Hr H).
Qed.
Print Assumptions C59_densities_normalised.

(** ** The hypotheses are met: a flat world with points as Gaussians, two reports
    far apart, a prediction, then a report close to the first target. *)
Definition ex_g_box (g : point) : aabb := mkAabb (fst g - 1) (snd g - 1) (fst g + 1) (snd g + 1).
Definition ex_shift (o g : point) : point := (fst g + fst o, snd g + snd o)%R.
Definition ex_unshift (o g : point) : point := (fst g - fst o, snd g - snd o)%R.
Definition ex_op : ops point Datatypes.unit point := mkOps point Datatypes.unit point
  (fun p o => ex_shift o p) fst snd ex_g_box ex_unshift ex_shift (fun _ _ g => g) (fun _ g => g)
  (fun _ => tt) (fun _ b => b) (fun _ => Fin 1%R) (fun z => z) ex_unshift ex_shift
  (fun z => mkRect (Fin (fst z - 1)%R) (Fin (snd z - 1)%R) (Fin (fst z + 1)%R) (Fin (snd z + 1)%R))
  (fun _ => (1 / 2)%R) (fun _ _ => 1%R) (fun z g => z) (fun z => z).
(** The defaults of params.hpp. *)
Definition ex_pm : params := mkParams (1 / 100) (5 / 100) 100 (8 / 10) (1 / 100) 150 1.
Definition ex_sensor : sensor (BB := Datatypes.unit) :=
  mkSensor (mkRect (Fin (-100)%R) (Fin (-100)%R) (Fin 100%R) (Fin 100%R)) (fun _ => true) 1 (9 / 10) (fun _ _ _ => 1000).
Lemma ex_op_sound : sound_ops ex_op.
Proof. split; [intros; simpl; lra|]. split; [intros; simpl; lra|]. intros z. repeat split; eexists; reflexivity. Qed.
Lemma ex_sensor_sound : sound_sensor ex_sensor.
Proof. split; [repeat split; eexists; reflexivity|]. simpl. split; [lra|]. split; [lra|]. intros; lia. Qed.

Notation ex_req := (request ex_op ex_pm exp (first_top extR) isort 2).
Notation ex_run := (calls (volR 3) p_box (p_norm ex_op) (r_lim ex_pm) (cov_lim ex_pm) (rB_max ex_pm)).
Notation ex_corr := (correct_op ex_op ex_pm exp (first_top extR) isort tt ex_sensor).

Example ex_history : exists f1 f2 st1 st2,
  let c1 := ex_corr f1 [(0, 0)%R; (50, 50)%R] 0%R in
  let c2 := predict_op ex_op ex_pm (NM (99 / 100) []) 1 0 in
  let c3 := ex_corr f2 [(0, 1)%R] 1%R in
  Forall ex_req [c1; c2; c3] /\
  ex_run new_tracker [c1] (Ok st1) /\ length (live st1) = 2 /\
  ex_run new_tracker [c1; c2; c3] (Ok st2) /\
  (cw_lim ex_pm <= 1)%R /\ (1 / 100000000 * INR (200 * (2 + 1)) < r_lim ex_pm)%R.
Proof.
  assert (Hex : forall N ts, no_underflow exp N ts) by (intros; apply exp_no_underflow).
  assert (Ht : (0 < tscale ex_pm)%R) by (simpl; lra). assert (Hrl : (0 < r_lim ex_pm)%R) by (simpl; lra).
  assert (HrB : (0 <= rB_max ex_pm <= 1)%R) by (simpl; lra). assert (H3 : (0 < 3)%R) by lra.
  pose proof (isort_valid point) as Hso. pose proof first_top_valid as Hpi. pose proof ex_op_sound as Hop. pose proof ex_sensor_sound as Hse.
  assert (Hbox := p_box_real (G := point) (BB := Datatypes.unit)).
  assert (Hc0 : consistent (p_box (G := point) (BB := Datatypes.unit)) new_tracker) by apply consistent_new.
  destruct (C19_corrections_complete _ _ _ ex_op ex_pm exp (first_top extR) isort 3 2 [] new_tracker ex_sensor [(0, 0)%R; (50, 50)%R] 0 tt
    Hop Hso Hpi Hex Ht Hrl HrB H3 (Forall_nil _) (cl_nil _ _ _ _ _ _ _) Hse ltac:(simpl; lia)) as (f1 & Hf1).
  destruct (ex_corr f1 [(0, 0)%R; (50, 50)%R] 0%R) as [|cr1] eqn:Ec1; [discriminate|].
  destruct (Hf1 f1 (Nat.le_refl _) cr1 Ec1) as ((o1 & Ho1) & Hend). destruct (Hend o1 Ho1) as (st1 & ->).
  assert (R1 : ex_req (Correct cr1)) by (rewrite <- Ec1; constructor; [exact Hse|simpl; lia]).
  assert (Hs1 : sane_call (Correct cr1)) by (eapply request_sane; [exact Hop|exact R1]).
  assert (Hrun1 : ex_run new_tracker [Correct cr1] (Ok st1)) by (eapply cl_cons; [apply cs_correct; exact Ho1|apply cl_nil]).
  assert (Hc1 : consistent (p_box (G := point) (BB := Datatypes.unit)) st1)
    by exact (calls_ok 3 H3 _ Hbox _ _ _ _ _ _ _ Hrun1 Hc0 (Forall_cons _ Hs1 (Forall_nil _))).
  assert (Hlive : length (live st1) = 2).
  { destruct (correct_births_on 3 H3 _ Hbox (p_norm ex_op) (r_lim ex_pm) (cov_lim ex_pm) (rB_max ex_pm) (fun _ _ => False) cr1 new_tracker st1 Hrl Hc0 Hs1)
      as (old & new & ws & rs & El & _ & Hold & Hlw & _ & Hsrc & Er & Hp & _); auto.
    { intros rs ts ts' rs' E Hf. destruct ts as [|t ts]; [|inversion Hf; contradiction]. inversion Ec1; subst cr1. cbn [s_update] in E.
      intros dx Hx. eapply (cluster_update_ok ex_op ex_pm exp (first_top extR) isort Hop ex_sensor Hse Hso Hpi Hex) in E; [|constructor].
      destruct E as (_ & E & _). destruct (E dx Hx) as (w & Ew & Hw). exists w. split; auto. lra. }
    assert (Hold' : old = []) by (destruct old as [|(a, t) old]; auto; destruct (Hold a t ltac:(simpl; auto)) as (t0 & [] & _)).
    assert (Hw1 : forall w, In w ws -> w = 1%R).
    { intros w Hw. destruct (Hsrc w Hw) as (rs0 & ts & ts' & rs' & d & E & Hin & Hf). destruct ts as [|t ts]; [|inversion Hf; contradiction].
      inversion Ec1; subst cr1. cbn [s_update] in E. unfold cluster_update in E. cbn in E. inversion E; subst. apply in_combine_r in Hin.
      apply repeat_spec in Hin. inversion Hin. reflexivity. }
    inversion Ec1; subst cr1. cbn [s_scan length] in Hlw. destruct ws as [|w1 [|w2 [|? ?]]]; try discriminate.
    assert (w1 = 1%R) by (apply Hw1; simpl; auto). assert (w2 = 1%R) by (apply Hw1; simpl; auto). subst.
    rewrite El. simpl. rewrite <- (map_length (fun x => tg_r (snd x)) new), Er, map_length, (Permutation_length Hp).
    cbn [s_lambdaB ex_sensor sn_lambdaB ex_pm r_lim rB_max]. unfold birth_rs, Rsum. simpl. destruct (Rle_dec (5 / 100) (1 + (1 + 0))); [|exfalso; lra].
    destruct (Rle_dec (5 / 100) (1 * 1 / (1 + (1 + 0)))); auto. exfalso. lra. }
  set (c2 := predict_op ex_op ex_pm (NM (99 / 100) []) 1 0).
  assert (R2 : ex_req c2) by (apply ask_predict; simpl; lra).
  destruct (predict_ok 3 H3 _ Hbox (p_norm ex_op) (r_lim ex_pm) (cov_lim ex_pm) (fun _ => predict_target ex_op ex_pm (NM (99 / 100) []) 1 0) st1 Hc1)
    as (st2 & Ep & Hc2 & _ & Hh & Ht2).
  assert (Hlen : forall st : tracker (P := pdf (G := point) (BB := Datatypes.unit)), listed st -> length (live st) = length (targets st)).
  { intros st (_ & Hl). unfold live. assert (Hall : forall a, In a (targets st) -> heap st a <> None) by (intros a Ha; apply Hl; auto). clear Hl.
    induction (targets st) as [|a l IH]; auto. simpl. rewrite app_length, IH by (intros; apply Hall; simpl; auto).
    specialize (Hall a ltac:(simpl; auto)). destruct (heap st a); [reflexivity|congruence]. }
  assert (H30 : length (live st2) <= 30).
  { rewrite Hlen by apply Hc2. rewrite Ht2. eapply Nat.le_trans; [|instantiate (1 := 2); lia]. rewrite <- Hlive, (Hlen st1) by apply Hc1.
    clear. induction (targets st1) as [|a l IH]; simpl; auto. destruct (heap st2 a); simpl; lia. }
  assert (Hrun2 : ex_run new_tracker [Correct cr1; c2] (Ok st2)).
  { eapply cl_cons; [apply cs_correct; exact Ho1|]. eapply cl_cons; [rewrite <- Ep; apply cs_predict|apply cl_nil]. }
  destruct (C19_corrections_complete _ _ _ ex_op ex_pm exp (first_top extR) isort 3 2 [Correct cr1; c2] st2 ex_sensor [(0, 1)%R] 1 tt
    Hop Hso Hpi Hex Ht Hrl HrB H3 (Forall_cons _ R1 (Forall_cons _ R2 (Forall_nil _))) Hrun2 Hse H30) as (f2 & Hf2).
  destruct (ex_corr f2 [(0, 1)%R] 1%R) as [|cr3] eqn:Ec3; [discriminate|].
  destruct (Hf2 f2 (Nat.le_refl _) cr3 Ec3) as ((o3 & Ho3) & Hend3). destruct (Hend3 o3 Ho3) as (st3 & ->).
  assert (R3 : ex_req (Correct cr3)) by (rewrite <- Ec3; constructor; [exact Hse|simpl; lia]).
  exists f1, f2, st1, st3. cbv zeta. rewrite Ec1, Ec3. fold c2. split; [auto|]. split; [exact Hrun1|]. split; [exact Hlive|]. split.
  - eapply cl_cons; [apply cs_correct; exact Ho1|]. eapply cl_cons; [rewrite <- Ep; apply cs_predict|].
    eapply cl_cons; [apply cs_correct; exact Ho3|apply cl_nil].
  - simpl cw_lim. simpl r_lim. split; [lra|]. replace (INR (200 * (2 + 1))) with 600%R; [lra|]. rewrite INR_IZR_INZ. reflexivity.
Qed.
