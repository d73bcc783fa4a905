(** Prediction, missed detections and the cost matrix in doubles: proofs. *)
From Coq Require Import List Arith Bool Lia ZArith Reals Lra.
From Flocq Require Import Core BinarySingleNaN IEEE754.PrimFloat.
From Coq Require Import Floats.
Import ListNotations.
From Verif Require Import Res Scalar Lap Murty MurtyProofs MurtyFloatMain.
From Verif Require Import FloatBase FloatExt LapRnd Cluster ClusterFloat FloatSum ClusterFloatLoop ClusterFloatNum ClusterFloatClose ClusterFloatMain.
From Verif Require Import GMFloat GMFloatSpec GMFloatProofs.
Local Open Scope R_scope.
Notation bp := (bpow radix2).

Lemma few_u ws : few ws -> INR (length ws) * uro <= bp (-33) /\ 0 <= INR (length ws) <= bp 20 /\
  INR (length ws) * bp (-1075) <= bp (-1000).
Proof.
  intros H. pose proof (few_INR ws H) as Hn. split; [|split].
  - unfold uro. replace (bp (-33)) with (bp 20 * bp (-53)) by (rewrite <- bpow_plus; reflexivity).
    apply Rmult_le_compat_r; [apply bpow_ge_0|lra].
  - exact Hn.
  - apply Rle_trans with (bp 20 * bp (-1075)); [apply Rmult_le_compat_r; [apply bpow_ge_0|lra]|]. rewrite <- bpow_plus. apply bpow_le. lia.
Qed.

Lemma uro_le : uro <= bp (-53).
Proof. unfold uro. lra. Qed.
Lemma tiny_le : bp (-1000) <= uro / 1000.
Proof.
  unfold uro. apply Rle_trans with (bp (-63)); [apply bpow_le; lia|].
  replace (bp (-63)) with (bp (-53) * bp (-10)) by (rewrite <- bpow_plus; reflexivity). pose proof (bpow_gt_0 radix2 (-53)).
  unfold Rdiv. apply Rmult_le_compat_l; [lra|]. simpl. lra.
Qed.
Lemma tiny75 : 0 <= bp (-1075) <= bp (-1000).
Proof. split; [apply bpow_ge_0|apply bpow_le; lia]. Qed.

(** Multiplying numbers up to [A] and up to 1. *)
Lemma mul_le x y A : upto A x -> A <= bp 1000 -> upto 1 y -> upto A (x * y)%float /\ fval (x * y)%float <= fval x /\
  fval (x * y)%float = rnd (fval x * fval y).
Proof.
  intros [Fx Hx] HA [Fy Hy].
  assert (H0 : 0 <= fval x * fval y <= fval x) by (split; [apply Rmult_le_pos; lra|]; rewrite <- (Rmult_1_r (fval x)) at 2; apply Rmult_le_compat_l; lra).
  destruct (f_mul x y 1000 ltac:(lia) Fx Fy) as [F V].
  { rewrite Rabs_pos_eq by lra. lra. }
  pose proof (rnd_pos _ (proj1 H0)) as Hp. pose proof (rnd_le _ _ (proj2 H0)) as Hl. rewrite rnd_val in Hl.
  rewrite V. split; [split; auto; rewrite V; lra|]. split; auto.
Qed.

(** ** Prediction *)
Section Predict.
Variable ws : list float.
Notation n := (INR (length ws)).
Hypothesis Hw : forall w, In w ws -> upto 1 w.
Hypothesis Hlen : few ws.

Lemma eta_ok d : 0 <= d <= (4 * n + 4) * uro -> Rabs (vsum ws - 1) <= d ->
  exists t, fwsum ws = fwsum ws /\ fin (fwsum ws) /\ fval (fwsum ws) = t /\ Rabs (t - 1) <= d + (2 * n + 1) * uro.
Proof.
  intros Hd Hs. destruct (sum_ok ws 1) as (t & Et & Ht & Hc & Hsum & _); auto.
  { split; [lra|]. change 1 with (bp 0). apply bpow_le. lia. }
  destruct (proj_Fin _ _ Et) as [Ft Vt]. exists t. split; auto. split; auto. split; auto.
  destruct (few_u ws Hlen) as (H1 & H2 & _). pose proof uro_pos as Hu. apply Rabs_le_inv in Hs. apply Rabs_le_inv in Hc.
  assert (Hd' : d * (2 * n * uro) <= uro).
  { apply Rle_trans with (((4 * n + 4) * uro) * (2 * n * uro)); [apply Rmult_le_compat_r; [|lra]; nra|].
    replace ((4 * n + 4) * uro * (2 * n * uro)) with (uro * ((4 * n + 4) * (2 * (n * uro)))) by ring.
    apply Rle_trans with (uro * 1); [|lra]. apply Rmult_le_compat_l; [lra|].
    apply Rle_trans with ((4 * bp 20 + 4) * (2 * bp (-33))); [apply Rmult_le_compat; try lra; nra|]. simpl. lra. }
  assert (2 * n * uro * vsum ws <= 2 * n * uro + uro).
  { replace (2 * n * uro + uro) with (2 * n * uro * 1 + uro) by ring. assert (2 * n * uro * vsum ws <= 2 * n * uro * (1 + d)) by (apply Rmult_le_compat_l; [nra|lra]). nra. }
  apply Rabs_le. lra.
Qed.
End Predict.

Lemma predict_ok ws r s d : (forall w, In w ws -> upto 1 w) -> few ws -> 0 <= d <= (4 * INR (length ws) + 4) * uro ->
  Rabs (vsum ws - 1) <= d -> upto 2 r -> upto 1 s ->
  fin (fst (fpredict s r ws)) /\ 0 <= fval (fst (fpredict s r ws)) <= fval r * (1 + (d + (2 * INR (length ws) + 3) * uro)) + bp (-1075).
Proof.
  intros Hw Hlen Hd Hs Hr Hs1. destruct (eta_ok ws Hw Hlen d Hd Hs) as (t & _ & Ft & Vt & Ht).
  destruct (few_u ws Hlen) as (H1 & H2 & _). pose proof uro_pos as Hu. pose proof uro_le as Hu'.
  set (n := INR (length ws)) in *.
  assert (Hd1 : d <= / 1000) by (assert ((4 * n + 4) * uro <= / 1000) by (simpl in H1, Hu'; lra); lra).
  assert (Hn1 : (2 * n + 1) * uro <= / 1000) by (simpl in H1, Hu'; lra).
  apply Rabs_le_inv in Ht.
  destruct (mul_le r s 2 Hr ltac:(change 2 with (bp 1); apply bpow_le; lia) Hs1) as (Um & Lm & _).
  destruct (normalize_ok ws 1) as (t' & Et' & Ht' & _ & Hcase); auto.
  { split; [lra|]. change 1 with (bp 0). apply bpow_le. lia. }
  destruct (proj_Fin _ _ Et') as [_ Vt']. rewrite Vt in Vt'. subst t'.
  assert (E : fpredict s r ws = ((r * s) * fwsum ws, fst (fnormalize ws))%float).
  { unfold fpredict. destruct Hcase as [[Hle _]|(_ & E & _)].
    - exfalso. destruct lim_val as (_ & Hl & _). lra.
    - destruct (fnormalize ws) as [ws' eta]. cbn [fst snd] in *. subst eta. reflexivity. }
  rewrite E. cbn [fst]. destruct Um as [Fm Bm]. destruct Hr as [Fr Br].
  assert (H0 : 0 <= fval (r * s)%float * fval (fwsum ws) <= fval r * t).
  { rewrite Vt. split; [apply Rmult_le_pos; lra|]. apply Rmult_le_compat_r; lra. }
  assert (Hrt : fval r * t <= 4) by nra.
  destruct (f_mul (r * s)%float (fwsum ws) 2 ltac:(lia) Fm Ft) as [F V].
  { rewrite Rabs_pos_eq by lra. simpl. lra. }
  split; auto. rewrite V. split; [apply rnd_pos; lra|].
  pose proof (rnd_le _ _ (proj2 H0)) as Hl. pose proof (rnd_rel (fval r * t) ltac:(nra)) as Hrel. apply Rabs_le_inv in Hrel.
  assert (fval r * t <= fval r * (1 + (d + (2 * n + 1) * uro))) by (apply Rmult_le_compat_l; lra).
  assert (uro * (fval r * t) <= fval r * (2 * uro)) by (replace (uro * (fval r * t)) with (fval r * (uro * t)) by ring; apply Rmult_le_compat_l; nra).
  lra.
Qed.

(** ** Missed detections *)
Lemma rnd_close x : Rabs (rnd x - x) <= uro * Rabs x + bp (-1075).
Proof.
  destruct (Rle_dec 0 x) as [H|H].
  - rewrite (Rabs_pos_eq x) by auto. apply rnd_rel; auto.
  - assert (E : rnd x = - rnd (- x)).
    { unfold rnd. rewrite round_NE_opp. ring. }
    rewrite E, (Rabs_left x) by lra. replace (- rnd (- x) - x) with (- (rnd (- x) - - x)) by ring. rewrite Rabs_Ropp. apply rnd_rel. lra.
Qed.

Lemma overlap_ok k : (k <= 1000)%nat -> upto 1 (foverlap k) /\ Rabs (fval (foverlap k) - INR k / 1000) <= uro * (INR k / 1000) + bp (-1075).
Proof.
  intros Hk. destruct (ofnat_ok k) as [Fk Vk]; [lia|].
  assert (V1000 : fin 1000%float /\ fval 1000%float = 1000).
  { split; [apply fin_SF; reflexivity|rewrite val_SF; cbv -[IZR Rmult Rplus Rinv]; lra]. }
  assert (Hk' : 0 <= INR k <= 1000) by (split; [apply pos_INR|]; replace 1000 with (INR 1000) by (rewrite INR_IZR_INZ; reflexivity); apply le_INR; auto).
  assert (Hq : 0 <= INR k / 1000 <= 1) by lra.
  pose proof (div_fin _ _ _ _ (proj_fin _ Fk) (proj_fin _ (proj1 V1000))) as Hd. rewrite Vk, (proj2 V1000) in Hd.
  specialize (Hd ltac:(lra)). rewrite Rabs_pos_eq in Hd by lra.
  specialize (Hd ltac:(apply Rle_trans with (bp 0); [simpl; lra|apply bpow_le; lia])).
  change (nofnat floatN k / 1000)%float with (foverlap k) in Hd. destruct (proj_Fin _ _ Hd) as [Fo Vo].
  split; [|rewrite Vo; apply rnd_rel; lra]. split; auto. rewrite Vo.
  pose proof (rnd_pos _ (proj1 Hq)). pose proof (rnd_le _ _ (proj2 Hq)) as Hl.
  assert (E1 : rnd 1 = 1) by (change 1 with (bp 0); unfold rnd; apply round_generic; [apply valid_rnd_N|apply bpow_format; lia]). lra.
Qed.

(** Rounding a product adds one relative and one absolute error. *)
Lemma mul_close x y b e1 e2 : upto 1 x -> upto 1 y -> 0 <= b -> 0 <= e1 <= 8 -> 0 <= e2 <= 8 ->
  Rabs (fval y - b) <= e1 * uro * b + e2 * bp (-1075) ->
  upto 1 (x * y)%float /\ fval (x * y)%float <= fval x /\
  Rabs (fval (x * y)%float - fval x * b) <= (e1 + 2) * uro * (fval x * b) + (e2 + 2) * bp (-1075).
Proof.
  intros Hx Hy Hb He1 He2 Hyb. destruct (mul_le x y 1 Hx ltac:(change 1 with (bp 0); apply bpow_le; lia) Hy) as (U & L & V).
  split; auto. split; auto. rewrite V. clear U L V. destruct Hx as [_ Hx]. destruct Hy as [_ Hy].
  pose proof uro_pos as Hu. pose proof (bpow_ge_0 radix2 (-1075)) as Ht. set (tn := bp (-1075)) in *.
  assert (Hu1 : uro <= / 1000) by (eapply Rle_trans; [exact uro_le|simpl; lra]).
  set (a := fval x) in *. set (c := fval y) in *.
  pose proof (rnd_rel (a * c) ltac:(apply Rmult_le_pos; lra)) as Hr. fold tn in Hr.
  apply Rabs_le_inv in Hr. apply Rabs_le_inv in Hyb.
  set (eu := e1 * uro) in *. assert (He : 0 <= eu <= / 100) by (unfold eu; split; [apply Rmult_le_pos; lra|]; nra).
  set (et := e2 * tn) in *. assert (Hz : 0 <= et <= 8 * tn) by (unfold et; split; [apply Rmult_le_pos; lra|]; nra).
  assert (Hab : 0 <= a * b) by (apply Rmult_le_pos; lra).
  assert (Hae : a * et <= et) by nra.
  assert (A1 : a * c <= a * b + eu * (a * b) + et).
  { apply Rle_trans with (a * (b + (eu * b + et))); [apply Rmult_le_compat_l; lra|]. lra. }
  assert (A2 : a * b - eu * (a * b) - et <= a * c).
  { apply Rle_trans with (a * (b - (eu * b + et))); [|apply Rmult_le_compat_l; lra]. lra. }
  assert (A3 : uro * (a * c) <= 2 * uro * (a * b) + tn).
  { assert (H5 : uro * (a * c) <= uro * (a * b + eu * (a * b) + et)) by (apply Rmult_le_compat_l; lra).
    assert (uro * (eu * (a * b)) <= uro * (a * b)) by (apply Rmult_le_compat_l; [lra|]; nra).
    assert (uro * et <= / 1000 * (8 * tn)) by (apply Rmult_le_compat; lra). lra. }
  replace ((e1 + 2) * uro * (a * b)) with (eu * (a * b) + 2 * uro * (a * b)) by (unfold eu; ring).
  replace ((e2 + 2) * tn) with (et + 2 * tn) by (unfold et; ring).
  apply Rabs_le. lra.
Qed.

(** Exact probability of detection. *)
Fixpoint seen (p : R) (wks : list (float * nat)) : R :=
  match wks with [] => 0 | wk :: wks => fval (fst wk) * (p * (INR (snd wk) / 1000)) + seen p wks end.

Section Missed.
Variable pD : float.
Hypothesis HpD : upto 1 pD.
Notation p := (fval pD).

Lemma fpD_ok k : (k <= 1000)%nat -> upto 1 (fpD pD k) /\ fval (fpD pD k) <= p /\
  Rabs (fval (fpD pD k) - p * (INR k / 1000)) <= 3 * uro * (p * (INR k / 1000)) + 3 * bp (-1075).
Proof.
  intros Hk. destruct (overlap_ok k Hk) as [Uo Co]. unfold fpD. pose proof (pos_INR k).
  destruct (mul_close pD (foverlap k) (INR k / 1000) 1 1 HpD Uo) as (H1 & H2 & H3); try lra.
  split; [exact H1|]. split; [exact H2|]. apply Rabs_le_inv in H3. apply Rabs_le. lra.
Qed.

Lemma seen_range wks : (forall wk, In wk wks -> upto 1 (fst wk) /\ (snd wk <= 1000)%nat) ->
  0 <= seen p wks <= p * vsum (map fst wks).
Proof.
  destruct HpD as [_ HP]. induction wks as [|[w k] wks IH]; intros H; cbn [seen].
  - unfold rsum. simpl. lra.
  - destruct (H _ (or_introl eq_refl)) as [[_ Hw] Hk]. cbn [fst snd] in *. specialize (IH (fun y Hy => H y (or_intror Hy))).
    change (map fst ((w, k) :: wks)) with (w :: map fst wks). rewrite (vsum_cons w (map fst wks)).
    assert (Hk' : 0 <= INR k / 1000 <= 1).
    { pose proof (pos_INR k). assert (INR k <= 1000) by (replace 1000 with (INR 1000) by (rewrite INR_IZR_INZ; reflexivity); apply le_INR; auto). lra. }
    assert (0 <= p * (INR k / 1000) <= p) by (split; [apply Rmult_le_pos; lra|nra]).
    assert (0 <= fval w * (p * (INR k / 1000)) <= fval w * p) by (split; [apply Rmult_le_pos; lra|apply Rmult_le_compat_l; lra]).
    lra.
Qed.

Definition term (wk : float * nat) : float := (fst wk * fpD pD (snd wk))%float.
Lemma terms_ok wks : (forall wk, In wk wks -> upto 1 (fst wk) /\ (snd wk <= 1000)%nat) ->
  (forall x, In x (map term wks) -> upto 1 x) /\
  Rabs (vsum (map term wks) - seen p wks) <= 5 * uro * seen p wks + INR (length wks) * (5 * bp (-1075)).
Proof.
  induction wks as [|[w k] wks IH]; intros H.
  - split; [intros x []|]. cbn [map seen length INR]. unfold rsum. simpl fold_right. rewrite Rminus_0_r, Rabs_R0. lra.
  - destruct (H _ (or_introl eq_refl)) as [Uw Hk]. cbn [fst snd] in *.
    destruct (IH (fun y Hy => H y (or_intror Hy))) as [IH1 IH2].
    destruct (fpD_ok k Hk) as (Up & _ & Cp). destruct HpD as [_ HP]. pose proof (pos_INR k).
    destruct (mul_close w (fpD pD k) (p * (INR k / 1000)) 3 3 Uw Up) as (Um & _ & Cm); try lra.
    { apply Rmult_le_pos; lra. }
    split.
    + cbn [map]. intros x [<-|Hx]; auto.
    + change (map term ((w, k) :: wks)) with (term (w, k) :: map term wks). cbn [seen fst snd]. rewrite vsum_cons. unfold term at 1. cbn [fst snd].
      change (length ((w, k) :: wks)) with (S (length wks)). rewrite S_INR.
      apply Rabs_le_inv in Cm. apply Rabs_le_inv in IH2. apply Rabs_le. lra.
Qed.

Lemma missed_close ks ws : (forall w, In w ws -> upto 1 w) -> (forall k, In k ks -> (k <= 1000)%nat) -> few ws ->
  length ks = length ws -> vsum ws <= 2 ->
  fin (fmissed pD ks ws) /\ fval (fmissed pD ks ws) <= 1 /\
  Rabs (fval (fmissed pD ks ws) - (1 - seen p (combine ws ks))) <= (5 * INR (length ws) + 14) * uro.
Proof.
  intros Hw Hk Hlen El Hs. set (wks := combine ws ks).
  assert (Hwk : forall wk, In wk wks -> upto 1 (fst wk) /\ (snd wk <= 1000)%nat).
  { intros [w k] Hin. split; [apply Hw; eapply in_combine_l; eauto|apply Hk; eapply in_combine_r; eauto]. }
  assert (Ef : map fst wks = ws) by (unfold wks; clear - El; revert ks El; induction ws as [|w ws IH]; intros [|k ks] El; try discriminate; simpl; auto; f_equal; apply IH; simpl in El; lia).
  assert (Elen : length wks = length ws) by (unfold wks; rewrite combine_length; lia).
  destruct (terms_ok wks Hwk) as [Ut Ct]. pose proof (seen_range wks Hwk) as Hsn. rewrite Ef in Hsn.
  assert (EF : fmissed pD ks ws = (1 - fwsum (map term wks))%float).
  { unfold fmissed, fwsum. f_equal. fold wks. generalize 0%float. clear. induction wks as [|wk l IH]; intros z; simpl; auto. }
  rewrite EF. assert (Hlt : few (map term wks)) by (unfold few in *; rewrite map_length, Elen; exact Hlen).
  destruct (sum_ok (map term wks) 1) as (t & Et & Ht & Hc & Hsum & _); auto.
  { split; [lra|]. change 1 with (bp 0). apply bpow_le. lia. }
  rewrite map_length, Elen in Hc. rewrite Elen in Ct. destruct (few_u ws Hlen) as (H1 & H2 & H3). set (n := INR (length ws)) in *.
  destruct (proj_Fin _ _ Et) as [Ft Vt]. destruct (proj_Fin _ _ proj_one) as [F1 V1].
  pose proof uro_pos as Hu. pose proof tiny_le as Htn. pose proof tiny75 as Ht75. set (tn := bp (-1075)) in *.
  assert (Hu1 : uro <= / 1000) by (eapply Rle_trans; [exact uro_le|simpl; lra]).
  assert (Hnu : n * uro <= / 1000) by (eapply Rle_trans; [exact H1|simpl; lra]).
  assert (HE : 0 <= seen p wks <= 2).
  { destruct HpD as [_ HP]. pose proof (vsum_nonneg ws) as Hv.
    assert (p * vsum ws <= 1 * 2) by (apply Rmult_le_compat; try lra; apply Hv; intros x Hx; split; [eapply upto_nn; eauto|apply Hw; auto]). lra. }
  apply Rabs_le_inv in Ct. apply Rabs_le_inv in Hc.
  assert (HT : uro * seen p wks <= uro * 2) by (apply Rmult_le_compat_l; lra).
  set (T := vsum (map term wks)) in *.
  assert (HT2 : T <= 2.1) by lra.
  assert (HnT : n * uro * T <= n * uro * 2.1) by (apply Rmult_le_compat_l; [apply Rmult_le_pos; lra|lra]).
  assert (Ht3 : 0 <= t <= 2.2) by lra.
  destruct (f_sub 1%float (fwsum (map term wks)) 1 ltac:(lia) F1 Ft) as [Fm Vm].
  { rewrite V1, Vt. simpl. apply Rabs_le. lra. }
  split; auto. rewrite Vm, V1, Vt. split.
  - pose proof (rnd_le (1 - t) 1 ltac:(lra)) as Hl. rewrite <- V1 in Hl at 2. rewrite rnd_val, V1 in Hl. exact Hl.
  - pose proof (rnd_close (1 - t)) as Hr. fold tn in Hr.
    assert (Rabs (1 - t) <= 1.2) by (apply Rabs_le; lra).
    assert (uro * Rabs (1 - t) <= uro * 1.2) by (apply Rmult_le_compat_l; lra).
    apply Rabs_le_inv in Hr. apply Rabs_le. lra.
Qed.
End Missed.

(** With weights that add up to 1 up to rounding. *)
Lemma missed_low pD ks ws d : upto 1 pD -> (forall w, In w ws -> upto 1 w) -> (forall k, In k ks -> (k <= 1000)%nat) -> few ws ->
  length ks = length ws -> 0 <= d <= (4 * INR (length ws) + 4) * uro -> Rabs (vsum ws - 1) <= d ->
  fin (fmissed pD ks ws) /\ 1 - fval pD - (9 * INR (length ws) + 18) * uro <= fval (fmissed pD ks ws) <= 1 /\
  Rabs (fval (fmissed pD ks ws) - (1 - seen (fval pD) (combine ws ks))) <= (5 * INR (length ws) + 14) * uro.
Proof.
  intros HpD Hw Hk Hlen El Hd Hs. destruct (few_u ws Hlen) as (H1 & H2 & _). pose proof uro_pos as Hu.
  assert (Hu1 : uro <= / 1000) by (eapply Rle_trans; [exact uro_le|simpl; lra]).
  assert (Hnu : INR (length ws) * uro <= / 1000) by (eapply Rle_trans; [exact H1|simpl; lra]).
  apply Rabs_le_inv in Hs.
  destruct (missed_close pD HpD ks ws Hw Hk Hlen El ltac:(lra)) as (Fm & Lm & Cm). split; auto. split; auto. split; auto.
  pose proof (seen_range pD HpD (combine ws ks)) as Hsn.
  assert (Ef : map fst (combine ws ks) = ws) by (clear - El; revert ks El; induction ws as [|w ws IH]; intros [|k ks] El; try discriminate; simpl; auto; f_equal; apply IH; simpl in El; lia).
  rewrite Ef in Hsn. destruct Hsn as [_ Hsn].
  { intros [w k] Hin. split; [apply Hw; eapply in_combine_l; eauto|apply Hk; eapply in_combine_r; eauto]. }
  destruct HpD as [_ HP]. assert (fval pD * vsum ws <= fval pD * 1 + 1 * d) by nra.
  apply Rabs_le_inv in Cm. lra.
Qed.

(** ** Costs *)
Definition cost_fine (x : float) : Prop := (fin x /\ Rabs (fval x) <= bp 15) \/ x = infinity.

Lemma pos_ge x : 0 < fval x -> bp (-1074) <= fval x.
Proof.
  intros H. apply (generic_format_ge_bpow radix2 fexp64); auto; [|apply val_format].
  intros e. unfold SpecFloat.fexp, SpecFloat.emin, prec, emax. lia.
Qed.

Lemma ln_bpow k : ln (bp k) = IZR k * ln 2.
Proof.
  rewrite bpow_powerRZ. destruct k as [|q|q]; simpl.
  - rewrite ln_1. ring.
  - rewrite ln_pow by lra. rewrite INR_IZR_INZ, positive_nat_Z. reflexivity.
  - rewrite ln_Rinv by (apply pow_lt; lra). rewrite ln_pow by lra. rewrite INR_IZR_INZ, positive_nat_Z. change (Z.neg q) with (- Z.pos q)%Z. rewrite opp_IZR. ring.
Qed.
Lemma ln_mono x y : 0 < x -> x <= y -> ln x <= ln y.
Proof. intros Hx [H|<-]; [apply Rlt_le, ln_increasing; auto|lra]. Qed.
Lemma ln2_range : 0 < ln 2 < 1.
Proof.
  split; [rewrite <- ln_1; apply ln_increasing; lra|]. rewrite <- (ln_exp 1). apply ln_increasing; [lra|]. pose proof (exp_ineq1 1 ltac:(lra)). lra.
Qed.

Section Costs.
Variable logf : float -> float.
Hypothesis Hlog : log_accurate logf.

Lemma neg_log x : upto (bp 900) x -> cost_fine (- logf x)%float.
Proof.
  intros [F H]. destruct (Hlog x F) as (H1 & H2 & _). destruct (Req_dec (fval x) 0) as [E|N].
  - right. rewrite (H2 E). reflexivity.
  - left. destruct (H1 ltac:(lra)) as [Fl Hl]. destruct (f_opp _ Fl) as [Fo Vo]. split; auto. rewrite Vo, Rabs_Ropp.
    assert (Hx : Rabs (ln (fval x)) <= 1074).
    { pose proof (pos_ge x ltac:(lra)) as Hp. pose proof ln2_range as Hln.
      assert (L1 : ln (bp (-1074)) <= ln (fval x)) by (apply ln_mono; [apply bpow_gt_0|auto]).
      assert (L2 : ln (fval x) <= ln (bp 900)) by (apply ln_mono; lra).
      rewrite !ln_bpow in *. apply Rabs_le. lra. }
    replace (fval (logf x)) with (fval (logf x) - ln (fval x) + ln (fval x)) by ring.
    eapply Rle_trans; [apply Rabs_triang|].
    assert (bp (-40) * (1 + Rabs (ln (fval x))) <= 1 * 1075).
    { apply Rmult_le_compat; [apply bpow_ge_0|pose proof (Rabs_pos (ln (fval x))); lra|simpl; lra|lra]. }
    simpl (bp 15). lra.
Qed.

Lemma big_val : fin 30000%float /\ fval 30000%float = 30000.
Proof. split; [apply fin_SF; reflexivity|rewrite val_SF; cbv -[IZR Rmult Rplus Rinv]; lra]. Qed.
Lemma big_fine : cost_fine 30000%float.
Proof. left. destruct big_val as [F V]. split; auto. rewrite V, Rabs_pos_eq; simpl; lra. Qed.

Lemma false_fine r : upto 1 r -> cost_fine (ffalse_target logf r).
Proof.
  intros [F H]. unfold ffalse_target. destruct (PrimFloat.ltb r 1); [|apply big_fine].
  destruct (proj_Fin _ _ proj_one) as [F1 V1]. destruct (f_sub 1%float r 0 ltac:(lia) F1 F) as [Fs Vs].
  { rewrite V1. simpl. apply Rabs_le. lra. }
  apply neg_log. split; auto. rewrite Vs, V1. split; [apply rnd_pos; lra|].
  pose proof (rnd_abs (1 - fval r) 0 ltac:(lia)) as Ha. rewrite (Rabs_pos_eq (1 - fval r)) in Ha by lra. simpl (bp 0) in Ha. specialize (Ha ltac:(lra)).
  apply Rabs_le_inv in Ha. apply Rle_trans with (bp 0); [simpl; lra|apply bpow_le; lia].
Qed.

Lemma mul_le' x y A : upto A x -> 1 <= A <= bp 1000 -> upto 1 y -> upto A (y * x)%float.
Proof.
  intros [Fx Hx] HA [Fy Hy].
  assert (H0 : 0 <= fval y * fval x <= fval x) by (split; [apply Rmult_le_pos; lra|]; rewrite <- (Rmult_1_l (fval x)) at 2; apply Rmult_le_compat_r; lra).
  destruct (f_mul y x 1000 ltac:(lia) Fy Fx) as [F V].
  { rewrite Rabs_pos_eq by lra. lra. }
  pose proof (rnd_pos _ (proj1 H0)) as Hp. pose proof (rnd_le _ _ (proj2 H0)) as Hl. rewrite rnd_val in Hl.
  split; auto. rewrite V. lra.
Qed.

Variable pD : float.
Hypothesis HpD : upto 1 pD.

Lemma miss_fine t d : upto 1 (ft_r t) -> (forall w, In w (ft_w t) -> upto 1 w) -> (forall k, In k (ft_in t) -> (k <= 1000)%nat) ->
  few (ft_w t) -> length (ft_in t) = length (ft_w t) -> 0 <= d <= (4 * INR (length (ft_w t)) + 4) * uro -> Rabs (vsum (ft_w t) - 1) <= d ->
  fval pD <= 1 - bp (-20) -> cost_fine (fcost_miss logf pD t).
Proof.
  intros Hr Hw Hk Hlen El Hd Hs HP. unfold fcost_miss.
  destruct (missed_low pD (ft_in t) (ft_w t) d HpD Hw Hk Hlen El Hd Hs) as (Fm & Hm & _).
  destruct (few_u _ Hlen) as (H1 & _ & _). pose proof uro_le as Hu.
  assert (Hpos : 0 <= fval (fmissed pD (ft_in t) (ft_w t))).
  { assert ((9 * INR (length (ft_w t)) + 18) * uro <= bp (-20)); [|lra].
    apply Rle_trans with (9 * bp (-33) + 18 * bp (-53)); [lra|]. simpl. lra. }
  apply neg_log. assert (U1 : upto 1 (fmissed pD (ft_in t) (ft_w t))) by (split; auto; lra).
  destruct (mul_le _ _ 1 Hr ltac:(change 1 with (bp 0); apply bpow_le; lia) U1) as (Um & _ & _).
  destruct Um as [Fu Bu]. split; auto. split; [lra|]. apply Rle_trans with (bp 0); [simpl; lra|apply bpow_le; lia].
Qed.

Lemma correct_w_ok kappa w k l : upto 1 w -> (k <= 1000)%nat -> upto (bp 800) l -> kappa_ok kappa ->
  upto (bp 850) (fcorrect_w pD kappa w (k, l)).
Proof.
  intros Hw Hk Hl [Fk Bk]. unfold fcorrect_w. cbn [fst snd]. destruct (fpD_ok pD HpD k Hk) as (Up & _ & _).
  assert (U1 : upto (bp 800) (fpD pD k * l)%float).
  { apply (mul_le' l (fpD pD k) (bp 800) Hl); auto. split; [change 1 with (bp 0)|]; apply bpow_le; lia. }
  apply mul_le'; auto.
  2:{ split; [change 1 with (bp 0)|]; apply bpow_le; lia. }
  destruct U1 as [F1 B1]. pose proof (bpow_gt_0 radix2 (-50)) as H50.
  assert (Hq : 0 <= fval (fpD pD k * l)%float / fval kappa <= bp 850).
  { split; [unfold Rdiv; apply Rmult_le_pos; [lra|apply Rlt_le, Rinv_0_lt_compat; lra]|].
    replace (bp 850) with (bp 800 * / bp (-50)) by (rewrite <- bpow_opp, <- bpow_plus; reflexivity).
    unfold Rdiv. apply Rmult_le_compat; [lra|apply Rlt_le, Rinv_0_lt_compat; lra|lra|apply Rinv_le; lra]. }
  pose proof (div_fin _ _ _ _ (proj_fin _ F1) (proj_fin _ Fk) ltac:(lra)) as Hd. rewrite Rabs_pos_eq in Hd by lra.
  specialize (Hd ltac:(eapply Rle_trans; [apply Hq|apply bpow_le; lia])). eapply proj_upto; [exact Hd|].
  split; [apply rnd_pos; lra|]. pose proof (rnd_abs _ 850 ltac:(lia) ltac:(rewrite Rabs_pos_eq; apply Hq)) as Ha.
  eapply Rle_trans; [apply Rle_abs|exact Ha].
Qed.

Lemma rep_fine t kls kappa : upto 1 (ft_r t) -> (forall w, In w (ft_w t) -> upto 1 w) -> few (ft_w t) ->
  (forall kl, In kl kls -> (fst kl <= 1000)%nat /\ upto (bp 800) (snd kl)) -> kappa_ok kappa ->
  cost_fine (fcost_rep logf pD t (kls, kappa)).
Proof.
  intros Hr Hw Hlen Hkl Hk. unfold fcost_rep, fgm_correct. cbn [fst snd]. set (l := map _ _).
  assert (Hl : forall x, In x l -> upto (bp 850) x).
  { intros x Hx. unfold l in Hx. apply in_map_iff in Hx. destruct Hx as ((w & k & y) & <- & Hin). cbn [fst snd].
    pose proof (in_combine_l _ _ _ _ Hin) as Iw. pose proof (in_combine_r _ _ _ _ Hin) as Ik. destruct (Hkl _ Ik). apply correct_w_ok; auto. }
  assert (Hlen' : few l).
  { unfold few in *. unfold l. rewrite map_length, combine_length. lia. }
  apply neg_log. apply mul_le'; auto.
  2:{ split; [change 1 with (bp 0)|]; apply bpow_le; lia. }
  destruct (sum_ok l (bp 850)) as (t' & Et & Ht & Hc & Hsum & _); auto.
  { split; [apply bpow_ge_0|apply bpow_le; lia]. }
  assert (U : upto (bp 900) (fwsum l)).
  { eapply proj_upto; [exact Et|]. split; auto. destruct (few_u l Hlen') as (H1 & H2 & _). apply Rabs_le_inv in Hc.
    assert (Hv : vsum l <= bp 20 * bp 850) by (eapply Rle_trans; [apply Hsum|apply Rmult_le_compat_r; [apply bpow_ge_0|lra]]).
    rewrite <- bpow_plus in Hv.
    assert (2 * INR (length l) * uro * vsum l <= 1 * vsum l) by (apply Rmult_le_compat_r; [lra|]; eapply Rle_trans; [|apply Rle_refl]; simpl in H1; lra).
    apply Rle_trans with (2 * bp (20 + 850)); [lra|]. change 2 with (bp 1). rewrite <- bpow_plus. apply bpow_le. lia. }
  unfold fnormalize. destruct (PrimFloat.ltb _ _); cbn [snd]; auto.
  destruct (proj_Fin _ _ proj_zero) as [F0 V0]. split; auto. rewrite V0. split; [lra|apply bpow_ge_0].
Qed.
End Costs.

(** ** The cost matrix *)
Lemma assoc_ok logf pD kappas ts :
  log_accurate logf -> upto (1 - bp (-20)) pD ->
  Forall kappa_ok kappas -> Forall (target_ok (length kappas)) ts ->
  (0 < length ts <= 30)%nat -> (Z.of_nat (length kappas) <= 90000)%Z ->
  association_input (length kappas) 15 (fcost_of logf pD kappas ts).
Proof.
  intros Hlog HP HK HT HM HN. set (N := length kappas) in *.
  assert (HpD : upto 1 pD) by (destruct HP as [F H]; split; auto; pose proof (bpow_ge_0 radix2 (-20)); lra).
  unfold association_input. cbn [fcost_of m_rows m_cols m_ord]. split; [lia|]. split; [|split; [lia|split; [reflexivity|split; [lia|reflexivity]]]].
  assert (Hrow : forall i t, In t ts -> length (fcost_row logf pD kappas (length ts) i t) = (N + 2 * length ts)%nat /\
    forall x, In x (fcost_row logf pD kappas (length ts) i t) -> cost_fine x).
  { intros i t Hin. rewrite Forall_forall in HT, HK. destruct (HT t Hin) as (Hr & Hw & Hl & Hs & (Ei & Hi) & (Er & Hrep)).
    unfold fcost_row. split.
    - rewrite !app_length, !map_length, !seq_length, combine_length. fold N. lia.
    - intros x Hx. rewrite !in_app_iff in Hx. destruct Hx as [Hx|[Hx|Hx]]; apply in_map_iff in Hx.
      + destruct Hx as ((kls & kappa) & <- & Hc). apply rep_fine; auto.
        * intros kl Hkl. eapply Hrep; eauto. eapply in_combine_l; eauto.
        * apply HK. eapply in_combine_r; eauto.
      + destruct Hx as (k & <- & _). destruct (k =? i)%nat; [|apply big_fine].
        apply (miss_fine logf Hlog pD HpD t ((4 * INR (length (ft_w t)) + 4) * uro)); auto; [|apply HP]. pose proof uro_pos. pose proof (pos_INR (length (ft_w t))). split; [apply Rmult_le_pos; lra|apply Rle_refl].
      + destruct Hx as (k & <- & _). destruct (k =? i)%nat; [|apply big_fine]. apply false_fine; auto. }
  split.
  - cbn [fcost_of m_data m_rows m_cols]. fold N.
    assert (G : forall l s, (forall t, In t l -> In t ts) -> length (flat_map (fun it => fcost_row logf pD kappas (length ts) (fst it) (snd it)) (combine (seq s (length l)) l)) = (length l * (N + 2 * length ts))%nat).
    { induction l as [|t l IH]; intros s Hl; auto. cbn [length seq combine flat_map fst snd]. rewrite app_length, (proj1 (Hrow s t (Hl t (or_introl eq_refl)))).
      rewrite IH by (intros; apply Hl; right; auto). lia. }
    apply G. auto.
  - cbn [fcost_of m_data]. intros x Hx. apply in_flat_map in Hx. destruct Hx as ((i & t) & Hit & Hx). cbn [fst snd] in Hx.
    apply (proj2 (Hrow i t (in_combine_r _ _ _ _ Hit)) x Hx).
Qed.

Lemma predict_bound ws s r : (forall w, In w ws -> upto 1 w) -> few ws ->
  Rabs (vsum ws - 1) <= (4 * INR (length ws) + 4) * uro -> upto 2 r -> upto 1 s ->
  fin (fst (fpredict s r ws)) /\ 0 <= fval (fst (fpredict s r ws)) <= fval r * (1 + (6 * INR (length ws) + 7) * uro) + bp (-1075).
Proof.
  intros Hw Hl Hs Hr Hs1. pose proof (pos_INR (length ws)). pose proof uro_pos.
  destruct (predict_ok ws r s ((4 * INR (length ws) + 4) * uro) Hw Hl) as [F B]; auto.
  { split; [apply Rmult_le_pos; lra|lra]. }
  split; auto. replace ((6 * INR (length ws) + 7) * uro) with ((4 * INR (length ws) + 4) * uro + (2 * INR (length ws) + 3) * uro) by ring. exact B.
Qed.

(** ** Normalising and sampling together *)
Section Sampling.
Variables (ws : list float) (B : R).
Hypothesis HB : 0 <= B <= bp 900.
Hypothesis Hw : forall w, In w ws -> upto B w.
Hypothesis Hlen : few ws.
Hypothesis Hbig : PrimFloat.ltb 1e-8 (fwsum ws) = true.
Notation n := (INR (length ws)).

Lemma normalized :
  0 < vsum ws /\ snd (fnormalize ws) = fwsum ws /\ fin (fwsum ws) /\ Rabs (fval (fwsum ws) - vsum ws) <= 2 * n * uro * vsum ws /\
  length (fst (fnormalize ws)) = length ws /\
  (forall w, In w (fst (fnormalize ws)) -> upto 1 w) /\
  Forall2 (fun w w' => Rabs (fval w' - fval w / vsum ws) <= (4 * n + 4) * uro * (fval w / vsum ws) + bp (-1075)) ws (fst (fnormalize ws)) /\
  Rabs (vsum (fst (fnormalize ws)) - 1) <= (4 * n + 4) * uro.
Proof.
  destruct (normalize_ok ws B HB Hw Hlen) as (t & Et & Ht & Hc & Hcase). destruct (proj_Fin _ _ Et) as [Ft Vt].
  destruct lim_val as (Fl & Vl & _). pose proof (f_lt 1e-8%float (fwsum ws) Fl Ft) as EL. cbn [nlt floatN] in EL. rewrite Hbig, Vt in EL.
  destruct Hcase as [[Hle _]|(Hlt & Es & El & Hu & HF & Hs)].
  - rewrite Rlt_bool_false in EL by lra. discriminate.
  - split.
    { pose proof (few_u ws Hlen) as (H1 & _). pose proof uro_pos as Hu0. pose proof (pos_INR (length ws)).
      apply Rabs_le_inv in Hc. destruct (Rle_or_lt (vsum ws) 0) as [H0|]; auto. exfalso.
      assert (0 <= 2 * n * uro) by (apply Rmult_le_pos; lra).
      assert (2 * n * uro * vsum ws <= 0) by nra. lra. }
    rewrite Vt. repeat (split; auto).
Qed.

Lemma sampled cols : (Z.of_nat cols <= 2 ^ 29)%Z ->
  exists ns, length ns = length ws /\ (list_sum ns <= cols <= list_sum ns + length ws)%nat /\
  fsample_cols cols (fst (fnormalize ws)) =
    Ok (flat_map (fun i => repeat (Some (fst i)) (snd i)) (combine (seq 0 (length ws)) ns) ++ repeat None (cols - list_sum ns)) /\
  forall i, (i < length ws)%nat ->
    let share := fval (nth i ws 0%float) / vsum ws * INR cols in
    share - 1 - ((4 * n + 6) * uro * share + bp (-40)) < INR (nth i ns 0%nat) <= share + ((4 * n + 6) * uro * share + bp (-40)).
Proof.
  intros Hcols. destruct normalized as (Hpos & Es & _ & _ & El & Hu & HF & Hs).
  destruct (few_u ws Hlen) as (H1 & H2 & _). pose proof uro_pos as Hu0. pose proof uro_le as Hu'.
  assert (Hlen' : few (fst (fnormalize ws))) by (unfold few; rewrite El; exact Hlen).
  assert (H32 : (4 * n + 4) * uro <= bp (-30)) by (assert (Hx : uro = bp (-53)) by reflexivity; rewrite Hx in *; simpl in *; lra).
  assert (Hc : 0 <= INR cols <= bp 29).
  { split; [apply pos_INR|]. rewrite INR_IZR_INZ. change (bp 29) with (IZR (2 ^ 29)). apply IZR_le, Hcols. }
  destruct (fsample_ok cols ltac:(lia) (fst (fnormalize ws)) ((4 * n + 4) * uro) Hu Hlen' Hs) as (ns & Hsh & Hle & Hge & Hrun).
  { eapply Rle_trans; [exact H32|simpl; lra]. }
  { apply Rle_trans with (bp (-30) * bp 29); [apply Rmult_le_compat; try lra; apply Rmult_le_pos; lra|rewrite <- bpow_plus; simpl; lra]. }
  rewrite El in *. assert (Hns : nsum ns = list_sum ns) by (clear; induction ns; simpl; auto). rewrite Hns in *. exists ns.
  assert (Ens : length ns = length ws) by (rewrite <- El; clear - Hsh; induction Hsh; simpl; auto). split; auto. split; [lia|]. split; auto.
  set (ws' := fst (fnormalize ws)) in *.
  assert (G : forall l l' ms, Forall2 (fun w w' => Rabs (fval w' - fval w / vsum ws) <= (4 * n + 4) * uro * (fval w / vsum ws) + bp (-1075)) l l' ->
    Forall2 (is_share cols) l' ms -> (forall w, In w l -> upto B w) -> (forall w, In w l' -> upto 1 w) ->
    forall i, (i < length l)%nat -> let share := fval (nth i l 0%float) / vsum ws * INR cols in
    share - 1 - ((4 * n + 6) * uro * share + bp (-40)) < INR (nth i ms 0%nat) <= share + ((4 * n + 6) * uro * share + bp (-40))).
  { clear - Hpos Hc Hcols H1 H2 Hu0 Hu'. intros l l' ms Hll. revert ms. induction Hll as [|w w' l l' Hww Hll IH]; intros ms Hms Hl Hl' i Hi; [simpl in Hi; lia|].
    inversion Hms as [|? m ? ms' Hm Hms']; subst. destruct i as [|i]; [|cbn [nth]; apply (IH ms' Hms'); [intros x Hx; apply Hl; right; auto|intros x Hx; apply Hl'; right; auto|simpl in Hi; lia]].
    intros share. change (nth 0 (m :: ms') 0%nat) with m. destruct (share_ok cols ltac:(lia) w' (Hl' w' (or_introl eq_refl))) as (m' & Em & S1 & S2).
    unfold is_share in Hm. rewrite Hm in Em. injection Em as <-. destruct (Hl w (or_introl eq_refl)) as [_ [Hw0 _]].
    set (p := fval w / vsum ws) in *. assert (Hp : 0 <= p) by (apply Rmult_le_pos; [auto|left; apply Rinv_0_lt_compat; auto]).
    assert (Esh : share = p * INR cols) by reflexivity. apply Rabs_le_inv in Hww.
    assert (Hsh : 0 <= share) by (rewrite Esh; apply Rmult_le_pos; lra).
    assert (T1 : bp (-1075) <= bp (-100)) by (apply bpow_le; lia).
    assert (T2 : bp (-100) * bp 29 = bp (-71)) by (rewrite <- bpow_plus; reflexivity).
    assert (T3 : bp (-71) + bp (-71) + bp (-71) <= bp (-40)) by (simpl; lra).
    assert (T4 : bp (-1075) * INR cols <= bp (-71)) by (rewrite <- T2; apply Rmult_le_compat; try lra; apply bpow_ge_0).
    assert (T5 : bp (-1075) <= bp (-71)) by (apply bpow_le; lia).
    pose proof (bpow_ge_0 radix2 (-1075)) as T6. assert (T7 : 0 <= bp (-1075) * INR cols) by (apply Rmult_le_pos; lra).
    assert (Hk : 0 <= (4 * n + 4) * uro <= / 8) by (assert (Hx : uro = bp (-53)) by reflexivity; rewrite Hx in *; split; [apply Rmult_le_pos; lra|simpl in *; lra]).
    set (k := (4 * n + 4) * uro) in *.
    assert (U1 : fval w' * INR cols <= (share + k * share) + bp (-1075) * INR cols).
    { rewrite Esh. apply Rle_trans with ((p + (k * p + bp (-1075))) * INR cols); [apply Rmult_le_compat_r; lra|lra]. }
    assert (U2 : (share - k * share) - bp (-1075) * INR cols <= fval w' * INR cols).
    { rewrite Esh. apply Rle_trans with ((p - (k * p + bp (-1075))) * INR cols); [lra|apply Rmult_le_compat_r; lra]. }
    assert (Ek : (4 * n + 6) * uro * share = k * share + 2 * (uro * share)) by (unfold k; ring).
    assert (K0 : 0 <= k * share <= share * / 8) by (split; [apply Rmult_le_pos; lra|rewrite Rmult_comm; apply Rmult_le_compat_l; lra]).
    assert (U3 : fval w' * INR cols * uro <= (2 * share + bp (-1075) * INR cols) * uro) by (apply Rmult_le_compat_r; lra).
    assert (U4 : bp (-1075) * INR cols * uro <= bp (-1075) * INR cols * 1) by (apply Rmult_le_compat_l; [lra|]; simpl in Hu'; lra).
    rewrite Ek. split; lra. }
  intros i Hi. apply (G ws ws' ns); auto.
Qed.
End Sampling.
