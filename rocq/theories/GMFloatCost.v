(** The cost matrix in doubles against exact likelihoods. *)
From Coq Require Import List Arith Bool Lia ZArith Reals Lra.
From Flocq Require Import Core Sterbenz BinarySingleNaN IEEE754.PrimFloat.
From Coq Require Import Floats.
Import ListNotations.
From Verif Require Import Res Scalar Lap Murty MurtyProofs MurtyFloatMain.
From Verif Require Import FloatBase FloatExt LapRnd Cluster ClusterFloat FloatSum ClusterFloatLoop ClusterFloatNum ClusterFloatClose ClusterFloatMain.
From Verif Require Import GMFloat GMFloatSpec GMFloatProofs GMFloatMatch.
Local Open Scope R_scope.
Notation tn := (bpow radix2 (-1075)).

Lemma uro_1000 : 0 < uro <= 1e-9.
Proof. split; [apply uro_pos|]. eapply Rle_trans; [exact uro_le|simpl; lra]. Qed.

(** ** Relative and absolute errors *)
Definition approx (e d a A : R) : Prop := Rabs (a - A) <= e * uro * A + d.
Lemma approx_scale e d a A c C : approx e d a A -> 0 <= c <= C -> 0 <= d -> approx e (d * C) (a * c) (A * c).
Proof.
  unfold approx. intros H Hc Hd. replace (a * c - A * c) with ((a - A) * c) by ring. rewrite Rabs_mult, (Rabs_pos_eq c) by lra.
  apply Rle_trans with ((e * uro * A + d) * c); [apply Rmult_le_compat_r; lra|]. assert (d * c <= d * C) by (apply Rmult_le_compat_l; lra). lra.
Qed.
Lemma approx_rnd e d a A : approx e d a A -> 0 <= A -> 0 <= a -> 0 <= e <= 16 -> 0 <= d -> approx (e + 2) (2 * d + tn) (rnd a) A.
Proof.
  unfold approx. intros H HA Ha He Hd. pose proof uro_1000 as Hu. pose proof (rnd_rel a Ha) as Hr.
  apply Rabs_le_inv in H. apply Rabs_le_inv in Hr.
  assert (H1 : e * uro * A <= 1 * A) by (apply Rmult_le_compat_r; [lra|nra]).
  assert (H2 : uro * a <= uro * (2 * A + d)) by (apply Rmult_le_compat_l; lra).
  assert (H3 : uro * d <= d) by nra. assert (0 <= tn) by apply bpow_ge_0.
  apply Rabs_le. lra.
Qed.
Lemma approx_weak e d d' a A : approx e d a A -> d <= d' -> approx e d' a A.
Proof. unfold approx. lra. Qed.

(** ** One component *)
Lemma component_close pD kappa w k l : upto 1 pD -> upto 1 w -> (k <= 1000)%nat -> upto (bp 800) l -> kappa_ok kappa ->
  approx 9 (bp (-200)) (fval (fcorrect_w pD kappa w (k, l))) (fval w * (fval pD * (INR k / 1000) * fval l / fval kappa)).
Proof.
  intros HpD Hw Hk Hl [Fk Bk]. destruct (fpD_ok pD HpD k Hk) as (Up & _ & Cp).
  pose proof (bpow_gt_0 radix2 (-50)) as H50. pose proof (bpow_ge_0 radix2 (-1075)) as Htn.
  assert (Hq : 0 <= fval pD * (INR k / 1000)) by (destruct HpD; pose proof (pos_INR k); apply Rmult_le_pos; lra).
  destruct Hl as [Fl Bl]. destruct Up as [Ff Bf].
  pose proof (approx_scale 3 (3 * tn) _ _ (fval l) (bp 800) Cp Bl ltac:(lra)) as A1.
  assert (B1 : 0 <= fval (fpD pD k) * fval l <= bp 800).
  { split; [apply Rmult_le_pos; lra|]. rewrite <- (Rmult_1_l (bp 800)). apply Rmult_le_compat; lra. }
  destruct (f_mul (fpD pD k) l 800 ltac:(lia) Ff Fl) as [F1 V1]; [rewrite Rabs_pos_eq; lra|].
  assert (B1' : 0 <= fval (fpD pD k * l)%float <= bp 800).
  { rewrite V1. split; [apply rnd_pos; lra|]. pose proof (rnd_abs _ 800 ltac:(lia) ltac:(rewrite Rabs_pos_eq; apply B1)) as Ha. eapply Rle_trans; [apply Rle_abs|exact Ha]. }
  apply approx_rnd in A1; [|apply Rmult_le_pos; lra|lra|lra|apply Rmult_le_pos; [lra|apply bpow_ge_0]]. rewrite <- V1 in A1.
  assert (Hik : 0 <= / fval kappa <= bp 50).
  { split; [apply Rlt_le, Rinv_0_lt_compat; lra|]. replace (bp 50) with (/ bp (-50)) by (rewrite <- bpow_opp; reflexivity). apply Rinv_le; lra. }
  assert (D1 : 0 <= 2 * (3 * tn * bp 800) + tn) by (pose proof (bpow_ge_0 radix2 800); nra).
  pose proof (approx_scale _ _ _ _ (/ fval kappa) (bp 50) A1 Hik D1) as A2. clear A1.
  assert (B2 : 0 <= fval (fpD pD k * l)%float * / fval kappa <= bp 850).
  { split; [apply Rmult_le_pos; lra|]. replace (bp 850) with (bp 800 * bp 50) by (rewrite <- bpow_plus; reflexivity). apply Rmult_le_compat; lra. }
  pose proof (div_fin _ _ _ _ (proj_fin _ F1) (proj_fin _ Fk) ltac:(lra)) as Hd. unfold Rdiv in Hd at 1. rewrite Rabs_pos_eq in Hd by lra.
  specialize (Hd ltac:(eapply Rle_trans; [apply B2|apply bpow_le; lia])). destruct (proj_Fin _ _ Hd) as [F2 V2]. unfold Rdiv in V2.
  assert (D2 : 0 <= (2 * (3 * tn * bp 800) + tn) * bp 50) by (apply Rmult_le_pos; [auto|apply bpow_ge_0]).
  apply approx_rnd in A2; [|apply Rmult_le_pos; [apply Rmult_le_pos; lra|lra]|lra|lra|auto]. rewrite <- V2 in A2.
  assert (B2' : 0 <= fval (fpD pD k * l / kappa)%float <= bp 850).
  { rewrite V2. split; [apply rnd_pos; lra|]. pose proof (rnd_abs _ 850 ltac:(lia) ltac:(rewrite Rabs_pos_eq; apply B2)) as Ha. eapply Rle_trans; [apply Rle_abs|exact Ha]. }
  destruct Hw as [Fw Bw]. set (d2 := 2 * ((2 * (3 * tn * bp 800) + tn) * bp 50) + tn) in *.
  assert (D3 : 0 <= d2) by (unfold d2; lra).
  pose proof (approx_scale _ _ _ _ (fval w) 1 A2 Bw D3) as A3. rewrite Rmult_1_r in A3.
  assert (B3 : 0 <= fval w * fval (fpD pD k * l / kappa)%float <= bp 850).
  { split; [apply Rmult_le_pos; lra|]. rewrite <- (Rmult_1_l (bp 850)). apply Rmult_le_compat; lra. }
  destruct (f_mul w (fpD pD k * l / kappa)%float 850 ltac:(lia) Fw F2) as [F3 V3]; [rewrite Rabs_pos_eq; lra|].
  rewrite (Rmult_comm _ (fval w)) in A3.
  apply approx_rnd in A3; [|apply Rmult_le_pos; [apply Rmult_le_pos; [apply Rmult_le_pos; lra|lra]|lra]|lra|lra|auto]. rewrite <- V3 in A3.
  unfold fcorrect_w. cbn [fst snd].
  replace (fval w * (fval pD * (INR k / 1000) * fval l / fval kappa)) with (fval pD * (INR k / 1000) * fval l * / fval kappa * fval w) by (unfold Rdiv; ring).
  replace 9 with (3 + 2 + 2 + 2) by ring. eapply approx_weak; [exact A3|].
  unfold d2. set (b8 := bp 800) in *.
  assert (T1 : tn * b8 = bp (-275)) by (unfold b8; rewrite <- bpow_plus; reflexivity).
  assert (T2 : tn <= bp (-275)) by (apply bpow_le; lia).
  assert (T3 : bp (-275) * bp 50 = bp (-225)) by (rewrite <- bpow_plus; reflexivity).
  assert (T4 : (2 * (3 * tn * b8) + tn) * bp 50 <= 7 * bp (-225)).
  { rewrite <- T3. replace (7 * (bp (-275) * bp 50)) with (7 * bp (-275) * bp 50) by ring. apply Rmult_le_compat_r; [apply bpow_ge_0|]. rewrite <- T1 in *. lra. }
  assert (T5 : tn <= bp (-225)) by (apply bpow_le; lia).
  assert (T6 : 64 * bp (-225) <= bp (-200)) by (change 64 with (bp 6); rewrite <- bpow_plus; apply bpow_le; lia).
  pose proof (bpow_ge_0 radix2 (-225)). lra.
Qed.

(** ** A report *)
Section Report.
Variables (pD kappa : float).
Hypothesis HpD : upto 1 pD.
Hypothesis Hkap : kappa_ok kappa.
Notation ev x := (fval (fst x) * (fval pD * (INR (fst (snd x)) / 1000) * fval (snd (snd x)) / fval kappa)).
Definition fitf (l : list (float * (nat * float))) : R := fold_right (fun x s => ev x + s) 0 l.

Lemma components_close l : (forall x, In x l -> upto 1 (fst x) /\ (fst (snd x) <= 1000)%nat /\ upto (bp 800) (snd (snd x))) ->
  0 <= fitf l /\
  Rabs (vsum (map (fun wkl => fcorrect_w pD kappa (fst wkl) (snd wkl)) l) - fitf l) <= 9 * uro * fitf l + INR (length l) * bp (-200).
Proof.
  induction l as [|[w [k y]] l IH]; intros H.
  - split; [simpl; lra|]. unfold rsum. simpl. rewrite Rminus_0_r, Rabs_R0. lra.
  - destruct (H _ (or_introl eq_refl)) as (Hw & Hk & Hy). cbn [fst snd] in *.
    destruct (IH (fun z Hz => H z (or_intror Hz))) as [IH1 IH2].
    pose proof (component_close pD kappa w k y HpD Hw Hk Hy Hkap) as Hc. unfold approx in Hc.
    assert (H0 : 0 <= fval w * (fval pD * (INR k / 1000) * fval y / fval kappa)).
    { destruct HpD as [_ HP], Hw as [_ Hw], Hy as [_ Hy], Hkap as [_ HK]. pose proof (pos_INR k). pose proof (bpow_gt_0 radix2 (-50)).
      unfold Rdiv. repeat (apply Rmult_le_pos; try lra). apply Rlt_le, Rinv_0_lt_compat. lra. }
    unfold fitf. cbn [fold_right fst snd]. fold (fitf l). split; [lra|].
    change (map (fun wkl => fcorrect_w pD kappa (fst wkl) (snd wkl)) ((w, (k, y)) :: l)) with (fcorrect_w pD kappa w (k, y) :: map (fun wkl => fcorrect_w pD kappa (fst wkl) (snd wkl)) l).
    rewrite vsum_cons. change (length ((w, (k, y)) :: l)) with (S (length l)). rewrite S_INR.
    apply Rabs_le_inv in Hc. apply Rabs_le_inv in IH2. apply Rabs_le. lra.
Qed.

(** The sum of the weights is the likelihood, up to rounding; it is replaced by 0 if it
    is not above 1e-8. *)
Lemma fit_close kls ws : (forall w, In w ws -> upto 1 w) -> few ws ->
  (forall kl, In kl kls -> (fst kl <= 1000)%nat /\ upto (bp 800) (snd kl)) ->
  let eta := snd (fgm_correct pD kappa kls ws) in
  (eta = 0%float /\ fitf (combine ws kls) <= 1.01e-8) \/
  (fin eta /\ 0.99e-8 <= fval eta <= bp 900 /\ 0.98e-8 <= fitf (combine ws kls) /\
   Rabs (fval eta - fitf (combine ws kls)) <= (2 * INR (length ws) + 11) * uro * fitf (combine ws kls)).
Proof.
  intros Hw Hlen Hkl eta. set (X := combine ws kls) in *.
  assert (HX : forall x, In x X -> upto 1 (fst x) /\ (fst (snd x) <= 1000)%nat /\ upto (bp 800) (snd (snd x))).
  { intros [w kl] Hin. split; [apply Hw; eapply in_combine_l; eauto|apply Hkl; eapply in_combine_r; eauto]. }
  destruct (components_close X HX) as [Hf0 Hc]. set (l := map (fun wkl => fcorrect_w pD kappa (fst wkl) (snd wkl)) X) in *.
  assert (Hl : forall x, In x l -> upto (bp 850) x).
  { intros x Hx. apply in_map_iff in Hx. destruct Hx as ((w & k & y) & <- & Hin). destruct (HX _ Hin) as (H1 & H2 & H3). apply correct_w_ok; auto. }
  assert (Hll : (length l <= length ws)%nat) by (unfold l, X; rewrite map_length, combine_length; lia).
  assert (Hlen' : few l) by (unfold few in *; lia).
  assert (HlX : length X = length l) by (unfold l; rewrite map_length; auto). rewrite HlX in Hc.
  destruct (normalize_ok l (bp 850)) as (t & Et & Ht & Hs & Hcase); auto.
  { split; [apply bpow_ge_0|apply bpow_le; lia]. }
  destruct (few_u l Hlen') as (N1 & N2 & _). destruct (few_u ws Hlen) as (N3 & N4 & _).
  assert (Hn : INR (length l) <= INR (length ws)) by (apply le_INR; auto).
  set (n := INR (length l)) in *. set (m := INR (length ws)) in *. pose proof uro_1000 as Hu.
  assert (Hnu : n * uro <= 1e-9) by (eapply Rle_trans; [exact N1|simpl; lra]).
  assert (Hn200 : n * bp (-200) <= bp (-180)).
  { replace (bp (-180)) with (bp 20 * bp (-200)) by (rewrite <- bpow_plus; reflexivity). apply Rmult_le_compat_r; [apply bpow_ge_0|lra]. }
  assert (H180 : bp (-180) <= uro * 1e-11).
  { unfold uro. apply Rle_trans with (bp (-53) * bp (-40)); [rewrite <- bpow_plus; apply bpow_le; lia|]. apply Rmult_le_compat_l; [apply bpow_ge_0|simpl; lra]. }
  set (F := fitf X) in *. set (V := vsum l) in *. apply Rabs_le_inv in Hc. apply Rabs_le_inv in Hs.
  assert (HuF : 0 <= uro * F) by (apply Rmult_le_pos; lra).
  assert (HV : V <= 1.00000001 * F + uro * 1e-11) by (assert (uro * F <= 1e-9 * F) by (apply Rmult_le_compat_r; lra); lra).
  assert (HV0 : 0 <= V) by (apply vsum_nonneg; intros x Hx; split; [eapply upto_nn; eauto|apply Hl; auto]).
  assert (HnV : n * uro * V <= n * uro * (1.00000001 * F + uro * 1e-11)) by (apply Rmult_le_compat_l; [apply Rmult_le_pos; lra|auto]).
  assert (HnF : n * uro * F <= 1e-9 * F) by (apply Rmult_le_compat_r; lra).
  assert (Hsmall : n * uro * (uro * 1e-11) <= 1e-9 * (uro * 1e-11)) by (apply Rmult_le_compat_r; [apply Rmult_le_pos; lra|lra]).
  assert (Hu11 : uro * 1e-11 <= 1e-14) by nra.
  assert (HF9 : 9 * (uro * F) <= 9 * (1e-9 * F)) by (apply Rmult_le_compat_l; [lra|apply Rmult_le_compat_r; lra]).
  assert (V8 : 0.999e-8 <= fval 1e-8%float <= 1.001e-8).
  { rewrite val_SF. let v := eval vm_compute in (Prim2SF 1e-8%float) in change (Prim2SF 1e-8%float) with v. unfold SF2R, F2R, cond_Zopp, Fnum, Fexp. simpl bpow. simpl IZR. lra. }
  unfold fgm_correct in eta. fold X l in eta. unfold eta.
  destruct Hcase as [[Hle E]|(Hgt & E & _)].
  - left. rewrite E. split; auto. lra.
  - right. rewrite E. destruct (proj_Fin _ _ Et) as [Ft Vt]. rewrite Vt. split; auto.
    assert (HF : 0.98e-8 <= F) by lra.
    assert (Hut : uro * 1e-11 <= uro * (F * / 900)) by (apply Rmult_le_compat_l; lra).
    assert (Hbig : t <= bp 900).
    { assert (HVB : V <= bp 20 * bp 850).
      { unfold V. eapply Rle_trans; [apply (vsum_le l (bp 850))|apply Rmult_le_compat_r; [apply bpow_ge_0|exact (proj2 N2)]]. intros x Hx. apply Hl; auto. }
      rewrite <- bpow_plus in HVB. apply Rle_trans with (2 * bp (20 + 850)); [lra|]. change 2 with (bp 1). rewrite <- bpow_plus. apply bpow_le. lia. }
    split; [lra|]. split; auto.
    assert (Hm : n * (uro * F) <= m * (uro * F)) by (apply Rmult_le_compat_r; lra).
    assert (Hn8 : n * (uro * F) <= 1048576 * (uro * F)) by (apply Rmult_le_compat_r; [lra|]; eapply Rle_trans; [apply N2|simpl; lra]).
    apply Rabs_le. split; lra.
Qed.
End Report.

(** ** Logarithms *)
Lemma ln_le_sub x : 0 < x -> ln x <= x - 1.
Proof. intros H. pose proof (exp_ineq1_le (ln x)) as E. rewrite exp_ln in E by auto. lra. Qed.
Lemma ln_close a b e : 0 < b -> 0 <= e <= / 2 -> Rabs (a - b) <= e * b -> 0 < a /\ Rabs (ln a - ln b) <= 2 * e.
Proof.
  intros Hb He H. apply Rabs_le_inv in H. assert (Ha : 0 < a) by nra. split; auto.
  assert (E : ln a - ln b = ln (a / b)) by (unfold Rdiv; rewrite ln_mult, ln_Rinv by (auto; apply Rinv_0_lt_compat; auto); ring).
  assert (E' : ln b - ln a = ln (b / a)) by (unfold Rdiv; rewrite ln_mult, ln_Rinv by (auto; apply Rinv_0_lt_compat; auto); ring).
  assert (H1 : ln (a / b) <= a / b - 1) by (apply ln_le_sub, Rdiv_lt_0_compat; auto).
  assert (H2 : ln (b / a) <= b / a - 1) by (apply ln_le_sub, Rdiv_lt_0_compat; auto).
  assert (H3 : a / b - 1 <= 2 * e).
  { apply (Rmult_le_reg_r b); auto. replace ((a / b - 1) * b) with (a - b) by (field; lra). nra. }
  assert (H4 : b / a - 1 <= 2 * e).
  { apply (Rmult_le_reg_r a); auto. replace ((b / a - 1) * a) with (b - a) by (field; lra). nra. }
  apply Rabs_le. lra.
Qed.

Definition entry_close (tol : R) (cost : float) (F : R) : Prop :=
  (cost = infinity /\ 0 <= F <= 1.01e-8) \/ (fin cost /\ 0 < F /\ Rabs (fval cost + ln F) <= tol).

Lemma small40 : bp (-40) * 1100 <= bp (-29).
Proof. simpl. lra. Qed.

Section Entry.
Variable logf : float -> float.
Hypothesis Hlog : log_accurate logf.

Lemma log_close x F e : upto (bp 900) x -> 0 < F -> 0 <= e <= / 2 -> Rabs (fval x - F) <= e * F ->
  fin (- logf x)%float /\ Rabs (fval (- logf x)%float + ln F) <= 2 * e + bp (-29).
Proof.
  intros [Fx Hx] HF He H. destruct (ln_close (fval x) F e HF He H) as [Hp Hl]. destruct (Hlog x Fx) as (H1 & _). destruct (H1 Hp) as [Fl Cl].
  destruct (f_opp _ Fl) as [Fo Vo]. split; auto. rewrite Vo.
  assert (Hr : Rabs (ln (fval x)) <= 1074).
  { pose proof (pos_ge x Hp) as Hp'. pose proof ln2_range as Hln.
    assert (L1 : ln (bp (-1074)) <= ln (fval x)) by (apply ln_mono; [apply bpow_gt_0|auto]).
    assert (L2 : ln (fval x) <= ln (bp 900)) by (apply ln_mono; lra).
    rewrite !ln_bpow in *. apply Rabs_le. lra. }
  assert (H2 : bp (-40) * (1 + Rabs (ln (fval x))) <= bp (-29)).
  { eapply Rle_trans; [|apply small40]. apply Rmult_le_compat_l; [apply bpow_ge_0|lra]. }
  apply Rabs_le_inv in Cl. apply Rabs_le_inv in Hl. apply Rabs_le. lra.
Qed.

(** A product with the existence probability. *)
Lemma times_r r y F e : upto 1 r -> bp (-900) <= fval r -> fin y -> bp (-60) <= fval y <= bp 900 -> 0 < F ->
  0 <= e <= / 8 -> Rabs (fval y - F) <= e * F ->
  fin (- logf (r * y))%float /\ Rabs (fval (- logf (r * y))%float + ln (fval r * F)) <= 2 * e + bp (-28).
Proof.
  intros Hr Hr0 Fy Hy HF He H. destruct Hr as [Fr Br]. pose proof (bpow_gt_0 radix2 (-900)) as H9. pose proof (bpow_gt_0 radix2 (-60)) as H6.
  assert (B : bp (-960) <= fval r * fval y <= bp 900).
  { split.
    - replace (bp (-960)) with (bp (-900) * bp (-60)) by (rewrite <- bpow_plus; reflexivity). apply Rmult_le_compat; lra.
    - rewrite <- (Rmult_1_l (bp 900)). apply Rmult_le_compat; lra. }
  pose proof (bpow_gt_0 radix2 (-960)) as H96.
  destruct (f_mul r y 900 ltac:(lia) Fr Fy) as [Fm Vm]; [rewrite Rabs_pos_eq; lra|].
  pose proof (rnd_rel (fval r * fval y) ltac:(lra)) as Hrel.
  assert (Ht : tn <= uro * (fval r * fval y)).
  { apply Rle_trans with (bp (-53) * bp (-960)); [rewrite <- bpow_plus; apply bpow_le; lia|]. apply Rmult_le_compat_l; [apply bpow_ge_0|lra]. }
  pose proof uro_1000 as Hu. apply Rabs_le_inv in H. apply Rabs_le_inv in Hrel.
  assert (HrF : 0 < fval r * F) by (apply Rmult_lt_0_compat; lra).
  assert (K1 : fval r * fval y <= (1 + e) * (fval r * F)) by (replace ((1 + e) * (fval r * F)) with (fval r * (F + e * F)) by ring; apply Rmult_le_compat_l; lra).
  assert (K2 : (1 - e) * (fval r * F) <= fval r * fval y) by (replace ((1 - e) * (fval r * F)) with (fval r * (F - e * F)) by ring; apply Rmult_le_compat_l; lra).
  assert (K3 : uro * (fval r * fval y) <= uro * (2 * (fval r * F))) by (apply Rmult_le_compat_l; [lra|]; assert (e * (fval r * F) <= 1 * (fval r * F)) by (apply Rmult_le_compat_r; lra); lra).
  assert (U : upto (bp 900) (r * y)%float).
  { split; auto. rewrite Vm. split; [apply rnd_pos; lra|]. pose proof (rnd_abs _ 900 ltac:(lia) ltac:(rewrite Rabs_pos_eq; [apply B|lra])) as Ha. eapply Rle_trans; [apply Rle_abs|exact Ha]. }
  destruct (log_close (r * y)%float (fval r * F) (e + 4 * uro) U HrF) as [H1 H2].
  { lra. }
  { rewrite Vm. apply Rabs_le. rewrite Rmult_plus_distr_r. lra. }
  split; auto. eapply Rle_trans; [exact H2|].
  assert (2 * (4 * uro) + bp (-29) <= bp (-28)).
  { unfold uro. simpl. lra. }
  lra.
Qed.

Variable pD : float.
Hypothesis HpD : upto (1 - bp (-20)) pD.
Lemma pD1 : upto 1 pD.
Proof. destruct HpD as [F H]. split; auto. pose proof (bpow_ge_0 radix2 (-20)). lra. Qed.

Lemma tol_ge : bp (-28) <= 16 * bp (-32).
Proof. simpl. lra. Qed.

Lemma sum_of_map {A B} (f : B -> R) (g : A -> B) l : sum_of f (map g l) = sum_of (fun x => f (g x)) l.
Proof. induction l as [|x l IH]; simpl; auto. unfold sum_of in *. rewrite IH. reflexivity. Qed.
Lemma combine_map {A B C D} (f : A -> C) (g : B -> D) l : forall l', combine (map f l) (map g l') = map (fun x => (f (fst x), g (snd x))) (combine l l').
Proof. induction l as [|x l IH]; intros [|y l']; simpl; auto. f_equal. apply IH. Qed.

Lemma fits_fitf kappa ws kls :
  fits (fval pD) (fval kappa) (combine (map fval ws) (map (fun kl => (fst kl, fval (snd kl))) kls)) = fitf pD kappa (combine ws kls).
Proof. unfold fits. rewrite (combine_map fval (fun kl : nat * float => (fst kl, fval (snd kl)))), sum_of_map. reflexivity. Qed.
Lemma detected_seen ws ks : detected (fval pD) (combine (map fval ws) ks) = seen (fval pD) (combine ws ks).
Proof.
  unfold detected. replace ks with (map (fun k : nat => k) ks) at 1 by apply map_id. rewrite (combine_map fval (fun k : nat => k)), sum_of_map.
  unfold sum_of. cbn [fst snd]. induction (combine ws ks) as [|x l IH]; auto. cbn [fold_right seen]. rewrite IH. reflexivity.
Qed.


Lemma zero_cost x : fin x -> fval x = 0 -> (- logf x)%float = infinity.
Proof. intros F V. destruct (Hlog x F) as (_ & H & _). rewrite (H V). reflexivity. Qed.
Lemma mul_zero r y : upto 1 r -> fval r = 0 -> fin y -> fin (r * y)%float /\ fval (r * y)%float = 0.
Proof.
  intros [Fr _] Hr Fy. destruct (f_mul r y 0 ltac:(lia) Fr Fy) as [F V]; [rewrite Hr, Rmult_0_l, Rabs_R0; simpl; lra|].
  split; auto. rewrite V, Hr, Rmult_0_l. apply rnd_0.
Qed.

Lemma rep_close N t kls kappa : target_ok N t -> settled t -> In kls (ft_rep t) -> kappa_ok kappa ->
  entry_close (tol (length (ft_w t))) (fcost_rep logf pD t (kls, kappa))
    (fval (ft_r t) * fitf pD kappa (combine (ft_w t) kls)).
Proof.
  intros (Hr & Hw & Hlen & _ & _ & (_ & Hrep)) Hset Hin Hk. unfold fcost_rep. cbn [fst snd].
  destruct (components_close pD kappa pD1 Hk (combine (ft_w t) kls)) as [Hf0 _].
  { intros [w kl] Hc. split; [apply Hw; eapply in_combine_l; eauto|apply (Hrep kls Hin); eapply in_combine_r; eauto]. }
  pose proof (fit_close pD kappa pD1 Hk kls (ft_w t) Hw Hlen (Hrep kls Hin)) as Hc. cbv zeta in Hc.
  set (eta := snd (fgm_correct pD kappa kls (ft_w t))) in *. set (F := fitf pD kappa (combine (ft_w t) kls)) in *.
  pose proof (proj2 Hr) as Br.
  destruct Hc as [[E HF]|(Fe & Be & HF & Hc)].
  - left. destruct (proj_Fin _ _ proj_zero) as [F0 V0]. split.
    + rewrite E. destruct (f_mul (ft_r t) 0%float 0 ltac:(lia) (proj1 Hr) F0) as [Fm Vm]; [rewrite V0, Rmult_0_r, Rabs_R0; simpl; lra|].
      apply zero_cost; auto. rewrite Vm, V0, Rmult_0_r. apply rnd_0.
    + split; [apply Rmult_le_pos; lra|]. apply Rle_trans with (1 * F); [apply Rmult_le_compat_r; lra|lra].
  - destruct Hset as [H0|H9].
    + left. destruct (mul_zero (ft_r t) eta Hr H0 Fe) as [Fm Vm]. split; [apply zero_cost; auto|]. rewrite H0. lra.
    + right. pose proof (bpow_gt_0 radix2 (-900)) as P9. destruct (few_u (ft_w t) Hlen) as (N1 & N2 & _). set (n := INR (length (ft_w t))) in *. pose proof uro_1000 as Hu.
      destruct (times_r (ft_r t) eta F ((2 * n + 11) * uro) Hr H9 Fe) as [Fc Cc]; try lra.
      { split; [|lra]. apply Rle_trans with 1e-9; [|lra]. apply Rle_trans with (bp (-40)); [apply bpow_le; lia|simpl; lra]. }
      { split; [apply Rmult_le_pos; lra|]. simpl in N1. lra. }
      split; auto. split; [apply Rmult_lt_0_compat; lra|]. eapply Rle_trans; [exact Cc|]. unfold tol. fold n.
      pose proof tol_ge. assert (uro <= bp (-32)) by (apply bpow_le; lia).
      assert (n * uro <= n * bp (-32)) by (apply Rmult_le_compat_l; lra).
      pose proof (bpow_ge_0 radix2 (-32)). assert (0 <= n * bp (-32)) by (apply Rmult_le_pos; lra). lra.
Qed.

Lemma miss_close N t : target_ok N t -> settled t ->
  entry_close (tol (length (ft_w t))) (fcost_miss logf pD t)
    (fval (ft_r t) * (1 - seen (fval pD) (combine (ft_w t) (ft_in t)))).
Proof.
  intros (Hr & Hw & Hlen & Hs & (Ei & Hi) & _) Hset. unfold fcost_miss.
  assert (Hd : 0 <= (4 * INR (length (ft_w t)) + 4) * uro) by (pose proof uro_pos; pose proof (pos_INR (length (ft_w t))); apply Rmult_le_pos; lra).
  destruct (missed_low pD (ft_in t) (ft_w t) ((4 * INR (length (ft_w t)) + 4) * uro) pD1 Hw Hi Hlen Ei (conj Hd (Rle_refl _)) Hs) as (Fm & Hm & Hc).
  set (y := fmissed pD (ft_in t) (ft_w t)) in *. set (F := 1 - seen (fval pD) (combine (ft_w t) (ft_in t))) in *.
  destruct (few_u (ft_w t) Hlen) as (N1 & N2 & _). set (n := INR (length (ft_w t))) in *. pose proof uro_1000 as Hu. pose proof (proj2 HpD) as HP.
  assert (Hn9 : (9 * n + 18) * uro <= bp (-22)).
  { pose proof uro_le. apply Rle_trans with (9 * bp (-33) + 18 * bp (-53)); [lra|]. simpl. lra. }
  assert (E20 : bp (-20) = 4 * bp (-22)) by (simpl; lra). pose proof (bpow_gt_0 radix2 (-22)) as P22.
  assert (E21 : bp (-21) = 2 * bp (-22)) by (simpl; lra).
  assert (Hy : bp (-21) <= fval y) by lra.
  assert (HF : bp (-21) <= F) by (apply Rabs_le_inv in Hc; lra).
  destruct Hset as [H0|H9].
  - left. destruct (mul_zero (ft_r t) y Hr H0 Fm) as [F0 V0]. split; [apply zero_cost; auto|]. rewrite H0. lra.
  - right. pose proof (bpow_gt_0 radix2 (-900)) as P9.
    assert (E53 : uro = bp (-32) * bp (-21)) by (unfold uro; rewrite <- bpow_plus; reflexivity).
    destruct (times_r (ft_r t) y F ((5 * n + 14) * bp (-32)) Hr H9 Fm) as [Fc Cc]; try lra.
    { split; [apply Rle_trans with (bp (-21)); [apply bpow_le; lia|lra]|]. apply Rle_trans with (bp 0); [simpl; lra|apply bpow_le; lia]. }
    { split; [apply Rmult_le_pos; [lra|apply bpow_ge_0]|]. simpl in N2 |- *. lra. }
    { eapply Rle_trans; [exact Hc|]. rewrite E53. rewrite <- Rmult_assoc. apply Rmult_le_compat_l; [apply Rmult_le_pos; [lra|apply bpow_ge_0]|lra]. }
    split; auto. split; [apply Rmult_lt_0_compat; lra|]. eapply Rle_trans; [exact Cc|]. unfold tol. fold n.
    pose proof tol_ge. pose proof (bpow_ge_0 radix2 (-32)). assert (0 <= n * bp (-32)) by (apply Rmult_le_pos; lra). lra.
Qed.

Lemma absent_close r : upto 1 r ->
  (fval r = 1 /\ ffalse_target logf r = 30000%float) \/
  (fval r < 1 /\ fin (ffalse_target logf r) /\ Rabs (fval (ffalse_target logf r) + ln (1 - fval r)) <= bp (-28)).
Proof.
  intros [F H]. unfold ffalse_target. destruct (proj_Fin _ _ proj_one) as [F1 V1].
  pose proof (f_lt r 1%float F F1) as EL. cbn [nlt floatN] in EL. rewrite EL, V1.
  destruct (Rlt_bool_spec (fval r) 1) as [Hlt|Hge]; [right|left; split; [lra|auto]]. split; auto.
  destruct (f_sub 1%float r 0 ltac:(lia) F1 F) as [Fs Vs]; [rewrite V1; simpl; apply Rabs_le; lra|]. rewrite V1 in Vs.
  assert (Hc : Rabs (rnd (1 - fval r) - (1 - fval r)) <= 2 * uro * (1 - fval r)).
  { destruct (Rle_lt_dec (fval r) (/ 2)) as [Hs|Hb].
    - pose proof (rnd_rel (1 - fval r) ltac:(lra)) as Hr. pose proof uro_pos as Hu.
      assert (tn <= uro * (1 - fval r)).
      { apply Rle_trans with (bp (-53) * bp (-1)); [rewrite <- bpow_plus; apply bpow_le; lia|]. apply Rmult_le_compat_l; [apply bpow_ge_0|simpl; lra]. }
      lra.
    - assert (E : rnd (1 - fval r) = 1 - fval r).
      { apply round_generic; [apply valid_rnd_N|]. apply sterbenz; [apply FLT_exp_valid; reflexivity|apply FLT_exp_monotone|..].
        - rewrite <- V1. apply val_format.
        - apply val_format.
        - lra. }
      rewrite E, Rminus_diag_eq, Rabs_R0 by auto. pose proof uro_pos. apply Rmult_le_pos; lra. }
  pose proof uro_1000 as Hu.
  assert (U : upto (bp 900) (1 - r)%float).
  { split; auto. rewrite Vs. split; [apply rnd_pos; lra|].
    pose proof (rnd_abs (1 - fval r) 0 ltac:(lia)) as Ha. rewrite (Rabs_pos_eq (1 - fval r)) in Ha by lra. simpl (bp 0) in Ha. specialize (Ha ltac:(lra)).
    apply Rabs_le_inv in Ha. apply Rle_trans with (bp 0); [simpl; lra|apply bpow_le; lia]. }
  destruct (log_close (1 - r)%float (1 - fval r) (2 * uro) U ltac:(lra) ltac:(lra)) as [H1 H2].
  { rewrite Vs. exact Hc. }
  split; auto. eapply Rle_trans; [exact H2|]. unfold uro. simpl. lra.
Qed.
End Entry.

Lemma missed_bound pD ks ws : upto 1 pD -> (forall w, In w ws -> upto 1 w) -> (forall k, In k ks -> (k <= 1000)%nat) -> few ws ->
  length ks = length ws -> Rabs (exact_sum ws - 1) <= (4 * INR (length ws) + 4) * uro ->
  fin (fmissed pD ks ws) /\ 1 - fval pD - (9 * INR (length ws) + 18) * uro <= fval (fmissed pD ks ws) <= 1 /\
  Rabs (fval (fmissed pD ks ws) - (1 - detected (fval pD) (combine (map fval ws) ks))) <= (5 * INR (length ws) + 14) * uro.
Proof.
  intros HpD Hw Hk Hl El Hs. rewrite detected_seen. apply (missed_low pD ks ws ((4 * INR (length ws) + 4) * uro)); auto.
  pose proof (pos_INR (length ws)). pose proof uro_pos. split; [apply Rmult_le_pos; lra|lra].
Qed.
