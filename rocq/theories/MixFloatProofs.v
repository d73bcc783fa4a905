(** Proofs about the correction of a mixture in doubles. *)
From Coq Require Import List Arith Lia Bool Reals ZArith Lra Psatz.
From Flocq Require Import Core.
From Coq Require Import Floats.
Import ListNotations.
From Verif Require Import Scalar FloatBase FloatExt ClusterFloat ClusterFloatClose FloatSum ClusterFloatNum KalmanFloat KalmanFloatSpec KalmanFloatErr KalmanCorrSpec KalmanCorr KalmanCorrMain.
From Verif Require Import PredictFloatProofs GMFloat GMFloatSpec GMFloatProofs GMFloatMatch GMFloatCost LikFloat LikFloatSpec LikFloatProofs MixFloat MixFloatSpec.
Local Open Scope R_scope.
Notation bp := (bpow radix2).

Lemma precision_inverts K P V : 1 <= K <= 1000 -> symmetric4 P -> definite4 P -> definite2 V -> untied K P V -> inverts2 P V (precision P V).
Proof.
  intros HK SP DP DV UT. assert (HK' : 1 <= K <= 1000000000) by lra. pose proof (det_pos P V DP DV K HK' UT) as Pd.
  pose proof (SP 0%nat 1%nat ltac:(lia) ltac:(lia)) as S1. destruct DV as (_ & V1 & _).
  set (det := sprd P V 0 0 * sprd P V 1 1 - sprd P V 0 1 * sprd P V 0 1) in *. assert (I : det * / det = 1) by (apply Rinv_r; lra).
  assert (S2 : sprd P V 1 0 = sprd P V 0 1) by (unfold sprd; rewrite S1, V1; reflexivity).
  intros a b La Lb. change (sprd P V a 0 * precision P V 0 b + sprd P V a 1 * precision P V 1 b = if (a =? b)%nat then 1 else 0).
  destruct a as [|[|a]]; try lia; destruct b as [|[|b]]; try lia; cbn [Nat.eqb precision]; fold det; rewrite ?S2; unfold Rdiv.
  - rewrite <- I. unfold det at 3. ring.
  - ring.
  - ring.
  - rewrite <- I. unfold det at 3. ring.
Qed.

Lemma likelihood_near sum expf powf K z V x P : (forall l, fsums l (sum l)) -> exp_accurate expf -> square_accurate powf -> 1 <= K <= 1000 -> regular K z V x P ->
  let l := flikelihood sum expf powf x P z V in let L := innovation_density P V (precision P V) x z in
  fin l /\ 0 <= val l <= bp 118 /\ 0 <= L <= bp 117 /\ Rabs (val l - L) <= bp (-36) * (K * K) * L + bp (-520).
Proof.
  intros Hs He Hp HK ((FP & SP & DP & DV) & (MP & MV) & UT & Hx & Hz & Hd). assert (HK' : 1 <= K <= 1000000000) by lra.
  pose proof (precision_inverts K P V HK SP DP DV UT) as HD.
  assert (E : distance2 (precision P V) x z = qx P V x z).
  { revert HD. generalize (precision P V). intros D HD. unfold distance2, qx, rowx. rewrite !(inverse_is P V SP DP DV K HK' UT D HD) by lia. unfold Dx. ring. }
  cbv zeta. unfold innovation_density. rewrite E. exact (lik_near sum Hs P V FP SP DP DV MP MV K HK UT x z Hx Hz Hd expf He powf Hp).
Qed.

(** Mean and covariance. *)
Lemma moved_near sum K z V c : (forall l, fsums l (sum l)) -> 1 <= K <= 1000 -> regular K z V (fc_x c) (fc_P c) ->
  near_update K z V c (fst (fmoved sum z V c)) (snd (fmoved sum z V c)).
Proof.
  intros Hs HK ((FP & SP & DP & DV) & (MP & MV) & UT & Hx & Hz & Hd). assert (HK' : 1 <= K <= 1000000000) by lra.
  pose proof (precision_inverts K _ V HK SP DP DV UT) as HD. split.
  - intros i Hi. exact (correlated_mean sum _ _ z V K Hs FP SP DP DV MP MV HK' UT Hx Hz Hd _ HD i Hi).
  - exact (proj1 (correlated_covariance sum _ V K Hs FP SP DP DV MP MV HK' UT _ HD)).
Qed.

(** A quotient of two approximations. *)
Lemma share_close a W S T e d : 0 <= W -> 0 < T -> 0 <= e <= / 1000 -> 0 <= d -> Rabs (a - W) <= e * W + d -> Rabs (S - T) <= e * T ->
  Rabs (a / S - W / T) <= 201 / 100 * e * (W / T) + 2 * (d / T).
Proof.
  intros HW HT He Hd Ha HS. apply Rabs_le_inv in HS. assert (Te : e * T <= / 1000 * T) by (apply Rmult_le_compat_r; lra).
  assert (PS : 0 < S) by lra. assert (EW : W / T * T = W) by (field; lra). set (p := W / T) in *. assert (Ea : a / S * S = a) by (field; lra). set (r := a / S) in *.
  assert (Ed : d / T * T = d) by (field; lra). set (q := d / T) in *.
  assert (Hp : 0 <= p) by (apply Rmult_le_pos; [lra|apply Rlt_le, Rinv_0_lt_compat; lra]). assert (Hq : 0 <= q) by (apply Rmult_le_pos; [lra|apply Rlt_le, Rinv_0_lt_compat; lra]).
  assert (He2 : 0 <= e * p) by (apply Rmult_le_pos; lra).
  assert (A : Rabs (r - p) * S <= (2 * (e * p) + q) * T).
  { rewrite <- (Rabs_pos_eq S) at 1 by lra. rewrite <- Rabs_mult. replace ((r - p) * S) with ((a - W) + p * (T - S)) by (rewrite <- Ea, <- EW; ring).
    eapply Rle_trans; [apply Rabs_triang|]. rewrite Rabs_mult, (Rabs_pos_eq p) by lra. assert (Rabs (T - S) <= e * T) by (apply Rabs_le; lra).
    assert (p * Rabs (T - S) <= p * (e * T)) by (apply Rmult_le_compat_l; lra). replace ((2 * (e * p) + q) * T) with (e * (p * T) + q * T + p * (e * T)) by ring. rewrite EW, Ed. lra. }
  assert (TS : T <= 1002 / 1000 * S) by lra.
  apply Rmult_le_reg_r with S; [auto|]. eapply Rle_trans; [exact A|].
  apply Rle_trans with ((2 * (e * p) + q) * (1002 / 1000 * S)); [apply Rmult_le_compat_l; lra|].
  replace ((2 * (e * p) + q) * (1002 / 1000 * S)) with ((2004 / 1000 * (e * p) + 1002 / 1000 * q) * S) by field. apply Rmult_le_compat_r; lra.
Qed.

Section Mix.
Variable sum : list float -> float.
Hypothesis Hsum : forall l, fsums l (sum l).
Variables (expf : float -> float) (powf : float -> float -> float).
Hypothesis Hexp : exp_accurate expf.
Hypothesis Hpow : square_accurate powf.
Variables (pD kappa : float).
Hypothesis HpD : upto 1 pD.
Hypothesis Hkap : kappa_ok kappa.
Variables (z : fvec) (V : fmat) (K : R).
Hypothesis HK : 1 <= K <= 1000.
Let fw (c : fcomp) : float := fcorrect_w pD kappa (fc_w c) (fseen sum expf powf z V c).
Let W := joint_weight pD kappa z V.
Let e := bp (-36) * (K * K) + 10 * uro.
Let ok (c : fcomp) : Prop := upto 1 (fc_w c) /\ (fc_k c <= 1000)%nat /\ regular K z V (fc_x c) (fc_P c).

Lemma e_small : 0 <= e <= / 50000.
Proof. unfold e, uro. assert (1 <= K * K <= 1000000) by (split; nra). change (bp (-36)) with (/ 68719476736). change (bp (-53)) with (/ 9007199254740992). lra. Qed.

Lemma weight_near c : ok c -> 0 <= W c /\ upto (bp 850) (fw c) /\ Rabs (fval (fw c) - W c) <= e * W c + bp (-199).
Proof.
  intros (Hw & Hk & Hr). destruct (likelihood_near sum expf powf K z V _ _ Hsum Hexp Hpow HK Hr) as (F & B & BL & E). cbv zeta in *.
  unfold fw, fseen. set (l := flikelihood sum expf powf (fc_x c) (fc_P c) z V) in *. unfold W, joint_weight. set (L := innovation_density _ _ _ _ _) in *.
  assert (Ul : upto (bp 800) l). { split; [exact F|]. split; [lra|]. apply Rle_trans with (bp 118); [lra|apply bpow_le; lia]. }
  pose proof (component_close pD kappa (fc_w c) (fc_k c) l HpD Hw Hk Ul Hkap) as A. unfold approx in A.
  pose proof (correct_w_ok pD HpD kappa (fc_w c) (fc_k c) l Hw Hk Ul Hkap) as U.
  assert (EM : forall y, fval (fc_w c) * (fval pD * (INR (fc_k c) / 1000) * y / fval kappa) = fval (fc_w c) * (fval pD * (INR (fc_k c) / 1000) / fval kappa) * y).
  { intros y. unfold Rdiv. ring. }
  rewrite EM in A. rewrite EM. set (m := fval (fc_w c) * (fval pD * (INR (fc_k c) / 1000) / fval kappa)) in *.
  assert (Hm : 0 <= m <= bp 50).
  { destruct HpD as [_ HP], Hw as [_ Hw], Hkap as [_ HKa]. pose proof (pos_INR (fc_k c)). pose proof (bpow_gt_0 radix2 (-50)).
    assert (INR (fc_k c) <= 1000) by (change 1000 with (IZR 1000); rewrite INR_IZR_INZ; apply IZR_le; lia).
    assert (0 < / fval kappa <= bp 50).
    { split; [apply Rinv_0_lt_compat; lra|]. replace (bp 50) with (/ bp (-50)) by (symmetry; apply (bpow_opp radix2 (-50))). apply Rinv_le_contravar; lra. }
    assert (0 <= fval pD * (INR (fc_k c) / 1000) <= 1 * 1) by (split; [apply Rmult_le_pos; lra|apply Rmult_le_compat; lra]).
    assert (0 <= fval pD * (INR (fc_k c) / 1000) / fval kappa <= 1 * bp 50) by (split; [apply Rmult_le_pos; lra|apply Rmult_le_compat; lra]).
    unfold m. split; [apply Rmult_le_pos; lra|]. rewrite <- (Rmult_1_l (bp 50)). apply Rmult_le_compat; lra. }
  split; [apply Rmult_le_pos; lra|]. split; [exact U|].
  assert (M1 : Rabs (m * fval l - m * L) <= bp (-36) * (K * K) * (m * L) + bp (-470)).
  { replace (m * fval l - m * L) with (m * (fval l - L)) by ring. rewrite Rabs_mult, (Rabs_pos_eq m) by lra.
    apply Rle_trans with (m * (bp (-36) * (K * K) * L + bp (-520))); [apply Rmult_le_compat_l; lra|].
    assert (m * bp (-520) <= bp (-470)). { change (-470)%Z with (50 + -520)%Z. rewrite bpow_plus. apply Rmult_le_compat_r; [apply bpow_ge_0|lra]. } lra. }
  assert (ML : 0 <= m * L) by (apply Rmult_le_pos; lra). assert (KK : 1 <= K * K <= 1000000) by (split; nra).
  set (g := bp (-36) * (K * K)) in *. assert (G : 0 <= g <= / 50000) by (unfold g; change (bp (-36)) with (/ 68719476736); lra).
  assert (GM : g * (m * L) <= / 50000 * (m * L)) by (apply Rmult_le_compat_r; lra).
  pose proof uro_pos as Pu. assert (u1 : uro <= / 100) by (unfold uro; change (bp (-53)) with (/ 9007199254740992); lra).
  assert (bp (-470) <= / 100 * bp (-200)).
  { apply Rle_trans with (bp (-7) * bp (-200)); [rewrite <- bpow_plus; apply bpow_le; lia|]. apply Rmult_le_compat_r; [apply bpow_ge_0|]. change (bp (-7)) with (/ 128). lra. }
  assert (E199 : bp (-199) = 2 * bp (-200)) by (change (-199)%Z with (1 + -200)%Z; rewrite bpow_plus; reflexivity). pose proof (bpow_gt_0 radix2 (-200)).
  apply Rabs_le_inv in M1. apply Rabs_le_inv in A.
  assert (N1 : 9 * uro * (m * fval l) <= 9 * uro * (11 / 10 * (m * L) + bp (-470))) by (apply Rmult_le_compat_l; lra).
  assert (N2 : uro * bp (-470) <= / 100 * bp (-470)) by (apply Rmult_le_compat_r; [apply bpow_ge_0|lra]). assert (N3 : 0 <= uro * (m * L)) by (apply Rmult_le_pos; lra).
  unfold e. fold g. apply Rabs_le. lra.
Qed.

Lemma weights_near cs : (forall c, In c cs -> ok c) ->
  0 <= sum_of W cs /\ Rabs (vsum (map fw cs) - sum_of W cs) <= e * sum_of W cs + INR (length cs) * bp (-199).
Proof.
  induction cs as [|c cs IH]; intros H.
  - split; [simpl; lra|]. simpl. unfold rsum. simpl. rewrite Rminus_0_r, Rabs_R0. lra.
  - destruct (IH (fun a Ha => H a (or_intror Ha))) as [I1 I2]. destruct (weight_near c (H c (or_introl eq_refl))) as (W0 & _ & A).
    change (sum_of W (c :: cs)) with (W c + sum_of W cs). change (map fw (c :: cs)) with (fw c :: map fw cs). rewrite vsum_cons.
    change (length (c :: cs)) with (Datatypes.S (length cs)). rewrite S_INR. split; [lra|]. apply Rabs_le_inv in A. apply Rabs_le_inv in I2. apply Rabs_le. lra.
Qed.

Lemma mix_correct cs : (forall c, In c cs -> ok c) -> (Z.of_nat (length cs) <= 2 ^ 20)%Z ->
  let out := fmix_correct sum expf powf pD kappa z V cs in let n := INR (length cs) in let T := evidence pD kappa z V cs in
  (out = ([], 0%float) /\ T <= 1.02e-8) \/
  (fin (snd out) /\ 0.98e-8 <= T /\ Rabs (fval (snd out) - T) <= (bp (-36) * (K * K) + (3 * n + 12) * bp (-53)) * T /\
   Forall2 (fun c r => upto 1 (fst r) /\
     Rabs (fval (fst r) - joint_weight pD kappa z V c / T) <= (3 * bp (-36) * (K * K) + (5 * n + 30) * bp (-53)) * (joint_weight pD kappa z V c / T) + bp (-150) /\
     near_update K z V c (fst (snd r)) (snd (snd r))) cs (fst out)).
Proof.
  intros Hok Hlen out n T. destruct (weights_near cs Hok) as [T0 HT]. change (sum_of W cs) with T in T0, HT. fold n in HT.
  assert (EW : map (fun wkl => fcorrect_w pD kappa (fst wkl) (snd wkl)) (combine (map fc_w cs) (map (fseen sum expf powf z V) cs)) = map fw cs).
  { clear. induction cs as [|c cs IH]; [reflexivity|]. simpl. rewrite IH. reflexivity. }
  assert (Hup : forall w, In w (map fw cs) -> upto (bp 850) w).
  { intros w Hw. apply in_map_iff in Hw. destruct Hw as (c & <- & Hc). exact (proj1 (proj2 (weight_near c (Hok c Hc)))). }
  assert (Hfew : few (map fw cs)) by (unfold few; rewrite map_length; exact Hlen).
  pose proof (few_u _ Hfew) as (NU & NB & _). rewrite map_length in NU, NB. fold n in NU, NB.
  destruct (normalize_ok (map fw cs) (bp 850) ltac:(split; [apply bpow_ge_0|apply bpow_le; lia]) Hup Hfew) as (t & Et & Ht0 & Hts & Hcase). rewrite map_length in Hts, Hcase. fold n in Hts, Hcase.
  destruct (proj_Fin _ _ Et) as [Ft Vt]. destruct lim_val as (_ & Vlim & Vlim2).
  set (S := vsum (map fw cs)) in *. pose proof e_small as He. pose proof uro_pos as Pu.
  assert (ND : 0 <= n * bp (-199) <= bp (-179)). { split; [apply Rmult_le_pos; [lra|apply bpow_ge_0]|]. change (-179)%Z with (20 + -199)%Z. rewrite bpow_plus. apply Rmult_le_compat_r; [apply bpow_ge_0|lra]. }
  assert (D179 : bp (-179) <= bp (-152) * bp (-27)) by (rewrite <- bpow_plus; apply bpow_le; lia).
  assert (B152 : 0 < bp (-152) <= / 100 * uro).
  { split; [apply bpow_gt_0|]. unfold uro. apply Rle_trans with (bp (-7) * bp (-53)); [rewrite <- bpow_plus; apply bpow_le; lia|]. apply Rmult_le_compat_r; [apply bpow_ge_0|]. change (bp (-7)) with (/ 128). lra. }
  assert (B27 : bp (-27) <= 0.8e-8) by (change (bp (-27)) with (/ 134217728); lra).
  assert (B33 : n * uro <= / 1000000000). { eapply Rle_trans; [exact NU|]. change (bp (-33)) with (/ 8589934592). lra. }
  assert (B27p : 0 < bp (-27)) by apply bpow_gt_0. assert (nu0 : 0 <= n * uro) by (apply Rmult_le_pos; lra).
  apply Rabs_le_inv in Hts. apply Rabs_le_inv in HT.
  assert (S0 : 0 <= S). { unfold S. clear - Hup. induction (map fw cs) as [|a l IH]; [simpl; unfold rsum; simpl; lra|]. rewrite vsum_cons. destruct (Hup a (or_introl eq_refl)) as [_ Ha]. specialize (IH (fun w Hw => Hup w (or_intror Hw))). lra. }
  assert (NS : 0 <= n * uro * S <= / 1000000000 * S) by (split; [apply Rmult_le_pos; lra|apply Rmult_le_compat_r; lra]).
  assert (ET : 0 <= e * T <= / 50000 * T) by (split; [apply Rmult_le_pos; lra|apply Rmult_le_compat_r; lra]).
  assert (D100 : bp (-179) <= / 1000 * 1e-8).
  { assert (bp (-152) * bp (-27) <= / 1000000 * 0.8e-8); [|lra]. apply Rmult_le_compat; try lra. unfold uro in B152. change (bp (-53)) with (/ 9007199254740992) in B152. lra. }
  unfold out, fmix_correct, fgm_correct. rewrite EW. destruct Hcase as [[Hsm En]|(Hbig & Es & Ln & Hu & Hf & Hone)].
  - left. rewrite En. split; [reflexivity|]. lra.
  - right. rewrite Es. cbn [fst snd]. rewrite Vt. assert (TB : 0.98e-8 <= T) by lra. split; [exact Ft|]. split; [exact TB|].
    assert (D3 : bp (-179) <= bp (-152) * T). { eapply Rle_trans; [exact D179|]. apply Rmult_le_compat_l; lra. }
    assert (D4 : bp (-152) * T <= / 100 * uro * T) by (apply Rmult_le_compat_r; lra). assert (uT : 0 <= uro * T) by (apply Rmult_le_pos; lra).
    split.
    { change (bp (-53)) with uro. replace ((bp (-36) * (K * K) + (3 * n + 12) * uro) * T) with (e * T + 3 * (n * uro * T) + 2 * (uro * T)) by (unfold e; ring).
      assert (n * uro * S <= n * uro * (101 / 100 * T)) by (apply Rmult_le_compat_l; lra). assert (0 <= n * uro * T) by (apply Rmult_le_pos; lra). apply Rabs_le. lra. }
    assert (G : forall c a w, Rabs (fval a - W c) <= e * W c + bp (-199) -> 0 <= W c -> Rabs (fval w - fval a / S) <= (4 * n + 4) * uro * (fval a / S) + bp (-1075) ->
      Rabs (fval w - W c / T) <= (3 * bp (-36) * (K * K) + (5 * n + 30) * bp (-53)) * (W c / T) + bp (-150)).
    { intros c a w Ha HW Hw. set (e2 := e + / 100 * uro). assert (u1 : uro <= / 1000000000) by (unfold uro; change (bp (-53)) with (/ 9007199254740992); lra).
      assert (Q : Rabs (fval a / S - W c / T) <= 201 / 100 * e2 * (W c / T) + 2 * (bp (-199) / T)).
      { apply share_close; try lra.
        - unfold e2. lra.
        - apply bpow_ge_0.
        - unfold e2. assert (0 <= uro * W c) by (apply Rmult_le_pos; lra). lra.
        - unfold e2. apply Rabs_le. lra. }
      assert (QT : 0 <= bp (-199) / T <= bp (-172)).
      { split; [apply Rmult_le_pos; [apply bpow_ge_0|apply Rlt_le, Rinv_0_lt_compat; lra]|]. apply Rmult_le_reg_r with T; [lra|]. replace (bp (-199) / T * T) with (bp (-199)) by (field; lra).
        change (-199)%Z with (-172 + -27)%Z. rewrite bpow_plus. apply Rmult_le_compat_l; [apply bpow_ge_0|lra]. }
      assert (HP : 0 <= W c / T) by (apply Rmult_le_pos; [lra|apply Rlt_le, Rinv_0_lt_compat; lra]). set (p := W c / T) in *. set (r := fval a / S) in *.
      assert (e2p : 0 <= e2 * p <= / 1000 * p) by (unfold e2; split; [apply Rmult_le_pos; lra|apply Rmult_le_compat_r; lra]).
      assert (T150 : bp (-172) <= / 1000 * bp (-150)).
      { apply Rle_trans with (bp (-22) * bp (-150)); [rewrite <- bpow_plus; apply bpow_le; lia|]. apply Rmult_le_compat_r; [apply bpow_ge_0|]. change (bp (-22)) with (/ 4194304). lra. }
      assert (T1075 : bp (-1075) <= / 1000 * bp (-150)) by (eapply Rle_trans; [|exact T150]; apply bpow_le; lia).
      apply Rabs_le_inv in Q. apply Rabs_le_inv in Hw. assert (B4 : 0 <= (4 * n + 4) * uro <= / 100000000) by lra.
      assert (R1 : (4 * n + 4) * uro * r <= (4 * n + 4) * uro * (101 / 100 * p + 2 * bp (-172))) by (apply Rmult_le_compat_l; lra).
      assert (R2 : (4 * n + 4) * uro * bp (-172) <= / 100000000 * bp (-172)) by (apply Rmult_le_compat_r; [apply bpow_ge_0|lra]).
      change (bp (-53)) with uro. assert (up : 0 <= uro * p) by (apply Rmult_le_pos; lra). assert (nup : 0 <= n * uro * p) by (apply Rmult_le_pos; lra).
      assert (kp : 0 <= bp (-36) * (K * K) * p). { apply Rmult_le_pos; [|lra]. apply Rmult_le_pos; [apply bpow_ge_0|nra]. }
      replace ((3 * bp (-36) * (K * K) + (5 * n + 30) * uro) * p) with (3 * (bp (-36) * (K * K) * p) + 5 * (n * uro * p) + 30 * (uro * p)) by ring.
      assert (X : 201 / 100 * e2 * p = 201 / 100 * (bp (-36) * (K * K) * p) + 201 / 100 * (1001 / 100) * (uro * p)) by (unfold e2, e; field).
      assert (Y : (4 * n + 4) * uro * (101 / 100 * p + 2 * bp (-172)) = 404 / 100 * (n * uro * p) + 404 / 100 * (uro * p) + 2 * ((4 * n + 4) * uro * bp (-172))) by field.
      pose proof (bpow_gt_0 radix2 (-150)). apply Rabs_le. lra. }
    clear - Hok Hf Hu G Hsum Hexp Hpow HpD Hkap HK Ln. revert Hf Hu Ln. generalize (fst (fnormalize (map fw cs))) as ws. revert Hok. clearbody S n T.
    induction cs as [|c cs IH]; intros Hok ws Hf Hu Ln; inversion Hf; subst; [constructor|].
    simpl. constructor.
    + cbn [fst snd]. split; [apply Hu; left; reflexivity|]. destruct (weight_near c (Hok c (or_introl eq_refl))) as (H0 & _ & H1'). split; [eapply G; eauto|].
      apply moved_near; auto. exact (proj2 (proj2 (Hok c (or_introl eq_refl)))).
    + apply IH; auto; [intros a Ha; apply Hok; right; exact Ha|intros w Hw; apply Hu; right; exact Hw].
Qed.
End Mix.
Lemma mixture_close sum expf powf pD kappa z V K cs : (forall l, fsums l (sum l)) -> exp_accurate expf -> square_accurate powf -> upto 1 pD -> kappa_ok kappa -> 1 <= K <= 1000 ->
  (forall c, In c cs -> upto 1 (fc_w c) /\ (fc_k c <= 1000)%nat /\ regular K z V (fc_x c) (fc_P c)) -> (Z.of_nat (length cs) <= 2 ^ 20)%Z ->
  let out := fmix_correct sum expf powf pD kappa z V cs in let n := INR (length cs) in let T := evidence pD kappa z V cs in
  (out = ([], 0%float) /\ T <= 1.02e-8) \/
  (fin (snd out) /\ 0.98e-8 <= T /\ Rabs (fval (snd out) - T) <= (bp (-36) * (K * K) + (3 * n + 12) * bp (-53)) * T /\
   Forall2 (fun c r => upto 1 (fst r) /\
     Rabs (fval (fst r) - joint_weight pD kappa z V c / T) <= (3 * bp (-36) * (K * K) + (5 * n + 30) * bp (-53)) * (joint_weight pD kappa z V c / T) + bp (-150) /\
     near_update K z V c (fst (snd r)) (snd (snd r))) cs (fst out)).
Proof. intros Hs He Hp H1 H2 HK Hc Hl. exact (mix_correct sum Hs expf powf He Hp pD kappa H1 H2 z V K HK cs Hc Hl). Qed.
