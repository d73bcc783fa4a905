(** The correction of a Gaussian with uncorrelated axes, in doubles. *)
From Coq Require Import List Reals ZArith Arith Bool Lra Lia Psatz.
Import ListNotations.
From Flocq Require Import Core.
From Coq Require Import Floats.
From Verif Require Import Scalar FloatBase ClusterFloat KalmanFloat KalmanFloatSpec KalmanFloatProofs KalmanFloatErr.
Local Open Scope R_scope.
Local Notation bp := (bpow radix2).
Local Notation "'ax' i" := (if Nat.even i then 0%nat else 1%nat) (at level 9).

Section Main.
Variable sum : list float -> float.
Hypothesis Hsum : forall l, fsums l (sum l).
Variables P R : nat -> nat -> float.
Hypothesis FP : finite4 P.
Hypothesis SP : separate4 P.
Hypothesis FR : forall i j, (i < 2)%nat -> (j < 2)%nat -> fin (R i j).
Hypothesis SR : separate2 R.
Hypothesis MP : forall i, (i < 4)%nat -> medium (val (P i i)).
Hypothesis MR : forall i, (i < 2)%nat -> medium (val (R i i)).
Hypothesis MO : forall i j, (i < 4)%nat -> (j < 4)%nat -> medium0 (val (P i j)).

Let p i j := val (P i j).
Let isP i j : (i < 4)%nat -> (j < 4)%nat -> is (P i j) (p i j).
Proof. intros Hi Hj. split; [apply FP; auto|reflexivity]. Qed.
Lemma big x : medium0 x -> Rabs x <= bp 1000.
Proof.
  intros [->|[_ H]]; [rewrite Rabs_R0; apply Rlt_le, bpow_gt_0|]. eapply Rle_trans; [exact H|]. apply bpow_le. lia.
Qed.
Lemma bigP i j : (i < 4)%nat -> (j < 4)%nat -> Rabs (p i j) <= bp 1000.
Proof. intros. apply big, MO; auto. Qed.
Lemma fH_is i j : is (fH i j) (if (i =? j)%nat then 1 else 0).
Proof. unfold fH. destruct (i =? j)%nat; [apply is_1|apply is_0]. Qed.
Lemma fH_1 i : is (fH i i) 1.
Proof. pose proof (fH_is i i) as H. rewrite Nat.eqb_refl in H. auto. Qed.
Lemma fH_0 i j : i <> j -> is (fH i j) 0.
Proof. intros Hn. pose proof (fH_is i j) as H. destruct (Nat.eqb_spec i j); [contradiction|auto]. Qed.

Lemma HP_is i j : (i < 2)%nat -> (j < 4)%nat -> is (fprod sum 4 fH P i j) (p i j).
Proof.
  intros Hi Hj. unfold fprod. eapply (sum_pick 4 (fun k => (fH i k * P k j)%float) _ i); [apply Hsum|lia| |apply bigP; lia|].
  - apply is_mul1l; [apply fH_1|apply isP; lia|apply bigP; lia].
  - intros k Hk Hn. eapply is_mul0l; [apply fH_0; auto|apply isP; lia].
Qed.
Lemma HPH_is i j : (i < 2)%nat -> (j < 2)%nat -> is (fprod sum 4 (fprod sum 4 fH P) (ftr fH) i j) (p i j).
Proof.
  intros Hi Hj. unfold fprod at 1. eapply (sum_pick 4 (fun k => (PrimFloat.mul (fprod sum 4 fH P i k) (ftr fH k j))) _ j); [apply Hsum|lia| |apply bigP; lia|].
  - unfold ftr. apply is_mul1r; [apply HP_is; lia|apply fH_1|apply bigP; lia].
  - intros k Hk Hn. unfold ftr. eapply is_mul0r; [apply HP_is; lia|apply fH_0; auto].
Qed.
Lemma PH_is i j : (i < 4)%nat -> (j < 2)%nat -> is (fprod sum 4 P (ftr fH) i j) (p i j).
Proof.
  intros Hi Hj. unfold fprod. eapply (sum_pick 4 (fun k => (P i k * ftr fH k j)%float) _ j); [apply Hsum|lia| |apply bigP; lia|].
  - unfold ftr. apply is_mul1r; [apply isP; lia|apply fH_1|apply bigP; lia].
  - intros k Hk Hn. unfold ftr. eapply is_mul0r; [apply isP; lia|apply fH_0; auto].
Qed.

Let s a := rnd (p a a + val (R a a)).
Let inv := rnd (1 / rnd (s 0 * s 1)).
Let D a := rnd (s (1 - a) * inv).

Let M0 : medium (p 0 0). Proof. apply MP; lia. Qed.
Let M1 : medium (p 1 1). Proof. apply MP; lia. Qed.
Let N0 : medium (val (R 0%nat 0%nat)). Proof. apply MR; lia. Qed.
Let N1 : medium (val (R 1%nat 1%nat)). Proof. apply MR; lia. Qed.

Lemma up k x : (k <= 1000)%Z -> 0 <= x <= bp k -> Rabs x <= bp 1000.
Proof. intros Hk H. rewrite Rabs_pos_eq by lra. apply Rle_trans with (bp k); [lra|apply bpow_le; lia]. Qed.

Lemma S_diag a : (a < 2)%nat -> is (finnov sum P R a a) (s a).
Proof.
  intros Ha. unfold finnov. apply is_add; [apply HPH_is; lia|split; [apply FR; lia|reflexivity]|].
  assert (Ma : medium (p a a)) by (apply MP; lia). pose proof (MR a Ha) as Na. pose proof (sum_range _ _ Ma Na).
  apply (up 201); [lia|]. pose proof (bpow_gt_0 radix2 (-200)). unfold p in *. lra.
Qed.
Lemma S_off i j : (i < 2)%nat -> (j < 2)%nat -> i <> j -> is (finnov sum P R i j) 0.
Proof.
  intros Hi Hj Hn. unfold finnov.
  assert (E1 : p i j = 0).
  { apply SP; try lia. destruct i as [|[|]], j as [|[|]]; try lia; reflexivity. }
  assert (E2 : val (R i j) = 0).
  { destruct SR as [S1 S2]. destruct i as [|[|]], j as [|[|]]; try lia; auto. }
  pose proof (is_add _ _ _ _ (HPH_is i j Hi Hj) (conj (FR i j Hi Hj) E2)) as H.
  rewrite E1, Rplus_0_l, rnd_0, Rabs_R0 in H. apply H, Rlt_le, bpow_gt_0.
Qed.
Lemma det_is : is (fdet2 (finnov sum P R)) (rnd (s 0 * s 1)).
Proof.
  unfold fdet2.
  pose proof (ss_range _ _ _ _ M0 N0 M1 N1) as Hr. fold (s 0) (s 1) in Hr. pose proof (bpow_gt_0 radix2 (-402)).
  assert (H1 : is (PrimFloat.mul (finnov sum P R 0%nat 0%nat) (finnov sum P R 1%nat 1%nat)) (rnd (s 0 * s 1))).
  { apply is_mul; [apply S_diag; lia|apply S_diag; lia|]. apply (up 404); [lia|lra]. }
  assert (H2 : is (PrimFloat.mul (finnov sum P R 1%nat 0%nat) (finnov sum P R 0%nat 1%nat)) 0).
  { eapply is_mul0l; apply S_off; lia. }
  pose proof (is_sub _ _ _ _ H1 H2) as H3. rewrite Rminus_0_r in H3. rewrite (is_format _ _ H1) in H3. apply H3.
  apply rnd_abs; [lia|]. apply (up 404); [lia|lra].
Qed.
Lemma inv_is : is (1 / fdet2 (finnov sum P R))%float inv.
Proof.
  pose proof (det_ok _ _ _ _ M0 N0 M1 N1) as [Hr _]. fold (s 0) (s 1) in Hr.
  pose proof (bpow_gt_0 radix2 (-403)).
  apply is_div; [apply is_1|apply det_is|lra|]. unfold Rdiv. rewrite Rmult_1_l. apply (up 403); [lia|].
  split; [apply Rlt_le, Rinv_0_lt_compat; lra|]. change 403%Z with (- (-403))%Z. rewrite bpow_opp. apply Rinv_le_contravar; lra.
Qed.
Lemma inv_range : bp (-406) <= inv <= bp 404.
Proof. pose proof (inv_ok _ _ _ _ M0 N0 M1 N1) as [Hr _]. exact Hr. Qed.
Lemma s_rng a : (a < 2)%nat -> bp (-201) <= s a <= bp 202.
Proof. intros Ha. apply s_range; [apply MP; lia|apply MR; lia]. Qed.
Lemma Dinv_diag a : (a < 2)%nat -> is (finv2 (finnov sum P R) a a) (D a).
Proof.
  intros Ha. unfold finv2.
  assert (H : is (PrimFloat.mul (finnov sum P R (1 - a)%nat (1 - a)%nat) (1 / fdet2 (finnov sum P R))%float) (D a)).
  { apply is_mul; [apply S_diag; lia|apply inv_is|]. pose proof inv_range. pose proof (s_rng (1 - a) ltac:(lia)).
    pose proof (bpow_gt_0 radix2 (-406)). pose proof (bpow_gt_0 radix2 (-201)).
    apply (up 606); [lia|]. split; [apply Rmult_le_pos; lra|]. replace 606%Z with (202 + 404)%Z by lia. rewrite bpow_plus. apply Rmult_le_compat; lra. }
  destruct a as [|[|]]; [exact H|exact H|lia].
Qed.
Lemma Dinv_off i j : (i < 2)%nat -> (j < 2)%nat -> i <> j -> is (finv2 (finnov sum P R) i j) 0.
Proof.
  intros Hi Hj Hn. unfold finv2. destruct i as [|[|]], j as [|[|]]; try lia; eapply is_mul0l; try apply inv_is; apply is_opp0, S_off; lia.
Qed.

Lemma D_range a : (a < 2)%nat -> bp (-202) <= D a <= bp 201.
Proof.
  intros Ha. destruct a as [|[|]]; [| |lia].
  - destruct (D_ok _ _ _ _ M0 N0 M1 N1) as [H _]. exact H.
  - destruct (D_ok _ _ _ _ M1 N1 M0 N0) as [H _]. unfold D, inv. cbn [Nat.sub]. rewrite (Rmult_comm (s 0) (s 1)). exact H.
Qed.
Lemma cD_big i a : (i < 4)%nat -> (a < 2)%nat -> Rabs (p i a * D a) <= bp 401.
Proof.
  intros Hi Ha. pose proof (D_range a Ha). pose proof (bpow_gt_0 radix2 (-202)). rewrite Rabs_mult, (Rabs_pos_eq (D a)) by lra.
  replace 401%Z with (200 + 201)%Z by lia. rewrite bpow_plus. apply Rmult_le_compat; try lra; [apply Rabs_pos|].
  destruct (MO i a ltac:(lia) ltac:(lia)) as [E|[_ E]]; [|exact E]. unfold p. rewrite E, Rabs_R0. apply Rlt_le, bpow_gt_0.
Qed.
Lemma gain_is i a : (i < 4)%nat -> (a < 2)%nat -> is (fgain sum P R i a) (rnd (p i a * D a)).
Proof.
  intros Hi Ha. pose proof (cD_big i a Hi Ha) as B.
  assert (B2 : Rabs (p i a * D a) <= bp 1000) by (eapply Rle_trans; [exact B|apply bpow_le; lia]).
  unfold fgain. unfold fprod at 1.
  eapply (sum_pick 2 (fun k => (PrimFloat.mul (fprod sum 4 P (ftr fH) i k) (finv2 (finnov sum P R) k a))) _ a); [apply Hsum|lia| |apply rnd_abs; auto; lia|].
  - apply is_mul; [apply PH_is; lia|apply Dinv_diag; lia|auto].
  - intros k Hk Hn. eapply is_mul0r; [apply PH_is; lia|apply Dinv_off; lia].
Qed.
Lemma k_big i a : (i < 4)%nat -> (a < 2)%nat -> Rabs (rnd (p i a * D a)) <= bp 401.
Proof. intros. apply rnd_abs; [lia|]. apply cD_big; auto. Qed.
Lemma KH_is i j : (i < 4)%nat -> (j < 4)%nat -> is (fprod sum 2 (fgain sum P R) fH i j) (if (j <? 2)%nat then rnd (p i j * D j) else 0).
Proof.
  intros Hi Hj. unfold fprod. destruct (Nat.ltb_spec j 2) as [Hj2|Hj2].
  - assert (B : Rabs (rnd (p i j * D j)) <= bp 1000) by (eapply Rle_trans; [apply k_big; auto|apply bpow_le; lia]).
    eapply (sum_pick 2 (fun k => (fgain sum P R i k * fH k j)%float) _ j); [apply Hsum|lia| |auto|].
    + apply is_mul1r; [apply gain_is; lia|apply fH_1|auto].
    + intros k Hk Hn. eapply is_mul0r; [apply gain_is; lia|apply fH_0; auto].
  - eapply (sum_none 2 (fun k => (fgain sum P R i k * fH k j)%float)); [apply Hsum|].
    intros k Hk. eapply is_mul0r; [apply gain_is; lia|apply fH_0; lia].
Qed.

Lemma zero i j : (i < 4)%nat -> (j < 4)%nat -> Nat.even i <> Nat.even j -> p i j = 0.
Proof.
  intros Hi Hj Hn. apply SP; auto. rewrite Nat.even_add. destruct (Nat.even i), (Nat.even j); try reflexivity; congruence.
Qed.
Lemma ax_lt i : (ax i < 2)%nat. Proof. destruct (Nat.even i); lia. Qed.
Lemma ax_even i : Nat.even (ax i) = Nat.even i. Proof. destruct (Nat.even i); reflexivity. Qed.
Lemma ax_only i k : (k < 2)%nat -> k <> ax i -> Nat.even i <> Nat.even k.
Proof. intros Hk Hn. destruct k as [|[|]]; [| |lia]; destruct (Nat.even i); cbn; try congruence; lia. Qed.
Lemma tP_big i j : (i < 4)%nat -> (j < 4)%nat -> Rabs (rnd (p i (ax i) * D (ax i)) * p (ax i) j) <= bp 601.
Proof.
  intros Hi Hj. pose proof (ax_lt i). rewrite Rabs_mult. replace 601%Z with (401 + 200)%Z by lia. rewrite bpow_plus.
  apply Rmult_le_compat; try apply Rabs_pos; [apply k_big; auto|].
  destruct (MO (ax i) j ltac:(lia) ltac:(lia)) as [E|[_ E]]; [|exact E]. unfold p. rewrite E, Rabs_R0. apply Rlt_le, bpow_gt_0.
Qed.
Lemma KHP_is i j : (i < 4)%nat -> (j < 4)%nat ->
  is (fprod sum 4 (fprod sum 2 (fgain sum P R) fH) P i j)
     (if Bool.eqb (Nat.even i) (Nat.even j) then rnd (rnd (p i (ax i) * D (ax i)) * p (ax i) j) else 0).
Proof.
  intros Hi Hj. unfold fprod at 1. pose proof (ax_lt i) as La. pose proof (tP_big i j Hi Hj) as B.
  assert (Z : forall k, (k < 4)%nat -> k <> ax i \/ Nat.even i <> Nat.even j -> is (PrimFloat.mul (fprod sum 2 (fgain sum P R) fH i k) (P k j)) 0).
  { intros k Hk Hc. destruct (Nat.ltb_spec k 2) as [H2|H2].
    - destruct (bool_dec (Nat.even i) (Nat.even k)) as [E|E].
      + assert (Ek : k = ax i) by (destruct (Nat.eq_dec k (ax i)); auto; apply ax_only in n; auto; contradiction).
        destruct Hc as [Hc|Hc]; [contradiction|]. eapply is_mul0r; [apply KH_is; lia|].
        replace 0 with (p k j); [apply isP; lia|]. apply zero; auto. rewrite <- E. auto.
      + eapply is_mul0l; [|apply isP; lia]. replace 0 with (if (k <? 2)%nat then rnd (p i k * D k) else 0); [apply KH_is; lia|].
        destruct (Nat.ltb_spec k 2); [|lia]. rewrite (zero i k) by auto. rewrite Rmult_0_l, rnd_0. auto.
    - eapply is_mul0l; [|apply isP; lia]. replace 0 with (if (k <? 2)%nat then rnd (p i k * D k) else 0); [apply KH_is; lia|].
      destruct (Nat.ltb_spec k 2); [lia|auto]. }
  destruct (Bool.eqb (Nat.even i) (Nat.even j)) eqn:E.
  - apply eqb_prop in E.
    eapply (sum_pick 4 (fun k => (PrimFloat.mul (fprod sum 2 (fgain sum P R) fH i k) (P k j))) _ (ax i)); [apply Hsum|lia| |apply rnd_abs; [lia|]|].
    + pose proof (KH_is i (ax i) Hi ltac:(lia)) as HK. destruct (Nat.ltb_spec (ax i) 2); [|lia].
      apply is_mul; [exact HK|apply isP; lia|]. eapply Rle_trans; [exact B|apply bpow_le; lia].
    + eapply Rle_trans; [exact B|apply bpow_le; lia].
    + intros k Hk Hn. apply Z; auto.
  - apply eqb_false_iff in E. eapply (sum_none 4 (fun k => (PrimFloat.mul (fprod sum 2 (fgain sum P R) fH i k) (P k j)))); [apply Hsum|]. intros k Hk. apply Z; auto.
Qed.

(** The coefficients of the result. *)
Definition exact (i j : nat) := p i j - p i (ax i) * p (ax i) j / (p (ax i) (ax i) + val (R (ax i) (ax i))).

Hypothesis SY : symmetric4 P.
Hypothesis DE : forall a, (a < 2)%nat -> p a (a + 2) * p a (a + 2) < p a a * p (a + 2) (a + 2).

Lemma cs i j : (i < 4)%nat -> (j < 4)%nat -> Nat.even i = Nat.even j ->
  Rabs (p i (ax i) * p (ax i) j) <= (p (ax i) (ax i) + val (R (ax i) (ax i))) * Rabs (p i j).
Proof.
  intros Hi Hj E. pose proof (ax_lt i) as La. pose proof (medium_pos _ (MP (ax i) ltac:(lia))) as P1. pose proof (medium_pos _ (MR (ax i) La)) as P2.
  pose proof (DE 0 ltac:(lia)) as D0. pose proof (DE 1 ltac:(lia)) as D1. cbn [Nat.add] in D0, D1.
  assert (S0 : p 2 0 = p 0 2) by (apply SY; lia). assert (S1 : p 3 1 = p 1 3) by (apply SY; lia).
  unfold p in *.
  destruct i as [|[|[|[|]]]]; try lia; destruct j as [|[|[|[|]]]]; try lia; cbn in E; try discriminate; cbn [Nat.even] in *;
    rewrite ?S0, ?S1 in *; rewrite Rabs_mult;
    repeat match goal with |- context [Rabs (val (P ?a ?a))] => rewrite (Rabs_pos_eq (val (P a a))) by (apply Rlt_le, medium_pos, MP; lia) end;
    try (pose proof (Rabs_pos (val (P 0%nat 2%nat)))); try (pose proof (Rabs_pos (val (P 1%nat 3%nat)))).
  all: try nra.
  all: rewrite <- Rabs_mult, Rabs_pos_eq by nra.
  - pose proof (medium_pos _ (MP 2 ltac:(lia))). nra.
  - pose proof (medium_pos _ (MP 3 ltac:(lia))). nra.
Qed.

Lemma fcov_val i j : (i < 4)%nat -> (j < 4)%nat ->
  let r := if Bool.eqb (Nat.even i) (Nat.even j) then rnd (p i j - rnd (rnd (p i (ax i) * D (ax i)) * p (ax i) j)) else 0 in
  is (fcov sum P R i j) r /\ (Nat.even i = Nat.even j -> Rabs (r - exact i j) <= bp (-49) * Rabs (p i j)).
Proof.
  intros Hi Hj r. unfold fcov, r. pose proof (KHP_is i j Hi Hj) as HK. pose proof (isP i j Hi Hj) as Hp. pose proof (ax_lt i) as La.
  destruct (Bool.eqb (Nat.even i) (Nat.even j)) eqn:E.
  - apply eqb_prop in E.
    assert (C : let k := rnd (p i (ax i) * D (ax i)) in let t := rnd (k * p (ax i) j) in
      Rabs (p i j - t) <= bp 1000 /\ Rabs (rnd (p i j - t) - exact i j) <= bp (-49) * Rabs (p i j)).
    { assert (C0 : p i j = 0 -> p (ax i) j * p i (ax i) = 0).
      { intros Z. destruct (Nat.eq_dec i (ax i)) as [Ei|Ei]; [rewrite <- Ei, Z; ring|].
        destruct (Nat.eq_dec j (ax i)) as [Ej|Ej]; [rewrite <- Ej, Z; ring|].
        exfalso. assert (Eij : i = j).
        { clear - Hi Hj E Ei Ej. destruct i as [|[|[|[|]]]]; try lia; destruct j as [|[|[|[|]]]]; try lia; cbn in *; try discriminate; try congruence. }
        pose proof (medium_pos _ (MP i Hi)). rewrite <- Eij in Z. unfold p in Z. lra. }
      destruct (ax i) as [|[|]] eqn:Ea; [| |lia].
      - destruct (cell _ _ _ _ M0 N0 M1 N1 (p i j) (p 0 j) (p i 0)) as (_ & _ & C3 & C4); try (apply MO; lia); auto.
        + pose proof (cs i j Hi Hj E) as H. rewrite Ea in H. exact H.
        + unfold exact. rewrite Ea. split; [exact C3|exact C4].
      - destruct (cell _ _ _ _ M1 N1 M0 N0 (p i j) (p 1 j) (p i 1)) as (_ & _ & C3 & C4); try (apply MO; lia); auto.
        + pose proof (cs i j Hi Hj E) as H. rewrite Ea in H. exact H.
        + unfold exact. rewrite Ea. unfold D, inv. cbn [Nat.sub]. rewrite (Rmult_comm (s 0) (s 1)). split; [exact C3|exact C4]. }
    destruct C as [C1 C2]. split; [apply is_sub; auto|]. intros _. exact C2.
  - apply eqb_false_iff in E. pose proof (is_sub _ _ _ _ Hp HK) as H. rewrite (zero i j Hi Hj E), Rminus_0_r, rnd_0, Rabs_R0 in H.
    split; [apply H, Rlt_le, bpow_gt_0|]. intros; contradiction.
Qed.

(** The inverse of a diagonal matrix. *)
Variable Di : nat -> nat -> RbaseSymbolsImpl.R.
Hypothesis HD : inverts2 P R Di.
Lemma Di_is : Di 0 0 = / (p 0 0 + val (R 0%nat 0%nat)) /\ Di 1 1 = / (p 1 1 + val (R 1%nat 1%nat)) /\ Di 0 1 = 0 /\ Di 1 0 = 0.
Proof.
  assert (Z1 : p 0 1 = 0) by (apply zero; cbn; lia || discriminate). assert (Z2 : p 1 0 = 0) by (apply zero; cbn; lia || discriminate).
  destruct SR as [S1 S2]. pose proof (medium_pos _ M0). pose proof (medium_pos _ M1). pose proof (medium_pos _ N0). pose proof (medium_pos _ N1).
  pose proof (HD 0%nat 0%nat ltac:(lia) ltac:(lia)) as H00. pose proof (HD 0%nat 1%nat ltac:(lia) ltac:(lia)) as H01.
  pose proof (HD 1%nat 0%nat ltac:(lia) ltac:(lia)) as H10. pose proof (HD 1%nat 1%nat ltac:(lia) ltac:(lia)) as H11. cbn [Nat.eqb] in *.
  fold (p 0 0) (p 0 1) (p 1 0) (p 1 1) in *. rewrite S1, S2, Z1, Z2, Rplus_0_r, Rmult_0_l, ?Rplus_0_r, ?Rplus_0_l in *.
  repeat split.
  - apply Rmult_eq_reg_l with (p 0 0 + val (R 0%nat 0%nat)); [|lra]. rewrite Rinv_r by lra. auto.
  - apply Rmult_eq_reg_l with (p 1 1 + val (R 1%nat 1%nat)); [|lra]. rewrite Rinv_r by lra. auto.
  - apply Rmult_eq_reg_l with (p 0 0 + val (R 0%nat 0%nat)); [|lra]. rewrite Rmult_0_r. auto.
  - apply Rmult_eq_reg_l with (p 1 1 + val (R 1%nat 1%nat)); [|lra]. rewrite Rmult_0_r. auto.
Qed.
Lemma kgain_is i b : (i < 4)%nat -> (b < 2)%nat ->
  kgain P Di i b = if (b =? ax i)%nat then p i (ax i) * / (p (ax i) (ax i) + val (R (ax i) (ax i))) else 0.
Proof.
  intros Hi Hb. destruct Di_is as (D00 & D11 & D01 & D10). unfold kgain. fold (p i 0) (p i 1).
  destruct (Nat.even i) eqn:E.
  - rewrite (zero i 1) by (auto; rewrite ?E; cbn; lia || discriminate). destruct b as [|[|]]; [| |lia]; cbn [Nat.eqb]; rewrite ?D00, ?D01; ring.
  - rewrite (zero i 0) by (auto; rewrite ?E; cbn; lia || discriminate). destruct b as [|[|]]; [| |lia]; cbn [Nat.eqb]; rewrite ?D10, ?D11; ring.
Qed.
Lemma exact_is i j : (i < 4)%nat -> (j < 4)%nat -> p i j - kshrink P Di i j = exact i j.
Proof.
  intros Hi Hj. unfold kshrink, exact. rewrite !kgain_is by lia. fold (p 0 j) (p 1 j). unfold Rdiv.
  destruct (Nat.even i); cbn [Nat.eqb]; ring.
Qed.
Lemma exact_odd i j : (i < 4)%nat -> (j < 4)%nat -> Nat.even i <> Nat.even j -> exact i j = 0.
Proof.
  intros Hi Hj E. unfold exact. rewrite (zero i j), (zero (ax i) j) by (auto; pose proof (ax_lt i); rewrite ?ax_even; auto; lia). unfold Rdiv. ring.
Qed.

Lemma cov_near i j : (i < 4)%nat -> (j < 4)%nat -> fin (fcov sum P R i j) /\
  Rabs (val (fcov sum P R i j) - (p i j - kshrink P Di i j)) <= bp (-49) * Rabs (p i j).
Proof.
  intros Hi Hj. destruct (fcov_val i j Hi Hj) as [[F V] B]. split; auto. rewrite exact_is, V by auto.
  destruct (Bool.eqb (Nat.even i) (Nat.even j)) eqn:E.
  - apply B, eqb_prop, E.
  - apply eqb_false_iff in E. rewrite exact_odd by auto. rewrite (zero i j) by auto. rewrite Rminus_0_r, Rabs_R0, Rmult_0_r. apply Rle_refl.
Qed.
Lemma cov_separate : separate4 (fcov sum P R).
Proof.
  intros i j Hi Hj E. rewrite Nat.even_add in E. destruct (fcov_val i j Hi Hj) as [[F V] _]. rewrite V, E. reflexivity.
Qed.

(** The mean. *)
Variables x z : nat -> float.
Hypothesis FX : forall i, (i < 4)%nat -> fin (x i) /\ Rabs (val (x i)) <= bp 200.
Hypothesis FZ : forall i, (i < 2)%nat -> fin (z i) /\ Rabs (val (z i)) <= bp 200.
Lemma Hx_is k : (k < 2)%nat -> is (fprodv sum 4 fH x k) (val (x k)).
Proof.
  intros Hk. unfold fprodv. eapply (sum_pick 4 (fun j => (fH k j * x j)%float) _ k); [apply Hsum|lia| | |].
  - apply is_mul1l; [apply fH_1|split; [apply FX; lia|reflexivity]|]. eapply Rle_trans; [apply FX; lia|apply bpow_le; lia].
  - eapply Rle_trans; [apply FX; lia|apply bpow_le; lia].
  - intros j Hj Hn. eapply is_mul0l; [apply fH_0; auto|split; [apply FX; lia|reflexivity]].
Qed.
Lemma mean_val i : (i < 4)%nat -> fin (fmean sum x P z R i) /\
  Rabs (val (fmean sum x P z R i) - (val (x i) + kmove x P z Di i)) <=
  bp (-53) * Rabs (val (x i)) + bp (-49) * Rabs (kmove x P z Di i) + bp (-1074).
Proof.
  intros Hi. pose proof (ax_lt i) as La. unfold fmean.
  assert (Em : kmove x P z Di i = p i (ax i) * / (p (ax i) (ax i) + val (R (ax i) (ax i))) * (val (z (ax i)) - val (x (ax i)))).
  { unfold kmove. rewrite !kgain_is by lia. destruct (Nat.even i); cbn [Nat.eqb]; ring. }
  assert (Hd : forall k, (k < 2)%nat -> is (z k - fprodv sum 4 fH x k)%float (rnd (val (z k) - val (x k)))).
  { intros k Hk. apply is_sub; [split; [apply FZ; auto|reflexivity]|apply Hx_is; auto|].
    destruct (FZ k Hk) as [_ B1]. destruct (FX k ltac:(lia)) as [_ B2]. unfold Rminus. eapply Rle_trans; [apply Rabs_triang|]. rewrite Rabs_Ropp.
    apply Rle_trans with (bp 201); [|apply bpow_le; lia]. replace 201%Z with (1 + 200)%Z by lia. rewrite bpow_plus. change (bp 1) with 2. lra. }
  assert (C : let k := rnd (p i (ax i) * D (ax i)) in let d := rnd (val (z (ax i)) - val (x (ax i))) in let t := rnd (k * d) in
    Rabs (k * d) <= bp 602 /\ Rabs (val (x i) + t) <= bp 603 /\
    Rabs (rnd (val (x i) + t) - (val (x i) + kmove x P z Di i)) <=
      bp (-53) * Rabs (val (x i)) + bp (-49) * Rabs (kmove x P z Di i) + bp (-1074)).
  { rewrite Em. destruct (FZ (ax i) La) as [_ B1]. destruct (FX (ax i) ltac:(lia)) as [_ B2]. destruct (FX i Hi) as [_ B3].
    destruct (ax i) as [|[|]] eqn:Ea; [| |lia].
    - destruct (mean_cell _ _ _ _ M0 N0 M1 N1 (p i 0) (val (x i)) (val (x 0%nat)) (val (z 0%nat))) as (_ & C2 & C3 & C4); try apply rnd_val; auto.
      apply MO; lia.
    - destruct (mean_cell _ _ _ _ M1 N1 M0 N0 (p i 1) (val (x i)) (val (x 1%nat)) (val (z 1%nat))) as (_ & C2 & C3 & C4); try apply rnd_val; auto.
      + apply MO; lia.
      + unfold D, inv. cbn [Nat.sub]. rewrite (Rmult_comm (s 0) (s 1)). auto. }
  destruct C as (C2 & C3 & C4).
  assert (Ht : is (fprodv sum 2 (fgain sum P R) (fun k => z k - fprodv sum 4 fH x k)%float i)
                  (rnd (rnd (p i (ax i) * D (ax i)) * rnd (val (z (ax i)) - val (x (ax i)))))).
  { unfold fprodv at 1.
    eapply (sum_pick 2 (fun k => PrimFloat.mul (fgain sum P R i k) (z k - fprodv sum 4 fH x k)%float) _ (ax i)); [apply Hsum|lia| | |].
    - apply is_mul; [apply gain_is; auto|apply Hd; auto|]. eapply Rle_trans; [exact C2|apply bpow_le; lia].
    - apply rnd_abs; [lia|]. eapply Rle_trans; [exact C2|apply bpow_le; lia].
    - intros k Hk Hn. eapply is_mul0l; [|apply Hd; auto]. pose proof (gain_is i k Hi Hk) as HG.
      rewrite (zero i k), Rmult_0_l, rnd_0 in HG by (auto; try lia; apply ax_only; auto). exact HG. }
  destruct (is_add _ _ _ _ (conj (proj1 (FX i Hi)) eq_refl) Ht) as [F V].
  { eapply Rle_trans; [exact C3|apply bpow_le; lia]. }
  split; [exact F|]. rewrite V. exact C4.
Qed.
End Main.

(** Positive definiteness. *)
Section Definite.
Variable Q : nat -> nat -> float.
Hypothesis SQ : separate4 Q.
Lemma definite_axes :
  (forall a, (a < 2)%nat -> 0 < val (Q a a) /\
     ((val (Q a (a + 2)%nat) + val (Q (a + 2)%nat a)) / 2) * ((val (Q a (a + 2)%nat) + val (Q (a + 2)%nat a)) / 2) < val (Q a a) * val (Q (a + 2)%nat (a + 2)%nat)) ->
  definite4 Q.
Proof.
  intros H v Hv. unfold qf4.
  rewrite (SQ 0%nat 1%nat), (SQ 0%nat 3%nat), (SQ 1%nat 0%nat), (SQ 1%nat 2%nat), (SQ 2%nat 1%nat), (SQ 2%nat 3%nat), (SQ 3%nat 0%nat), (SQ 3%nat 2%nat) by (lia || reflexivity).
  destruct (H 0%nat ltac:(lia)) as [H0 G0]. destruct (H 1%nat ltac:(lia)) as [H1 G1]. cbn [Nat.add] in *.
  assert (A : forall a b m x y, 0 < a -> m * m < a * b -> 0 <= x * (a * x) + 2 * m * x * y + b * y * y /\ (x <> 0 \/ y <> 0 -> 0 < x * (a * x) + 2 * m * x * y + b * y * y)).
  { intros a b m x y Ha Hm.
    assert (E : x * (a * x) + 2 * m * x * y + b * y * y = ((a * x + m * y) * (a * x + m * y) + (a * b - m * m) * (y * y)) / a) by (field; lra).
    rewrite E. pose proof (Rle_0_sqr (a * x + m * y)) as S1. pose proof (Rle_0_sqr y) as S2. unfold Rsqr in *.
    assert (0 <= (a * b - m * m) * (y * y)) by (apply Rmult_le_pos; lra).
    split.
    - apply Rmult_le_pos; [lra|]. apply Rlt_le, Rinv_0_lt_compat; auto.
    - intros Hn. apply Rmult_lt_0_compat; [|apply Rinv_0_lt_compat; auto]. destruct (Req_dec y 0) as [->|Hy].
      + destruct Hn as [Hn|Hn]; [|lra]. assert (0 < (a * x) * (a * x)); [|lra]. apply Rlt_0_sqr. apply Rmult_integral_contrapositive; split; lra.
      + assert (0 < y * y) by (apply Rlt_0_sqr; auto). assert (0 < (a * b - m * m) * (y * y)) by (apply Rmult_lt_0_compat; lra). lra. }
  destruct (A _ _ _ (v 0%nat) (v 2%nat) H0 G0) as [P0 Q0]. destruct (A _ _ _ (v 1%nat) (v 3%nat) H1 G1) as [P1 Q1].
  match goal with |- 0 < ?e => replace e with
    ((v 0%nat * (val (Q 0%nat 0%nat) * v 0%nat) + 2 * ((val (Q 0%nat 2%nat) + val (Q 2%nat 0%nat)) / 2) * v 0%nat * v 2%nat + val (Q 2%nat 2%nat) * v 2%nat * v 2%nat) +
     (v 1%nat * (val (Q 1%nat 1%nat) * v 1%nat) + 2 * ((val (Q 1%nat 3%nat) + val (Q 3%nat 1%nat)) / 2) * v 1%nat * v 3%nat + val (Q 3%nat 3%nat) * v 3%nat * v 3%nat)) by field end.
  destruct Hv as [Hv|[Hv|[Hv|Hv]]].
  - specialize (Q0 (or_introl Hv)). lra.
  - specialize (Q1 (or_introl Hv)). lra.
  - specialize (Q0 (or_intror Hv)). lra.
  - specialize (Q1 (or_intror Hv)). lra.
Qed.
End Definite.

Lemma definite_minor P a : symmetric4 P -> definite4 P -> (a < 2)%nat -> 0 < val (P a a) ->
  val (P a (a + 2)%nat) * val (P a (a + 2)%nat) < val (P a a) * val (P (a + 2)%nat (a + 2)%nat).
Proof.
  intros SY DE Ha Hp. set (p := val (P a a)) in *. set (c := val (P a (a + 2)%nat)). set (v := val (P (a + 2)%nat (a + 2)%nat)).
  assert (E : val (P (a + 2)%nat a) = c) by (apply SY; lia).
  pose proof (DE (fun i => if (i =? a)%nat then c else if (i =? a + 2)%nat then - p else 0)) as H. unfold qf4 in H.
  assert (X : 0 < p * (p * v - c * c)).
  { destruct a as [|[|]]; [| |lia]; cbn [Nat.eqb Nat.add] in *; fold p c v in H; rewrite E in H;
      (eapply Rlt_le_trans; [apply H; lra|]); right; ring. }
  apply Rmult_lt_reg_l with p; [auto|]. lra.
Qed.

(** One axis of the result. *)
Lemma axis_definite p c v r p1 c1 v1 : 0 < p -> 0 < v -> 0 < r -> c * c < p * v ->
  bp (-45) * ((p + r) * (p * v)) <= r * (p * v - c * c) ->
  Rabs (p1 - (p - p * p / (p + r))) <= bp (-49) * p ->
  Rabs (c1 - (c - p * c / (p + r))) <= bp (-49) * Rabs c ->
  Rabs (v1 - (v - c * c / (p + r))) <= bp (-49) * v ->
  0 < p1 /\ c1 * c1 < p1 * v1.
Proof.
  intros Hp Hv Hr Hc Hg Bp Bc Bv.
  set (e := bp (-49)) in *. assert (E45 : bp (-45) = 16 * e) by (unfold e; replace (-45)%Z with (4 + -49)%Z by lia; rewrite bpow_plus; reflexivity).
  rewrite E45 in Hg. assert (He : 0 < e) by apply bpow_gt_0.
  assert (He1 : e <= / 1000).
  { unfold e. change (bp (-49)) with (/ IZR (2 ^ 49)). apply Rinv_le_contravar; [lra|]. apply IZR_le. lia. }
  set (g := r / (p + r)).
  assert (G : 0 < g <= 1).
  { unfold g. split; [apply Rdiv_lt_0_compat; lra|]. apply Rmult_le_reg_r with (p + r); [lra|]. unfold Rdiv. rewrite Rmult_assoc, Rinv_l by lra. lra. }
  replace (p - p * p / (p + r)) with (g * p) in Bp by (unfold g; field; lra).
  replace (c - p * c / (p + r)) with (g * c) in Bc by (unfold g; field; lra).
  set (w := v - c * c / (p + r)) in *.
  assert (W : g * (p * v - c * c) = g * p * w - (g * c) * (g * c)) by (unfold w, g; field; lra).
  assert (Hg2 : 16 * e * (p * v) <= g * (p * v - c * c)).
  { unfold g. apply Rmult_le_reg_r with (p + r); [lra|]. replace (r / (p + r) * (p * v - c * c) * (p + r)) with (r * (p * v - c * c)) by (field; lra). lra. }
  assert (Hw : w <= v).
  { unfold w. assert (0 <= c * c / (p + r)); [|lra]. apply Rmult_le_pos; [apply Rle_0_sqr|apply Rlt_le, Rinv_0_lt_compat; lra]. }
  pose proof (Rle_0_sqr c) as C0. unfold Rsqr in C0. pose proof (Rmult_lt_0_compat _ _ Hp Hv) as PV.
  assert (Gg : 16 * e <= g).
  { apply Rmult_le_reg_r with (p * v); [lra|]. eapply Rle_trans; [exact Hg2|]. apply Rmult_le_compat_l; lra. }
  assert (Gw : 16 * e * v <= w).
  { apply Rmult_le_reg_l with (g * p); [apply Rmult_lt_0_compat; lra|].
    assert (g * p * (16 * e * v) <= 16 * e * (p * v)) by (replace (g * p * (16 * e * v)) with (g * (16 * e * (p * v))) by ring; assert (0 < 16 * e * (p * v)) by (apply Rmult_lt_0_compat; lra); nra).
    pose proof (Rle_0_sqr (g * c)) as S. unfold Rsqr in S. lra. }
  apply Rabs_le_inv in Bp. apply Rabs_le_inv in Bv.
  assert (P1 : (g - e) * p <= p1) by lra. assert (V1 : w - e * v <= v1) by lra.
  assert (Pp : 0 < (g - e) * p) by (apply Rmult_lt_0_compat; lra).
  assert (Vp : 0 < w - e * v) by (assert (0 < e * v) by (apply Rmult_lt_0_compat; lra); lra).
  split; [lra|].
  assert (PV1 : (g - e) * p * (w - e * v) <= p1 * v1) by (apply Rmult_le_compat; lra).
  assert (C1 : Rabs c1 <= (g + e) * Rabs c).
  { replace c1 with (g * c + (c1 - g * c)) by ring. eapply Rle_trans; [apply Rabs_triang|]. rewrite Rabs_mult, (Rabs_pos_eq g) by lra. lra. }
  assert (CC : c1 * c1 <= (g + e) * (g + e) * (c * c)).
  { replace (c1 * c1) with (Rabs c1 * Rabs c1) by (rewrite <- Rabs_mult; apply Rabs_pos_eq, Rle_0_sqr).
    replace (c * c) with (Rabs c * Rabs c) by (rewrite <- Rabs_mult; apply Rabs_pos_eq, Rle_0_sqr).
    replace ((g + e) * (g + e) * (Rabs c * Rabs c)) with (((g + e) * Rabs c) * ((g + e) * Rabs c)) by ring.
    apply Rmult_le_compat; auto using Rabs_pos. }
  assert (T1 : (g + e) * (g + e) * (c * c) <= (g * c) * (g * c) + 3 * e * (p * v)).
  { replace ((g + e) * (g + e) * (c * c)) with ((g * c) * (g * c) + (2 * g * e + e * e) * (c * c)) by ring.
    assert ((2 * g * e + e * e) <= 3 * e) by nra. assert (0 <= 2 * g * e + e * e) by nra.
    assert ((2 * g * e + e * e) * (c * c) <= 3 * e * (p * v)) by (apply Rmult_le_compat; lra). lra. }
  assert (T2 : g * p * w - 2 * e * (p * v) <= (g - e) * p * (w - e * v)).
  { replace ((g - e) * p * (w - e * v)) with (g * p * w - e * p * w - g * (e * (p * v)) + e * e * (p * v)) by ring.
    assert (e * p * w <= e * p * v) by (apply Rmult_le_compat_l; [apply Rmult_le_pos; lra|lra]).
    assert (0 < e * (p * v)) by (apply Rmult_lt_0_compat; lra). assert (0 <= e * e * (p * v)) by (apply Rmult_le_pos; [nra|lra]). nra. }
  assert (0 < e * (p * v)) by (apply Rmult_lt_0_compat; lra). lra.
Qed.
