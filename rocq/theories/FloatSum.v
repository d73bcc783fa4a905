(** Sums and quotients of non-negative IEEE doubles. *)
From Coq Require Import ZArith Reals Bool Lra Lia List Permutation.
From Flocq Require Import Core BinarySingleNaN.
From Flocq Require Import Plus_error Relative.
From Flocq Require Import IEEE754.PrimFloat.
From Coq Require Import Floats.
Import ListNotations.
From Verif Require Import Scalar FloatBase FloatExt LapRnd ClusterFloat.
Local Open Scope R_scope.

(** Unit roundoff. *)
Definition uro : R := bpow radix2 (-53).
Lemma uro_pos : 0 < uro. Proof. apply bpow_gt_0. Qed.
Lemma uro_le : uro <= / 8.
Proof. unfold uro. change (/ 8) with (bpow radix2 (-3)). apply bpow_le. lia. Qed.

Notation fmt := (generic_format radix2 fexp64).
#[local] Instance prec64 : Prec_gt_0 53 := eq_refl.
#[local] Instance valid64' : Valid_exp fexp64 := fexp_correct prec emax Hprec.

(** A rounded sum has a small relative error, also below the normal range. *)
Lemma rnd_plus x y : fmt x -> fmt y -> Rabs (rnd (x + y) - (x + y)) <= uro * Rabs (x + y).
Proof.
  intros Hx Hy.
  destruct (Plus_error.FLT_plus_error_N_ex radix2 (-1074) 53 (fun n => negb (Z.even n)) x y Hx Hy) as (eps & He & E).
  change (round radix2 (FLT_exp (-1074) 53) ZnearestE (x + y)) with (rnd (x + y)) in E. rewrite E.
  replace ((x + y) * (1 + eps) - (x + y)) with (eps * (x + y)) by ring. rewrite Rabs_mult.
  apply Rmult_le_compat_r; [apply Rabs_pos|]. eapply Rle_trans; [exact He|].
  change (u_ro radix2 53) with (/ 2 * bpow radix2 (- 53 + 1)).
  assert (E1 : / 2 * bpow radix2 (- 53 + 1) = uro).
  { unfold uro. change (/ 2) with (bpow radix2 (-1)). rewrite <- bpow_plus. reflexivity. }
  rewrite E1. pose proof uro_pos. unfold Rdiv. rewrite <- (Rmult_1_r uro) at 3. apply Rmult_le_compat_l; [lra|].
  rewrite <- Rinv_1. apply Rinv_le; lra.
Qed.

(** Rounding in general. *)
Lemma rnd_rel x : 0 <= x -> Rabs (rnd x - x) <= uro * x + bpow radix2 (-1075).
Proof.
  intros Hx.
  destruct (error_N_FLT radix2 (-1074) 53 eq_refl (fun n => negb (Z.even n)) x) as (e & d & He & Hd & _ & E).
  change (round radix2 (FLT_exp (-1074) 53) ZnearestE x) with (rnd x) in E. rewrite E.
  replace (x * (1 + e) + d - x) with (e * x + d) by ring.
  eapply Rle_trans; [apply Rabs_triang|]. rewrite Rabs_mult, (Rabs_pos_eq x) by auto.
  apply Rplus_le_compat.
  - apply Rmult_le_compat_r; auto. eapply Rle_trans; [exact He|].
    unfold uro. change (/ 2) with (bpow radix2 (-1)). rewrite <- bpow_plus. apply bpow_le. lia.
  - eapply Rle_trans; [exact Hd|]. change (/ 2) with (bpow radix2 (-1)). rewrite <- bpow_plus. apply bpow_le. lia.
Qed.

Lemma add_proj x y : proj (x + y)%float = nadd roundN (proj x) (proj y).
Proof. symmetry. apply proj_add. Qed.
Lemma fin_lt x r : proj x = Fin r -> Rabs r < bpow radix2 emax.
Proof. intros H. apply proj_Fin in H. destruct H as [_ <-]. apply abs_B2R_lt_emax. Qed.

(** Non-negative numbers and +infinity. *)
Definition nn (x : float) : Prop := proj x = PInf \/ exists r, proj x = Fin r /\ 0 <= r.

Lemma proj_zero : proj 0%float = Fin 0.
Proof. rewrite proj_fin by (apply fin_SF; reflexivity). rewrite val_SF. reflexivity. Qed.
Lemma nn_0 : nn 0%float.
Proof. right. exists 0. split; [apply proj_zero|lra]. Qed.
Lemma proj_one : proj 1%float = Fin 1.
Proof.
  rewrite proj_fin by (apply fin_SF; reflexivity). rewrite val_SF. f_equal.
  change (Prim2SF 1) with (S754_finite false 4503599627370496 (-52)). unfold SF2R, F2R, cond_Zopp, Fnum, Fexp.
  replace (IZR (Z.pos 4503599627370496)) with (bpow radix2 52) by reflexivity. rewrite <- bpow_plus. reflexivity.
Qed.

Lemma nn_add x y : nn x -> nn y -> nn (x + y)%float /\
  (forall r, proj (x + y)%float = Fin r -> exists a b, proj x = Fin a /\ proj y = Fin b /\ r = rnd (a + b)).
Proof.
  intros Hx Hy. unfold nn. rewrite !add_proj.
  destruct Hx as [->|(a & -> & Ha)], Hy as [->|(b & -> & Hb)]; simpl nadd; unfold rnd_add; simpl ext_add;
    try (split; [left; reflexivity|intros r E; discriminate E]).
  unfold rfin. destruct (Rlt_bool _ _).
  - split; [right; eexists; split; [reflexivity|apply rnd_pos; lra]|]. intros r E. inversion E. eauto.
  - rewrite Rlt_bool_false by lra. split; [left; reflexivity|intros r E; discriminate E].
Qed.

(** ** Quotients *)
Lemma div_fin x y a b : proj x = Fin a -> proj y = Fin b -> b <> 0 -> Rabs (a / b) <= bpow radix2 1000 ->
  proj (x / y)%float = Fin (rnd (a / b)).
Proof.
  intros Hx Hy Hb H. apply proj_Fin in Hx. apply proj_Fin in Hy. destruct Hx as [Fx Vx], Hy as [Fy Vy].
  assert (G : fin (x / y)%float /\ val (x / y)%float = rnd (a / b)).
  { unfold fin, val in *. rewrite div_equiv.
    assert (Hb' : B2R (Prim2B y) <> 0) by congruence.
    pose proof (Bdiv_correct prec emax Hprec Hmax mode_NE (Prim2B x) (Prim2B y) Hb') as C.
    cbn [round_mode] in C. rewrite Vx, Vy in C. fold (rnd (a / b)) in C. rewrite (rnd_lt_emax _ 1000 ltac:(lia) H) in C.
    rewrite Fx in C. tauto. }
  destruct G as [F <-]. apply proj_fin, F.
Qed.
Lemma div_00 x y : proj x = Fin 0 -> proj y = Fin 0 -> proj (x / y)%float = NaN.
Proof.
  intros Hx Hy. unfold proj in *. rewrite div_equiv.
  assert (Z : forall b : binary_float prec emax, BinarySingleNaN.is_finite b = true -> B2R b = 0 -> exists s, b = B754_zero s).
  { intros [s|s| |s m e B] F E; try discriminate; eauto. exfalso. cbn [B2R] in E.
    apply eq_0_F2R in E. destruct s; discriminate. }
  destruct (Z (Prim2B x)) as [s ->].
  { destruct (Prim2B x) as [s|[]| |s m e B]; try discriminate; reflexivity. }
  { destruct (Prim2B x) as [s|[]| |s m e B]; try discriminate; inversion Hx; auto. }
  destruct (Z (Prim2B y)) as [s' ->].
  { destruct (Prim2B y) as [s'|[]| |s' m e B]; try discriminate; reflexivity. }
  { destruct (Prim2B y) as [s'|[]| |s' m e B]; try discriminate; inversion Hy; auto. }
  reflexivity.
Qed.
Lemma div_inf x y : nn x -> proj y = PInf -> proj (x / y)%float = NaN \/ proj (x / y)%float = Fin 0.
Proof.
  unfold nn, proj. intros Hx Hy. rewrite div_equiv. destruct (Prim2B y) as [s'|[]| |s' m e B]; try discriminate.
  destruct (Prim2B x) as [s|[]| |s m e B]; simpl; auto.
Qed.

(** ** Neither positive nor infinite: zero or not a number *)
Definition zn (x : float) : Prop := proj x = NaN \/ proj x = Fin 0.
Lemma zn_add x y : zn x -> zn y -> zn (x + y)%float.
Proof.
  unfold zn. rewrite add_proj. intros [->| ->] [->| ->]; simpl; auto. right. unfold rfin. rewrite Rplus_0_l, rnd_0, Rabs_R0.
  rewrite Rlt_bool_true by apply bpow_gt_0. reflexivity.
Qed.
Lemma zn_sum l s : fsums l s -> (forall x, In x l -> zn x) -> zn s.
Proof.
  induction 1 as [|x|l l' s s' _ IH _ IH'|l l' s HP _ IH]; intros H.
  - right. apply proj_zero.
  - apply H. simpl. auto.
  - apply zn_add; [apply IH|apply IH']; intros; apply H, in_app_iff; auto.
  - apply IH. intros x Hx. apply H. eapply Permutation_in; eauto.
Qed.
Lemma le_proj x y : PrimFloat.leb x y = nle extR (proj x) (proj y).
Proof. symmetry. apply proj_le. Qed.

(** ** Sums of numbers *)
Definition rsum (l : list R) : R := fold_right Rplus 0 l.
Lemma rsum_app l l' : rsum (l ++ l') = rsum l + rsum l'.
Proof. induction l as [|x l IH]; simpl; [lra|]. unfold rsum in *. simpl. lra. Qed.
Lemma rsum_perm l l' : Permutation l l' -> rsum l = rsum l'.
Proof. unfold rsum. induction 1; simpl; lra. Qed.
Lemma rsum_nonneg l : (forall x, In x l -> 0 <= x) -> 0 <= rsum l.
Proof. unfold rsum. induction l as [|x l IH]; simpl; intros H; [lra|]. pose proof (H x (or_introl eq_refl)). specialize (IH (fun y Hy => H y (or_intror Hy))). lra. Qed.

Lemma nn_fin x t : nn x -> proj x = Fin t -> 0 <= t.
Proof. intros [E|(r & E & H)] Ht; congruence. Qed.

Notation vsum l := (rsum (map val l)).
Lemma vsum_nonneg l : (forall x, In x l -> nn x /\ fin x) -> 0 <= vsum l.
Proof.
  intros H. apply rsum_nonneg. intros r Hr. apply in_map_iff in Hr. destruct Hr as (x & <- & Hx). destruct (H x Hx) as [H1 H2].
  eapply nn_fin; [exact H1|]. apply proj_fin, H2.
Qed.

(** If the sum of non-negative terms is finite then all terms are, and it is close to
    the exact sum, whatever the order. *)
Lemma fsums_fin l s : fsums l s -> (forall x, In x l -> nn x) -> nn s /\
  forall t, proj s = Fin t -> (forall x, In x l -> fin x) /\
    ((Z.of_nat (length l) <= 2 ^ 50)%Z -> Rabs (t - vsum l) <= 2 * INR (length l) * uro * vsum l).
Proof.
  pose proof uro_pos as Hu.
  assert (HI : forall k, (Z.of_nat k <= 2 ^ 50)%Z -> 2 * INR k * uro <= / 4).
  { intros k Hk. replace (/ 4) with (2 * bpow radix2 50 * uro).
    - apply Rmult_le_compat_r; [lra|]. apply Rmult_le_compat_l; [lra|]. rewrite INR_IZR_INZ. change (bpow radix2 50) with (IZR (2 ^ 50)). apply IZR_le. auto.
    - unfold uro. change 2 with (bpow radix2 1). rewrite <- !bpow_plus. reflexivity. }
  induction 1 as [|x|l l' s s' Hs IH Hs' IH'|l l' s HP Hs IH]; intros HN.
  - split; [apply nn_0|]. intros t Et. rewrite proj_zero in Et. inversion Et. split; [intros ? []|]. intros _. simpl.
    replace (0 - 0) with 0 by ring. rewrite Rabs_R0. lra.
  - assert (Hx : nn x) by (apply HN; simpl; auto). split; auto. intros t Et. pose proof (nn_fin _ _ Hx Et). apply proj_Fin in Et. destruct Et as [Fx <-].
    split; [intros ? [<-|[]]; auto|]. intros _. simpl. replace (val x - (val x + 0)) with 0 by ring. rewrite Rabs_R0. nra.
  - destruct IH as [N1 IH]; [intros; apply HN, in_app_iff; auto|].
    destruct IH' as [N2 IH']; [intros; apply HN, in_app_iff; auto|].
    destruct (nn_add _ _ N1 N2) as [N Hadd]. split; auto. intros t0 Et0.
    destruct (Hadd _ Et0) as (t & t' & Et & Et' & ->).
    destruct (IH t Et) as [F1 C1]. destruct (IH' t' Et') as [F2 C2].
    split; [intros x Hx; apply in_app_iff in Hx; destruct Hx; auto|].
    rewrite app_length. intros Hlen. specialize (C1 ltac:(lia)). specialize (C2 ltac:(lia)).
    rewrite map_app, rsum_app, plus_INR.
    assert (P1 : 0 <= vsum l) by (apply vsum_nonneg; intros; split; auto; apply HN, in_app_iff; auto).
    assert (P2 : 0 <= vsum l') by (apply vsum_nonneg; intros; split; auto; apply HN, in_app_iff; auto).
    pose proof (nn_fin _ _ N1 Et) as T1. pose proof (nn_fin _ _ N2 Et') as T2.
    pose proof (rnd_plus t t' (proj_Fin_format _ _ Et) (proj_Fin_format _ _ Et')) as HR. rewrite (Rabs_pos_eq (t + t')) in HR by lra.
    pose proof (HI (length l) ltac:(lia)) as I1. pose proof (HI (length l') ltac:(lia)) as I2.
    destruct l as [|a l].
    { simpl in C1. simpl. replace (2 * 0 * uro * 0) with 0 in C1 by ring.
      assert (t = 0). { apply Rabs_le_inv in C1. lra. } subst t. rewrite !Rplus_0_l.
      replace (rnd t') with t'; [exact C2|]. pose proof (proj_Fin _ _ Et') as [_ <-]. symmetry. apply rnd_val. }
    destruct l' as [|b l'].
    { simpl in C2. simpl (length []). simpl (map val []). simpl (rsum []). simpl (INR 0).
      change (rsum (map val [])) with 0 in C2. replace (2 * 0 * uro * 0) with 0 in C2 by ring.
      assert (t' = 0). { apply Rabs_le_inv in C2. lra. } subst t'. change (vsum []) with 0. rewrite !Rplus_0_r.
      replace (rnd t) with t; [exact C1|]. pose proof (proj_Fin _ _ Et) as [_ <-]. symmetry. apply rnd_val. }
    assert (L1 : 1 <= INR (length (a :: l))) by (change (length (a :: l)) with (S (length l)); rewrite S_INR; pose proof (pos_INR (length l)); lra).
    assert (L2 : 1 <= INR (length (b :: l'))) by (change (length (b :: l')) with (S (length l')); rewrite S_INR; pose proof (pos_INR (length l')); lra).
    set (n1 := INR (length (a :: l))) in *. set (n2 := INR (length (b :: l'))) in *.
    set (A := vsum (a :: l)) in *. set (B := vsum (b :: l')) in *.
    assert (D1 : 2 * n1 * uro * A <= / 4 * A) by (apply Rmult_le_compat_r; auto).
    assert (D2 : 2 * n2 * uro * B <= / 4 * B) by (apply Rmult_le_compat_r; auto).
    apply Rabs_le_inv in C1. apply Rabs_le_inv in C2. apply Rabs_le_inv in HR.
    assert (U : uro * (t + t') <= uro * (5 / 4 * (A + B))) by (apply Rmult_le_compat_l; lra).
    assert (UA : 0 <= uro * A) by (apply Rmult_le_pos; lra). assert (UB : 0 <= uro * B) by (apply Rmult_le_pos; lra).
    assert (G1 : 2 * n1 * uro * A + 5 / 4 * (uro * A) <= 2 * (n1 + n2) * uro * A).
    { assert (5 / 4 * (uro * A) <= 2 * n2 * (uro * A)) by (apply Rmult_le_compat_r; lra). lra. }
    assert (G2 : 2 * n2 * uro * B + 5 / 4 * (uro * B) <= 2 * (n1 + n2) * uro * B).
    { assert (5 / 4 * (uro * B) <= 2 * n1 * (uro * B)) by (apply Rmult_le_compat_r; lra). lra. }
    apply Rabs_le. lra.
  - destruct IH as [N IH]; [intros x Hx; apply HN; eapply Permutation_in; eauto|]. split; auto.
    intros t Et. destruct (IH t Et) as [F Cl]. split.
    + intros x Hx. apply F. eapply Permutation_in; [apply Permutation_sym; eauto|auto].
    + rewrite <- (Permutation_length HP), <- (rsum_perm _ _ (Permutation_map val HP)). auto.
Qed.

Lemma vsum_le l B : (forall x, In x l -> val x <= B) -> vsum l <= INR (length l) * B.
Proof.
  induction l as [|x l IH]; intros H; [simpl; lra|]. change (length (x :: l)) with (S (length l)). rewrite S_INR. simpl.
  pose proof (H x (or_introl eq_refl)). specialize (IH (fun y Hy => H y (or_intror Hy))). unfold rsum in *. lra.
Qed.

Lemma INR_le50 k : (Z.of_nat k <= 2 ^ 50)%Z -> 0 <= INR k <= bpow radix2 50 /\ 2 * INR k * uro <= / 4.
Proof.
  intros Hk.
  assert (H : INR k <= bpow radix2 50) by (rewrite INR_IZR_INZ; change (bpow radix2 50) with (IZR (2 ^ 50)); apply IZR_le; auto).
  split; [split; [apply pos_INR|auto]|]. pose proof uro_pos.
  replace (/ 4) with (2 * bpow radix2 50 * uro); [apply Rmult_le_compat_r; lra|].
  unfold uro. change 2 with (bpow radix2 1). rewrite <- !bpow_plus. reflexivity.
Qed.

(** Terms that are not too large have a finite sum. *)
Lemma fsums_ok l s B : fsums l s -> 0 <= B <= bpow radix2 900 ->
  (forall x, In x l -> exists r, proj x = Fin r /\ 0 <= r <= B) -> (Z.of_nat (length l) <= 2 ^ 50)%Z ->
  exists t, proj s = Fin t.
Proof.
  intros H HB. induction H as [|x|l l' s s' Hs IH Hs' IH'|l l' s HP Hs IH]; intros HX Hlen.
  - exists 0. apply proj_zero.
  - destruct (HX x (or_introl eq_refl)) as (r & E & Hr). eauto.
  - rewrite app_length in *.
    destruct IH as (t & Et); [intros; apply HX, in_app_iff; auto|lia|].
    destruct IH' as (t' & Et'); [intros; apply HX, in_app_iff; auto|lia|].
    assert (G : forall l s t, fsums l s -> (forall x, In x l -> exists r, proj x = Fin r /\ 0 <= r <= B) ->
       (Z.of_nat (length l) <= 2 ^ 50)%Z -> proj s = Fin t -> 0 <= t <= bpow radix2 951).
    { clear -HB. intros l s t Hs HX Hlen Et.
      assert (HN : forall x, In x l -> nn x) by (intros x Hx; destruct (HX x Hx) as (r & E & Hr); right; exists r; split; auto; lra).
      destruct (fsums_fin _ _ Hs HN) as [N Hc]. destruct (Hc t Et) as [HF HC]. specialize (HC Hlen).
      split; [eapply nn_fin; eauto|]. destruct (INR_le50 _ Hlen) as [[K1 K2] K3].
      assert (V1 : vsum l <= INR (length l) * B).
      { apply vsum_le. intros x Hx. destruct (HX x Hx) as (r & E & Hr). apply proj_Fin in E. destruct E as [_ ->]. lra. }
      assert (V0 : 0 <= vsum l) by (apply vsum_nonneg; auto).
      assert (2 * INR (length l) * uro * vsum l <= / 4 * vsum l) by (apply Rmult_le_compat_r; auto).
      apply Rabs_le_inv in HC.
      assert (INR (length l) * B <= bpow radix2 50 * bpow radix2 900) by (apply Rmult_le_compat; lra).
      rewrite <- bpow_plus in H0. change (50 + 900)%Z with 950%Z in H0.
      change 951%Z with (1 + 950)%Z. rewrite bpow_plus. change (bpow radix2 1) with 2. pose proof (bpow_gt_0 radix2 950). lra. }
    pose proof (G l s t Hs ltac:(intros; apply HX, in_app_iff; auto) ltac:(lia) Et).
    pose proof (G l' s' t' Hs' ltac:(intros; apply HX, in_app_iff; auto) ltac:(lia) Et').
    exists (rnd (t + t')). rewrite add_proj, Et, Et'. apply (radd_FF t t' 952); [lia|]. rewrite Rabs_pos_eq by lra.
    change 952%Z with (1 + 951)%Z. rewrite bpow_plus. change (bpow radix2 1) with 2. lra.
  - apply IH; [|rewrite (Permutation_length HP); auto]. intros x Hx. apply HX. eapply Permutation_in; eauto.
Qed.
