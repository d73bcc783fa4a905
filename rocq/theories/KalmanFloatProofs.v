(** The correction in doubles for uncorrelated axes. *)
From Coq Require Import List Reals ZArith Arith Lra Lia Permutation.
Import ListNotations.
From Flocq Require Import Core Relative BinarySingleNaN.
From Flocq Require Import IEEE754.PrimFloat.
From Coq Require Import Floats.
From Verif Require Import Scalar FloatBase ClusterFloat KalmanFloat KalmanFloatSpec.
Local Open Scope R_scope.
Notation bp := (bpow radix2).

(** [x] is a finite double of value [r]. *)
Definition is (x : float) (r : R) : Prop := fin x /\ val x = r.

#[local] Instance valid64' : Valid_exp fexp64 := fexp_correct prec emax Hprec.

Lemma f_div x y k : (-1074 <= k < 1024)%Z -> fin x -> val y <> 0 -> Rabs (val x / val y) <= bp k ->
  fin (x / y)%float /\ val (x / y)%float = rnd (val x / val y).
Proof.
  intros Hk Fx Hy H. unfold fin, val in *. rewrite div_equiv. pose proof (Bdiv_correct prec emax Hprec Hmax mode_NE (Prim2B x) (Prim2B y) Hy) as C.
  cbn [round_mode] in C. fold (rnd (B2R (Prim2B x) / B2R (Prim2B y))) in C. rewrite (rnd_lt_emax _ k Hk H) in C.
  rewrite Fx in C. tauto.
Qed.

Lemma is_mul x y a b : is x a -> is y b -> Rabs (a * b) <= bp 1000 -> is (x * y)%float (rnd (a * b)).
Proof. intros [F1 <-] [F2 <-] H. apply (f_mul x y 1000); auto. lia. Qed.
Lemma is_add x y a b : is x a -> is y b -> Rabs (a + b) <= bp 1000 -> is (x + y)%float (rnd (a + b)).
Proof. intros [F1 <-] [F2 <-] H. apply (f_add x y 1000); auto. lia. Qed.
Lemma is_sub x y a b : is x a -> is y b -> Rabs (a - b) <= bp 1000 -> is (x - y)%float (rnd (a - b)).
Proof. intros [F1 <-] [F2 <-] H. apply (f_sub x y 1000); auto. lia. Qed.
Lemma is_div x y a b : is x a -> is y b -> b <> 0 -> Rabs (a / b) <= bp 1000 -> is (x / y)%float (rnd (a / b)).
Proof. intros [F1 <-] [F2 <-] H0 H. apply (f_div x y 1000); auto. lia. Qed.
Lemma is_format x a : is x a -> rnd a = a.
Proof. intros [_ <-]. apply rnd_val. Qed.
Lemma is_0 : is 0%float 0.
Proof. split; [apply fin_SF; reflexivity|]. rewrite val_SF. reflexivity. Qed.
Lemma is_1 : is 1%float 1.
Proof.
  split; [apply fin_SF; reflexivity|]. rewrite val_SF. cbn. unfold F2R. cbn. lra.
Qed.
Lemma bp_pos k : 0 < bp k. Proof. apply bpow_gt_0. Qed.
Lemma is_mul0l x y b : is x 0 -> is y b -> is (x * y)%float 0.
Proof.
  intros H1 H2. pose proof (is_mul _ _ _ _ H1 H2) as H. rewrite Rmult_0_l, rnd_0, Rabs_R0 in H. apply H. apply Rlt_le, bp_pos.
Qed.
Lemma is_mul0r x y a : is x a -> is y 0 -> is (x * y)%float 0.
Proof.
  intros H1 H2. pose proof (is_mul _ _ _ _ H1 H2) as H. rewrite Rmult_0_r, rnd_0, Rabs_R0 in H. apply H. apply Rlt_le, bp_pos.
Qed.
Lemma is_mul1l x y b : is x 1 -> is y b -> Rabs b <= bp 1000 -> is (x * y)%float b.
Proof.
  intros H1 H2 Hb. pose proof (is_mul _ _ _ _ H1 H2) as H. rewrite Rmult_1_l in H. rewrite (is_format _ _ H2) in H. auto.
Qed.
Lemma is_mul1r x y a : is x a -> is y 1 -> Rabs a <= bp 1000 -> is (x * y)%float a.
Proof.
  intros H1 H2 Hb. pose proof (is_mul _ _ _ _ H1 H2) as H. rewrite Rmult_1_r in H. rewrite (is_format _ _ H1) in H. auto.
Qed.
Lemma is_opp0 x : is x 0 -> is (- x)%float 0.
Proof.
  intros [F V]. unfold is, fin, val in *. rewrite opp_equiv, is_finite_Bopp, B2R_Bopp. split; auto. rewrite V. ring.
Qed.

(** Sums with at most one term that is not 0. *)
Lemma sum_zeros l s : fsums l s -> Forall (fun x => is x 0) l -> is s 0.
Proof.
  induction 1 as [|x|l l' s s' H1 IH1 H2 IH2|l l' s H1 H2 IH]; intros F.
  - apply is_0.
  - inversion F; auto.
  - apply Forall_app in F. destruct F as [F1 F2]. pose proof (is_add _ _ _ _ (IH1 F1) (IH2 F2)) as H.
    rewrite Rplus_0_l, rnd_0, Rabs_R0 in H. apply H. apply Rlt_le, bp_pos.
  - apply IH. apply Permutation_sym in H1. eapply Permutation_Forall; eauto.
Qed.
Lemma sum_single l s : fsums l s -> forall x a r, Permutation l (x :: r) -> is x a -> Rabs a <= bp 1000 -> Forall (fun x => is x 0) r -> is s a.
Proof.
  induction 1 as [|y|l l' s s' H1 IH1 H2 IH2|l l' s H1 H2 IH]; intros x a r HP Hx Ha Hr.
  - apply Permutation_nil in HP. discriminate.
  - apply Permutation_length_1_inv in HP. inversion HP; subst. auto.
  - assert (Hin : In x (l ++ l')) by (eapply Permutation_in; [apply Permutation_sym; eauto|left; auto]).
    apply in_app_or in Hin. destruct Hin as [Hin|Hin].
    + apply in_split in Hin. destruct Hin as (u & w & ->).
      assert (HP' : Permutation (u ++ w ++ l') r).
      { apply Permutation_cons_inv with x. etransitivity; [|exact HP]. rewrite <- !app_assoc. simpl. apply Permutation_middle. }
      assert (Hz : Forall (fun x => is x 0) (u ++ w ++ l')) by (eapply Permutation_Forall; [apply Permutation_sym; eauto|auto]).
      apply Forall_app in Hz. destruct Hz as [Z1 Z2]. apply Forall_app in Z2. destruct Z2 as [Z2 Z3].
      assert (S1 : is s a) by (apply (IH1 x a (u ++ w)); auto; [apply Permutation_sym, Permutation_middle|apply Forall_app; auto]).
      pose proof (is_add _ _ _ _ S1 (sum_zeros _ _ H2 Z3)) as H. rewrite Rplus_0_r, (is_format _ _ S1) in H. auto.
    + apply in_split in Hin. destruct Hin as (u & w & ->).
      assert (HP' : Permutation (l ++ u ++ w) r).
      { apply Permutation_cons_inv with x. etransitivity; [|exact HP]. rewrite !(app_assoc l). apply Permutation_middle. }
      assert (Hz : Forall (fun x => is x 0) (l ++ u ++ w)) by (eapply Permutation_Forall; [apply Permutation_sym; eauto|auto]).
      apply Forall_app in Hz. destruct Hz as [Z1 Z2].
      assert (S1 : is s' a) by (apply (IH2 x a (u ++ w)); auto; apply Permutation_sym, Permutation_middle).
      pose proof (is_add _ _ _ _ (sum_zeros _ _ H1 Z1) S1) as H. rewrite Rplus_0_l, (is_format _ _ S1) in H. auto.
  - apply (IH x a r); auto. etransitivity; eauto.
Qed.

Lemma sum_pick n (f : nat -> float) s k a : fsums (map f (seq 0 n)) s -> (k < n)%nat -> is (f k) a -> Rabs a <= bp 1000 ->
  (forall i, (i < n)%nat -> i <> k -> is (f i) 0) -> is s a.
Proof.
  intros Hs Hk Hf Ha Hz.
  assert (E : seq 0 n = seq 0 k ++ k :: seq (S k) (n - S k)).
  { replace n with (k + S (n - S k))%nat at 1 by lia. rewrite seq_app. reflexivity. }
  rewrite E, map_app in Hs. simpl in Hs.
  eapply sum_single; [exact Hs|apply Permutation_sym, Permutation_middle|exact Hf|exact Ha|].
  apply Forall_app; split; apply Forall_forall; intros y Hy; apply in_map_iff in Hy; destruct Hy as (i & <- & Hi); apply in_seq in Hi; apply Hz; lia.
Qed.
Lemma sum_none n (f : nat -> float) s : fsums (map f (seq 0 n)) s -> (forall i, (i < n)%nat -> is (f i) 0) -> is s 0.
Proof.
  intros Hs Hz. apply (sum_zeros _ _ Hs). apply Forall_forall. intros y Hy. apply in_map_iff in Hy. destruct Hy as (i & <- & Hi).
  apply in_seq in Hi. apply Hz. lia.
Qed.
