(** The mean and covariance of a mixture in doubles. *)
From Coq Require Import List Arith Lia ZArith Reals Lra.
From Flocq Require Import Core.
From Coq Require Import Floats.
Import ListNotations.
From Verif Require Import Scalar FloatBase FloatExt FloatSum ClusterFloat ClusterFloatNum KalmanFloat KalmanFloatErr GMFloatSpec MeanFloat MeanFloatSpec.
Local Open Scope R_scope.
Notation bp := (bpow radix2).
Notation fval := FloatBase.val.

Lemma abs_rel x : Rabs (rnd x - x) <= uro * Rabs x + bp (-1075).
Proof.
  destruct (abs_err x) as (e & f & -> & He & Hf). replace (x * (1 + e) + f - x) with (e * x + f) by ring.
  eapply Rle_trans; [apply Rabs_triang|]. rewrite Rabs_mult. apply Rplus_le_compat; auto. apply Rmult_le_compat_r; [apply Rabs_pos|exact He].
Qed.

(** ** A sum from left to right *)
Fixpoint asum {A} (f : A -> R) (l : list A) : R := match l with [] => 0 | x :: l => f x + asum f l end.
Lemma asum_of {A} (f : A -> R) l : asum f l = sum_of f l.
Proof. induction l as [|x l IH]; [reflexivity|]. cbn [asum]. rewrite IH. reflexivity. Qed.
Lemma asum_le {A} (f g : A -> R) l : (forall x, In x l -> f x <= g x) -> asum f l <= asum g l.
Proof. induction l as [|x l IH]; intros H; cbn [asum]; [lra|]. pose proof (H x (or_introl eq_refl)). specialize (IH (fun y Hy => H y (or_intror Hy))). lra. Qed.
Lemma asum_0 {A} (f : A -> R) l : (forall x, In x l -> 0 <= f x) -> 0 <= asum f l.
Proof. induction l as [|x l IH]; intros H; cbn [asum]; [lra|]. pose proof (H x (or_introl eq_refl)). specialize (IH (fun y Hy => H y (or_intror Hy))). lra. Qed.

Section Fold.
Context {A : Type}.
Variables (t : A -> float) (E S : A -> R) (c d : R).
Hypothesis Hc : 1 <= c <= 10.
Hypothesis Hd : 0 <= d <= bp (-1000).

Lemma fold_from l : forall acc s a k, fin acc -> Rabs (fval acc - s) <= INR k * (2 * uro) * a -> 0 <= a <= INR k * bp 500 -> Rabs s <= a ->
  (Z.of_nat (k + length l) <= 2 ^ 20)%Z ->
  (forall x, In x l -> fin (t x) /\ Rabs (fval (t x)) <= bp 500) ->
  let r := fold_left (fun res x => (res + t x)%float) l acc in
  let T := asum (fun x => fval (t x)) l in let B := asum (fun x => Rabs (fval (t x))) l in
  fin r /\ Rabs (fval r - (s + T)) <= INR (k + length l) * (2 * uro) * (a + B).
Proof.
  induction l as [|x l IH]; intros acc s a k Fa Ha Ba Bs Hk Hl r T B; unfold r, T, B; cbn [fold_left asum length].
  - rewrite Nat.add_0_r, !Rplus_0_r. auto.
  - destruct (Hl x (or_introl eq_refl)) as [Fx Bx].
    assert (Hk20 : INR k + 1 <= bp 20).
    { rewrite <- S_INR, INR_IZR_INZ. change (bp 20) with (IZR (2 ^ 20)). apply IZR_le. cbn [length] in Hk. lia. }
    pose proof (pos_INR k) as K0. pose proof uro_pos as Pu.
    assert (Ku : INR k * (2 * uro) <= bp (-32)).
    { apply Rle_trans with (bp 20 * (2 * uro)); [apply Rmult_le_compat_r; lra|]. unfold uro. change 2 with (bp 1). rewrite <- !bpow_plus. apply bpow_le. lia. }
    assert (B32 : bp (-32) <= / 8) by (change (/ 8) with (bp (-3)); apply bpow_le; lia).
    assert (Hea : INR k * (2 * uro) * a <= / 8 * a) by (apply Rmult_le_compat_r; lra).
    assert (Hm : Rabs (fval acc + fval (t x)) <= a + / 8 * a + Rabs (fval (t x))).
    { eapply Rle_trans; [apply Rabs_triang|]. apply Rplus_le_compat_r. replace (fval acc) with (s + (fval acc - s)) by ring. eapply Rle_trans; [apply Rabs_triang|]. lra. }
    assert (Hbig : Rabs (fval acc + fval (t x)) <= bp 530).
    { eapply Rle_trans; [exact Hm|]. assert (INR k * bp 500 <= bp 20 * bp 500) by (apply Rmult_le_compat_r; [apply bpow_ge_0|lra]).
      rewrite <- bpow_plus in H. simpl Z.add in H. assert (bp 500 <= bp 520) by (apply bpow_le; lia).
      assert (4 * bp 520 <= bp 530) by (change 4 with (bp 2); rewrite <- bpow_plus; apply bpow_le; lia). pose proof (bpow_ge_0 radix2 520). lra. }
    destruct (f_add acc (t x) 530 ltac:(lia) Fa Fx Hbig) as [Fn Vn].
    pose proof (rnd_plus (fval acc) (fval (t x)) (val_format _) (val_format _)) as Hr. rewrite <- Vn in Hr.
    set (b := Rabs (fval (t x))) in *.
    assert (Hn : Rabs (fval (acc + t x)%float - (s + fval (t x))) <= INR (Datatypes.S k) * (2 * uro) * (a + b)).
    { replace (fval (acc + t x)%float - (s + fval (t x))) with ((fval (acc + t x)%float - (fval acc + fval (t x))) + (fval acc - s)) by ring.
      eapply Rle_trans; [apply Rabs_triang|]. rewrite S_INR. assert (b0 : 0 <= b) by apply Rabs_pos.
      assert (uro * Rabs (fval acc + fval (t x)) <= uro * (a + / 8 * a + b)) by (apply Rmult_le_compat_l; lra).
      assert (0 <= uro * a) by (apply Rmult_le_pos; lra). assert (0 <= uro * b) by (apply Rmult_le_pos; lra).
      assert (0 <= INR k * (2 * uro) * b) by (apply Rmult_le_pos; [apply Rmult_le_pos; lra|lra]). lra. }
    specialize (IH (acc + t x)%float (s + fval (t x)) (a + b) (Datatypes.S k) Fn Hn).
    replace (k + Datatypes.S (length l))%nat with (Datatypes.S k + length l)%nat in * by lia.
    replace (s + (fval (t x) + asum (fun y => fval (t y)) l)) with (s + fval (t x) + asum (fun y => fval (t y)) l) by ring.
    replace (a + (b + asum (fun y => Rabs (fval (t y))) l)) with (a + b + asum (fun y => Rabs (fval (t y))) l) by ring.
    apply IH.
    + rewrite S_INR. pose proof (Rabs_pos (fval (t x))). fold b in H. lra.
    + eapply Rle_trans; [apply Rabs_triang|]. fold b. lra.
    + cbn [length] in Hk. lia.
    + intros y Hy. apply Hl. simpl; auto.
Qed.

(** Terms that are close to [E], whose size is at most [S]. *)
Lemma fold_close l : (Z.of_nat (length l) <= 2 ^ 20)%Z ->
  (forall x, In x l -> fin (t x) /\ Rabs (fval (t x) - E x) <= c * uro * S x + d /\ Rabs (E x) <= S x <= bp 450) ->
  let r := fold_left (fun res x => (res + t x)%float) l 0%float in
  fin r /\ Rabs (fval r - asum E l) <= (2 * INR (length l) + 2 * c) * uro * asum S l + 2 * INR (length l) * d.
Proof.
  intros Hn Hl r. pose proof uro_pos as Pu.
  assert (Hu : uro <= / 1000000) by (unfold uro; apply Rle_trans with (bp (-20)); [apply bpow_le; lia|simpl; lra]).
  assert (H1 : forall x, In x l -> fin (t x) /\ Rabs (fval (t x)) <= bp 500 /\ Rabs (fval (t x)) <= (1 + c * uro) * S x + d).
  { intros x Hx. destruct (Hl x Hx) as (F & B & B1 & B2). split; auto. pose proof (Rabs_pos (E x)).
    assert (H2 : Rabs (fval (t x)) <= (1 + c * uro) * S x + d).
    { replace (fval (t x)) with (E x + (fval (t x) - E x)) by ring. eapply Rle_trans; [apply Rabs_triang|]. lra. }
    split; auto. eapply Rle_trans; [exact H2|].
    assert (c * uro <= 10 * / 1000000) by (apply Rmult_le_compat; lra). assert (c * uro * S x <= 10 * / 1000000 * S x) by (apply Rmult_le_compat_r; lra).
    assert (4 * bp 450 <= bp 500) by (change 4 with (bp 2); rewrite <- bpow_plus; apply bpow_le; lia). assert (bp (-1000) <= bp 450) by (apply bpow_le; lia). pose proof (bpow_ge_0 radix2 450). lra. }
  destruct (proj_Fin _ _ proj_zero) as [F0 V0].
  pose proof (fold_from l 0%float 0 0 0%nat F0) as H. rewrite V0, Rminus_0_r, Rabs_R0 in H. cbn [INR Nat.add] in H.
  specialize (H ltac:(lra) ltac:(lra) ltac:(lra) Hn (fun x Hx => conj (proj1 (H1 x Hx)) (proj1 (proj2 (H1 x Hx))))). cbv zeta in H. rewrite !Rplus_0_l in H.
  destruct H as [Fr Hr]. split; [exact Fr|]. fold r in Hr.
  set (n := INR (length l)) in *. assert (n0 : 0 <= n) by apply pos_INR.
  assert (nb : n <= bp 20) by (unfold n; rewrite INR_IZR_INZ; change (bp 20) with (IZR (2 ^ 20)); apply IZR_le; exact Hn).
  assert (HS0 : 0 <= asum S l).
  { apply asum_0. intros x Hx. destruct (Hl x Hx) as (_ & _ & B1 & _). pose proof (Rabs_pos (E x)). lra. }
  assert (HB : asum (fun x => Rabs (fval (t x))) l <= (1 + c * uro) * asum S l + n * d).
  { unfold n. revert H1. clear. induction l as [|x l IH]; intros H1; [simpl; lra|]. cbn [asum length]. rewrite S_INR.
    specialize (IH (fun y Hy => H1 y (or_intror Hy))). destruct (H1 x (or_introl eq_refl)) as (_ & _ & H). lra. }
  assert (HE : Rabs (asum (fun x => fval (t x)) l - asum E l) <= c * uro * asum S l + n * d).
  { unfold n. revert Hl. clear. induction l as [|x l IH]; intros Hl; [simpl; rewrite Rminus_0_r, Rabs_R0; lra|]. cbn [asum length]. rewrite S_INR.
    specialize (IH (fun y Hy => Hl y (or_intror Hy))). destruct (Hl x (or_introl eq_refl)) as (_ & H & _). apply Rabs_le_inv in IH. apply Rabs_le_inv in H. apply Rabs_le. lra. }
  assert (nu : n * (2 * uro) <= / 100).
  { apply Rle_trans with (bp 20 * (2 * uro)); [apply Rmult_le_compat_r; lra|]. unfold uro. change 2 with (bp 1). rewrite <- !bpow_plus. apply Rle_trans with (bp (-7)); [apply bpow_le; lia|simpl; lra]. }
  assert (H3 : n * (2 * uro) * asum (fun x => Rabs (fval (t x))) l <= n * (2 * uro) * ((1 + c * uro) * asum S l + n * d)).
  { apply Rmult_le_compat_l; [apply Rmult_le_pos; lra|exact HB]. }
  assert (Hcu : 0 <= c * uro * asum S l) by (apply Rmult_le_pos; [apply Rmult_le_pos; lra|lra]).
  assert (H4 : n * (2 * uro) * (c * uro * asum S l) <= / 100 * (c * uro * asum S l)) by (apply Rmult_le_compat_r; lra).
  assert (Hnd : 0 <= n * d) by (apply Rmult_le_pos; lra).
  assert (H5 : n * (2 * uro) * (n * d) <= / 100 * (n * d)) by (apply Rmult_le_compat_r; lra).
  replace (n * (2 * uro) * ((1 + c * uro) * asum S l + n * d)) with (2 * n * uro * asum S l + n * (2 * uro) * (c * uro * asum S l) + n * (2 * uro) * (n * d)) in H3 by ring.
  apply Rabs_le_inv in Hr. apply Rabs_le_inv in HE. apply Rabs_le. lra.
Qed.
End Fold.

(** The sum of the absolute values in the covariance about [m]. *)
Definition size_about (m : nat -> R) (cs : mixture) (i j : nat) : R :=
  average (fun x P => Rabs (fval (P i j)) + Rabs (fval (x i) - m i) * Rabs (fval (x j) - m j)) cs.

(** ** Mean *)
Lemma size_prod a b B C : 0 <= a <= 1 -> Rabs b <= B -> B <= C -> Rabs (a * b) <= a * Rabs b <= C.
Proof.
  intros Ha Hb HB. rewrite Rabs_mult, (Rabs_pos_eq a) by lra. split; [apply Rle_refl|]. pose proof (Rabs_pos b).
  apply Rle_trans with (1 * Rabs b); [apply Rmult_le_compat_r; lra|lra].
Qed.

Lemma mean_ok cs i : moderate cs -> (i < 4)%nat ->
  fin (fmean cs i) /\ Rabs (fval (fmean cs i) - exact_mean cs i) <= mean_error cs i.
Proof.
  intros [Hn Hm] Hi. unfold fmean, mean_error, exact_mean, mean_size, average. rewrite <- !asum_of.
  assert (B75 : bp (-1074) = 2 * bp (-1075)) by (change (-1074)%Z with (1 + -1075)%Z; rewrite bpow_plus; reflexivity).
  destruct (fold_close (fun c : float * (fvec * fmat) => (fst c * fst (snd c) i)%float)
    (fun c => fval (fst c) * fval (fst (snd c) i)) (fun c => fval (fst c) * Rabs (fval (fst (snd c) i))) 1 (bp (-1075)) ltac:(lra)) with (l := cs) as [F H]; auto.
  - split; [apply bpow_ge_0|apply bpow_le; lia].
  - intros [w [x P]] Hx. cbn [fst snd]. destruct (Hm w x P Hx) as ((Fw & Bw) & Hxi & _). destruct (Hxi i Hi) as [Fx Bx].
    pose proof (size_prod (fval w) (fval (x i)) _ (bp 450) Bw Bx ltac:(apply bpow_le; lia)) as [S1 S2].
    destruct (f_mul w (x i) 450 ltac:(lia) Fw Fx ltac:(lra)) as [Fp Vp]. split; auto. split; [|split; lra].
    rewrite Vp, Rmult_1_l. eapply Rle_trans; [apply abs_rel|]. rewrite Rabs_mult, (Rabs_pos_eq (fval w)) by lra. lra.
  - split; [exact F|]. eapply Rle_trans; [exact H|]. change (bp (-53)) with uro. rewrite B75. lra.
Qed.

(** ** Covariance *)
Section Cov.
Variables (m : fvec) (cs : mixture).
Hypothesis Hcs : moderate cs.
Hypothesis Hm : forall i, (i < 4)%nat -> fin (m i) /\ Rabs (fval (m i)) <= bp 222.
Notation mv := (fun i => fval (m i)).
Notation term i j := (fun c : float * (fvec * fmat) => (fst c * (snd (snd c) i j + (fst (snd c) i - m i) * (fst (snd c) j - m j)))%float).

Lemma diff_ok w x P i : In (w, (x, P)) cs -> (i < 4)%nat ->
  fin (x i - m i)%float /\ fval (x i - m i)%float = rnd (fval (x i) - fval (m i)) /\
  Rabs (fval (x i - m i)%float - (fval (x i) - fval (m i))) <= uro * Rabs (fval (x i) - fval (m i)) /\ Rabs (fval (x i) - fval (m i)) <= bp 223.
Proof.
  intros Hx Hi. destruct (proj2 Hcs w x P Hx) as (_ & Hxi & _). destruct (Hxi i Hi) as [Fx Bx]. destruct (Hm i Hi) as [Fm Bm].
  assert (B : Rabs (fval (x i) - fval (m i)) <= bp 223).
  { unfold Rminus. eapply Rle_trans; [apply Rabs_triang|]. rewrite Rabs_Ropp. assert (bp 200 <= bp 222) by (apply bpow_le; lia).
    change (bp 223) with (bp (1 + 222)). rewrite bpow_plus. change (bp 1) with 2. lra. }
  destruct (f_sub (x i) (m i) 223 ltac:(lia) Fx Fm B) as [F V]. split; auto. split; auto. split; auto. rewrite V.
  exact (rnd_plus (fval (x i)) (- fval (m i)) (val_format _) (generic_format_opp _ _ _ (val_format _))).
Qed.

Lemma term_ok w x P i j : In (w, (x, P)) cs -> (i < 4)%nat -> (j < 4)%nat ->
  let a := fval (x i) - fval (m i) in let b := fval (x j) - fval (m j) in
  let u := (snd (snd (w, (x, P))) i j + (x i - m i) * (x j - m j))%float in
  fin (w * u)%float /\ fval (w * u)%float = rnd (fval w * rnd (fval (P i j) + rnd (rnd a * rnd b))) /\
  Rabs (fval (w * u)%float - fval w * (fval (P i j) + a * b)) <= 6 * uro * (fval w * (Rabs (fval (P i j)) + Rabs a * Rabs b)) + 4 * bp (-1075) /\
  Rabs (fval w * (fval (P i j) + a * b)) <= fval w * (Rabs (fval (P i j)) + Rabs a * Rabs b) <= bp 450.
Proof.
  intros Hx Hi Hj a b u. cbn [snd] in u. destruct (proj2 Hcs w x P Hx) as ((Fw & Bw) & _ & HP). destruct (HP i j Hi Hj) as [FP BP].
  destruct (diff_ok w x P i Hx Hi) as (Fa & Va & Ea & Ba). destruct (diff_ok w x P j Hx Hj) as (Fb & Vb & Eb & Bb). fold a in Va, Ea, Ba. fold b in Vb, Eb, Bb.
  set (fa := fval (x i - m i)%float) in *. set (fb := fval (x j - m j)%float) in *.
  pose proof uro_pos as Pu. assert (Hu : uro <= / 1000000) by (unfold uro; apply Rle_trans with (bp (-20)); [apply bpow_le; lia|simpl; lra]).
  assert (Pe : 0 < bp (-1075)) by apply bpow_gt_0. set (e := bp (-1075)) in *.
  pose proof (Rabs_pos a) as A0. pose proof (Rabs_pos b) as B0. pose proof (Rabs_pos (fval (P i j))) as P0.
  set (A := Rabs a) in *. set (B := Rabs b) in *. set (Q := Rabs (fval (P i j))) in *.
  assert (AB0 : 0 <= A * B) by (apply Rmult_le_pos; auto).
  assert (ABb : A * B <= bp 446) by (change 446%Z with (223 + 223)%Z; rewrite bpow_plus; apply Rmult_le_compat; auto).
  (* the product *)
  assert (Eab : Rabs (fa * fb - a * b) <= 201 / 100 * uro * (A * B)).
  { replace (fa * fb - a * b) with ((fa - a) * b + a * (fb - b) + (fa - a) * (fb - b)) by ring.
    eapply Rle_trans; [apply Rabs_triang|]. eapply Rle_trans; [apply Rplus_le_compat_r, Rabs_triang|]. rewrite !Rabs_mult. fold A B.
    assert (Rabs (fa - a) * B <= uro * A * B) by (apply Rmult_le_compat_r; auto).
    assert (A * Rabs (fb - b) <= A * (uro * B)) by (apply Rmult_le_compat_l; auto).
    assert (Rabs (fa - a) * Rabs (fb - b) <= (uro * A) * (uro * B)) by (apply Rmult_le_compat; auto; apply Rabs_pos).
    replace (uro * A * (uro * B)) with (uro * (uro * (A * B))) in H1 by ring.
    assert (uro * (uro * (A * B)) <= / 1000000 * (uro * (A * B))) by (apply Rmult_le_compat_r; [apply Rmult_le_pos; lra|lra]).
    assert (0 <= uro * (A * B)) by (apply Rmult_le_pos; lra). lra. }
  assert (Bab : Rabs (fa * fb) <= 101 / 100 * (A * B)).
  { replace (fa * fb) with (a * b + (fa * fb - a * b)) by ring. eapply Rle_trans; [apply Rabs_triang|]. rewrite (Rabs_mult a b). fold A B.
    assert (201 / 100 * uro * (A * B) <= / 100 * (A * B)) by (apply Rmult_le_compat_r; lra). lra. }
  assert (K446 : 16 * bp 446 = bp 450) by (change 16 with (bp 4); rewrite <- bpow_plus; reflexivity). pose proof (bpow_gt_0 radix2 446) as P446.
  destruct (f_mul (x i - m i)%float (x j - m j)%float 450 ltac:(lia) Fa Fb) as [Fp Vp]; [fold fa fb; lra|]. fold fa fb in Vp.
  pose proof (abs_rel (fa * fb)) as Rp. rewrite <- Vp in Rp. fold e in Rp. set (p := fval ((x i - m i) * (x j - m j))%float) in *.
  assert (uro * Rabs (fa * fb) <= uro * (101 / 100 * (A * B))) by (apply Rmult_le_compat_l; lra).
  assert (UAB : 0 <= uro * (A * B)) by (apply Rmult_le_pos; lra).
  assert (Ep : Rabs (p - a * b) <= 303 / 100 * uro * (A * B) + e).
  { replace (p - a * b) with ((p - fa * fb) + (fa * fb - a * b)) by ring. eapply Rle_trans; [apply Rabs_triang|]. lra. }
  assert (UAB1 : uro * (A * B) <= / 1000000 * (A * B)) by (apply Rmult_le_compat_r; lra).
  assert (e1 : e <= bp 446) by (apply bpow_le; lia).
  assert (Bp : Rabs p <= 101 / 100 * (A * B) + e).
  { replace p with (a * b + (p - a * b)) by ring. eapply Rle_trans; [apply Rabs_triang|]. rewrite (Rabs_mult a b). fold A B. lra. }
  (* the sum *)
  assert (Q400 : Q <= bp 446) by (eapply Rle_trans; [exact BP|apply bpow_le; lia]).
  assert (Bs : Rabs (fval (P i j) + p) <= Q + 101 / 100 * (A * B) + e) by (eapply Rle_trans; [apply Rabs_triang|]; fold Q; lra).
  destruct (f_add (P i j) ((x i - m i) * (x j - m j))%float 450 ltac:(lia) FP Fp) as [Fu Vu]; [fold p; lra|]. fold u p in Fu, Vu.
  pose proof (rnd_plus (fval (P i j)) p (val_format _) (val_format _)) as Rs. rewrite <- Vu in Rs. set (v := fval u) in *.
  assert (uro * Rabs (fval (P i j) + p) <= uro * (Q + 101 / 100 * (A * B) + e)) by (apply Rmult_le_compat_l; lra).
  assert (ue : uro * e <= / 1000000 * e) by (apply Rmult_le_compat_r; lra). assert (UQ : 0 <= uro * Q) by (apply Rmult_le_pos; lra).
  assert (Ev : Rabs (v - (fval (P i j) + a * b)) <= 405 / 100 * uro * (Q + A * B) + 2 * e).
  { replace (v - (fval (P i j) + a * b)) with ((v - (fval (P i j) + p)) + (p - a * b)) by ring. eapply Rle_trans; [apply Rabs_triang|]. lra. }
  assert (UQ1 : uro * Q <= / 1000000 * Q) by (apply Rmult_le_compat_r; lra).
  assert (E0 : Rabs (fval (P i j) + a * b) <= Q + A * B) by (eapply Rle_trans; [apply Rabs_triang|]; rewrite Rabs_mult; fold A B Q; lra).
  assert (Bv : Rabs v <= 101 / 100 * (Q + A * B) + 2 * e).
  { replace v with ((fval (P i j) + a * b) + (v - (fval (P i j) + a * b))) by ring. eapply Rle_trans; [apply Rabs_triang|]. lra. }
  (* the weight *)
  assert (W1 : Rabs (fval w * v) <= fval w * (101 / 100 * (Q + A * B) + 2 * e)) by (rewrite Rabs_mult, (Rabs_pos_eq (fval w)) by lra; apply Rmult_le_compat_l; lra).
  assert (W2 : fval w * (Q + A * B) <= 1 * (Q + A * B)) by (apply Rmult_le_compat_r; lra).
  assert (W3 : fval w * e <= 1 * e) by (apply Rmult_le_compat_r; lra). assert (W4 : 0 <= fval w * e) by (apply Rmult_le_pos; lra).
  destruct (f_mul w u 450 ltac:(lia) Fw Fu) as [Ft Vt]; [fold v; lra|]. fold v in Vt.
  split; [exact Ft|]. split; [rewrite Vt, Vu, Vp, Va, Vb; reflexivity|].
  pose proof (abs_rel (fval w * v)) as Rt. rewrite <- Vt in Rt. fold e in Rt.
  split.
  - set (Z := fval w * (Q + A * B)) in *.
    assert (Z0 : 0 <= Z) by (apply Rmult_le_pos; lra). assert (UZ : 0 <= uro * Z) by (apply Rmult_le_pos; lra).
    assert (X1 : uro * Rabs (fval w * v) <= uro * (101 / 100 * Z + 2 * e)) by (apply Rmult_le_compat_l; [lra|]; unfold Z; lra).
    assert (X2 : Rabs (fval w * v - fval w * (fval (P i j) + a * b)) <= 405 / 100 * (uro * Z) + 2 * e).
    { rewrite <- Rmult_minus_distr_l, Rabs_mult, (Rabs_pos_eq (fval w)) by lra.
      apply Rle_trans with (fval w * (405 / 100 * uro * (Q + A * B) + 2 * e)); [apply Rmult_le_compat_l; lra|]. unfold Z. lra. }
    replace (fval (w * u)%float - fval w * (fval (P i j) + a * b)) with ((fval (w * u)%float - fval w * v) + (fval w * v - fval w * (fval (P i j) + a * b))) by ring.
    eapply Rle_trans; [apply Rabs_triang|]. lra.
  - split; [|lra]. rewrite Rabs_mult, (Rabs_pos_eq (fval w)) by lra. apply Rmult_le_compat_l; lra.
Qed.

Lemma cov_ok i j : (i < 4)%nat -> (j < 4)%nat ->
  fin (fcov_about m cs i j) /\
  Rabs (fval (fcov_about m cs i j) - exact_cov mv cs i j) <= (2 * INR (length cs) + 12) * bp (-53) * size_about mv cs i j + INR (length cs) * bp (-1072).
Proof.
  intros Hi Hj. unfold exact_cov, size_about, average. rewrite <- !asum_of.
  assert (B72 : bp (-1072) = 8 * bp (-1075)) by (change 8 with (bp 3); rewrite <- bpow_plus; reflexivity).
  destruct (fold_close (term i j)
    (fun c => fval (fst c) * (fval (snd (snd c) i j) + (fval (fst (snd c) i) - fval (m i)) * (fval (fst (snd c) j) - fval (m j))))
    (fun c => fval (fst c) * (Rabs (fval (snd (snd c) i j)) + Rabs (fval (fst (snd c) i) - fval (m i)) * Rabs (fval (fst (snd c) j) - fval (m j)))) 6 (4 * bp (-1075)) ltac:(lra)) with (l := cs) as [F H].
  - split; [pose proof (bpow_ge_0 radix2 (-1075)); lra|]. change 4 with (bp 2). rewrite <- bpow_plus. apply bpow_le. lia.
  - apply Hcs.
  - intros [w [x P]] Hx. cbn [fst snd]. destruct (term_ok w x P i j Hx Hi Hj) as (T1 & _ & T3 & T4). auto.
  - split; [exact F|]. eapply Rle_trans; [exact H|]. change (bp (-53)) with uro. rewrite B72. lra.
Qed.

(** The same number in both places. *)
Lemma fold_values {A} (f g : A -> float) l : (Z.of_nat (length l) <= 2 ^ 20)%Z ->
  (forall x, In x l -> fin (f x) /\ Rabs (fval (f x)) <= bp 500 /\ fin (g x) /\ fval (f x) = fval (g x)) ->
  fval (fold_left (fun res x => (res + f x)%float) l 0%float) = fval (fold_left (fun res x => (res + g x)%float) l 0%float).
Proof.
  destruct (proj_Fin _ _ proj_zero) as [F0 V0].
  assert (G : forall l acc acc' k, fin acc -> fin acc' -> fval acc = fval acc' -> Rabs (fval acc) <= INR k * bp 501 -> (Z.of_nat (k + length l) <= 2 ^ 20)%Z ->
    (forall x, In x l -> fin (f x) /\ Rabs (fval (f x)) <= bp 500 /\ fin (g x) /\ fval (f x) = fval (g x)) ->
    fval (fold_left (fun res x => (res + f x)%float) l acc) = fval (fold_left (fun res x => (res + g x)%float) l acc')).
  { clear l. induction l as [|x l IH]; intros acc acc' k Fa Fa' E Ba Hk Hl; [exact E|]. cbn [fold_left].
    destruct (Hl x (or_introl eq_refl)) as (Ff & Bf & Fg & Eg). cbn [length] in Hk.
    assert (Hk20 : INR k + 1 <= bp 20) by (rewrite <- S_INR, INR_IZR_INZ; change (bp 20) with (IZR (2 ^ 20)); apply IZR_le; lia).
    pose proof (pos_INR k) as K0. pose proof (bpow_gt_0 radix2 501) as P501. assert (E501 : bp 501 = 2 * bp 500) by (change 501%Z with (1 + 500)%Z; rewrite bpow_plus; reflexivity).
    assert (Hs : Rabs (fval acc + fval (f x)) <= (INR k + / 2) * bp 501) by (eapply Rle_trans; [apply Rabs_triang|]; lra).
    assert (Hb : Rabs (fval acc + fval (f x)) <= bp 530).
    { eapply Rle_trans; [exact Hs|]. apply Rle_trans with (bp 20 * bp 501); [apply Rmult_le_compat_r; lra|]. rewrite <- bpow_plus. apply bpow_le. lia. }
    destruct (f_add acc (f x) 530 ltac:(lia) Fa Ff Hb) as [F1 V1].
    destruct (f_add acc' (g x) 530 ltac:(lia) Fa' Fg ltac:(rewrite <- E, <- Eg; exact Hb)) as [F2 V2].
    apply (IH _ _ (Datatypes.S k)); auto.
    - rewrite V1, V2, E, Eg. reflexivity.
    - rewrite S_INR, V1. pose proof (rnd_plus (fval acc) (fval (f x)) (val_format _) (val_format _)) as Hr.
      replace (rnd (fval acc + fval (f x))) with ((fval acc + fval (f x)) + (rnd (fval acc + fval (f x)) - (fval acc + fval (f x)))) by ring.
      eapply Rle_trans; [apply Rabs_triang|]. pose proof uro_pos as Pu.
      assert (uro * Rabs (fval acc + fval (f x)) <= uro * (bp 20 * bp 501)).
      { apply Rmult_le_compat_l; [lra|]. eapply Rle_trans; [exact Hs|]. apply Rmult_le_compat_r; lra. }
      replace (uro * (bp 20 * bp 501)) with (bp (-33) * bp 501) in H by (unfold uro; rewrite <- !bpow_plus; reflexivity).
      assert (bp (-33) * bp 501 <= / 2 * bp 501) by (apply Rmult_le_compat_r; [lra|]; change (/ 2) with (bp (-1)); apply bpow_le; lia). lra.
    - lia.
    - intros y Hy. apply Hl. simpl; auto. }
  intros Hn Hl. apply (G l 0%float 0%float 0%nat); auto. rewrite V0, Rabs_R0. simpl. lra.
Qed.

Lemma term_small w x P i j : In (w, (x, P)) cs -> (i < 4)%nat -> (j < 4)%nat -> Rabs (fval (term i j (w, (x, P)))) <= bp 500.
Proof.
  intros Hx Hi Hj. destruct (term_ok w x P i j Hx Hi Hj) as (_ & _ & T3 & T4 & T5). cbn [fst snd] in *.
  set (t := fval (w * (P i j + (x i - m i) * (x j - m j)))%float) in *. set (e := fval w * (fval (P i j) + _)) in *. set (s := fval w * (Rabs _ + _)) in *.
  replace t with (e + (t - e)) by ring. eapply Rle_trans; [apply Rabs_triang|]. pose proof (Rabs_pos e). pose proof uro_pos.
  assert (6 * uro * s <= 1 * s) by (apply Rmult_le_compat_r; [lra|]; unfold uro; apply Rle_trans with (6 * bp (-20)); [apply Rmult_le_compat_l; [lra|apply bpow_le; lia]|simpl; lra]).
  assert (bp (-1075) <= bp 450) by (apply bpow_le; lia). assert (8 * bp 450 <= bp 500) by (change 8 with (bp 3); rewrite <- bpow_plus; apply bpow_le; lia). lra.
Qed.

Lemma cov_symmetric i j : (i < 4)%nat -> (j < 4)%nat -> (forall w x P, In (w, (x, P)) cs -> fval (P i j) = fval (P j i)) ->
  fval (fcov_about m cs i j) = fval (fcov_about m cs j i).
Proof.
  intros Hi Hj Hs. unfold fcov_about. apply (fold_values (term i j) (term j i)); [apply Hcs|].
  intros [w [x P]] Hx. destruct (term_ok w x P i j Hx Hi Hj) as (T1 & T2 & _). destruct (term_ok w x P j i Hx Hj Hi) as (U1 & U2 & _).
  split; [exact T1|]. split; [apply term_small; auto|]. split; [exact U1|]. cbn [fst snd] in *. rewrite T2, U2, (Hs w x P Hx). rewrite (Rmult_comm (rnd (fval (x i) - fval (m i)))). reflexivity.
Qed.

(** Variances are not negative. *)
Lemma fold_map {A} (f : A -> float) l : forall z, fold_left (fun res x => (res + f x)%float) l z = fold_left PrimFloat.add (map f l) z.
Proof. induction l as [|c l IH]; intros z; [reflexivity|]. cbn [map fold_left]. apply IH. Qed.
Lemma rnd_0le x : 0 <= x -> 0 <= rnd x.
Proof. intros H. rewrite <- rnd_0. apply rnd_le. exact H. Qed.

Lemma cov_nonneg i : (i < 4)%nat -> (forall w x P, In (w, (x, P)) cs -> 0 <= fval (P i i)) -> 0 <= fval (fcov_about m cs i i).
Proof.
  intros Hi HP.
  destruct (fsums_fin (map (term i i) cs) (fcov_about m cs i i)) as [Hnn _].
  - unfold fcov_about. rewrite (fold_map (term i i) cs). exact (fold_fsums _ [] _ fs_nil).
  - intros y Hy. apply in_map_iff in Hy. destruct Hy as ([w [x P]] & <- & Hx). destruct (term_ok w x P i i Hx Hi Hi) as (T1 & T2 & _).
    right. eexists. split; [apply proj_fin; exact T1|]. cbn [fst snd] in T2 |- *. rewrite T2. destruct (proj2 Hcs w x P Hx) as ((_ & Bw) & _). apply rnd_0le. apply Rmult_le_pos; [lra|]. apply rnd_0le.
    assert (0 <= rnd (rnd (fval (x i) - fval (m i)) * rnd (fval (x i) - fval (m i)))) by apply rnd_0le, Rle_0_sqr. pose proof (HP w x P Hx). lra.
  - destruct (cov_ok i i Hi Hi) as [F _]. exact (nn_fin _ _ Hnn (proj_fin _ F)).
Qed.
End Cov.

(** ** Both together *)
Lemma average_linear f g k cs : average (fun x P => f x P + k * g x P) cs = average f cs + k * average g cs.
Proof. unfold average. rewrite <- !asum_of. induction cs as [|c l IH]; cbn [asum]; [ring|]. rewrite IH. ring. Qed.
Lemma average_ext f g cs : (forall x P, f x P = g x P) -> average f cs = average g cs.
Proof. intros H. unfold average. rewrite <- !asum_of. induction cs as [|c l IH]; cbn [asum]; [reflexivity|]. rewrite IH, H. reflexivity. Qed.

Lemma mean_size_le cs i : moderate cs -> (i < 4)%nat -> Rabs (exact_mean cs i) <= mean_size cs i <= bp 220.
Proof.
  intros [Hn Hm] Hi. unfold exact_mean, mean_size, average. rewrite <- !asum_of.
  assert (H : forall l, (forall c, In c l -> In c cs) ->
    Rabs (asum (fun c => fval (fst c) * fval (fst (snd c) i)) l) <= asum (fun c => fval (fst c) * Rabs (fval (fst (snd c) i))) l <= INR (length l) * bp 200).
  { induction l as [|[w [x P]] l IH]; intros Hl; [simpl; rewrite Rabs_R0; lra|]. cbn [asum length fst snd]. rewrite S_INR.
    destruct (Hm w x P (Hl _ (or_introl eq_refl))) as ((_ & Bw) & Hxi & _). destruct (Hxi i Hi) as [_ Bx].
    destruct (size_prod (fval w) (fval (x i)) _ (bp 200) Bw Bx ltac:(lra)) as [S1 S2]. specialize (IH (fun c Hc => Hl c (or_intror Hc))).
    split; [|lra]. eapply Rle_trans; [apply Rabs_triang|]. lra. }
  destruct (H cs (fun c Hc => Hc)) as [H1 H2]. split; [exact H1|]. eapply Rle_trans; [exact H2|].
  change 220%Z with (20 + 200)%Z. rewrite bpow_plus. apply Rmult_le_compat_r; [apply bpow_ge_0|]. rewrite INR_IZR_INZ. change (bp 20) with (IZR (2 ^ 20)). apply IZR_le. exact Hn.
Qed.

Lemma mean_bounded cs : moderate cs -> forall i, (i < 4)%nat -> fin (fmean cs i) /\ Rabs (fval (fmean cs i)) <= bp 222.
Proof.
  intros Hc i Hi. destruct (mean_ok cs i Hc Hi) as [F H]. split; [exact F|]. destruct (mean_size_le cs i Hc Hi) as [H1 H2].
  assert (Hn : 0 <= INR (length cs) <= bp 20).
  { split; [apply pos_INR|]. rewrite INR_IZR_INZ. change (bp 20) with (IZR (2 ^ 20)). apply IZR_le. apply Hc. }
  unfold mean_error in H. pose proof (Rabs_pos (exact_mean cs i)) as P0. set (n := INR (length cs)) in *. set (s := mean_size cs i) in *.
  assert (A : (2 * n + 2) * bp (-53) <= 1).
  { apply Rle_trans with (bp 22 * bp (-53)); [apply Rmult_le_compat_r; [apply bpow_ge_0|]|rewrite <- bpow_plus; change 1 with (bp 0); apply bpow_le; lia].
    change (bp 22) with (bp (2 + 20)). rewrite bpow_plus. change (bp 2) with 4. assert (1 <= bp 20) by (change 1 with (bp 0); apply bpow_le; lia). lra. }
  assert (B : (2 * n + 2) * bp (-53) * s <= 1 * s) by (apply Rmult_le_compat_r; lra).
  assert (C : n * bp (-1074) <= bp 20 * bp (-1074)) by (apply Rmult_le_compat_r; [apply bpow_ge_0|lra]). rewrite <- bpow_plus in C.
  assert (D : bp (20 + -1074) <= bp 220) by (apply bpow_le; lia).
  change (bp 222) with (bp (2 + 220)). rewrite bpow_plus. change (bp 2) with 4.
  replace (fval (fmean cs i)) with (exact_mean cs i + (fval (fmean cs i) - exact_mean cs i)) by ring. eapply Rle_trans; [apply Rabs_triang|]. lra.
Qed.

Lemma total_nonneg cs : moderate cs -> 0 <= total cs.
Proof.
  intros [_ Hm]. unfold total, average. rewrite <- asum_of. apply asum_0. intros [w [x P]] Hx. destruct (Hm w x P Hx) as ((_ & Bw) & _). cbn [fst]. lra.
Qed.

Lemma recentre (m : nat -> R) cs i j : let mu := exact_mean cs in
  exact_cov m cs i j - exact_cov mu cs i j =
  - (1 - total cs) * ((m j - mu j) * mu i + (m i - mu i) * mu j) + total cs * ((m i - mu i) * (m j - mu j)).
Proof.
  intros mu. set (di := m i - mu i). set (dj := m j - mu j). unfold exact_cov.
  rewrite (average_ext _ (fun x P => (((fval (P i j) + (fval (x i) - mu i) * (fval (x j) - mu j)) + (- dj) * fval (x i)) + (- di) * fval (x j)) + (dj * mu i + di * mu j + di * dj) * 1)) by (intros; unfold di, dj; ring).
  rewrite !average_linear. change (average (fun x _ => fval (x i)) cs) with (mu i). change (average (fun x _ => fval (x j)) cs) with (mu j). change (average (fun _ _ => 1) cs) with (total cs). ring.
Qed.

Lemma size_le cs i j : moderate cs -> (i < 4)%nat -> (j < 4)%nat -> size_about (fun k => fval (fmean cs k)) cs i j <= cov_size cs i j.
Proof.
  intros Hc Hi Hj. unfold size_about, cov_size, average. rewrite <- !asum_of. apply asum_le. intros [w [x P]] Hx. cbn [fst snd].
  destruct (proj2 Hc w x P Hx) as ((_ & Bw) & _). apply Rmult_le_compat_l; [lra|]. apply Rplus_le_compat_l.
  assert (H : forall k, (k < 4)%nat -> Rabs (fval (x k) - fval (fmean cs k)) <= Rabs (fval (x k) - exact_mean cs k) + mean_error cs k).
  { intros k Hk. destruct (mean_ok cs k Hc Hk) as [_ E]. rewrite Rabs_minus_sym in E.
    replace (fval (x k) - fval (fmean cs k)) with ((fval (x k) - exact_mean cs k) + (exact_mean cs k - fval (fmean cs k))) by ring. eapply Rle_trans; [apply Rabs_triang|]. lra. }
  apply Rmult_le_compat; auto; apply Rabs_pos.
Qed.

Lemma report_ok cs i j : moderate cs -> (i < 4)%nat -> (j < 4)%nat ->
  fin (fcov cs i j) /\ Rabs (fval (fcov cs i j) - exact_cov (exact_mean cs) cs i j) <= cov_error cs i j.
Proof.
  intros Hc Hi Hj. destruct (cov_ok (fmean cs) cs Hc (mean_bounded cs Hc) i j Hi Hj) as [F H]. split; [exact F|].
  pose proof (recentre (fun k => fval (fmean cs k)) cs i j) as R. cbv zeta in R. fold (fcov cs) in H.
  replace (fval (fcov cs i j) - exact_cov (exact_mean cs) cs i j) with
    ((fval (fcov cs i j) - exact_cov (fun k => fval (fmean cs k)) cs i j) + (exact_cov (fun k => fval (fmean cs k)) cs i j - exact_cov (exact_mean cs) cs i j)) by ring.
  eapply Rle_trans; [apply Rabs_triang|]. unfold cov_error. apply Rplus_le_compat.
  { eapply Rle_trans; [exact H|]. apply Rplus_le_compat_r. apply Rmult_le_compat_l; [|apply size_le; auto].
    apply Rmult_le_pos; [pose proof (pos_INR (length cs)); lra|apply bpow_ge_0]. }
  rewrite R. unfold centring.
  destruct (mean_ok cs i Hc Hi) as [_ Ei]. destruct (mean_ok cs j Hc Hj) as [_ Ej]. pose proof (total_nonneg cs Hc) as T0.
  set (di := fval (fmean cs i) - exact_mean cs i) in *. set (dj := fval (fmean cs j) - exact_mean cs j) in *.
  eapply Rle_trans; [apply Rabs_triang|]. apply Rplus_le_compat.
  - rewrite Rabs_mult, Rabs_Ropp. apply Rmult_le_compat_l; [apply Rabs_pos|]. eapply Rle_trans; [apply Rabs_triang|]. rewrite !Rabs_mult.
    apply Rplus_le_compat; (apply Rmult_le_compat_r; [apply Rabs_pos|assumption]).
  - rewrite Rabs_mult, (Rabs_pos_eq (total cs)) by lra. apply Rmult_le_compat_l; [lra|]. rewrite Rabs_mult. apply Rmult_le_compat; auto; apply Rabs_pos.
Qed.
