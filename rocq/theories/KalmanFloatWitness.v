(** The correction in doubles: the theorems, and covariances it breaks. *)
From Coq Require Import List Reals ZArith Arith Bool Lra Lia Psatz.
Import ListNotations.
From Flocq Require Import Core BinarySingleNaN PrimFloat.
From Coq Require Import Floats.
From Verif Require Import Scalar FloatBase ClusterFloat KalmanFloat KalmanFloatSpec KalmanFloatProofs KalmanFloatErr KalmanFloatMain.
Local Open Scope R_scope.
Local Notation bp := (bpow radix2).

Lemma minors P : symmetric4 P -> definite4 P -> (forall i, (i < 4)%nat -> medium (val (P i i))) ->
  forall a, (a < 2)%nat -> val (P a (a + 2)%nat) * val (P a (a + 2)%nat) < val (P a a) * val (P (a + 2)%nat (a + 2)%nat).
Proof. intros SY DE MP a Ha. apply definite_minor; auto. apply medium_pos, MP. lia. Qed.

Lemma double_covariance sum P V : (forall l, fsums l (sum l)) -> finite4 P -> symmetric4 P -> definite4 P -> definite2 V ->
  separate4 P -> separate2 V -> (forall i, (i < 4)%nat -> medium (val (P i i))) -> (forall i, (i < 2)%nat -> medium (val (V i i))) ->
  (forall i j, (i < 4)%nat -> (j < 4)%nat -> medium0 (val (P i j))) ->
  (finite4 (fcov sum P V) /\ separate4 (fcov sum P V) /\
   (forall D, inverts2 P V D -> forall i j, (i < 4)%nat -> (j < 4)%nat ->
      Rabs (val (fcov sum P V i j) - (val (P i j) - kshrink P D i j)) <= bp (-49) * Rabs (val (P i j)))) /\
  (clear P V 0 -> clear P V 1 -> definite4 (fcov sum P V) /\ definite4 (lower (fcov sum P V))).
Proof.
  intros Hs FP SY DE (FV & _) SP SV MP MV MO. pose proof (minors P SY DE MP) as MI.
  assert (SC : separate4 (fcov sum P V)) by (apply cov_separate; auto).
  split; [split; [|split]|].
  - intros i j Hi Hj. destruct (fcov_val sum Hs P V FP SP FV SV MP MV MO SY MI i j Hi Hj) as [[F _] _]. exact F.
  - exact SC.
  - intros D HD i j Hi Hj. apply cov_near; auto.
  - intros C0 C1.
    assert (B : forall i j, (i < 4)%nat -> (j < 4)%nat -> Nat.even i = Nat.even j ->
      Rabs (val (fcov sum P V i j) - exact P V i j) <= bp (-49) * Rabs (val (P i j))).
    { intros i j Hi Hj E. destruct (fcov_val sum Hs P V FP SP FV SV MP MV MO SY MI i j Hi Hj) as [[_ W] X]. rewrite W. apply X, E. }
    assert (A : forall a m, (a < 2)%nat -> Rabs (m - (val (P a (a + 2)%nat) - val (P a a) * val (P a (a + 2)%nat) / (val (P a a) + val (V a a)))) <= bp (-49) * Rabs (val (P a (a + 2)%nat)) ->
      0 < val (fcov sum P V a a) /\ m * m < val (fcov sum P V a a) * val (fcov sum P V (a + 2)%nat (a + 2)%nat)).
    { intros a m Ha Hm. pose proof (medium_pos _ (MP a ltac:(lia))) as Pp. pose proof (medium_pos _ (MP (a + 2)%nat ltac:(lia))) as Pv. pose proof (medium_pos _ (MV a ltac:(lia))) as Pr.
      apply (axis_definite (val (P a a)) (val (P a (a + 2)%nat)) (val (P (a + 2)%nat (a + 2)%nat)) (val (V a a))); auto.
      - destruct a as [|[|]]; [exact C0|exact C1|lia].
      - pose proof (B a a ltac:(lia) ltac:(lia) eq_refl) as X. rewrite (Rabs_pos_eq (val (P a a))) in X by lra. destruct a as [|[|]]; [exact X|exact X|lia].
      - pose proof (B (a + 2)%nat (a + 2)%nat ltac:(lia) ltac:(lia) eq_refl) as X. rewrite (Rabs_pos_eq (val (P (a + 2)%nat (a + 2)%nat))) in X by lra. unfold exact in X.
        destruct a as [|[|]]; [| |lia]; cbn [Nat.even Nat.add] in *.
        + rewrite (SY 2%nat 0%nat) in X by lia. exact X.
        + rewrite (SY 3%nat 1%nat) in X by lia. exact X. }
    assert (U : forall a, (a < 2)%nat -> Rabs (val (fcov sum P V a (a + 2)%nat) - (val (P a (a + 2)%nat) - val (P a a) * val (P a (a + 2)%nat) / (val (P a a) + val (V a a)))) <= bp (-49) * Rabs (val (P a (a + 2)%nat))).
    { intros a Ha. pose proof (B a (a + 2)%nat ltac:(lia) ltac:(lia)) as X. destruct a as [|[|]]; [| |lia]; apply X; reflexivity. }
    assert (L : forall a, (a < 2)%nat -> Rabs (val (fcov sum P V (a + 2)%nat a) - (val (P a (a + 2)%nat) - val (P a a) * val (P a (a + 2)%nat) / (val (P a a) + val (V a a)))) <= bp (-49) * Rabs (val (P a (a + 2)%nat))).
    { intros a Ha. pose proof (B (a + 2)%nat a ltac:(lia) ltac:(lia)) as X. unfold exact in X. destruct a as [|[|]]; [| |lia]; cbn [Nat.even Nat.add] in *.
      - rewrite (SY 2%nat 0%nat) in X by lia. rewrite (Rmult_comm (val (P 0%nat 0%nat))). apply X; reflexivity.
      - rewrite (SY 3%nat 1%nat) in X by lia. rewrite (Rmult_comm (val (P 1%nat 1%nat))). apply X; reflexivity. }
    split.
    + apply definite_axes; auto. intros a Ha. apply A; auto. specialize (U a Ha). specialize (L a Ha).
      set (q := _ - _ / _) in *. set (b := bp (-49) * _) in *. apply Rabs_le_inv in U. apply Rabs_le_inv in L. apply Rabs_le. lra.
    + apply definite_axes.
      * intros i j Hi Hj E. unfold lower. destruct (Nat.leb_spec j i); apply SC; auto. rewrite Nat.add_comm. auto.
      * intros a Ha. destruct (A a _ Ha (L a Ha)) as [A1 A2].
        destruct a as [|[|]]; [| |lia]; unfold lower; cbn [Nat.leb Nat.add] in *; (split; [exact A1|]);
          match goal with |- (?x + ?x) / 2 * _ < _ => replace ((x + x) / 2) with x by field end; exact A2.
Qed.

Lemma double_mean sum x P z V : (forall l, fsums l (sum l)) -> finite4 P -> symmetric4 P -> definite4 P -> definite2 V ->
  separate4 P -> separate2 V -> (forall i, (i < 4)%nat -> medium (val (P i i))) -> (forall i, (i < 2)%nat -> medium (val (V i i))) ->
  (forall i j, (i < 4)%nat -> (j < 4)%nat -> medium0 (val (P i j))) ->
  (forall i, (i < 4)%nat -> fin (x i) /\ Rabs (val (x i)) <= bp 200) -> (forall i, (i < 2)%nat -> fin (z i) /\ Rabs (val (z i)) <= bp 200) ->
  forall D, inverts2 P V D -> forall i, (i < 4)%nat -> fin (fmean sum x P z V i) /\
    Rabs (val (fmean sum x P z V i) - (val (x i) + kmove x P z D i)) <=
      bp (-53) * Rabs (val (x i)) + bp (-49) * Rabs (kmove x P z D i) + bp (-1074).
Proof. intros Hs FP SY DE (FV & _) SP SV MP MV MO FX FZ D HD i Hi. apply mean_val; auto. Qed.

(** Covariances with equal, uncorrelated axes. *)
Definition axes (p c v : float) : nat -> nat -> float :=
  fun i j => if Nat.even (i + j) then (if (i <? 2)%nat then if (j <? 2)%nat then p else c else if (j <? 2)%nat then c else v) else 0%float.
Definition noise (r : float) : nat -> nat -> float := fun i j => if (i =? j)%nat then r else 0%float.

Section Axes.
Variables p c v r : float.
Hypothesis F : fin p /\ fin c /\ fin v /\ fin r.
Hypothesis Mp : medium (val p).
Hypothesis Mv : medium (val v).
Hypothesis Mr : medium (val r).
Hypothesis Mc : medium0 (val c).
Hypothesis G : val c * val c < val p * val v.
Lemma axes_ok : finite4 (axes p c v) /\ symmetric4 (axes p c v) /\ definite4 (axes p c v) /\ definite2 (noise r) /\
  separate4 (axes p c v) /\ separate2 (noise r) /\ (forall i, (i < 4)%nat -> medium (val (axes p c v i i))) /\
  (forall i, (i < 2)%nat -> medium (val (noise r i i))) /\ (forall i j, (i < 4)%nat -> (j < 4)%nat -> medium0 (val (axes p c v i j))).
Proof.
  destruct F as (Fp & Fc & Fv & Fr). pose proof is_0 as [F0 V0]. pose proof (medium_pos _ Mp). pose proof (medium_pos _ Mv). pose proof (medium_pos _ Mr).
  assert (S : separate4 (axes p c v)).
  { intros i j Hi Hj E. unfold axes. rewrite E. exact V0. }
  repeat split.
  - intros i j Hi Hj. unfold axes. destruct (Nat.even (i + j)), (i <? 2)%nat, (j <? 2)%nat; auto.
  - intros i j Hi Hj. unfold axes. rewrite (Nat.add_comm j i). destruct (Nat.even (i + j)), (i <? 2)%nat, (j <? 2)%nat; auto.
  - apply definite_axes; auto. intros a Ha. destruct a as [|[|]]; [| |lia]; cbn; (split; [auto|]);
      replace ((val c + val c) / 2) with (val c) by field; auto.
  - intros i j Hi Hj. unfold noise. destruct (i =? j)%nat; auto.
  - cbn. auto.
  - change (val 0%float * val 0%float < val r * val r). rewrite V0. nra.
  - auto.
  - destruct i as [|[|[|[|]]]]; try lia; cbn; apply Mp || apply Mv.
  - destruct i as [|[|[|[|]]]]; try lia; cbn; apply Mp || apply Mv.
  - destruct i as [|[|]]; try lia; cbn; apply Mr.
  - destruct i as [|[|]]; try lia; cbn; apply Mr.
  - intros i j Hi Hj. unfold axes. destruct (Nat.even (i + j)), (i <? 2)%nat, (j <? 2)%nat; auto; solve [right; rewrite Rabs_pos_eq by lra; auto|left; exact V0].
Qed.
End Axes.

(** Sums from the right, one of the orders. *)
Definition plain (l : list float) : float := fold_right PrimFloat.add 0%float l.
Lemma plain_ok l : fsums l (plain l).
Proof.
  induction l as [|x l IH]; [constructor|]. change (x :: l) with ([x] ++ l). cbn. apply (fs_app [x] l x); [constructor|exact IH].
Qed.

(** The order does not matter here. *)
Lemma any_order sum P V : (forall l, fsums l (sum l)) -> finite4 P /\ symmetric4 P /\ definite4 P /\ definite2 V /\
  separate4 P /\ separate2 V /\ (forall i, (i < 4)%nat -> medium (val (P i i))) /\ (forall i, (i < 2)%nat -> medium (val (V i i))) /\
  (forall i j, (i < 4)%nat -> (j < 4)%nat -> medium0 (val (P i j))) ->
  forall i j, (i < 4)%nat -> (j < 4)%nat -> val (fcov sum P V i j) = val (fcov plain P V i j).
Proof.
  intros Hs (FP & SY & DE & (FV & _) & SP & SV & MP & MV & MO) i j Hi Hj. pose proof (minors P SY DE MP) as MI.
  destruct (fcov_val sum Hs P V FP SP FV SV MP MV MO SY MI i j Hi Hj) as [[_ E1] _].
  destruct (fcov_val plain plain_ok P V FP SP FV SV MP MV MO SY MI i j Hi Hj) as [[_ E2] _]. congruence.
Qed.

Lemma vint x m : fin x /\ val x = IZR m -> (1 <= m < 2 ^ 100)%Z -> medium (val x).
Proof.
  intros [_ ->] H. split.
  - apply Rle_trans with (bp 0); [apply bpow_le; lia|]. apply (IZR_le 1). lia.
  - apply Rle_trans with (IZR (2 ^ 100)); [apply IZR_le; lia|]. change (IZR (2 ^ 100)) with (bp 100). apply bpow_le. lia.
Qed.
Ltac lit := split; [apply fin_SF; reflexivity|rewrite val_SF; cbv -[IZR Rmult Rplus Rinv]; lra].
Lemma v31 : fin 31 /\ val 31 = 31. Proof. lit. Qed.
Lemma v1 : fin 1 /\ val 1 = 1. Proof. lit. Qed.
Lemma v0 : fin 0 /\ val 0 = 0. Proof. exact is_0. Qed.
Lemma v3 : fin 3 /\ val 3 = 3. Proof. lit. Qed.
Lemma v5 : fin 5 /\ val 5 = 5. Proof. lit. Qed.
Lemma v20 : fin 20 /\ val 20 = 20. Proof. lit. Qed.
Lemma v2 : fin 2 /\ val 2 = 2. Proof. lit. Qed.
Lemma vtiny : fin 0x1p-60 /\ val 0x1p-60 = bp (-60).
Proof. split; [apply fin_SF; reflexivity|]. rewrite val_SF.
  change (Prim2SF 0x1p-60) with (S754_finite false 4503599627370496 (-112)). unfold SF2R, F2R, cond_Zopp, Fnum, Fexp.
  change (IZR 4503599627370496) with (bp 52). rewrite <- bpow_plus. reflexivity. Qed.

Lemma negative : exists P V, finite4 P /\ symmetric4 P /\ definite4 P /\ definite2 V /\
  forall sum, (forall l, fsums l (sum l)) -> val (fcov sum P V 0%nat 0%nat) < 0.
Proof.
  assert (A := axes_ok 31 0 1 0x1p-60 (conj (proj1 v31) (conj (proj1 v0) (conj (proj1 v1) (proj1 vtiny))))
    (vint _ 31 v31 ltac:(lia)) (vint _ 1 v1 ltac:(lia))).
  assert (M : medium (val 0x1p-60)) by (rewrite (proj2 vtiny); split; apply bpow_le; lia). specialize (A M (or_introl (proj2 v0))).
  rewrite (proj2 v0), (proj2 v31), (proj2 v1) in A. specialize (A ltac:(lra)).
  exists (axes 31 0 1), (noise 0x1p-60). destruct A as (A1 & A2 & A3 & A4 & A5). repeat (split; [assumption|]).
  intros sum Hs. rewrite (any_order sum _ _ Hs (conj A1 (conj A2 (conj A3 (conj A4 A5))))) by lia.
  rewrite val_SF. let e := eval vm_compute in (Prim2SF (fcov plain (axes 31 0 1) (noise 0x1p-60) 0%nat 0%nat)) in
    change (Prim2SF (fcov plain (axes 31 0 1) (noise 0x1p-60) 0%nat 0%nat)) with e.
  unfold SF2R. apply F2R_lt_0. cbn. lia.
Qed.

Lemma asymmetric : exists P V, finite4 P /\ symmetric4 P /\ definite4 P /\ definite2 V /\
  forall sum, (forall l, fsums l (sum l)) -> val (fcov sum P V 0%nat 2%nat) < val (fcov sum P V 2%nat 0%nat).
Proof.
  assert (A := axes_ok 3 5 20 2 (conj (proj1 v3) (conj (proj1 v5) (conj (proj1 v20) (proj1 v2))))
    (vint _ 3 v3 ltac:(lia)) (vint _ 20 v20 ltac:(lia)) (vint _ 2 v2 ltac:(lia))).
  assert (M : medium0 (val 5)) by (right; rewrite Rabs_pos_eq by (rewrite (proj2 v5); lra); apply (vint _ 5 v5); lia). specialize (A M).
  rewrite (proj2 v3), (proj2 v5), (proj2 v20) in A. specialize (A ltac:(lra)).
  exists (axes 3 5 20), (noise 2). destruct A as (A1 & A2 & A3 & A4 & A5). repeat (split; [assumption|]).
  intros sum Hs. rewrite !(any_order sum _ _ Hs (conj A1 (conj A2 (conj A3 (conj A4 A5))))) by lia.
  rewrite !val_SF. let e := eval vm_compute in (Prim2SF (fcov plain (axes 3 5 20) (noise 2) 0%nat 2%nat)) in
    change (Prim2SF (fcov plain (axes 3 5 20) (noise 2) 0%nat 2%nat)) with e.
  let e := eval vm_compute in (Prim2SF (fcov plain (axes 3 5 20) (noise 2) 2%nat 0%nat)) in
    change (Prim2SF (fcov plain (axes 3 5 20) (noise 2) 2%nat 0%nat)) with e.
  cbv -[IZR Rmult Rplus Rinv Rlt]. lra.
Qed.

(** A case of the theorems. *)
Lemma ordinary : (finite4 (axes 3 1 20) /\ symmetric4 (axes 3 1 20) /\ definite4 (axes 3 1 20) /\ definite2 (noise 2) /\
  separate4 (axes 3 1 20) /\ separate2 (noise 2) /\ (forall i, (i < 4)%nat -> medium (val (axes 3 1 20 i i))) /\
  (forall i, (i < 2)%nat -> medium (val (noise 2 i i))) /\ (forall i j, (i < 4)%nat -> (j < 4)%nat -> medium0 (val (axes 3 1 20 i j)))) /\
  clear (axes 3 1 20) (noise 2) 0 /\ clear (axes 3 1 20) (noise 2) 1 /\
  inverts2 (axes 3 1 20) (noise 2) (fun a b => if (a =? b)%nat then / 5 else 0).
Proof.
  assert (A := axes_ok 3 1 20 2 (conj (proj1 v3) (conj (proj1 v1) (conj (proj1 v20) (proj1 v2))))
    (vint _ 3 v3 ltac:(lia)) (vint _ 20 v20 ltac:(lia)) (vint _ 2 v2 ltac:(lia))).
  assert (M : medium0 (val 1)) by (right; rewrite Rabs_pos_eq by (rewrite (proj2 v1); lra); apply (vint _ 1 v1); lia). specialize (A M).
  rewrite (proj2 v3), (proj2 v1), (proj2 v20) in A. specialize (A ltac:(lra)). split; [exact A|].
  assert (C : bp (-45) <= 1) by (apply (bpow_le radix2 (-45) 0); lia). pose proof (bpow_gt_0 radix2 (-45)).
  assert (C2 : bp (-45) <= / 100) by (change (bp (-45)) with (/ IZR (2 ^ 45)); apply Rinv_le_contravar; [lra|apply IZR_le; lia]).
  split; [|split].
  - change (bp (-45) * ((val 3 + val 2) * (val 3 * val 20)) <= val 2 * (val 3 * val 20 - val 1 * val 1)). rewrite (proj2 v3), (proj2 v1), (proj2 v20), (proj2 v2). lra.
  - change (bp (-45) * ((val 3 + val 2) * (val 3 * val 20)) <= val 2 * (val 3 * val 20 - val 1 * val 1)). rewrite (proj2 v3), (proj2 v1), (proj2 v20), (proj2 v2). lra.
  - intros a b Ha Hb. destruct a as [|[|]]; try lia; destruct b as [|[|]]; try lia;
      unfold axes, noise; cbn [Nat.even Nat.add Nat.ltb Nat.leb Nat.eqb]; rewrite ?(proj2 v3), ?(proj2 v2), ?(proj2 v0); field.
Qed.

Lemma small x m : fin x /\ val x = IZR m -> (0 <= m < 2 ^ 100)%Z -> fin x /\ Rabs (val x) <= bp 200.
Proof.
  intros [F ->] H. split; auto. rewrite Rabs_pos_eq by (apply (IZR_le 0); lia).
  apply Rle_trans with (IZR (2 ^ 100)); [apply IZR_le; lia|]. change (IZR (2 ^ 100)) with (bp 100). apply bpow_le. lia.
Qed.
Lemma moved_state : forall i, (i < 4)%nat -> fin (nth i (3 :: 0 :: 1 :: 20 :: nil)%float 0%float) /\ Rabs (val (nth i (3 :: 0 :: 1 :: 20 :: nil)%float 0%float)) <= bp 200.
Proof.
  intros i Hi. destruct i as [|[|[|[|]]]]; try lia; cbn [nth]; [apply (small _ 3 v3)|apply (small _ 0 v0)|apply (small _ 1 v1)|apply (small _ 20 v20)]; lia.
Qed.
Lemma moved_report : forall i, (i < 2)%nat -> fin (nth i (31 :: 5 :: nil)%float 0%float) /\ Rabs (val (nth i (31 :: 5 :: nil)%float 0%float)) <= bp 200.
Proof. intros i Hi. destruct i as [|[|]]; try lia; cbn [nth]; [apply (small _ 31 v31)|apply (small _ 5 v5)]; lia. Qed.
