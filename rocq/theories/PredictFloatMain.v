(** The prediction in doubles, coefficient by coefficient. *)
From Coq Require Import List Arith Lia Bool Reals ZArith Lra Psatz Permutation.
From Flocq Require Import Core.
From Coq Require Import Floats.
From Verif Require Import Scalar FloatBase ClusterFloat KalmanFloat KalmanFloatSpec KalmanFloatProofs KalmanFloatErr KalmanFloatWitness PredictFloat PredictFloatSpec PredictFloatProofs.
Import ListNotations.
Local Open Scope R_scope.
Local Notation bp := (bpow radix2).
Local Notation u := (bp (-53)).

Lemma usual_pos t : usual t -> 0 <= t.
Proof. intros [->|[H _]]; [lra|]. pose proof (bp_pos (-60)). lra. Qed.
Lemma usual_low t : usual t -> t = 0 \/ bp (- 60) <= t. Proof. intros [->|[H _]]; [left; reflexivity|right; exact H]. Qed.
Lemma usual_high t : usual t -> t <= bp 60.
Proof. intros [->|[_ H]]; [apply Rlt_le, bp_pos|exact H]. Qed.
Lemma is2 : is 2%float 2. Proof. apply v2. Qed.
Lemma is3 : is 3%float 3. Proof. apply v3. Qed.

Section Pred.
Variable sum : list float -> float.
Hypothesis Hsum : forall l, fsums l (sum l).
Variables (dt : float) (t : R).
Hypothesis It : is dt t.
Hypothesis Ut : usual t.

Lemma moves_pos i k : 0 <= moves t i k.
Proof. unfold moves. pose proof (usual_pos _ Ut). destruct (k =? i)%nat, (k =? i + 2)%nat; lra. Qed.

(** One row of [F] against a vector. *)
Lemma mix i (w e : nat -> float) k m (s y : nat -> R) : (i < 4)%nat -> 0 <= k <= 6 -> (0 <= m <= 500)%Z ->
  (forall l, (l < 4)%nat -> ap k m (s l) (w l) (y l)) ->
  (forall l, (l < 4)%nat -> e l = (fF dt i l * w l)%float \/ e l = (w l * fF dt i l)%float) ->
  ap (k + 2 + / 25) (m + 61) (sum4 (fun l => moves t i l * s l)) (sum (map e (seq 0 4))) (sum4 (fun l => moves t i l * y l)).
Proof.
  intros Li Hk Hm Hw He. pose proof (usual_pos _ Ut) as Pt.
  assert (Z : forall l, (l < 4)%nat -> l <> i -> l <> (i + 2)%nat -> is (e l) 0).
  { intros l Ll N1 N2. destruct (Hw l Ll) as (r & Ir & _). assert (E : fF dt i l = 0%float).
    { unfold fF. destruct (Nat.eqb_spec i l) as [Q|_]; [congruence|]. destruct (Nat.eqb_spec l (i + 2)) as [Q|_]; [congruence|]. reflexivity. }
    destruct (He l Ll) as [->| ->]; rewrite E; [eapply is_mul0l; [apply is_0|exact Ir]|eapply is_mul0r; [exact Ir|apply is_0]]. }
  assert (W1 : forall r, is (w i) r -> Rabs r <= bp 901 -> is (e i) r).
  { intros r Ir B. assert (E : fF dt i i = 1%float) by (unfold fF; rewrite Nat.eqb_refl; reflexivity).
    assert (B' : Rabs r <= bp 1000) by (eapply Rle_trans; [exact B|apply bp_le; lia]).
    destruct (He i Li) as [->| ->]; rewrite E; [apply is_mul1l|apply is_mul1r]; auto; apply is_1. }
  destruct (le_lt_dec 2 i) as [Hi|Hi].
  - assert (A : ap k m (s i) (sum (map e (seq 0 4))) (y i)).
    { destruct (Hw i Li) as (r & Ir & Er & B & S1 & S2). exists r. split; [|auto].
      destruct (ap_big k m (s i) (w i) (y i) r) as [_ B9]; auto; [lra|lia|].
      eapply sum_pick; [apply Hsum|exact Li|apply W1; auto|eapply Rle_trans; [exact B9|apply bp_le; lia]|].
      intros l Ll N. apply Z; auto. lia. }
    apply (ap_weaken k (k + 2 + / 25) m (m + 61)) in A; [|lra|lia].
    assert (E : forall g, sum4 (fun l => moves t i l * g l) = g i).
    { intros g. unfold sum4, moves. destruct i as [|[|[|[|i]]]]; try lia; cbn; ring. }
    rewrite !E. exact A.
  - assert (L2 : (i + 2 < 4)%nat) by lia.
    assert (A : ap (k + 1 + / 50) (m + 60) (t * s (i + 2)%nat) (e (i + 2)%nat) (t * y (i + 2)%nat)).
    { apply (ap_scale k m 60 (s (i + 2)%nat) (w (i + 2)%nat)); try lia; auto; [lra|apply usual_low; exact Ut|apply usual_high; exact Ut|].
      intros r Ir B. assert (E : fF dt i (i + 2)%nat = dt).
      { unfold fF. destruct (Nat.eqb_spec i (i + 2)); [lia|]. rewrite Nat.eqb_refl. reflexivity. }
      assert (B' : Rabs (t * r) <= bp 1000) by (eapply Rle_trans; [exact B|apply bp_le; lia]).
      destruct (He _ L2) as [->| ->]; rewrite E; [apply is_mul; auto|]. rewrite (Rmult_comm t r). rewrite Rmult_comm in B'. apply is_mul; auto. }
    pose proof (Hw i Li) as A0. apply (ap_weaken k (k + 1 + / 50) m m) in A0; [|lra|lia].
    assert (E : forall g, sum4 (fun l => moves t i l * g l) = g i + t * g (i + 2)%nat).
    { intros g. unfold sum4, moves. destruct i as [|[|i]]; try lia; cbn; ring. }
    rewrite !E. replace (m + 61)%Z with (Z.max m (m + 60) + 1)%Z by lia. replace (k + 2 + / 25) with (k + 1 + / 50 + 1 + / 50) by lra.
    eapply ap_plus; [lra|lia|lia|exact A0|exact A|].
    intros r r' Ir Ir' B B'.
    eapply (sum_pair 4 e); [apply Hsum|exact Li|exact L2|lia|apply W1; auto|exact Ir'| | |].
    + eapply Rle_trans; [exact B|apply bp_le; lia].
    + eapply Rle_trans; [exact B'|apply bp_le; lia].
    + intros l Ll N1 N2. apply Z; auto.
Qed.


Variables (qf : float) (q : R).
Hypothesis Iq : is qf q.
Hypothesis Uq : usual q.

Lemma stir_pos i j : 0 <= stir q t i j.
Proof.
  pose proof (usual_pos _ Ut) as Pt. pose proof (usual_pos _ Uq) as Pq. assert (P2 : 0 <= q * (t ^ 2 / 2)) by (apply Rmult_le_pos; [auto|nra]).
  assert (P3 : 0 <= q * (t ^ 3 / 3)). { apply Rmult_le_pos; [auto|]. pose proof (pow_le t 3 Pt). lra. }
  assert (P1 : 0 <= q * t) by (apply Rmult_le_pos; auto).
  unfold stir. destruct i as [|[|[|[|i]]]], j as [|[|[|[|j]]]]; auto; lra.
Qed.

Lemma ap_by (c : R) (z : float) k m n s x y : is z c -> usual c \/ (/ 4 <= c <= 4) -> (n = 60)%Z -> 0 <= k <= 8 -> (0 <= m)%Z -> (m + n <= 900)%Z ->
  ap k m s x y -> ap (k + 1 + / 50) (m + n) (c * s) (x * z) (c * y).
Proof.
  intros Iz Uc -> Hk Lm L A. assert (C : 0 <= c /\ (c = 0 \/ bp (- 60) <= c) /\ c <= bp 60).
  { destruct Uc as [Uc|Uc]; [split; [apply usual_pos; auto|split; [apply usual_low; auto|apply usual_high; auto]]|].
    assert (bp (-60) <= bp (-2)) by (apply bp_le; lia). assert (bp 2 <= bp 60) by (apply bp_le; lia).
    change (bp (-2)) with (/ 4) in *. change (bp 2) with 4 in *. split; [lra|split; [right; lra|lra]]. }
  destruct C as (C0 & C1 & C2). eapply ap_scale; try eassumption; try lia; try lra; auto.
  intros r Ir B. rewrite (Rmult_comm c r). apply is_mul; auto. rewrite Rmult_comm. eapply Rle_trans; [exact B|apply bp_le; lia].
Qed.
Lemma ap_over (c : R) (z : float) k m s x y : is z c -> 1 <= c <= 4 -> 0 <= k <= 8 -> (0 <= m)%Z -> (m + 2 <= 900)%Z ->
  ap k m s x y -> ap (k + 1 + / 50) (m + 2) (/ c * s) (x / z) (/ c * y).
Proof.
  intros Iz Hc Hk Lm L A.
  assert (I1 : / 4 <= / c) by (apply Rinv_le_contravar; lra). assert (I2 : / c <= 1) by (rewrite <- Rinv_1; apply Rinv_le_contravar; lra).
  eapply ap_scale; try eassumption; try lia; try (split; lra).
  - lra.
  - right. change (bp (- (2))) with (/ 4). exact I1.
  - change (bp 2) with 4. lra.
  - intros r Ir B. replace (/ c * r) with (r / c) by (unfold Rdiv; ring). apply is_div; auto; [lra|].
    replace (r / c) with (/ c * r) by (unfold Rdiv; ring). eapply Rle_trans; [exact B|apply bp_le; lia].
Qed.

Lemma ap_dt : ap 0 60 t dt t.
Proof.
  exists t. pose proof (usual_pos _ Ut) as Pt. split; [exact It|]. split; [replace (t - t) with 0 by ring; rewrite Rabs_R0; lra|].
  rewrite Rabs_pos_eq by exact Pt. split; [lra|]. split; [apply usual_low; exact Ut|apply usual_high; exact Ut].
Qed.

Lemma noise_ap i j : (i < 4)%nat -> (j < 4)%nat -> ap (4 + / 10) 350 (stir q t i j) (fQ qf dt i j) (stir q t i j).
Proof.
  intros Li Lj. pose proof ap_dt as A0.
  assert (A1 : ap (1 + / 50) 120 (t * t) (dt * dt) (t * t)).
  { eapply ap_weaken; [| |eapply (ap_by t dt 0 60 60)]; try lra; try lia; auto. }
  assert (A2 : ap (2 + / 25) 122 (/ 2 * (t * t)) (fdT2 dt) (/ 2 * (t * t))).
  { eapply ap_weaken; [| |eapply (ap_over 2 2 _ 120)]; try exact A1; try lra; try lia. exact is2. }
  assert (A3 : ap (3 + 3 / 50) 182 (/ 3 * (t * (t * t))) (fdT3 dt) (/ 3 * (t * (t * t)))).
  { eapply ap_weaken; [| |eapply (ap_over 3 3 (2 + / 25) 180)]; try lra; try lia; [exact is3|].
    eapply ap_weaken; [| |eapply (ap_by t dt _ 120 60); try exact A1]; try lra; try lia; auto. }
  assert (Z : ap 0 60 0 (0 * qf) 0).
  { exists 0. split; [eapply is_mul0l; [apply is_0|exact Iq]|]. replace (0 - 0) with 0 by ring. rewrite Rabs_R0. pose proof (bp_pos 60). repeat split; lra. }
  assert (B1 : ap (4 + / 10) 350 (q * t) (dt * qf) (q * t)).
  { eapply ap_weaken; [| |eapply (ap_by q qf _ 60 60); try exact A0]; try lra; try lia; auto. }
  assert (B2 : ap (4 + / 10) 350 (q * (t ^ 2 / 2)) (fdT2 dt * qf) (q * (t ^ 2 / 2))).
  { replace (q * (t ^ 2 / 2)) with (q * (/ 2 * (t * t))) by field. eapply ap_weaken; [| |eapply (ap_by q qf _ 122 60); try exact A2]; try lra; try lia; auto. }
  assert (B3 : ap (4 + / 10) 350 (q * (t ^ 3 / 3)) (fdT3 dt * qf) (q * (t ^ 3 / 3))).
  { replace (q * (t ^ 3 / 3)) with (q * (/ 3 * (t * (t * t)))) by field. eapply ap_weaken; [| |eapply (ap_by q qf _ 182 60); try exact A3]; try lra; try lia; auto. }
  apply (ap_weaken _ (4 + / 10) _ 350) in Z; [|lra|lia].
  unfold fQ, fQ1, stir. destruct i as [|[|[|[|i]]]], j as [|[|[|[|j]]]]; try lia; cbn [Nat.eqb Nat.ltb Nat.leb Nat.add orb]; assumption.
Qed.

Variable P : fmat.
Hypothesis FP : finite4 P.
Hypothesis MP : forall i j, (i < 4)%nat -> (j < 4)%nat -> medium0 (val (P i j)).

Lemma start_ap i j : (i < 4)%nat -> (j < 4)%nat -> ap 0 200 (Rabs (val (P i j))) (P i j) (val (P i j)).
Proof.
  intros Li Lj. apply ap_exact; auto.
  - destruct (MP i j Li Lj) as [->|[H _]]; [left; apply Rabs_R0|right; exact H].
  - destruct (MP i j Li Lj) as [->|[_ H]]; [rewrite Rabs_R0; apply Rlt_le, bp_pos|exact H].
Qed.
Lemma bulk_eq i j : bulk q t P i j = sum4 (fun l => moves t j l * sum4 (fun k => moves t i k * Rabs (val (P k l)))) + stir q t i j.
Proof.
  unfold bulk. f_equal. assert (E : forall k l, Rabs (moves t i k * val (P k l) * moves t j l) = moves t i k * Rabs (val (P k l)) * moves t j l).
  { intros k l. rewrite !Rabs_mult, (Rabs_pos_eq (moves t i k)), (Rabs_pos_eq (moves t j l)) by apply moves_pos. reflexivity. }
  unfold sum4. rewrite !E. ring.
Qed.
Lemma spread_eq i j : spread q t P i j = sum4 (fun l => moves t j l * sum4 (fun k => moves t i k * val (P k l))) + stir q t i j.
Proof. unfold spread. f_equal. unfold sum4. ring. Qed.

Lemma cell_ap i j : (i < 4)%nat -> (j < 4)%nat -> ap (5 + / 5) 352 (bulk q t P i j) (fpredP sum qf dt P i j) (spread q t P i j).
Proof.
  intros Li Lj. rewrite bulk_eq, spread_eq. unfold fpredP.
  assert (A : forall l, (l < 4)%nat -> ap (2 + / 25) 261 (sum4 (fun k => moves t i k * Rabs (val (P k l)))) (fprod sum 4 (fF dt) P i l) (sum4 (fun k => moves t i k * val (P k l)))).
  { intros l Ll. pose proof (mix i (fun k => P k l) (fun k => (fF dt i k * P k l)%float) 0 200 (fun k => Rabs (val (P k l))) (fun k => val (P k l)) Li) as H.
    rewrite Rplus_0_l in H. apply H; [lra|lia| |]; [|left; reflexivity]. intros k Lk. apply start_ap; auto. }
  pose proof (mix j (fun l => fprod sum 4 (fF dt) P i l) (fun l => (fprod sum 4 (fF dt) P i l * ftr (fF dt) l j)%float) (2 + / 25) 261%Z _ _ Lj ltac:(lra) ltac:(lia) A) as B.
  specialize (B ltac:(intros l _; right; reflexivity)). cbn beta in B. change (sum (map _ _)) with (fprod sum 4 (fprod sum 4 (fF dt) P) (ftr (fF dt)) i j) in B.
  apply (ap_weaken _ (4 + / 10) _ 350) in B; [|lra|lia].
  eapply ap_weaken; [| |eapply ap_plus; [| | |exact B|exact (noise_ap i j Li Lj)|]]; try lra; try lia.
  intros r r' Ir Ir' Br Br'. apply is_add; auto. apply bp998; (eapply Rle_trans; [eassumption|apply bp_le; lia]).
Qed.

Lemma cell_close i j : (i < 4)%nat -> (j < 4)%nat -> fin (fpredP sum qf dt P i j) /\
  Rabs (val (fpredP sum qf dt P i j) - spread q t P i j) <= bp (-50) * bulk q t P i j.
Proof.
  intros Li Lj. pose proof (cell_ap i j Li Lj) as A. pose proof (ap_pos _ _ _ _ _ A) as Pb. destruct A as (r & [Fr Er] & E & _). split; [exact Fr|].
  rewrite Er. eapply Rle_trans; [exact E|]. apply Rmult_le_compat_r; [exact Pb|]. change (bp (-50)) with (bp (3 + -53)). rewrite bpow_plus. change (bp 3) with 8.
  pose proof u_pos. lra.
Qed.

(** The exact value of a row of [F] against a vector. *)
Definition rowv (i : nat) (r : nat -> R) : R := if (i <? 2)%nat then rnd (r i + rnd (t * r (i + 2)%nat)) else r i.
Lemma rowv_is i (w e : nat -> float) (r : nat -> R) : (i < 4)%nat ->
  (forall l, (l < 4)%nat -> is (w l) (r l) /\ Rabs (r l) <= bp 700) ->
  (forall l, (l < 4)%nat -> e l = (fF dt i l * w l)%float \/ e l = (w l * fF dt i l)%float) -> is (sum (map e (seq 0 4))) (rowv i r).
Proof.
  intros Li Hw He. pose proof (usual_pos _ Ut) as Pt.
  assert (Z : forall l, (l < 4)%nat -> l <> i -> l <> (i + 2)%nat -> is (e l) 0).
  { intros l Ll N1 N2. destruct (Hw l Ll) as [Ir _]. assert (E : fF dt i l = 0%float).
    { unfold fF. destruct (Nat.eqb_spec i l) as [Q|_]; [congruence|]. destruct (Nat.eqb_spec l (i + 2)) as [Q|_]; [congruence|]. reflexivity. }
    destruct (He l Ll) as [->| ->]; rewrite E; [eapply is_mul0l; [apply is_0|exact Ir]|eapply is_mul0r; [exact Ir|apply is_0]]. }
  assert (W1 : is (e i) (r i)).
  { destruct (Hw i Li) as [Ir B]. assert (E : fF dt i i = 1%float) by (unfold fF; rewrite Nat.eqb_refl; reflexivity).
    assert (B' : Rabs (r i) <= bp 1000) by (eapply Rle_trans; [exact B|apply bp_le; lia]).
    destruct (He i Li) as [->| ->]; rewrite E; [apply is_mul1l|apply is_mul1r]; auto; apply is_1. }
  destruct (Hw i Li) as [_ B0]. unfold rowv. destruct (Nat.ltb_spec i 2) as [Hi|Hi].
  - assert (L2 : (i + 2 < 4)%nat) by lia. destruct (Hw _ L2) as [Ir B].
    assert (Bt : Rabs (t * r (i + 2)%nat) <= bp 760).
    { rewrite Rabs_mult, (Rabs_pos_eq t) by exact Pt. change (bp 760) with (bp (60 + 700)). rewrite bpow_plus.
      apply Rmult_le_compat; auto; [apply Rabs_pos|apply usual_high; exact Ut]. }
    assert (Bt' : Rabs (t * r (i + 2)%nat) <= bp 1000) by (eapply Rle_trans; [exact Bt|apply bp_le; lia]).
    eapply (sum_pair 4 e); [apply Hsum|exact Li|exact L2|lia|exact W1| | | |].
    + assert (E : fF dt i (i + 2)%nat = dt).
      { unfold fF. destruct (Nat.eqb_spec i (i + 2)); [lia|]. rewrite Nat.eqb_refl. reflexivity. }
      destruct (He _ L2) as [->| ->]; rewrite E; [apply is_mul; auto|]. rewrite (Rmult_comm t). rewrite Rmult_comm in Bt'. apply is_mul; auto.
    + eapply Rle_trans; [exact B0|apply bp_le; lia].
    + eapply Rle_trans; [apply rnd_abs; [|exact Bt]; lia|apply bp_le; lia].
    + intros l Ll N1 N2. apply Z; auto.
  - eapply sum_pick; [apply Hsum|exact Li|exact W1|eapply Rle_trans; [exact B0|apply bp_le; lia]|]. intros l Ll N. apply Z; auto. lia.
Qed.
Lemma rowv_le i r n : (i < 4)%nat -> (0 <= n <= 600)%Z -> (forall l, (l < 4)%nat -> Rabs (r l) <= bp n) -> Rabs (rowv i r) <= bp (n + 61).
Proof.
  intros Li Hn Hr. pose proof (usual_pos _ Ut) as Pt. unfold rowv. destruct (Nat.ltb_spec i 2) as [Hi|Hi].
  - apply rnd_abs; [lia|]. eapply Rle_trans; [apply Rabs_triang|]. assert (B : Rabs (rnd (t * r (i + 2)%nat)) <= bp (60 + n)).
    { apply rnd_abs; [lia|]. rewrite Rabs_mult, (Rabs_pos_eq t) by exact Pt. rewrite bpow_plus.
      apply Rmult_le_compat; auto; [apply Rabs_pos|apply usual_high; exact Ut|apply Hr; lia]. }
    assert (B0 : Rabs (r i) <= bp (60 + n)) by (eapply Rle_trans; [apply Hr; lia|apply bp_le; lia]).
    replace (n + 61)%Z with (1 + (60 + n))%Z by lia. rewrite bpow_plus. change (bp 1) with 2. lra.
  - eapply Rle_trans; [apply Hr; lia|apply bp_le; lia].
Qed.

Definition Fv (i j : nat) : R := rowv j (fun l => rowv i (fun k => val (P k l))).
Lemma P_small i j : (i < 4)%nat -> (j < 4)%nat -> Rabs (val (P i j)) <= bp 200.
Proof. intros Li Lj. destruct (MP i j Li Lj) as [->|[_ H]]; [rewrite Rabs_R0; apply Rlt_le, bp_pos|exact H]. Qed.
Lemma Fv_is i j : (i < 4)%nat -> (j < 4)%nat -> is (fprod sum 4 (fprod sum 4 (fF dt) P) (ftr (fF dt)) i j) (Fv i j) /\ Rabs (Fv i j) <= bp 322.
Proof.
  intros Li Lj. assert (A : forall l, (l < 4)%nat -> is (fprod sum 4 (fF dt) P i l) (rowv i (fun k => val (P k l))) /\ Rabs (rowv i (fun k => val (P k l))) <= bp 261).
  { intros l Ll. split.
    - apply (rowv_is i (fun k => P k l)); auto. intros k Lk. split; [split; auto|]. eapply Rle_trans; [apply P_small; auto|apply bp_le; lia].
    - apply (rowv_le i _ 200); auto; [lia|]. intros k Lk. apply P_small; auto. }
  split.
  - apply (rowv_is j (fun l => fprod sum 4 (fF dt) P i l) (fun l => (fprod sum 4 (fF dt) P i l * ftr (fF dt) l j)%float)); auto.
    intros l Ll. destruct (A l Ll) as [A1 A2]. split; [exact A1|]. eapply Rle_trans; [exact A2|apply bp_le; lia].
  - apply (rowv_le j _ 261); auto; [lia|]. intros l Ll. apply A; auto.
Qed.
Lemma cell_val i j : (i < 4)%nat -> (j < 4)%nat -> val (fpredP sum qf dt P i j) = rnd (Fv i j + val (fQ qf dt i j)).
Proof.
  intros Li Lj. destruct (Fv_is i j Li Lj) as [A B]. destruct (noise_ap i j Li Lj) as (r & Ir & E & B1 & _ & B2).
  destruct (ap_big (4 + / 10) 350 _ _ _ r ltac:(lra) ltac:(lia) Ir E B1 B2) as [_ B3].
  assert (G : is (fpredP sum qf dt P i j) (rnd (Fv i j + r))).
  { unfold fpredP. apply is_add; auto. apply bp998; (eapply Rle_trans; [eassumption|apply bp_le; lia]). }
  destruct G as [_ ->]. destruct Ir as [_ ->]. reflexivity.
Qed.
Lemma noise_sym i j : (i < 4)%nat -> (j < 4)%nat -> fQ qf dt i j = fQ qf dt j i.
Proof. intros Li Lj. unfold fQ, fQ1. destruct i as [|[|[|[|i]]]], j as [|[|[|[|j]]]]; try lia; reflexivity. Qed.

Hypothesis SP : symmetric4 P.
Lemma cell_sym i j : (i < 4)%nat -> (j < 4)%nat -> ~ (i < 2 /\ j < 2)%nat -> val (fpredP sum qf dt P i j) = val (fpredP sum qf dt P j i).
Proof.
  intros Li Lj N. rewrite !cell_val, (noise_sym i j) by assumption. f_equal. f_equal. unfold Fv, rowv.
  destruct i as [|[|[|[|i]]]]; try lia; destruct j as [|[|[|[|j]]]]; try (exfalso; lia); cbn [Nat.ltb Nat.leb Nat.add]; try reflexivity;
    rewrite ?(SP 1 0)%nat, ?(SP 2 0)%nat, ?(SP 3 0)%nat, ?(SP 2 1)%nat, ?(SP 3 1)%nat, ?(SP 3 2)%nat by lia; reflexivity.
Qed.
Lemma cell_sym_apart : separate4 P -> symmetric4 (fpredP sum qf dt P).
Proof.
  intros SE i j Li Lj. destruct (le_lt_dec 2 i) as [H|H]; [apply cell_sym; auto; lia|]. destruct (le_lt_dec 2 j) as [H'|H']; [apply cell_sym; auto; lia|].
  rewrite !cell_val, (noise_sym i j) by assumption. f_equal. f_equal. unfold Fv, rowv.
  destruct i as [|[|i]]; try lia; destruct j as [|[|j]]; try lia; cbn [Nat.ltb Nat.leb Nat.add]; try reflexivity.
  - rewrite !(SE 0%nat 1%nat), !(SE 2%nat 1%nat), !(SE 0%nat 3%nat), !(SE 2%nat 3%nat), !(SE 1%nat 0%nat), !(SE 3%nat 0%nat), !(SE 1%nat 2%nat), !(SE 3%nat 2%nat) by (lia || reflexivity). reflexivity.
  - rewrite !(SE 0%nat 1%nat), !(SE 2%nat 1%nat), !(SE 0%nat 3%nat), !(SE 2%nat 3%nat), !(SE 1%nat 0%nat), !(SE 3%nat 0%nat), !(SE 1%nat 2%nat), !(SE 3%nat 2%nat) by (lia || reflexivity). reflexivity.
Qed.

(** Definiteness. *)
Hypothesis DP : definite4 P.
Lemma cross_le k l X Y : (k < 4)%nat -> (l < 4)%nat -> 0 <= X -> 0 <= Y -> 2 * (X * Y * Rabs (val (P k l))) <= X * X * val (P k k) + Y * Y * val (P l l).
Proof.
  intros Lk Ll HX HY.
  assert (Q : forall a b, 0 <= a * a * val (P k k) + 2 * (a * b * val (P k l)) + b * b * val (P l l)).
  { intros a b. pose proof (SP k l Lk Ll) as S. destruct (Nat.eq_dec k l) as [->|N].
    - assert (0 < qf4 P (fun n => if (n =? l)%nat then 1 else 0)) as H.
      { apply DP. destruct l as [|[|[|[|l]]]]; try lia; cbn; auto 10 using R1_neq_R0. }
      assert (E : qf4 P (fun n => if (n =? l)%nat then 1 else 0) = val (P l l)).
      { unfold qf4. destruct l as [|[|[|[|l]]]]; try lia; cbn; ring. }
      rewrite E in H. replace (a * a * val (P l l) + 2 * (a * b * val (P l l)) + b * b * val (P l l)) with ((a + b) * (a + b) * val (P l l)) by ring.
      apply Rmult_le_pos; [apply Rle_0_sqr|lra].
    - set (v := fun n => if (n =? k)%nat then a else if (n =? l)%nat then b else 0).
      assert (E : qf4 P v = a * a * val (P k k) + 2 * (a * b * val (P k l)) + b * b * val (P l l)).
      { replace (2 * (a * b * val (P k l))) with (a * b * val (P k l) + a * b * val (P l k)) by (rewrite S; ring). unfold qf4, v.
        destruct k as [|[|[|[|k]]]]; try lia; destruct l as [|[|[|[|l]]]]; try lia; try congruence; cbn [Nat.eqb]; ring. }
      destruct (Req_dec a 0) as [A0|A0]; [destruct (Req_dec b 0) as [B0|B0]|].
      + rewrite A0, B0. lra.
      + rewrite <- E. apply Rlt_le, DP. unfold v. destruct l as [|[|[|[|l]]]]; try lia; destruct k as [|[|[|[|k]]]]; try lia; try congruence; cbn [Nat.eqb]; auto.
      + rewrite <- E. apply Rlt_le, DP. unfold v. destruct k as [|[|[|[|k]]]]; try lia; cbn [Nat.eqb]; auto. }
  pose proof (Q X Y) as Q1. pose proof (Q X (- Y)) as Q2. unfold Rabs. destruct (Rcase_abs (val (P k l))); nra.
Qed.
Lemma diag_pos k : (k < 4)%nat -> 0 <= val (P k k).
Proof. intros Lk. pose proof (cross_le k k 1 0 Lk Lk ltac:(lra) ltac:(lra)). lra. Qed.
Lemma stir_cross i j X Y : 0 <= X -> 0 <= Y -> 2 * (X * Y * stir q t i j) <= X * X * stir q t i i + Y * Y * stir q t j j.
Proof.
  intros HX HY. pose proof (usual_pos _ Ut) as Pt. pose proof (usual_pos _ Uq) as Pq. assert (P1 : 0 <= q * t) by (apply Rmult_le_pos; auto).
  assert (N : forall k, 0 <= stir q t k k) by (intros; apply stir_pos).
  assert (D : forall a b, 0 <= a -> 0 <= b -> 2 * (a * b * (q * (t ^ 2 / 2))) <= a * a * (q * (t ^ 3 / 3)) + b * b * (q * t)).
  { intros a b _ _. assert (0 <= q * t * ((b - t * a / 2) * (b - t * a / 2) + t * t * (a * a) / 12)) as H; [|lra].
    apply Rmult_le_pos; [exact P1|]. pose proof (Rle_0_sqr (b - t * a / 2)). pose proof (Rle_0_sqr (t * a)). unfold Rsqr in *. lra. }
  assert (S : forall c, 0 <= c -> 2 * (X * Y * c) <= X * X * c + Y * Y * c).
  { intros c Hc. pose proof (Rle_0_sqr (X - Y)). unfold Rsqr in *. nra. }
  assert (Z : forall k l, 0 <= X * X * stir q t k k + Y * Y * stir q t l l).
  { intros k l. pose proof (N k). pose proof (N l). apply Rplus_le_le_0_compat; apply Rmult_le_pos; auto; apply Rmult_le_pos; auto. }
  pose proof (Z i j) as Zij. unfold stir in *.
  destruct i as [|[|[|[|i]]]], j as [|[|[|[|j]]]]; try (rewrite ?Rmult_0_r in *; exact Zij); try (apply S; first [exact P1|exact (N 0%nat)]);
    first [apply D; assumption|rewrite (Rmult_comm X Y), Rplus_comm; apply D; assumption].
Qed.
Lemma alone_pos i : (i < 4)%nat -> 0 <= alone q t P i.
Proof.
  intros Li. unfold alone. pose proof (stir_pos i i).
  assert (forall k, (k < 4)%nat -> 0 <= moves t i k * moves t i k * val (P k k)).
  { intros k Lk. apply Rmult_le_pos; [apply Rmult_le_pos; apply moves_pos|apply diag_pos; auto]. }
  unfold sum4. pose proof (H0 0%nat ltac:(lia)). pose proof (H0 1%nat ltac:(lia)). pose proof (H0 2%nat ltac:(lia)). pose proof (H0 3%nat ltac:(lia)). lra.
Qed.
Lemma bulk_le i j X Y : (i < 4)%nat -> (j < 4)%nat -> 0 <= X -> 0 <= Y -> X * Y * bulk q t P i j <= alone q t P i * (X * X) + alone q t P j * (Y * Y).
Proof.
  intros Li Lj HX HY. pose proof (stir_cross i j X Y HX HY) as S. pose proof (stir_pos i i) as Si. pose proof (stir_pos j j) as Sj.
  rewrite bulk_eq. pose proof (usual_pos _ Ut) as Pt.
  assert (HtX : 0 <= t * X) by (apply Rmult_le_pos; auto). assert (HtY : 0 <= t * Y) by (apply Rmult_le_pos; auto).
  assert (N : forall k, (k < 4)%nat -> 0 <= X * X * val (P k k) /\ 0 <= Y * Y * val (P k k) /\ 0 <= (t * X) * (t * X) * val (P k k) /\ 0 <= (t * Y) * (t * Y) * val (P k k)).
  { intros k Lk. pose proof (diag_pos k Lk). repeat split; repeat apply Rmult_le_pos; auto. }
  assert (SX : 0 <= X * X * stir q t i i) by (repeat apply Rmult_le_pos; auto). assert (SY : 0 <= Y * Y * stir q t j j) by (repeat apply Rmult_le_pos; auto).
  unfold alone, sum4.
  destruct (le_lt_dec 2 i) as [Hi|Hi]; destruct (le_lt_dec 2 j) as [Hj|Hj].
  - pose proof (cross_le i j X Y Li Lj HX HY) as C. destruct (N i Li) as (A1 & _). destruct (N j Lj) as (_ & A2 & _).
    clear N. destruct i as [|[|[|[|i]]]]; try lia; destruct j as [|[|[|[|j]]]]; try lia; unfold moves; cbn [Nat.eqb Nat.add]; lra.
  - assert (Lj2 : (j + 2 < 4)%nat) by lia.
    pose proof (cross_le i j X Y Li Lj HX HY) as C1. pose proof (cross_le i (j + 2)%nat X (t * Y) Li Lj2 HX HtY) as C2.
    destruct (N j Lj) as (_ & A2 & _). destruct (N _ Lj2) as (_ & _ & _ & A3).
    clear N. destruct i as [|[|[|[|i]]]]; try lia; destruct j as [|[|j]]; try lia; unfold moves; cbn [Nat.eqb Nat.add] in *; lra.
  - assert (Li2 : (i + 2 < 4)%nat) by lia.
    pose proof (cross_le i j X Y Li Lj HX HY) as C1. pose proof (cross_le (i + 2)%nat j (t * X) Y Li2 Lj HtX HY) as C2.
    destruct (N i Li) as (A2 & _). destruct (N _ Li2) as (_ & _ & A3 & _).
    clear N. destruct i as [|[|i]]; try lia; destruct j as [|[|[|[|j]]]]; try lia; unfold moves; cbn [Nat.eqb Nat.add] in *; lra.
  - assert (Li2 : (i + 2 < 4)%nat) by lia. assert (Lj2 : (j + 2 < 4)%nat) by lia.
    pose proof (cross_le i j X Y Li Lj HX HY) as C1. pose proof (cross_le (i + 2)%nat j (t * X) Y Li2 Lj HtX HY) as C2.
    pose proof (cross_le i (j + 2)%nat X (t * Y) Li Lj2 HX HtY) as C3. pose proof (cross_le (i + 2)%nat (j + 2)%nat (t * X) (t * Y) Li2 Lj2 HtX HtY) as C4.
    clear N. destruct i as [|[|i]]; try lia; destruct j as [|[|j]]; try lia; unfold moves; cbn [Nat.eqb Nat.add] in *; lra.
Qed.

Lemma near_definite (Q : nat -> nat -> float) : (forall i j, (i < 4)%nat -> (j < 4)%nat -> Rabs (val (Q i j) - spread q t P i j) <= bp (-50) * bulk q t P i j) ->
  roomy q t P -> definite4 Q.
Proof.
  intros HQ RO v Hv. specialize (RO v Hv). set (A := fun i => alone q t P i * (v i * v i)) in *.
  assert (T : forall i j, (i < 4)%nat -> (j < 4)%nat -> v i * spread q t P i j * v j - bp (-50) * (A i + A j) <= v i * val (Q i j) * v j).
  { intros i j Li Lj. pose proof (HQ i j Li Lj) as H. pose proof (bulk_le i j _ _ Li Lj (Rabs_pos (v i)) (Rabs_pos (v j))) as B.
    assert (SQ : forall x, Rabs x * Rabs x = x * x) by (intros x; rewrite <- Rabs_mult; apply Rabs_pos_eq; apply Rle_0_sqr).
    rewrite !SQ in B. fold (A i) in B. fold (A j) in B.
    assert (D : Rabs (v i * v j * (spread q t P i j - val (Q i j))) <= bp (-50) * (A i + A j)).
    { rewrite !Rabs_mult, (Rabs_minus_sym (spread q t P i j)). apply Rle_trans with (Rabs (v i) * Rabs (v j) * (bp (-50) * bulk q t P i j)).
      - apply Rmult_le_compat_l; auto. apply Rmult_le_pos; apply Rabs_pos.
      - replace (Rabs (v i) * Rabs (v j) * (bp (-50) * bulk q t P i j)) with (bp (-50) * (Rabs (v i) * Rabs (v j) * bulk q t P i j)) by ring.
        apply Rmult_le_compat_l; [apply Rlt_le, bp_pos|exact B]. }
    pose proof (Rle_abs (v i * v j * (spread q t P i j - val (Q i j)))). lra. }
  assert (E47 : bp (-47) = 8 * bp (-50)) by (change (bp (-47)) with (bp (3 + -50)); rewrite bpow_plus; reflexivity).
  rewrite E47 in RO. unfold qf4. unfold sum4 in RO.
  pose proof (T 0 0)%nat as T00. pose proof (T 0 1)%nat as T01. pose proof (T 0 2)%nat as T02. pose proof (T 0 3)%nat as T03.
  pose proof (T 1 0)%nat as T10. pose proof (T 1 1)%nat as T11. pose proof (T 1 2)%nat as T12. pose proof (T 1 3)%nat as T13.
  pose proof (T 2 0)%nat as T20. pose proof (T 2 1)%nat as T21. pose proof (T 2 2)%nat as T22. pose proof (T 2 3)%nat as T23.
  pose proof (T 3 0)%nat as T30. pose proof (T 3 1)%nat as T31. pose proof (T 3 2)%nat as T32. pose proof (T 3 3)%nat as T33.
  repeat match goal with H : (_ < _)%nat -> (_ < _)%nat -> _ |- _ => specialize (H ltac:(lia) ltac:(lia)) end.
  clear T HQ. lra.
Qed.
Lemma spread_sym i j : (i < 4)%nat -> (j < 4)%nat -> spread q t P i j = spread q t P j i /\ bulk q t P i j = bulk q t P j i.
Proof.
  intros Li Lj. assert (ES : stir q t i j = stir q t j i) by (unfold stir; destruct i as [|[|[|[|i]]]], j as [|[|[|[|j]]]]; try lia; reflexivity).
  rewrite !bulk_eq, !spread_eq, ES. unfold sum4.
  rewrite (SP 1 0)%nat, (SP 2 0)%nat, (SP 3 0)%nat, (SP 2 1)%nat, (SP 3 1)%nat, (SP 3 2)%nat by lia. split; ring.
Qed.
Lemma pred_definite : roomy q t P -> definite4 (fpredP sum qf dt P) /\ definite4 (lower (fpredP sum qf dt P)).
Proof.
  intros RO. split; apply near_definite; auto; intros i j Li Lj; [apply cell_close; auto|]. unfold lower. destruct (j <=? i)%nat; [apply cell_close; auto|].
  destruct (spread_sym i j Li Lj) as [-> ->]. apply cell_close; auto.
Qed.
End Pred.
