(** The correction in doubles with correlated axes: the theorems and a case. *)
From Coq Require Import List Arith Lia Bool Reals ZArith Lra Psatz.
From Flocq Require Import Core.
From Coq Require Import Floats.
From Verif Require Import Scalar FloatBase ClusterFloat KalmanFloat KalmanFloatSpec KalmanFloatProofs KalmanFloatWitness PredictFloatProofs PredictFloatMain
  PredictFloatWitness KalmanCorrSpec KalmanCorr.
Import ListNotations.
Local Open Scope R_scope.
Local Notation bp := (bpow radix2).

Lemma correlated_covariance sum P V K : (forall l, fsums l (sum l)) -> finite4 P -> symmetric4 P -> definite4 P -> definite2 V ->
  (forall i j, (i < 4)%nat -> (j < 4)%nat -> mid0 (val (P i j))) -> (forall i j, (i < 2)%nat -> (j < 2)%nat -> mid0 (val (V i j))) ->
  1 <= K <= 1000000000 -> untied K P V -> forall D, inverts2 P V D ->
  (forall i j, (i < 4)%nat -> (j < 4)%nat -> fin (fcov sum P V i j) /\
     Rabs (val (fcov sum P V i j) - (val (P i j) - kshrink P D i j)) <= bp (-46) * (K * K) * (sdev P i * sdev P j)) /\
  (spare K P D -> definite4 (fcov sum P V) /\ definite4 (lower (fcov sum P V))).
Proof.
  intros Hs FP SP DP DV MP MV HK UT D HD. split.
  - intros i j Li Lj. rewrite (shrink_exact P V SP DP DV K HK UT D i j HD). exact (cov_close sum Hs P V FP SP DP DV MP MV K HK UT i j Li Lj).
  - intros RO. split; apply (cov_definite P V SP DP DV K HK UT _ D HD); auto.
    + intros i j Li Lj. exact (proj2 (cov_close sum Hs P V FP SP DP DV MP MV K HK UT i j Li Lj)).
    + intros i j Li Lj. unfold lower. destruct (j <=? i)%nat; [exact (proj2 (cov_close sum Hs P V FP SP DP DV MP MV K HK UT i j Li Lj))|].
      rewrite (SP i j Li Lj), (Tx_sym P V SP i j Li Lj), (Rmult_comm (sdev P i)). exact (proj2 (cov_close sum Hs P V FP SP DP DV MP MV K HK UT j i Lj Li)).
Qed.
Lemma correlated_mean sum x P z V K : (forall l, fsums l (sum l)) -> finite4 P -> symmetric4 P -> definite4 P -> definite2 V ->
  (forall i j, (i < 4)%nat -> (j < 4)%nat -> mid0 (val (P i j))) -> (forall i j, (i < 2)%nat -> (j < 2)%nat -> mid0 (val (V i j))) ->
  1 <= K <= 1000000000 -> untied K P V ->
  (forall i, (i < 4)%nat -> fin (x i) /\ Rabs (val (x i)) <= bp 200) -> (forall i, (i < 2)%nat -> fin (z i) /\ Rabs (val (z i)) <= bp 200) ->
  (forall i, (i < 2)%nat -> mid0 (val (z i) - val (x i))) ->
  forall D, inverts2 P V D -> forall i, (i < 4)%nat -> fin (fmean sum x P z V i) /\
    Rabs (val (fmean sum x P z V i) - (val (x i) + kmove x P z D i)) <=
      bp (-53) * Rabs (val (x i)) + bp (-47) * (K * K) *
        (sdev P i * (Rabs (val (z 0%nat) - val (x 0%nat)) / R_sqrt.sqrt (sprd P V 0 0) + Rabs (val (z 1%nat) - val (x 1%nat)) / R_sqrt.sqrt (sprd P V 1 1))).
Proof.
  intros Hs FP SP DP DV MP MV HK UT Hx Hz Hd D HD i Li. unfold kmove. rewrite !(gain_exact P V SP DP DV K HK UT D i _ HD) by lia.
  exact (mean_close sum Hs P V FP SP DP DV MP MV K HK UT x z i Hx Hz Hd Li).
Qed.

(** The covariance of [tilted] and a report with correlated coordinates. *)
Definition slant : fmat := fun i j => if (i =? j)%nat then 2%float else 1%float.
Lemma slant_is i j : is (slant i j) (if (i =? j)%nat then 2 else 1).
Proof. unfold slant. destruct (i =? j)%nat; [exact is2|exact v1]. Qed.
Lemma mid_lit x : 1 <= Rabs x <= 1000 -> mid0 x.
Proof.
  intros H. right. assert (bp (-100) <= bp 0) by (apply bp_le; lia). assert (bp 10 <= bp 100) by (apply bp_le; lia).
  change (bp 0) with 1 in *. change (bp 10) with 1024 in *. lra.
Qed.
Definition slantD (a b : nat) : R := if (a =? b)%nat then 102 / 10340 else 8 / 10340.
Lemma slant_ok : definite2 slant /\ (forall i j, (i < 4)%nat -> (j < 4)%nat -> mid0 (val (tilted i j))) /\ (forall i j, (i < 2)%nat -> (j < 2)%nat -> mid0 (val (slant i j))) /\
  untied 2 tilted slant /\ inverts2 tilted slant slantD /\ spare 2 tilted slantD.
Proof.
  split; [|split; [|split; [|split; [|split]]]].
  - split; [intros i j _ _; apply slant_is|]. rewrite !(fun i j => proj2 (slant_is i j)). cbn [Nat.eqb]. lra.
  - intros i j Li Lj. rewrite (proj2 (tilted_is i j Li Lj)).
    destruct i as [|[|[|[|i]]]], j as [|[|[|[|j]]]]; try lia; cbn;
      first [left; reflexivity|apply mid_lit; rewrite Rabs_pos_eq; lra|apply mid_lit; rewrite <- Rabs_Ropp, Rabs_pos_eq; lra].
  - intros i j _ _. rewrite (proj2 (slant_is i j)). destruct (i =? j)%nat; apply mid_lit; rewrite Rabs_pos_eq; lra.
  - unfold untied, sprd. rewrite !(fun i j => proj2 (slant_is i j)), !(fun i j Li Lj => proj2 (tilted_is i j Li Lj)) by lia. unfold tiltedv. cbn [Nat.eqb]. lra.
  - intros a b La Lb. rewrite !(fun i j => proj2 (slant_is i j)), !(fun i j Li Lj => proj2 (tilted_is i j Li Lj)) by lia. unfold slantD, tiltedv.
    destruct a as [|[|a]]; try lia; destruct b as [|[|b]]; try lia; cbn [Nat.eqb]; field.
  - intros v Hv. cbv beta zeta. unfold kshrink, kgain, slantD. cbn [Nat.eqb]. rewrite !(fun i j Li Lj => proj2 (tilted_is i j Li Lj)) by lia. unfold tiltedv. cbn [Nat.eqb].
    set (a := v 0%nat) in *. set (b := v 1%nat) in *. set (c := v 2%nat) in *. set (d := v 3%nat) in *.
    assert (S : 0 < a * a + b * b + c * c + d * d).
    { pose proof (Rle_0_sqr a). pose proof (Rle_0_sqr b). pose proof (Rle_0_sqr c). pose proof (Rle_0_sqr d). unfold Rsqr in *.
      destruct Hv as [H'|[H'|[H'|H']]]; apply Rsqr_pos_lt in H'; unfold Rsqr in H'; lra. }
    assert (B : bp (-44) <= / 128 / 128 / 128) by (change (/ 128 / 128 / 128) with (bp (-7) * bp (-7) * bp (-7)); rewrite <- !bpow_plus; apply bp_le; lia).
    match goal with |- _ < ?r => apply Rlt_le_trans with (/ 10 * (a * a + b * b + c * c + d * d)); [|set (R := r)] end.
    + pose proof (bp_pos (-44)). replace (100 * (a * a) + 100 * (b * b) + 100 * (c * c) + 100 * (d * d)) with (100 * (a * a + b * b + c * c + d * d)) by ring. nra.
    + pose proof (Rle_0_sqr a). pose proof (Rle_0_sqr b). pose proof (Rle_0_sqr c). pose proof (Rle_0_sqr d).
      pose proof (Rle_0_sqr (a - b)). pose proof (Rle_0_sqr (a + b)). pose proof (Rle_0_sqr (a - c)). pose proof (Rle_0_sqr (a + c)). pose proof (Rle_0_sqr (a - d)). pose proof (Rle_0_sqr (a + d)).
      pose proof (Rle_0_sqr (b - c)). pose proof (Rle_0_sqr (b + c)). pose proof (Rle_0_sqr (b - d)). pose proof (Rle_0_sqr (b + d)). pose proof (Rle_0_sqr (c - d)). pose proof (Rle_0_sqr (c + d)).
      unfold Rsqr, R in *. lra.
Qed.
Lemma slant_innovation : forall i, (i < 2)%nat -> mid0 (val (nth i (31 :: 5 :: nil)%float 0%float) - val (nth i (3 :: 0 :: 1 :: 20 :: nil)%float 0%float)).
Proof.
  intros i Hi. destruct i as [|[|i]]; try lia; cbn [nth].
  - rewrite (proj2 v31), (proj2 v3). apply mid_lit. rewrite Rabs_pos_eq; lra.
  - rewrite (proj2 v5), (proj2 v0). apply mid_lit. rewrite Rabs_pos_eq; lra.
Qed.
