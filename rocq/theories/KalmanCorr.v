(** The correction in doubles when the axes may be correlated. *)
From Coq Require Import List Arith Lia Bool Reals ZArith Lra Psatz.
From Flocq Require Import Core.
From Coq Require Import Floats.
From Verif Require Import Scalar FloatBase ClusterFloat KalmanFloat KalmanFloatSpec KalmanFloatProofs KalmanFloatErr PredictFloatProofs KalmanCorrSpec.
Import ListNotations.
Local Open Scope R_scope.
Local Notation bp := (bpow radix2).
Local Notation u := (bp (-53)).

Lemma up a b c : a <= bp b -> (b <= c)%Z -> a <= bp c.
Proof. intros H L. eapply Rle_trans; [exact H|apply bp_le; exact L]. Qed.

(** From definiteness: a coefficient is at most the product of the deviations. *)
Lemma definite_diag P k : definite4 P -> (k < 4)%nat -> 0 < val (P k k).
Proof.
  intros DP Lk. assert (H : 0 < qf4 P (fun n => if (n =? k)%nat then 1 else 0)).
  { apply DP. destruct k as [|[|[|[|k]]]]; try lia; cbn; auto 10 using R1_neq_R0. }
  unfold qf4 in H. destruct k as [|[|[|[|k]]]]; try lia; cbn [Nat.eqb] in H; lra.
Qed.
Lemma definite_off P k l : symmetric4 P -> definite4 P -> (k < 4)%nat -> (l < 4)%nat -> k <> l ->
  val (P k l) * val (P k l) < val (P k k) * val (P l l).
Proof.
  intros SP DP Lk Ll N. pose proof (definite_diag P l DP Ll) as Pl. pose proof (definite_diag P k DP Lk) as Pk. pose proof (SP k l Lk Ll) as S.
  set (a := val (P l l)). set (b := - val (P k l)). set (v := fun n => if (n =? k)%nat then a else if (n =? l)%nat then b else 0).
  assert (E : qf4 P v = a * a * val (P k k) + 2 * (a * b * val (P k l)) + b * b * val (P l l)).
  { replace (2 * (a * b * val (P k l))) with (a * b * val (P k l) + a * b * val (P l k)) by (rewrite S; ring). unfold qf4, v.
    destruct k as [|[|[|[|k]]]]; try lia; destruct l as [|[|[|[|l]]]]; try lia; try congruence; cbn [Nat.eqb]; ring. }
  assert (H : 0 < qf4 P v).
  { apply DP. assert (a <> 0) by (unfold a; lra). unfold v. destruct k as [|[|[|[|k]]]]; try lia; cbn [Nat.eqb]; auto. }
  rewrite E in H. unfold b in H. replace (a * a * val (P k k) + 2 * (a * - val (P k l) * val (P k l)) + - val (P k l) * - val (P k l) * val (P l l))
    with (a * (a * val (P k k) - val (P k l) * val (P k l))) in H by (unfold a; ring).
  assert (Ha : 0 < a) by exact Pl. unfold a in *. nra.
Qed.
Lemma sqrt_prod_le x a b : 0 <= a -> 0 <= b -> x * x <= a * b -> Rabs x <= R_sqrt.sqrt a * R_sqrt.sqrt b.
Proof.
  intros Ha Hb H. rewrite <- sqrt_mult by assumption. rewrite <- sqrt_Rsqr_abs. apply sqrt_le_1_alt. unfold Rsqr. exact H.
Qed.
Lemma coef_le P i j : symmetric4 P -> definite4 P -> (i < 4)%nat -> (j < 4)%nat -> Rabs (val (P i j)) <= sdev P i * sdev P j.
Proof.
  intros SP DP Li Lj. unfold sdev. pose proof (definite_diag P i DP Li). pose proof (definite_diag P j DP Lj). apply sqrt_prod_le; try lra.
  destruct (Nat.eq_dec i j) as [->|N]; [lra|]. apply Rlt_le, definite_off; auto.
Qed.

Section Corr.
Variable sum : list float -> float.
Hypothesis Hsum : forall l, fsums l (sum l).
Variables P V : fmat.
Hypothesis FP : finite4 P.
Hypothesis SP : symmetric4 P.
Hypothesis DP : definite4 P.
Hypothesis DV : definite2 V.
Hypothesis MP : forall i j, (i < 4)%nat -> (j < 4)%nat -> mid0 (val (P i j)).
Hypothesis MV : forall i j, (i < 2)%nat -> (j < 2)%nat -> mid0 (val (V i j)).
Variable K : R.
Hypothesis HK : 1 <= K <= 1000000000.
Hypothesis UT : untied K P V.

Let s := sprd P V.
Let g a b := Rabs (val (P a b)) + Rabs (val (V a b)).
Let det := s 0%nat 0%nat * s 1%nat 1%nat - s 0%nat 1%nat * s 0%nat 1%nat.

Lemma FV : forall i j, (i < 2)%nat -> (j < 2)%nat -> fin (V i j). Proof. exact (proj1 DV). Qed.
Lemma Vsym : val (V 0%nat 1%nat) = val (V 1%nat 0%nat). Proof. apply DV. Qed.
Lemma Vpos a : (a < 2)%nat -> 0 < val (V a a).
Proof. destruct DV as (_ & _ & H0 & H1). intros La. destruct a as [|[|a]]; [exact H0| |lia]. nra. Qed.
Lemma Voff : val (V 0%nat 1%nat) * val (V 0%nat 1%nat) < val (V 0%nat 0%nat) * val (V 1%nat 1%nat). Proof. apply DV. Qed.
Lemma mid_size x : mid0 x -> (Rabs x = 0 \/ bp (- 100) <= Rabs x) /\ Rabs x <= bp 100.
Proof. intros [->|[A B]]; [rewrite Rabs_R0; split; [left; reflexivity|apply Rlt_le, bp_pos]|split; [right; exact A|exact B]]. Qed.
Lemma P_ap i j : (i < 4)%nat -> (j < 4)%nat -> ap 0 100 (Rabs (val (P i j))) (P i j) (val (P i j)).
Proof. intros Li Lj. destruct (mid_size _ (MP i j Li Lj)) as [A B]. apply ap_exact; auto. Qed.
Lemma V_ap i j : (i < 2)%nat -> (j < 2)%nat -> ap 0 100 (Rabs (val (V i j))) (V i j) (val (V i j)).
Proof. intros Li Lj. destruct (mid_size _ (MV i j Li Lj)) as [A B]. apply ap_exact; auto. apply FV; auto. Qed.
Lemma P_is i j : (i < 4)%nat -> (j < 4)%nat -> is (P i j) (val (P i j)) /\ Rabs (val (P i j)) <= bp 900.
Proof. intros Li Lj. split; [split; auto|]. destruct (mid_size _ (MP i j Li Lj)) as [_ B]. eapply up; [exact B|lia]. Qed.

(** Products with [fH]. *)
Lemma H_on i : fH i i = 1%float. Proof. unfold fH. rewrite Nat.eqb_refl. reflexivity. Qed.
Lemma H_off i j : i <> j -> fH i j = 0%float. Proof. intros N. unfold fH. destruct (Nat.eqb_spec i j); [congruence|reflexivity]. Qed.
Lemma left_H n i j (A : fmat) r : (i < n)%nat -> (forall k, (k < n)%nat -> fin (A k j)) -> is (A i j) r -> Rabs r <= bp 1000 -> is (fprod sum n fH A i j) r.
Proof.
  intros Li FA Ir B. unfold fprod. eapply (sum_pick n); [apply Hsum|exact Li|cbv beta; rewrite H_on; apply is_mul1l; auto; apply is_1|exact B|].
  intros k Lk N. cbv beta; rewrite H_off by congruence. eapply is_mul0l; [apply is_0|split; [apply FA; auto|reflexivity]].
Qed.
Lemma right_Ht n i j (A : fmat) r : (j < n)%nat -> (forall k, (k < n)%nat -> fin (A i k)) -> is (A i j) r -> Rabs r <= bp 1000 -> is (fprod sum n A (ftr fH) i j) r.
Proof.
  intros Lj FA Ir B. unfold fprod, ftr. eapply (sum_pick n); [apply Hsum|exact Lj|cbv beta; rewrite H_on; apply is_mul1r; auto; apply is_1|exact B|].
  intros k Lk N. cbv beta; rewrite H_off by congruence. eapply is_mul0r; [split; [apply FA; auto|reflexivity]|apply is_0].
Qed.
Lemma HP_is i j : (i < 2)%nat -> (j < 4)%nat -> is (fprod sum 4 fH P i j) (val (P i j)).
Proof.
  intros Li Lj. destruct (P_is i j) as [A B]; try lia. apply left_H; [lia|intros; apply FP; lia|exact A|eapply up; [exact B|lia]].
Qed.
Lemma HPH_is i j : (i < 2)%nat -> (j < 2)%nat -> is (fprod sum 4 (fprod sum 4 fH P) (ftr fH) i j) (val (P i j)).
Proof.
  intros Li Lj. destruct (P_is i j) as [_ B]; try lia. apply right_Ht; [lia| |apply HP_is; lia|eapply up; [exact B|lia]].
  intros k Lk. apply (HP_is i k); auto.
Qed.
Lemma PHt_is i a : (i < 4)%nat -> (a < 2)%nat -> is (fprod sum 4 P (ftr fH) i a) (val (P i a)).
Proof. intros Li La. destruct (P_is i a) as [A B]; try lia. apply right_Ht; [lia|intros; apply FP; lia|exact A|eapply up; [exact B|lia]]. Qed.

Lemma innov_ap a b : (a < 2)%nat -> (b < 2)%nat -> ap (51 / 50) 101 (g a b) (finnov sum P V a b) (s a b).
Proof.
  intros La Lb. unfold finnov, g, s, sprd. pose proof (P_ap a b ltac:(lia) ltac:(lia)) as A. pose proof (V_ap a b La Lb) as B.
  eapply ap_weaken; [| |eapply ap_plus; [| | |exact A|exact B|]]; try lra; try lia.
  intros r r' [_ Ir] Ir' Br Br'. apply is_add; auto; [rewrite <- Ir; apply HPH_is; auto|]. apply bp998; (eapply up; [eassumption|lia]).
Qed.
Lemma s_pos a : (a < 2)%nat -> 0 < s a a /\ g a a = s a a.
Proof.
  intros La. pose proof (definite_diag P a DP ltac:(lia)). pose proof (Vpos a La). unfold s, g, sprd. rewrite !Rabs_pos_eq by lra. lra.
Qed.
Lemma g_sym : g 1%nat 0%nat = g 0%nat 1%nat /\ s 1%nat 0%nat = s 0%nat 1%nat.
Proof. unfold g, s, sprd. rewrite (SP 1 0)%nat, <- Vsym by lia. split; reflexivity. Qed.
Lemma g_off : g 0%nat 1%nat * g 0%nat 1%nat <= s 0%nat 0%nat * s 1%nat 1%nat.
Proof.
  pose proof (definite_off P 0 1 SP DP ltac:(lia) ltac:(lia) ltac:(lia)) as A. pose proof Voff as B.
  pose proof (definite_diag P 0 DP ltac:(lia)) as P0. pose proof (definite_diag P 1 DP ltac:(lia)) as P1. pose proof (Vpos 0 ltac:(lia)) as V0. pose proof (Vpos 1 ltac:(lia)) as V1.
  assert (SQ : forall x, Rabs x * Rabs x = x * x) by (intros x; rewrite <- Rabs_mult; apply Rabs_pos_eq; apply Rle_0_sqr).
  unfold g, s, sprd. set (p := Rabs (val (P 0%nat 1%nat))). set (v := Rabs (val (V 0%nat 1%nat))). rewrite <- SQ in A, B. fold p in A. fold v in B.
  assert (Pp : 0 <= p) by apply Rabs_pos. assert (Pv : 0 <= v) by apply Rabs_pos.
  set (a := val (P 0%nat 0%nat)) in *. set (b := val (P 1%nat 1%nat)) in *. set (c := val (V 0%nat 0%nat)) in *. set (d := val (V 1%nat 1%nat)) in *.
  assert (X : 2 * (p * v) <= a * d + c * b).
  { assert (Y : (p * v) * (p * v) <= (a * d) * (c * b)).
    { replace ((p * v) * (p * v)) with ((p * p) * (v * v)) by ring. replace ((a * d) * (c * b)) with ((a * b) * (c * d)) by ring. apply Rmult_le_compat; try lra; apply Rmult_le_pos; lra. }
    assert (0 <= p * v) by (apply Rmult_le_pos; lra). assert (0 < a * d) by (apply Rmult_lt_0_compat; lra). assert (0 < c * b) by (apply Rmult_lt_0_compat; lra).
    apply Rsqr_incr_0_var; [|lra]. unfold Rsqr. pose proof (Rle_0_sqr (a * d - c * b)). unfold Rsqr in *. lra. }
  lra.
Qed.
Lemma det_pos : 0 < det.
Proof.
  pose proof (s_pos 0 ltac:(lia)) as [A _]. pose proof (s_pos 1 ltac:(lia)) as [B _]. assert (0 < s 0%nat 0%nat * s 1%nat 1%nat) by (apply Rmult_lt_0_compat; auto).
  unfold untied in UT. fold s in UT. fold det in UT. assert (0 < K * det) by lra. apply Rmult_lt_reg_l with K; lra.
Qed.
Lemma det_ge : s 0%nat 0%nat * s 1%nat 1%nat <= K * det. Proof. exact UT. Qed.

Lemma s_size a : (a < 2)%nat -> bp (-100) <= s a a <= bp 101.
Proof.
  intros La. pose proof (definite_diag P a DP ltac:(lia)) as A. pose proof (Vpos a La) as B. unfold s, sprd.
  destruct (MP a a ltac:(lia) ltac:(lia)) as [E|M]; [lra|]. destruct (mid_size _ (MV a a La La)) as [_ N]. rewrite Rabs_pos_eq in M, N by lra.
  change (bp 101) with (bp (1 + 100)). rewrite bpow_plus. change (bp 1) with 2. lra.
Qed.
Lemma det_ap : ap (9 * K) 234 det (fdet2 (finnov sum P V)) det.
Proof.
  pose proof (s_pos 0 ltac:(lia)) as [A A']. pose proof (s_pos 1 ltac:(lia)) as [B B']. destruct g_sym as [Gs Ss]. pose proof g_off as Go. pose proof det_pos as Pd. pose proof det_ge as Ge.
  assert (X1 : ap (309 / 100) 202 (s 0%nat 0%nat * s 1%nat 1%nat) (finnov sum P V 0%nat 0%nat * finnov sum P V 1%nat 1%nat)%float (s 0%nat 0%nat * s 1%nat 1%nat)).
  { rewrite <- A' at 1. rewrite <- B' at 1. eapply ap_weaken; [| |eapply ap_mult; [| | | | |apply innov_ap; lia|apply innov_ap; lia]]; try lra; try lia. }
  assert (X2 : ap (309 / 100) 202 (g 0%nat 1%nat * g 0%nat 1%nat) (finnov sum P V 1%nat 0%nat * finnov sum P V 0%nat 1%nat)%float (s 0%nat 1%nat * s 0%nat 1%nat)).
  { rewrite <- Gs at 1. rewrite <- Ss at 1. eapply ap_weaken; [| |eapply ap_mult; [| | | | |apply innov_ap; lia|apply innov_ap; lia]]; try lra; try lia. }
  assert (X3 : ap (42 / 10) 203 (s 0%nat 0%nat * s 1%nat 1%nat + g 0%nat 1%nat * g 0%nat 1%nat) (fdet2 (finnov sum P V)) det).
  { unfold fdet2. eapply ap_weaken; [| |eapply ap_minus; [| | |exact X1|exact X2]]; try lra; try lia. }
  destruct X3 as (r & Ir & E & _). exists r. split; [exact Ir|]. split; [|split; [|split]].
  - eapply Rle_trans; [exact E|]. pose proof u_pos. apply Rle_trans with (42 / 10 * u * (2 * (K * det))).
    + apply Rmult_le_compat_l; lra.
    + assert (0 <= u * (K * det)) by (apply Rmult_le_pos; [lra|]; apply Rmult_le_pos; lra). lra.
  - rewrite Rabs_pos_eq; lra.
  - right. pose proof (s_size 0 ltac:(lia)) as [S0 _]. pose proof (s_size 1 ltac:(lia)) as [S1 _].
    assert (T : bp (-200) <= s 0%nat 0%nat * s 1%nat 1%nat).
    { change (bp (-200)) with (bp (-100 + -100)). rewrite bpow_plus. apply Rmult_le_compat; auto; apply Rlt_le, bp_pos. }
    assert (T2 : bp (-200) <= bp 34 * det).
    { eapply Rle_trans; [exact T|]. eapply Rle_trans; [exact Ge|]. apply Rmult_le_compat_r; [lra|]. apply Rle_trans with 1000000000; [lra|]. change (bp 34) with (IZR (2 ^ 34)). apply IZR_le. lia. }
    apply Rmult_le_reg_l with (bp 34); [apply bp_pos|]. rewrite <- bpow_plus. exact T2.
  - pose proof (s_size 0 ltac:(lia)) as [_ S0]. pose proof (s_size 1 ltac:(lia)) as [_ S1].
    assert (T : s 0%nat 0%nat * s 1%nat 1%nat <= bp 202).
    { change (bp 202) with (bp (101 + 101)). rewrite bpow_plus. apply Rmult_le_compat; lra. }
    pose proof (Rle_0_sqr (s 0%nat 1%nat)). unfold Rsqr in *. eapply up with 202%Z; [unfold det; lra|lia].
Qed.
Lemma invdet_ap : ap (103 / 10 * K) 234 (/ det) (1 / fdet2 (finnov sum P V))%float (/ det).
Proof. eapply ap_weaken; [| |eapply ap_inv; [exact is_1| | |exact det_pos|exact det_ap]]; try lra; try lia. Qed.

Definition Dx (a b : nat) : R :=
  match a, b with
  | 0%nat, 0%nat => s 1%nat 1%nat * / det
  | 1%nat, 1%nat => s 0%nat 0%nat * / det
  | _, _ => - s 0%nat 1%nat * / det
  end.
Definition Dz (a b : nat) : R :=
  match a, b with
  | 0%nat, 0%nat => s 1%nat 1%nat * / det
  | 1%nat, 1%nat => s 0%nat 0%nat * / det
  | _, _ => g 0%nat 1%nat * / det
  end.
Lemma inv_ap a b : (a < 2)%nat -> (b < 2)%nat -> ap (126 / 10 * K) 335 (Dz a b) (finv2 (finnov sum P V) a b) (Dx a b).
Proof.
  intros La Lb. pose proof invdet_ap as I. destruct g_sym as [Gs Ss].
  pose proof (s_pos 0 ltac:(lia)) as [_ A']. pose proof (s_pos 1 ltac:(lia)) as [_ B'].
  assert (G : forall x k z, ap (51 / 50) 101 k x z -> ap (126 / 10 * K) 335 (k * / det) (x * (1 / fdet2 (finnov sum P V)))%float (z * / det)).
  { intros x k z A. eapply ap_weaken; [| |eapply ap_mult; [| | | | |exact A|exact I]]; try lra; try lia. }
  pose proof (innov_ap 0 0 ltac:(lia) ltac:(lia)) as A00. pose proof (innov_ap 0 1 ltac:(lia) ltac:(lia)) as A01.
  pose proof (innov_ap 1 0 ltac:(lia) ltac:(lia)) as A10. pose proof (innov_ap 1 1 ltac:(lia) ltac:(lia)) as A11.
  rewrite A' in A00. rewrite B' in A11. rewrite Gs, Ss in A10.
  destruct a as [|[|a]]; try lia; destruct b as [|[|b]]; try lia; unfold finv2, Dz, Dx; apply G; auto; apply ap_opp; auto.
Qed.

Definition gz (i b : nat) : R := Rabs (val (P i 0%nat)) * Dz 0 b + Rabs (val (P i 1%nat)) * Dz 1 b.
Definition gx (i b : nat) : R := val (P i 0%nat) * Dx 0 b + val (P i 1%nat) * Dx 1 b.
Lemma gain_ap i b : (i < 4)%nat -> (b < 2)%nat -> ap (15 * K) 436 (gz i b) (fgain sum P V i b) (gx i b).
Proof.
  intros Li Lb. unfold fgain, gz, gx. change (fprod sum 2 ?A ?B i b) with (sum (map (fun k => (A i k * B k b)%float) (seq 0 2))).
  assert (T : forall a, (a < 2)%nat -> ap (138 / 10 * K) 435 (Rabs (val (P i a)) * Dz a b) (fprod sum 4 P (ftr fH) i a * finv2 (finnov sum P V) a b)%float (val (P i a) * Dx a b)).
  { intros a La. pose proof (PHt_is i a Li La) as I.
    assert (A : ap 0 100 (Rabs (val (P i a))) (fprod sum 4 P (ftr fH) i a) (val (P i a))).
    { destruct (P_ap i a Li ltac:(lia)) as (r & [_ Er] & R). exists r. split; [rewrite <- Er; exact I|exact R]. }
    eapply ap_weaken; [| |eapply ap_mult; [| | | | |exact A|exact (inv_ap a b La Lb)]]; try lra; try lia. }
  eapply ap_weaken; [| |eapply ap_plus; [| | |exact (T 0%nat ltac:(lia))|exact (T 1%nat ltac:(lia))|]]; try lra; try lia.
  intros r r' Ir Ir' B B'. eapply (sum_pair 2) with (i := 0%nat) (j := 1%nat); [apply Hsum|lia|lia|lia|exact Ir|exact Ir'|eapply up; [exact B|lia]|eapply up; [exact B'|lia]|]. intros; lia.
Qed.
Lemma KH_is i b r : (i < 4)%nat -> (b < 4)%nat -> ((b < 2)%nat -> is (fgain sum P V i b) r /\ Rabs r <= bp 1000) -> ((2 <= b)%nat -> r = 0) ->
  is (fprod sum 2 (fgain sum P V) fH i b) r.
Proof.
  intros Li Lb Hr Hz. assert (F : forall k, (k < 2)%nat -> fin (fgain sum P V i k)).
  { intros k Lk. destruct (gain_ap i k Li Lk) as (x & [Fx _] & _). exact Fx. }
  unfold fprod at 1. destruct (le_lt_dec 2 b) as [L|L].
  - rewrite (Hz L). eapply (sum_none 2); [apply Hsum|]. intros k Lk. cbv beta; rewrite H_off by lia. eapply is_mul0r; [split; [apply F; auto|reflexivity]|apply is_0].
  - destruct (Hr L) as [Ir B]. eapply (sum_pick 2); [apply Hsum|exact L|cbv beta; rewrite H_on; apply is_mul1r; auto; apply is_1|exact B|].
    intros k Lk N. cbv beta; rewrite H_off by congruence. eapply is_mul0r; [split; [apply F; auto|reflexivity]|apply is_0].
Qed.
Definition Tz (i j : nat) : R := gz i 0 * Rabs (val (P 0%nat j)) + gz i 1 * Rabs (val (P 1%nat j)).
Definition Tx (i j : nat) : R := gx i 0 * val (P 0%nat j) + gx i 1 * val (P 1%nat j).
Lemma KHP_ap i j : (i < 4)%nat -> (j < 4)%nat -> ap (175 / 10 * K) 537 (Tz i j) (fprod sum 4 (fprod sum 2 (fgain sum P V) fH) P i j) (Tx i j).
Proof.
  intros Li Lj. unfold Tz, Tx.
  assert (T : forall b, (b < 2)%nat -> ap (163 / 10 * K) 536 (gz i b * Rabs (val (P b j))) (fprod sum 2 (fgain sum P V) fH i b * P b j)%float (gx i b * val (P b j))).
  { intros b Lb. assert (A : ap (15 * K) 436 (gz i b) (fprod sum 2 (fgain sum P V) fH i b) (gx i b)).
    { pose proof (gain_ap i b Li Lb) as G. pose proof G as (r & Ir & E & B & S & B2). exists r. split; [|auto]. apply KH_is; [exact Li|lia| |intros; exfalso; lia]. intros _. split; [exact Ir|].
      destruct (ap_big (15 * K) 436 _ _ _ r ltac:(lra) ltac:(lia) Ir E B B2) as [_ B9]. eapply up; [exact B9|lia]. }
    eapply ap_weaken; [| |eapply ap_mult; [| | | | |exact A|exact (P_ap b j ltac:(lia) Lj)]]; try lra; try lia. }
  eapply ap_weaken; [| |eapply ap_plus; [| | |exact (T 0%nat ltac:(lia))|exact (T 1%nat ltac:(lia))|]]; try lra; try lia.
  intros r r' Ir Ir' B B'. unfold fprod at 1. eapply (sum_pair 4) with (i := 0%nat) (j := 1%nat); [apply Hsum|lia|lia|lia|exact Ir|exact Ir'|eapply up; [exact B|lia]|eapply up; [exact B'|lia]|].
  intros k Lk N0 N1. assert (L : (2 <= k)%nat) by lia. eapply is_mul0l; [apply KH_is; [exact Li|exact Lk|intros; exfalso; lia|reflexivity]|split; [apply FP; auto|reflexivity]].
Qed.

(** Sizes. *)
Let w a := R_sqrt.sqrt (s a a).
Let h := sdev P.
Lemma w_pos a : (a < 2)%nat -> 0 < w a /\ w a * w a = s a a.
Proof. intros La. pose proof (s_pos a La) as [A _]. unfold w. split; [apply sqrt_lt_R0; auto|apply sqrt_sqrt; lra]. Qed.
Lemma h_pos i : (i < 4)%nat -> 0 <= h i /\ h i * h i = val (P i i).
Proof. intros Li. pose proof (definite_diag P i DP Li). unfold h, sdev. split; [apply sqrt_pos|apply sqrt_sqrt; lra]. Qed.
Lemma h_w a : (a < 2)%nat -> h a <= w a.
Proof. intros La. unfold h, w, sdev. apply sqrt_le_1_alt. unfold s, sprd. pose proof (Vpos a La). lra. Qed.
Lemma Dz_le a b : (a < 2)%nat -> (b < 2)%nat -> 0 <= Dz a b /\ w a * Dz a b * w b <= K.
Proof.
  intros La Lb. pose proof det_pos as Pd. pose proof det_ge as Ge. assert (Pi : 0 < / det) by (apply Rinv_0_lt_compat; auto).
  destruct (w_pos 0 ltac:(lia)) as [W0 E0]. destruct (w_pos 1 ltac:(lia)) as [W1 E1].
  pose proof (s_pos 0 ltac:(lia)) as [S0 _]. pose proof (s_pos 1 ltac:(lia)) as [S1 _].
  assert (G0 : 0 <= g 0%nat 1%nat). { unfold g. pose proof (Rabs_pos (val (P 0%nat 1%nat))). pose proof (Rabs_pos (val (V 0%nat 1%nat))). lra. }
  assert (Q : s 0%nat 0%nat * s 1%nat 1%nat * / det <= K).
  { apply Rmult_le_reg_r with det; auto. rewrite Rmult_assoc, Rinv_l, Rmult_1_r by lra. exact Ge. }
  assert (Gw : g 0%nat 1%nat <= w 0%nat * w 1%nat).
  { pose proof g_off as Go. rewrite <- (Rabs_pos_eq _ G0). unfold w. apply sqrt_prod_le; lra. }
  assert (Off : w 0%nat * (g 0%nat 1%nat * / det) * w 1%nat <= K).
  { apply Rle_trans with (w 0%nat * (w 0%nat * w 1%nat * / det) * w 1%nat).
    - apply Rmult_le_compat_r; [lra|]. apply Rmult_le_compat_l; [lra|]. apply Rmult_le_compat_r; lra.
    - replace (w 0%nat * (w 0%nat * w 1%nat * / det) * w 1%nat) with ((w 0%nat * w 0%nat) * (w 1%nat * w 1%nat) * / det) by ring. rewrite E0, E1. exact Q. }
  destruct a as [|[|a]]; try lia; destruct b as [|[|b]]; try lia; unfold Dz; (split; [apply Rmult_le_pos; lra|]).
  - replace (w 0%nat * (s 1%nat 1%nat * / det) * w 0%nat) with (w 0%nat * w 0%nat * s 1%nat 1%nat * / det) by ring. rewrite E0. exact Q.
  - exact Off.
  - replace (w 1%nat * (g 0%nat 1%nat * / det) * w 0%nat) with (w 0%nat * (g 0%nat 1%nat * / det) * w 1%nat) by ring. exact Off.
  - replace (w 1%nat * (s 0%nat 0%nat * / det) * w 1%nat) with (s 0%nat 0%nat * (w 1%nat * w 1%nat) * / det) by ring. rewrite E1. exact Q.
Qed.
Lemma Pw i a : (i < 4)%nat -> (a < 2)%nat -> Rabs (val (P i a)) <= h i * w a.
Proof.
  intros Li La. eapply Rle_trans; [apply coef_le; auto; lia|]. fold h. apply Rmult_le_compat_l; [apply h_pos; auto|]. apply h_w; auto.
Qed.
Lemma gz_le i b : (i < 4)%nat -> (b < 2)%nat -> 0 <= gz i b /\ gz i b * w b <= 2 * K * h i.
Proof.
  intros Li Lb. destruct (w_pos b Lb) as [Wb _]. destruct (h_pos i Li) as [Hi _].
  assert (T : forall a, (a < 2)%nat -> 0 <= Rabs (val (P i a)) * Dz a b /\ Rabs (val (P i a)) * Dz a b * w b <= K * h i).
  { intros a La. destruct (Dz_le a b La Lb) as [D0 D1]. destruct (w_pos a La) as [Wa _]. split; [apply Rmult_le_pos; [apply Rabs_pos|auto]|].
    apply Rle_trans with (h i * w a * Dz a b * w b).
    - apply Rmult_le_compat_r; [lra|]. apply Rmult_le_compat_r; auto. apply Pw; auto.
    - replace (h i * w a * Dz a b * w b) with (h i * (w a * Dz a b * w b)) by ring. rewrite (Rmult_comm K). apply Rmult_le_compat_l; auto. }
  destruct (T 0%nat ltac:(lia)) as [A0 A1]. destruct (T 1%nat ltac:(lia)) as [B0 B1]. unfold gz. split; [lra|]. rewrite Rmult_plus_distr_r. lra.
Qed.
Lemma Tz_le i j : (i < 4)%nat -> (j < 4)%nat -> Tz i j <= 4 * K * (h i * h j).
Proof.
  intros Li Lj. destruct (h_pos j Lj) as [Hj _].
  assert (T : forall b, (b < 2)%nat -> gz i b * Rabs (val (P b j)) <= 2 * K * (h i * h j)).
  { intros b Lb. destruct (gz_le i b Li Lb) as [G0 G1]. apply Rle_trans with (gz i b * (h j * w b)).
    - apply Rmult_le_compat_l; auto. rewrite (SP b j) by lia. apply Pw; auto.
    - replace (gz i b * (h j * w b)) with (gz i b * w b * h j) by ring. replace (2 * K * (h i * h j)) with (2 * K * h i * h j) by ring. apply Rmult_le_compat_r; auto. }
  pose proof (T 0%nat ltac:(lia)). pose proof (T 1%nat ltac:(lia)). unfold Tz. lra.
Qed.

Lemma after y x p k T : 0 <= k <= 1000000000000 -> Rabs (x - y) <= k * u * T -> Rabs y <= T -> rnd x = x -> rnd p = p ->
  Rabs (rnd (p + x) - (p + y)) <= u * Rabs p + (k * (101 / 100) + 1) * u * T.
Proof.
  intros Hk E By Fx Fp. destruct (plus_rel p x Fp Fx) as (d & -> & Hd). pose proof u_pos. pose proof u_small. pose proof (Rabs_pos y).
  replace ((p + x) * (1 + d) - (p + y)) with ((x - y) * (1 + d) + (p + y) * d) by ring.
  eapply Rle_trans; [apply Rabs_triang|]. rewrite !Rabs_mult.
  assert (T1 : Rabs (1 + d) <= 101 / 100). { eapply Rle_trans; [apply Rabs_triang|]. rewrite Rabs_R1. lra. }
  assert (T2 : Rabs (p + y) <= Rabs p + T) by (eapply Rle_trans; [apply Rabs_triang|]; lra).
  assert (G1 : Rabs (x - y) * Rabs (1 + d) <= k * u * T * (101 / 100)) by (apply Rmult_le_compat; auto; apply Rabs_pos).
  assert (G2 : Rabs (p + y) * Rabs d <= (Rabs p + T) * u) by (apply Rmult_le_compat; auto; apply Rabs_pos). lra.
Qed.

Lemma cov_close i j : (i < 4)%nat -> (j < 4)%nat -> fin (fcov sum P V i j) /\ Rabs (val (fcov sum P V i j) - (val (P i j) - Tx i j)) <= bp (-46) * (K * K) * (h i * h j).
Proof.
  intros Li Lj. pose proof (KHP_ap i j Li Lj) as A. pose proof (ap_pos _ _ _ _ _ A) as Tp. destruct A as (r & Ir & E & B & S & B2).
  destruct (P_is i j Li Lj) as [Ip Bp]. destruct (ap_big (175 / 10 * K) 537 _ _ _ r ltac:(lra) ltac:(lia) Ir E B B2) as [_ B9].
  assert (G : is (fcov sum P V i j) (rnd (val (P i j) - r))).
  { unfold fcov. apply is_sub; auto. replace (val (P i j) - r) with (val (P i j) + - r) by ring. apply bp998; [eapply up; [exact Bp|lia]|rewrite Rabs_Ropp; eapply up; [exact B9|lia]]. }
  destruct G as [F ->]. split; [exact F|].
  assert (Fo : rnd (- r) = - r). { destruct Ir as [_ <-]. apply rnd_opp_val. }
  pose proof (after (- Tx i j) (- r) (val (P i j)) (175 / 10 * K) (Tz i j) ltac:(lra)) as H.
  replace (- r - - Tx i j) with (- (r - Tx i j)) in H by ring. rewrite !Rabs_Ropp in H. specialize (H E B Fo (rnd_val _)).
  unfold Rminus at 2. unfold Rminus at 2. eapply Rle_trans; [exact H|]. destruct (h_pos i Li) as [Hi _]. destruct (h_pos j Lj) as [Hj _].
  pose proof (coef_le P i j SP DP Li Lj) as C. fold h in C. pose proof (Tz_le i j Li Lj) as Z. pose proof u_pos as U.
  assert (HH : 0 <= h i * h j) by (apply Rmult_le_pos; auto). set (q := h i * h j) in *.
  change (bp (-46)) with (bp (7 + -53)). rewrite bpow_plus. change (bp 7) with 128.
  assert (C1 : u * Rabs (val (P i j)) <= u * q) by (apply Rmult_le_compat_l; lra).
  assert (C2 : (175 / 10 * K * (101 / 100) + 1) * u * Tz i j <= (19 * K) * u * (4 * K * q)).
  { apply Rmult_le_compat; auto; [apply Rmult_le_pos; lra|]. apply Rmult_le_compat_r; lra. }
  assert (KK : 1 <= K * K) by nra. assert (0 <= u * q) by (apply Rmult_le_pos; lra).
  assert (C3 : u * q <= K * K * (u * q)) by nra.
  replace (19 * K * u * (4 * K * q)) with (76 * (K * K * (u * q))) in C2 by ring. replace (128 * u * (K * K) * q) with (128 * (K * K * (u * q))) by ring. lra.
Qed.

(** The exact inverse. *)
Lemma inverse_is D : inverts2 P V D -> forall a b, (a < 2)%nat -> (b < 2)%nat -> D a b = Dx a b.
Proof.
  intros HD a b La Lb. pose proof (HD 0%nat b ltac:(lia) Lb) as E0. pose proof (HD 1%nat b ltac:(lia) Lb) as E1. pose proof det_pos as Pd. destruct g_sym as [_ Ss].
  change (s 0%nat 0%nat * D 0%nat b + s 0%nat 1%nat * D 1%nat b = if (0 =? b)%nat then 1 else 0) in E0.
  change (s 1%nat 0%nat * D 0%nat b + s 1%nat 1%nat * D 1%nat b = if (1 =? b)%nat then 1 else 0) in E1. rewrite Ss in E1.
  assert (Q0 : D 0%nat b * det = s 1%nat 1%nat * (if (0 =? b)%nat then 1 else 0) - s 0%nat 1%nat * (if (1 =? b)%nat then 1 else 0)).
  { rewrite <- E0, <- E1. unfold det. ring. }
  assert (Q1 : D 1%nat b * det = s 0%nat 0%nat * (if (1 =? b)%nat then 1 else 0) - s 0%nat 1%nat * (if (0 =? b)%nat then 1 else 0)).
  { rewrite <- E0, <- E1. unfold det. ring. }
  apply Rmult_eq_reg_r with det; [|lra].
  destruct a as [|[|a]]; try lia; destruct b as [|[|b]]; try lia; unfold Dx; cbn [Nat.eqb] in *; rewrite ?Q0, ?Q1, Rmult_assoc, Rinv_l by lra; ring.
Qed.
Lemma gain_exact D i b : inverts2 P V D -> (b < 2)%nat -> kgain P D i b = gx i b.
Proof. intros HD Lb. unfold kgain, gx. rewrite !(inverse_is D HD) by lia. reflexivity. Qed.
Lemma shrink_exact D i j : inverts2 P V D -> kshrink P D i j = Tx i j.
Proof. intros HD. unfold kshrink, Tx. rewrite !(gain_exact D _ _ HD) by lia. reflexivity. Qed.

Lemma cov_definite (Q : fmat) D : inverts2 P V D -> (forall i j, (i < 4)%nat -> (j < 4)%nat -> Rabs (val (Q i j) - (val (P i j) - Tx i j)) <= bp (-46) * (K * K) * (h i * h j)) ->
  spare K P D -> definite4 Q.
Proof.
  intros HD HQ RO v Hv. specialize (RO v Hv). cbv beta zeta in RO. rewrite !(shrink_exact D _ _ HD) in RO. set (A := fun i => val (P i i) * (v i * v i)).
  assert (PB : 0 < bp (-46) * (K * K)) by (apply Rmult_lt_0_compat; [apply bp_pos|nra]). set (B := bp (-46) * (K * K)) in *.
  assert (T : forall i j, (i < 4)%nat -> (j < 4)%nat -> v i * v j * (val (P i j) - Tx i j) - B * ((A i + A j) / 2) <= v i * v j * val (Q i j)).
  { intros i j Li Lj. pose proof (HQ i j Li Lj) as H. destruct (h_pos i Li) as [Hi Ei]. destruct (h_pos j Lj) as [Hj Ej].
    assert (SQ : forall x, Rabs x * Rabs x = x * x) by (intros x; rewrite <- Rabs_mult; apply Rabs_pos_eq; apply Rle_0_sqr).
    assert (D1 : Rabs (v i * v j * ((val (P i j) - Tx i j) - val (Q i j))) <= B * ((A i + A j) / 2)).
    { rewrite !Rabs_mult, (Rabs_minus_sym (val (P i j) - Tx i j)). apply Rle_trans with (Rabs (v i) * Rabs (v j) * (B * (h i * h j))).
      - apply Rmult_le_compat_l; auto. apply Rmult_le_pos; apply Rabs_pos.
      - replace (Rabs (v i) * Rabs (v j) * (B * (h i * h j))) with (B * ((Rabs (v i) * h i) * (Rabs (v j) * h j))) by ring. apply Rmult_le_compat_l; [lra|].
        unfold A. rewrite <- Ei, <- Ej, <- (SQ (v i)), <- (SQ (v j)). pose proof (Rle_0_sqr (Rabs (v i) * h i - Rabs (v j) * h j)). unfold Rsqr in *. lra. }
    pose proof (Rle_abs (v i * v j * ((val (P i j) - Tx i j) - val (Q i j)))). lra. }
  assert (E47 : bp (-44) * (K * K) = 4 * B) by (unfold B; change (bp (-44)) with (bp (2 + -46)); rewrite bpow_plus; change (bp 2) with 4; ring).
  rewrite E47 in RO. unfold qf4. fold (A 0%nat) in RO. fold (A 1%nat) in RO. fold (A 2%nat) in RO. fold (A 3%nat) in RO.
  pose proof (T 0 0)%nat as T00. pose proof (T 0 1)%nat as T01. pose proof (T 0 2)%nat as T02. pose proof (T 0 3)%nat as T03.
  pose proof (T 1 0)%nat as T10. pose proof (T 1 1)%nat as T11. pose proof (T 1 2)%nat as T12. pose proof (T 1 3)%nat as T13.
  pose proof (T 2 0)%nat as T20. pose proof (T 2 1)%nat as T21. pose proof (T 2 2)%nat as T22. pose proof (T 2 3)%nat as T23.
  pose proof (T 3 0)%nat as T30. pose proof (T 3 1)%nat as T31. pose proof (T 3 2)%nat as T32. pose proof (T 3 3)%nat as T33.
  repeat match goal with H : (_ < _)%nat -> (_ < _)%nat -> _ |- _ => specialize (H ltac:(lia) ltac:(lia)) end.
  clear T HQ. lra.
Qed.
Lemma Tx_sym i j : (i < 4)%nat -> (j < 4)%nat -> Tx i j = Tx j i.
Proof.
  intros Li Lj. unfold Tx, gx. rewrite !(SP 0 j)%nat, !(SP 1 j)%nat, !(SP 0 i)%nat, !(SP 1 i)%nat by lia. unfold Dx. ring.
Qed.

(** The mean. *)
Lemma mean_close x z i : (forall k, (k < 4)%nat -> fin (x k) /\ Rabs (val (x k)) <= bp 200) -> (forall k, (k < 2)%nat -> fin (z k) /\ Rabs (val (z k)) <= bp 200) ->
  (forall k, (k < 2)%nat -> mid0 (val (z k) - val (x k))) -> (i < 4)%nat ->
  fin (fmean sum x P z V i) /\
  Rabs (val (fmean sum x P z V i) - (val (x i) + (gx i 0 * (val (z 0%nat) - val (x 0%nat)) + gx i 1 * (val (z 1%nat) - val (x 1%nat))))) <=
    u * Rabs (val (x i)) + bp (-47) * (K * K) * (h i * (Rabs (val (z 0%nat) - val (x 0%nat)) / w 0 + Rabs (val (z 1%nat) - val (x 1%nat)) / w 1)).
Proof.
  intros Hx Hz Hd Li. set (y := fun k => val (z k) - val (x k)).
  assert (Y : forall k, (k < 2)%nat -> ap (51 / 50) 101 (Rabs (y k)) (z k - fprodv sum 4 fH x k)%float (y k)).
  { intros k Lk. destruct (Hx k ltac:(lia)) as [Fx Bx]. destruct (Hz k Lk) as [Fz Bz]. destruct (mid_size _ (Hd k Lk)) as [M1 M2]. fold (y k) in M1, M2.
    assert (HX : is (fprodv sum 4 fH x k) (val (x k))).
    { unfold fprodv. eapply (sum_pick 4); [apply Hsum| |cbv beta; rewrite H_on; apply is_mul1l; [apply is_1|split; auto|eapply up; [exact Bx|lia]]|eapply up; [exact Bx|lia]|]; [lia|].
      intros l Ll N. cbv beta; rewrite H_off by congruence. eapply is_mul0l; [apply is_0|split; [apply Hx; auto|reflexivity]]. }
    assert (I : is (z k - fprodv sum 4 fH x k)%float (rnd (y k))).
    { apply is_sub; [split; auto|exact HX|]. fold (y k). eapply up; [exact M2|lia]. }
    exists (rnd (y k)). split; [exact I|]. split; [|split; [lra|split; [|eapply up; [exact M2|lia]]]].
    - destruct (rel (y k)) as (d & -> & Hdd).
      + destruct M1 as [M1|M1]; [left; destruct (Req_dec (y k) 0) as [|N]; auto; apply Rabs_no_R0 in N; contradiction|right].
        eapply Rle_trans; [apply bp_le|exact M1]. lia.
      + replace (y k * (1 + d) - y k) with (y k * d) by ring. rewrite Rabs_mult. pose proof (Rabs_pos (y k)). pose proof u_pos.
        assert (Rabs (y k) * Rabs d <= Rabs (y k) * u) by (apply Rmult_le_compat_l; auto). assert (0 <= u * Rabs (y k)) by (apply Rmult_le_pos; lra). lra.
    - destruct M1 as [M1|M1]; [left; exact M1|right]. eapply Rle_trans; [apply bp_le|exact M1]. lia. }
  assert (T : forall b, (b < 2)%nat -> ap (173 / 10 * K) 537 (gz i b * Rabs (y b)) (fgain sum P V i b * (z b - fprodv sum 4 fH x b))%float (gx i b * y b)).
  { intros b Lb. eapply ap_weaken; [| |eapply ap_mult; [| | | | |exact (gain_ap i b Li Lb)|exact (Y b Lb)]]; try lra; try lia. }
  set (M := gz i 0 * Rabs (y 0%nat) + gz i 1 * Rabs (y 1%nat)).
  assert (A : ap (185 / 10 * K) 538 M (fprodv sum 2 (fgain sum P V) (fun k => (z k - fprodv sum 4 fH x k)%float) i) (gx i 0 * y 0%nat + gx i 1 * y 1%nat)).
  { eapply ap_weaken; [| |eapply ap_plus; [| | |exact (T 0%nat ltac:(lia))|exact (T 1%nat ltac:(lia))|]]; try lra; try lia.
    intros r r' Ir Ir' B B'. unfold fprodv at 1. eapply (sum_pair 2) with (i := 0%nat) (j := 1%nat); [apply Hsum|lia|lia|lia|exact Ir|exact Ir'|eapply up; [exact B|lia]|eapply up; [exact B'|lia]|]. intros; lia. }
  pose proof (ap_pos _ _ _ _ _ A) as Mp. destruct A as (r & Ir & E & B & S & B2). destruct (Hx i Li) as [Fx Bx].
  destruct (ap_big (185 / 10 * K) 538 _ _ _ r ltac:(lra) ltac:(lia) Ir E B B2) as [_ B9].
  assert (G : is (fmean sum x P z V i) (rnd (val (x i) + r))).
  { unfold fmean. apply is_add; auto; [split; auto|]. apply bp998; [eapply up; [exact Bx|lia]|eapply up; [exact B9|lia]]. }
  destruct G as [F ->]. split; [exact F|]. fold (y 0%nat). fold (y 1%nat).
  pose proof (after _ r (val (x i)) (185 / 10 * K) M ltac:(lra) E B (is_format _ _ Ir) (rnd_val _)) as H. eapply Rle_trans; [exact H|]. apply Rplus_le_compat_l.
  destruct (h_pos i Li) as [Hi _].
  assert (ML : M <= 2 * K * (h i * (Rabs (y 0%nat) / w 0 + Rabs (y 1%nat) / w 1))).
  { assert (G : forall b, (b < 2)%nat -> gz i b * Rabs (y b) <= 2 * K * (h i * (Rabs (y b) / w b))).
    { intros b Lb. destruct (gz_le i b Li Lb) as [G0 G1]. destruct (w_pos b Lb) as [Wb _].
      replace (gz i b * Rabs (y b)) with (gz i b * w b * (Rabs (y b) / w b)) by (field; lra). replace (2 * K * (h i * (Rabs (y b) / w b))) with (2 * K * h i * (Rabs (y b) / w b)) by ring.
      apply Rmult_le_compat_r; auto. apply Rmult_le_pos; [apply Rabs_pos|apply Rlt_le, Rinv_0_lt_compat; auto]. }
    pose proof (G 0%nat ltac:(lia)). pose proof (G 1%nat ltac:(lia)). unfold M. lra. }
  set (q := h i * (Rabs (y 0%nat) / w 0 + Rabs (y 1%nat) / w 1)) in *. pose proof u_pos as U.
  change (bp (-47)) with (bp (6 + -53)). rewrite bpow_plus. change (bp 6) with 64.
  assert (C2 : (185 / 10 * K * (101 / 100) + 1) * u * M <= (20 * K) * u * (2 * K * q)).
  { apply Rmult_le_compat; auto; [apply Rmult_le_pos; lra|]. apply Rmult_le_compat_r; lra. }
  assert (Q0 : 0 <= 2 * K * q) by lra. assert (Q1 : 0 <= q) by (apply Rmult_le_reg_l with (2 * K); lra).
  assert (0 <= K * K * (u * q)) by (apply Rmult_le_pos; [nra|apply Rmult_le_pos; lra]).
  replace (20 * K * u * (2 * K * q)) with (40 * (K * K * (u * q))) in C2 by ring. replace (64 * u * (K * K) * q) with (64 * (K * K * (u * q))) by ring. lra.
Qed.
End Corr.
