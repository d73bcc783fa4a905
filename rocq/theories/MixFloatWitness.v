(** Concrete cases for the likelihood and the correction of a mixture in doubles. *)
From Coq Require Import List Arith Lia Bool Reals ZArith Lra Psatz.
From Flocq Require Import Core.
From Coq Require Import Floats.
Import ListNotations.
From Verif Require Import Scalar FloatBase ClusterFloat ClusterFloatClose KalmanFloat KalmanFloatSpec KalmanFloatProofs KalmanFloatErr KalmanFloatWitness PredictFloatProofs PredictFloatWitness.
From Verif Require Import KalmanCorrSpec KalmanCorr KalmanCorrMain GMFloatSpec LikFloatSpec LikFloatProofs MixFloat MixFloatSpec MixFloatProofs.
From Interval Require Import Tactic.
Local Open Scope R_scope.

(** A product for the square. *)
Definition square (x _ : float) : float := (x * x)%float.
Lemma square_ok : square_accurate square.
Proof.
  intros x Fx Hx. unfold square. assert (XX : 1 <= val x * val x <= 10000) by (split; nra).
  assert (B : Rabs (val x * val x) <= bp 1000). { rewrite Rabs_pos_eq by lra. apply Rle_trans with (bp 14); [change (bp 14) with 16384; lra|apply bp_le; lia]. }
  destruct (is_mul x x _ _ (conj Fx eq_refl) (conj Fx eq_refl) B) as [F E]. split; [exact F|]. rewrite E.
  destruct (abs_err (val x * val x)) as (d & f & -> & Hd & Hf). assert (bp (-1075) <= bp (-53)) by (apply bp_le; lia).
  replace (val x * val x * (1 + d) + f - val x * val x) with (val x * val x * d + f) by ring. eapply Rle_trans; [apply Rabs_triang|]. rewrite Rabs_mult, (Rabs_pos_eq (val x * val x)) by lra.
  assert (val x * val x * Rabs d <= val x * val x * bp (-53)) by (apply Rmult_le_compat_l; lra).
  assert (bp (-53) <= / 100 * bp (-40)). { apply Rle_trans with (bp (-7) * bp (-40)); [rewrite <- bpow_plus; apply bp_le; lia|]. apply Rmult_le_compat_r; [apply Rlt_le, bp_pos|]. change (bp (-7)) with (/ 128). lra. }
  assert (val x * val x * bp (-53) <= val x * val x * (/ 100 * bp (-40))) by (apply Rmult_le_compat_l; lra). pose proof (bp_pos (-40)).
  assert (1 * bp (-40) <= val x * val x * bp (-40)) by (apply Rmult_le_compat_r; lra). lra.
Qed.

Definition at1 : fvec := fun i => nth i (3 :: 0 :: 1 :: 20 :: nil)%float 0%float.
Definition report : fvec := fun i => nth i (31 :: 5 :: nil)%float 0%float.
Lemma first_ok : regular 2 report slant at1 tilted.
Proof.
  destruct tilted_ok as (A1 & A2 & A3 & _). destruct slant_ok as (B1 & B2 & B3 & B4 & _).
  split; [tauto|]. split; [tauto|]. split; [exact B4|]. split; [exact moved_state|]. split; [exact moved_report|exact slant_innovation].
Qed.
Lemma first_distance : distance2 slantD at1 report = 84758 / 10340.
Proof. unfold distance2, slantD, at1, report. cbn [nth Nat.eqb]. rewrite (proj2 v31), (proj2 v3), (proj2 v5), (proj2 v0). field. Qed.

(** A second component nearer to the report, half in view. *)
Lemma v29 : is 29%float 29. Proof. flit. Qed.
Lemma v4 : is 4%float 4. Proof. flit. Qed.
Definition at2 : fvec := fun i => nth i (29 :: 4 :: 1 :: 20 :: nil)%float 0%float.
Lemma second_ok : regular 2 report slant at2 tilted.
Proof.
  destruct first_ok as (A & B & C & _ & D & _). split; [exact A|]. split; [exact B|]. split; [exact C|]. split; [|split; [exact D|]].
  - intros i Hi. unfold at2. destruct i as [|[|[|[|]]]]; try lia; cbn [nth]; [apply (small _ 29 v29)|apply (small _ 4 v4)|apply (small _ 1 v1)|apply (small _ 20 v20)]; lia.
  - intros i Hi. unfold at2, report. destruct i as [|[|i]]; try lia; cbn [nth].
    + rewrite (proj2 v31), (proj2 v29). apply mid_lit. rewrite Rabs_pos_eq; lra.
    + rewrite (proj2 v5), (proj2 v4). apply mid_lit. rewrite Rabs_pos_eq; lra.
Qed.
Definition pair : list fcomp := [mkFC 0.5 at1 tilted 1000; mkFC 0.25 at2 tilted 500].
Lemma quarter_is : is 0.25%float (/ 4). Proof. split; [reflexivity|]. unfold val. cbv -[Rmult Rinv IZR]. lra. Qed.
Definition hpd : float := 0.875%float.
Lemma hpd_is : is hpd (7 / 8). Proof. split; [reflexivity|]. unfold val. cbv -[Rmult Rinv IZR Rdiv]. lra. Qed.
Definition kap : float := 0.0009765625%float.
Lemma kap_is : is kap (/ 1024). Proof. split; [reflexivity|]. unfold val. cbv -[Rmult Rinv IZR Rdiv]. lra. Qed.
Lemma pair_ok : upto 1 hpd /\ kappa_ok kap /\ forall c, In c pair -> upto 1 (fc_w c) /\ (fc_k c <= 1000)%nat /\ regular 2 report slant (fc_x c) (fc_P c).
Proof.
  destruct hpd_is as [F1 E1], kap_is as [F2 E2], half_is as [F3 E3], quarter_is as [F4 E4]. split; [|split].
  - split; [exact F1|]. rewrite E1. lra.
  - split; [exact F2|]. rewrite E2. change (/ 1024) with (bp (-10)). apply bp_le. lia.
  - intros c [<-|[<-|[]]]; cbn [fc_w fc_k fc_x fc_P].
    + split; [split; [exact F3|rewrite E3; lra]|]. split; [apply Nat.le_refl|exact first_ok].
    + split; [split; [exact F4|rewrite E4; lra]|]. split; [apply Nat.leb_le; reflexivity|exact second_ok].
Qed.
Lemma pair_evidence : 1.02e-8 < evidence hpd kap report slant pair.
Proof.
  assert (N : forall c, 0 <= exp c) by (intros; apply Rlt_le, exp_pos).
  unfold evidence, pair, sum_of, fold_right, joint_weight, innovation_density. cbn [fc_w fc_k fc_x fc_P].
  rewrite (proj2 half_is), (proj2 quarter_is), (proj2 hpd_is), (proj2 kap_is).
  unfold distance2, precision, sprd, at1, at2, report. cbn [nth]. rewrite !(fun i j => proj2 (slant_is i j)), !(fun i j Li Lj => proj2 (tilted_is i j Li Lj)) by lia. unfold tiltedv. cbn [Nat.eqb].
  rewrite (proj2 v31), (proj2 v3), (proj2 v5), (proj2 v0), (proj2 v29), (proj2 v4), !INR_IZR_INZ.
  change (Z.of_nat 1000) with 1000%Z. change (Z.of_nat 500) with 500%Z. interval.
Qed.
Lemma pair_few : (Z.of_nat (length pair) <= 2 ^ 20)%Z. Proof. discriminate. Qed.
Lemma two_small : 1 <= 2 <= 1000. Proof. lra. Qed.
Lemma near_900 : 84758 / 10340 <= 900. Proof. lra. Qed.
Lemma near_small : 84758 / 10340 <= 9. Proof. lra. Qed.
