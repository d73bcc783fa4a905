(** C111: the mean and covariance of a mixture in doubles (include/gm.hpp:229-250). *)
From Coq Require Import List Arith Lia ZArith Reals Lra.
From Flocq Require Import Core BinarySingleNaN.
From Coq Require Import Floats.
Import ListNotations.
From Verif Require Import Scalar FloatBase FloatExt KalmanFloat GMFloatSpec MeanFloat MeanFloatSpec MeanFloatProofs.
Local Open Scope R_scope.

(** The computed mean is finite and close to the exact one. *)
Theorem C111_mean : forall cs i, moderate cs -> (i < 4)%nat ->
  fin (fmean cs i) /\ Rabs (val (fmean cs i) - exact_mean cs i) <= mean_error cs i.
Proof. exact mean_ok. Qed.
Print Assumptions C111_mean.

(** The computed covariance is finite and close to the exact one about the exact mean. *)
Theorem C111_covariance : forall cs i j, moderate cs -> (i < 4)%nat -> (j < 4)%nat ->
  fin (fcov cs i j) /\ Rabs (val (fcov cs i j) - exact_cov (exact_mean cs) cs i j) <= cov_error cs i j.
Proof. exact report_ok. Qed.
Print Assumptions C111_covariance.

(** Symmetric coefficients stay exactly symmetric, whatever the rounding. *)
Theorem C111_symmetric : forall cs i j, moderate cs -> (i < 4)%nat -> (j < 4)%nat ->
  (forall w x P, In (w, (x, P)) cs -> val (P i j) = val (P j i)) -> val (fcov cs i j) = val (fcov cs j i).
Proof. exact (fun cs i j Hc => cov_symmetric (fmean cs) cs Hc (mean_bounded cs Hc) i j). Qed.
Print Assumptions C111_symmetric.

(** No computed variance is negative. *)
Theorem C111_variance : forall cs i, moderate cs -> (i < 4)%nat ->
  (forall w x P, In (w, (x, P)) cs -> 0 <= val (P i i)) -> 0 <= val (fcov cs i i).
Proof. exact (fun cs i Hc => cov_nonneg (fmean cs) cs Hc (mean_bounded cs Hc) i). Qed.
Print Assumptions C111_variance.

(** Two components with weights 1/4 and 3/4 at 1 and 5 (in every coordinate), unit
    covariances. *)
Definition two_parts : mixture :=
  let I := (fun i j => if Nat.eqb i j then 1 else 0)%float in
  [(0.25, (fun _ => 1, I)); (0.75, (fun _ => 5, I))]%float.

Ltac number := match goal with
  | |- fin _ => apply fin_SF; reflexivity
  | |- val ?x = _ => let v := eval vm_compute in (Prim2SF x) in
      replace (val x) with (SF2R radix2 v) by (rewrite val_SF; reflexivity); unfold SF2R, F2R, cond_Zopp, Fnum, Fexp; simpl IZR; simpl bpow; lra end.
Lemma val_quarter : val 0.25%float = / 4. Proof. number. Qed.
Lemma val_three : val 0.75%float = 3 / 4. Proof. number. Qed.
Lemma val_f0 : val 0%float = 0. Proof. number. Qed.
Lemma val_f1 : val 1%float = 1. Proof. number. Qed.
Lemma val_f5 : val 5%float = 5. Proof. number. Qed.

Example C111_example : moderate two_parts /\
  (forall i, fmean two_parts i = 4%float /\ exact_mean two_parts i = 4) /\
  fcov two_parts 0%nat 0%nat = 4%float /\ fcov two_parts 0%nat 1%nat = 3%float /\ exact_cov (exact_mean two_parts) two_parts 0%nat 1%nat = 3 /\
  (forall w x P, In (w, (x, P)) two_parts -> (forall i j, val (P i j) = val (P j i)) /\ forall i, 0 <= val (P i i)).
Proof.
  assert (M : forall i, exact_mean two_parts i = 4).
  { intros i. unfold exact_mean, average, sum_of, two_parts. simpl. rewrite val_quarter, val_three, val_f1, val_f5. lra. }
  assert (B3 : 8 <= bpow radix2 200) by (change 8 with (bpow radix2 3); apply bpow_le; lia).
  assert (B4 : 8 <= bpow radix2 400) by (change 8 with (bpow radix2 3); apply bpow_le; lia).
  split; [|split; [|split; [reflexivity|split; [reflexivity|split]]]].
  - split; [vm_compute; discriminate|]. intros w x P [E|[E|[]]]; injection E as <- <- <-.
    + split; [split; [number|rewrite val_quarter; lra]|]. split.
      * intros i _. split; [number|rewrite val_f1, Rabs_pos_eq; lra].
      * intros i j _ _. destruct (Nat.eqb i j); (split; [number|]); rewrite ?val_f1, ?val_f0, Rabs_pos_eq; lra.
    + split; [split; [number|rewrite val_three; lra]|]. split.
      * intros i _. split; [number|rewrite val_f5, Rabs_pos_eq; lra].
      * intros i j _ _. destruct (Nat.eqb i j); (split; [number|]); rewrite ?val_f1, ?val_f0, Rabs_pos_eq; lra.
  - intros i. split; [reflexivity|apply M].
  - unfold exact_cov. rewrite (average_ext _ (fun x P => val (P 0%nat 1%nat) + (val (x 0%nat) - 4) * (val (x 1%nat) - 4))) by (intros; rewrite !M; reflexivity).
    unfold average, sum_of, two_parts. simpl. rewrite val_quarter, val_three, val_f0, val_f1, val_f5. lra.
  - intros w x P [E|[E|[]]]; injection E as <- <- <-; (split; [intros i j; rewrite Nat.eqb_sym; reflexivity|intros i; rewrite Nat.eqb_refl, val_f1; lra]).
Qed.
