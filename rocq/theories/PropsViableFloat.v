(** C112: the test that removes targets, in doubles (include/target.hpp:80-90). *)
From Coq Require Import List Arith Lia ZArith Reals Lra.
From Flocq Require Import Core.
From Coq Require Import Floats.
Import ListNotations.
From Verif Require Import Scalar FloatBase FloatExt ClusterFloat ClusterFloatWitness KalmanFloat GMFloatSpec MeanFloat MeanFloatSpec ViableFloat ViableFloatSpec ViableFloatProofs PropsMeanFloat.
Local Open Scope R_scope.

(** The computed norm is a number close to that of the exact covariance. *)
Theorem C112_norm : forall sum, (forall l, fsums l (sum l)) -> forall cs, modest cs ->
  fin (fnorm sum (fcov cs)) /\ Rabs (val (fnorm sum (fcov cs)) - uncertainty cs) <= norm_error cs.
Proof. exact cov_norm_ok. Qed.
Print Assumptions C112_norm.

(** A target is kept or removed as the limits say, unless the uncertainty is within the
    rounding of the limit. *)
Theorem C112_viable : forall sum, (forall l, fsums l (sum l)) -> forall r_lim cov_lim r cs,
  modest cs -> fin r_lim -> fin cov_lim -> fin r ->
  (fviable sum r_lim cov_lim r cs = true -> val r_lim <= val r /\ uncertainty cs <= val cov_lim + norm_error cs) /\
  (fviable sum r_lim cov_lim r cs = false -> val r < val r_lim \/ val cov_lim - norm_error cs < uncertainty cs).
Proof. exact viable_ok. Qed.
Print Assumptions C112_viable.

(** The covariance of the position is [[4, 3], [3, 4]], of norm sqrt 50: kept at a limit of
    8, removed at 7, removed when the existence probability is too small. *)
Example C112_example : (forall l, fsums l (left_sum l)) /\ modest two_parts /\
  fviable left_sum 0.1 8 0.5 two_parts = true /\ fviable left_sum 0.1 7 0.5 two_parts = false /\ fviable left_sum 0.1 8 0.05 two_parts = false /\
  uncertainty two_parts = R_sqrt.sqrt 50.
Proof.
  split; [exact left_sum_ok|].
  assert (B3 : 8 <= bpow radix2 100) by (change 8 with (bpow radix2 3); apply bpow_le; lia).
  assert (B4 : 8 <= bpow radix2 200) by (change 8 with (bpow radix2 3); apply bpow_le; lia).
  split; [|split; [reflexivity|split; [reflexivity|split; [reflexivity|]]]].
  - split; [apply C111_example|]. intros w x P [E|[E|[]]]; injection E as <- <- <-.
    + split; [intros i _; rewrite val_f1, Rabs_pos_eq; lra|]. intros i j _ _. destruct (Nat.eqb i j); rewrite ?val_f1, ?val_f0, Rabs_pos_eq; lra.
    + split; [intros i _; rewrite val_f5, Rabs_pos_eq; lra|]. intros i j _ _. destruct (Nat.eqb i j); rewrite ?val_f1, ?val_f0, Rabs_pos_eq; lra.
  - unfold uncertainty, frobenius.
    assert (H : forall i j, exact_cov (exact_mean two_parts) two_parts i j = if Nat.eqb i j then 4 else 3).
    { intros i j. unfold exact_cov. assert (M : forall k, exact_mean two_parts k = 4) by (intros k; apply C111_example).
      rewrite (MeanFloatProofs.average_ext _ (fun x P => val (P i j) + (val (x i) - 4) * (val (x j) - 4))) by (intros; rewrite !M; reflexivity).
      unfold average, sum_of, two_parts. simpl. destruct (Nat.eqb i j); rewrite val_quarter, val_three, ?val_f0, ?val_f1, val_f5; lra. }
    rewrite !H. simpl. f_equal. lra.
Qed.

(** Outside these ranges: with a component at infinity the norm is not a number, and the
    comparison keeps the target, whatever the limit. *)
Example C112_not_a_number : let cs := [(1, (fun _ => infinity, fun _ _ => 1))]%float in
  PrimFloat.is_nan (fnorm left_sum (fcov cs)) = true /\ fviable left_sum 0.1 8 0.5 cs = true.
Proof. split; reflexivity. Qed.
