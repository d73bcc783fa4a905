(** What is asked of the correction in doubles when the axes may be correlated.
    Independent of the model. *)
From Coq Require Import List Reals ZArith Arith.
From Flocq Require Import Core.
From Coq Require Import Floats.
From Verif Require Import Scalar FloatBase KalmanFloatSpec.
Local Open Scope R_scope.

(** 0, or neither tiny nor huge. *)
Definition mid0 (x : R) : Prop := x = 0 \/ bpow radix2 (-100) <= Rabs x <= bpow radix2 100.

(** A coefficient of the covariance of the innovation, in exact arithmetic. *)
Definition sprd (P V : nat -> nat -> float) (a b : nat) : R := val (P a b) + val (V a b).

(** The two coordinates of the innovation are not fully correlated: 1 - rho^2 is at
    least 1 / K. *)
Definition untied (K : R) (P V : nat -> nat -> float) : Prop :=
  sprd P V 0 0 * sprd P V 1 1 <= K * (sprd P V 0 0 * sprd P V 1 1 - sprd P V 0 1 * sprd P V 0 1).

(** The standard deviation of a coefficient. *)
Definition sdev (P : nat -> nat -> float) (i : nat) : R := R_sqrt.sqrt (val (P i i)).

(** The exact covariance after the correction is definite by more than the rounding. *)
Definition spare (K : R) (P : nat -> nat -> float) (D : nat -> nat -> R) : Prop :=
  forall v : nat -> R, (v 0%nat <> 0 \/ v 1%nat <> 0 \/ v 2%nat <> 0 \/ v 3%nat <> 0) ->
    bpow radix2 (-44) * (K * K) * (val (P 0%nat 0%nat) * (v 0%nat * v 0%nat) + val (P 1%nat 1%nat) * (v 1%nat * v 1%nat) +
                                   val (P 2%nat 2%nat) * (v 2%nat * v 2%nat) + val (P 3%nat 3%nat) * (v 3%nat * v 3%nat)) <
    (let row i := v 0%nat * (val (P i 0%nat) - kshrink P D i 0) + v 1%nat * (val (P i 1%nat) - kshrink P D i 1) +
                  v 2%nat * (val (P i 2%nat) - kshrink P D i 2) + v 3%nat * (val (P i 3%nat) - kshrink P D i 3) in
     v 0%nat * row 0%nat + v 1%nat * row 1%nat + v 2%nat * row 2%nat + v 3%nat * row 3%nat).
