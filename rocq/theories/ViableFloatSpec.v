(** What is asked of the test that removes targets.  Independent of the model. *)
From Coq Require Import List Reals ZArith Arith.
From Flocq Require Import Core.
From Coq Require Import Floats.
From Verif Require Import Scalar FloatBase KalmanFloat GMFloatSpec MeanFloatSpec.
Local Open Scope R_scope.

(** As [moderate], with coefficients whose squares can be squared again. *)
Definition modest (cs : mixture) : Prop := moderate cs /\
  forall w x P, In (w, (x, P)) cs ->
    (forall i, (i < 4)%nat -> Rabs (val (x i)) <= bpow radix2 100) /\
    (forall i j, (i < 4)%nat -> (j < 4)%nat -> Rabs (val (P i j)) <= bpow radix2 200).

(** The Frobenius norm of the position block. *)
Definition frobenius (c : nat -> nat -> R) : R :=
  R_sqrt.sqrt (c 0%nat 0%nat * c 0%nat 0%nat + c 1%nat 0%nat * c 1%nat 0%nat + c 0%nat 1%nat * c 0%nat 1%nat + c 1%nat 1%nat * c 1%nat 1%nat).

(** The size of the exact covariance of the position. *)
Definition uncertainty (cs : mixture) : R := frobenius (exact_cov (exact_mean cs) cs).

(** The error of the norm. *)
Definition norm_error (cs : mixture) : R :=
  11 * bpow radix2 (-53) * uncertainty cs +
  2 * (cov_error cs 0 0 + cov_error cs 1 0 + cov_error cs 0 1 + cov_error cs 1 1) + bpow radix2 (-535).
