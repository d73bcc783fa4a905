(** What is asked of the mean and covariance of a mixture in doubles.  Independent of
    the model. *)
From Coq Require Import List Reals ZArith Arith.
From Flocq Require Import Core.
From Coq Require Import Floats.
From Verif Require Import Scalar FloatBase KalmanFloat GMFloatSpec.
Local Open Scope R_scope.

Notation mixture := (list (float * (fvec * fmat))).

(** Weights between 0 and 1, at most 2^20 of them, coefficients that are not huge. *)
Definition moderate (cs : mixture) : Prop :=
  (Z.of_nat (length cs) <= 2 ^ 20)%Z /\
  forall w x P, In (w, (x, P)) cs -> upto 1 w /\
    (forall i, (i < 4)%nat -> fin (x i) /\ Rabs (val (x i)) <= bpow radix2 200) /\
    (forall i j, (i < 4)%nat -> (j < 4)%nat -> fin (P i j) /\ Rabs (val (P i j)) <= bpow radix2 400).

(** Sum over the components of the weight times [f]. *)
Definition average (f : fvec -> fmat -> R) (cs : mixture) : R :=
  sum_of (fun c => val (fst c) * f (fst (snd c)) (snd (snd c))) cs.

(** The exact mean, and the mean of the absolute values. *)
Definition exact_mean (cs : mixture) (i : nat) : R := average (fun x _ => val (x i)) cs.
Definition mean_size (cs : mixture) (i : nat) : R := average (fun x _ => Rabs (val (x i))) cs.
Definition mean_error (cs : mixture) (i : nat) : R :=
  (2 * INR (length cs) + 2) * bpow radix2 (-53) * mean_size cs i + INR (length cs) * bpow radix2 (-1074).

(** The exact covariance about [m]. *)
Definition exact_cov (m : nat -> R) (cs : mixture) (i j : nat) : R :=
  average (fun x P => val (P i j) + (val (x i) - m i) * (val (x j) - m j)) cs.
(** The sum of the absolute values in it, about a mean that may be off by its error. *)
Definition cov_size (cs : mixture) (i j : nat) : R :=
  let d (x : fvec) k := Rabs (val (x k) - exact_mean cs k) + mean_error cs k in
  average (fun x P => Rabs (val (P i j)) + d x i * d x j) cs.

(** What is left of the weights' sum being 1, and of centring on the computed mean. *)
Definition total (cs : mixture) : R := average (fun _ _ => 1) cs.
Definition centring (cs : mixture) (i j : nat) : R :=
  Rabs (1 - total cs) * (mean_error cs j * Rabs (exact_mean cs i) + mean_error cs i * Rabs (exact_mean cs j)) +
  total cs * (mean_error cs i * mean_error cs j).

(** The error of a coefficient of the covariance. *)
Definition cov_error (cs : mixture) (i j : nat) : R :=
  (2 * INR (length cs) + 12) * bpow radix2 (-53) * cov_size cs i j + INR (length cs) * bpow radix2 (-1072) + centring cs i j.
