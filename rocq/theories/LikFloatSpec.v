(** What is asked of the likelihood in doubles.  Independent of the model. *)
From Coq Require Import List Reals ZArith Arith.
From Flocq Require Import Core.
From Coq Require Import Floats.
From Verif Require Import Scalar FloatBase KalmanFloatSpec KalmanCorrSpec.
Local Open Scope R_scope.

(** std::pow squares numbers between 1 and 100 to 40 bits. *)
Definition square_accurate (powf : float -> float -> float) : Prop :=
  forall x, fin x -> 1 <= val x <= 100 -> fin (powf x 2%float) /\ Rabs (val (powf x 2%float) - val x * val x) <= bpow radix2 (-40) * (val x * val x).

(** The squared distance of the report from the component, in standard deviations:
    [D] is the inverse of the covariance of the innovation. *)
Definition distance2 (D : nat -> nat -> R) (x z : nat -> float) : R :=
  let d k := val (z k) - val (x k) in
  d 0%nat * (D 0%nat 0%nat * d 0%nat + D 0%nat 1%nat * d 1%nat) + d 1%nat * (D 1%nat 0%nat * d 0%nat + D 1%nat 1%nat * d 1%nat).
(** The density of the innovation: a Gaussian of two dimensions. *)
Definition innovation_density (P V : nat -> nat -> float) (D : nat -> nat -> R) (x z : nat -> float) : R :=
  exp (- distance2 D x z / 2) / (2 * PI * R_sqrt.sqrt (sprd P V 0 0 * sprd P V 1 1 - sprd P V 0 1 * sprd P V 0 1)).
