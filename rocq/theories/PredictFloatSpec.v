(** What is asked of the prediction in doubles.  Independent of the model.

    In exact arithmetic a target keeps its velocity: after the time [t] axis [a] has
    its position, coefficient [a], moved by [t] times its velocity, coefficient
    [a + 2], plus the noise of an acceleration of strength [q]. *)
From Coq Require Import List Reals ZArith Arith.
From Flocq Require Import Core.
From Coq Require Import Floats.
From Verif Require Import Scalar FloatBase.
Local Open Scope R_scope.

(** How much of coefficient [k] goes into coefficient [i]. *)
Definition moves (t : R) (i k : nat) : R := if (k =? i)%nat then 1 else if (k =? i + 2)%nat then t else 0.

(** The covariance of the noise: the integral over 0..t of q (s, 1) (s, 1)^T on each axis. *)
Definition stir (q t : R) (i j : nat) : R :=
  match i, j with
  | 0%nat, 0%nat | 1%nat, 1%nat => q * (t ^ 3 / 3)
  | 2%nat, 2%nat | 3%nat, 3%nat => q * t
  | 0%nat, 2%nat | 2%nat, 0%nat | 1%nat, 3%nat | 3%nat, 1%nat => q * (t ^ 2 / 2)
  | _, _ => 0
  end.

Definition sum4 (f : nat -> R) : R := f 0%nat + f 1%nat + f 2%nat + f 3%nat.

(** The exact covariance after the time [t], and the sum of the absolute values of
    what goes into a coefficient. *)
Definition spread (q t : R) (P : nat -> nat -> float) (i j : nat) : R :=
  sum4 (fun k => sum4 (fun l => moves t i k * val (P k l) * moves t j l)) + stir q t i j.
Definition bulk (q t : R) (P : nat -> nat -> float) (i j : nat) : R :=
  sum4 (fun k => sum4 (fun l => Rabs (moves t i k * val (P k l) * moves t j l))) + stir q t i j.

(** The exact mean, and the sum of the absolute values. *)
Definition drift (t : R) (x : nat -> float) (i : nat) : R := sum4 (fun k => moves t i k * val (x k)).
Definition reach (t : R) (x : nat -> float) (i : nat) : R := sum4 (fun k => Rabs (moves t i k * val (x k))).

(** A time step or a noise level: 0, or neither tiny nor huge. *)
Definition usual (x : R) : Prop := x = 0 \/ bpow radix2 (-60) <= x <= bpow radix2 60.

(** The variance of coefficient [i] had there been no correlation. *)
Definition alone (q t : R) (P : nat -> nat -> float) (i : nat) : R :=
  sum4 (fun k => moves t i k * moves t i k * val (P k k)) + stir q t i i.

(** The exact covariance is definite, by more than the rounding: no direction
    retains less than 2^-47 of what the coefficients would give it alone. *)
Definition roomy (q t : R) (P : nat -> nat -> float) : Prop :=
  forall v : nat -> R, (v 0%nat <> 0 \/ v 1%nat <> 0 \/ v 2%nat <> 0 \/ v 3%nat <> 0) ->
    bpow radix2 (-47) * sum4 (fun i => alone q t P i * (v i * v i)) <
    sum4 (fun i => sum4 (fun j => v i * spread q t P i j * v j)).
