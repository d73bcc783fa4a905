(** What is asked of the correction in doubles.  Independent of the model. *)
From Coq Require Import List Reals ZArith Arith.
From Flocq Require Import Core.
From Coq Require Import Floats.
From Verif Require Import Scalar FloatBase.
Local Open Scope R_scope.

(** A matrix of doubles of four rows and columns, symmetric and positive definite. *)
Definition finite4 (P : nat -> nat -> float) : Prop := forall i j, (i < 4)%nat -> (j < 4)%nat -> fin (P i j).
Definition symmetric4 (P : nat -> nat -> float) : Prop :=
  forall i j, (i < 4)%nat -> (j < 4)%nat -> val (P i j) = val (P j i).
Definition qf4 (P : nat -> nat -> float) (v : nat -> R) : R :=
  let row i := v 0%nat * val (P i 0%nat) + v 1%nat * val (P i 1%nat) + v 2%nat * val (P i 2%nat) + v 3%nat * val (P i 3%nat) in
  v 0%nat * row 0%nat + v 1%nat * row 1%nat + v 2%nat * row 2%nat + v 3%nat * row 3%nat.
Definition definite4 (P : nat -> nat -> float) : Prop :=
  forall v, (v 0%nat <> 0 \/ v 1%nat <> 0 \/ v 2%nat <> 0 \/ v 3%nat <> 0) -> 0 < qf4 P v.

(** The covariance of a report. *)
Definition definite2 (R : nat -> nat -> float) : Prop :=
  (forall i j, (i < 2)%nat -> (j < 2)%nat -> fin (R i j)) /\
  val (R 0%nat 1%nat) = val (R 1%nat 0%nat) /\ 0 < val (R 0%nat 0%nat) /\
  val (R 0%nat 1%nat) * val (R 0%nat 1%nat) < val (R 0%nat 0%nat) * val (R 1%nat 1%nat).

(** The two axes are not correlated: positions and velocities of axis [a] are the
    coefficients [a] and [a + 2]. *)
Definition separate4 (P : nat -> nat -> float) : Prop :=
  forall i j, (i < 4)%nat -> (j < 4)%nat -> Nat.even (i + j) = false -> val (P i j) = 0.
Definition separate2 (R : nat -> nat -> float) : Prop := val (R 0%nat 1%nat) = 0 /\ val (R 1%nat 0%nat) = 0.

(** Neither tiny nor huge. *)
Definition medium (x : R) : Prop := bpow radix2 (-200) <= x <= bpow radix2 200.
(** 0, or neither tiny nor huge. *)
Definition medium0 (x : R) : Prop := x = 0 \/ medium (Rabs x).

(** The correction in exact arithmetic.  [D] is the inverse of the covariance of the
    innovation, the first two rows and columns of [P] plus those of [V]. *)
Definition inverts2 (P V : nat -> nat -> float) (D : nat -> nat -> R) : Prop :=
  forall a b, (a < 2)%nat -> (b < 2)%nat ->
    (val (P a 0%nat) + val (V a 0%nat)) * D 0%nat b + (val (P a 1%nat) + val (V a 1%nat)) * D 1%nat b = if (a =? b)%nat then 1 else 0.
Definition kgain (P : nat -> nat -> float) (D : nat -> nat -> R) (i b : nat) : R :=
  val (P i 0%nat) * D 0%nat b + val (P i 1%nat) * D 1%nat b.
(** What the report adds to the mean, and takes off the covariance. *)
Definition kmove (x : nat -> float) (P : nat -> nat -> float) (z : nat -> float) (D : nat -> nat -> R) (i : nat) : R :=
  kgain P D i 0 * (val (z 0%nat) - val (x 0%nat)) + kgain P D i 1 * (val (z 1%nat) - val (x 1%nat)).
Definition kshrink (P : nat -> nat -> float) (D : nat -> nat -> R) (i j : nat) : R :=
  kgain P D i 0 * val (P 0%nat j) + kgain P D i 1 * val (P 1%nat j).

(** What Eigen's self-adjoint solvers read of a matrix. *)
Definition lower (P : nat -> nat -> float) : nat -> nat -> float := fun i j => if (j <=? i)%nat then P i j else P j i.

(** The share [r / (p + r)] that an axis keeps of its variance, times how far its
    position and velocity are from fully correlated, is above the rounding. *)
Definition clear (P V : nat -> nat -> float) (a : nat) : Prop :=
  let p := val (P a a) in let c := val (P a (a + 2)%nat) in let v := val (P (a + 2)%nat (a + 2)%nat) in let r := val (V a a) in
  bpow radix2 (-45) * ((p + r) * (p * v)) <= r * (p * v - c * c).
