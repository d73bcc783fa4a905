(** The Kalman correction in IEEE double arithmetic: include/gaussian.hpp:30-42
    [correct], mean and covariance, for a Gaussian of four states and a report of
    a position.

    Matrices are functions of row and column.  Eigen adds up the products of a
    coefficient in an order that depends on the version and on vectorisation; it
    stays open ([sum], any function that adds up the elements of a list in some
    order, [fsums]).  The inverse of a 2 x 2 matrix is that of Eigen 3.3
    (compute_inverse_size2_helper): the adjugate times the reciprocal of the
    determinant.  There is no contraction to fused operations (-std=c++17, no
    -march with FMA in Tuprules.tup). *)
From Coq Require Import List Arith Bool Floats.
Import ListNotations.

(** Matrices and vectors of doubles. *)
Definition fmat := nat -> nat -> float.
Definition fvec := nat -> float.

(** PositionSensor::H, sensors.hpp:22. *)
Definition fH : fmat := fun i j => if i =? j then 1%float else 0%float.

(** gaussian.hpp:33: inverse() of a 2 x 2 matrix. *)
Definition fdet2 (A : fmat) : float := let '(a, b, c, d) := (A 0 0, A 0 1, A 1 0, A 1 1) in (a * d - c * b)%float.
Definition finv2 (A : fmat) : fmat :=
  let d := (1 / fdet2 A)%float in
  fun i j => PrimFloat.mul (match i, j with
                            | 0, 0 => A 1 1
                            | 0, 1 => PrimFloat.opp (A 0 1)
                            | 1, 0 => PrimFloat.opp (A 1 0)
                            | _, _ => A 0 0
                            end) d.

Section Correct.
Variable sum : list float -> float.

(** A product with inner dimension [n]. *)
Definition fprod (n : nat) (A B : fmat) : fmat := fun i j => sum (map (fun k => (A i k * B k j)%float) (seq 0 n)).
Definition fprodv (n : nat) (A : fmat) (x : fvec) : fvec := fun i => sum (map (fun k => (A i k * x k)%float) (seq 0 n)).
Definition ftr (A : fmat) : fmat := fun i j => A j i.

(** gaussian.hpp:33: the covariance of the innovation. *)
Definition finnov (P R : fmat) : fmat := fun i j => (fprod 4 (fprod 4 fH P) (ftr fH) i j + R i j)%float.
(** gaussian.hpp:34 *)
Definition fgain (P R : fmat) : fmat := fprod 2 (fprod 4 P (ftr fH)) (finv2 (finnov P R)).
(** gaussian.hpp:32, 38; sensors.hpp:38-41 *)
Definition fmean (x : fvec) (P : fmat) (z : fvec) (R : fmat) : fvec :=
  fun i => (x i + fprodv 2 (fgain P R) (fun k => z k - fprodv 4 fH x k)%float i)%float.
(** gaussian.hpp:39 *)
Definition fcov (P R : fmat) : fmat := fun i j => (P i j - fprod 4 (fprod 2 (fgain P R) fH) P i j)%float.
End Correct.
