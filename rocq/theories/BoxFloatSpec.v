(** What is asked of boxes in doubles.  Independent of what the model computes. *)
From Coq Require Import List Reals ZArith Arith.
From Flocq Require Import Core.
From Coq Require Import Floats.
From Verif Require Import Scalar FloatBase KalmanFloat BoxFloat.
Local Open Scope R_scope.

Definition within (b : R) (x : float) : Prop := fin x /\ Rabs (val x) <= b.
(** What the solver returns for a covariance: eigenvalues that are not negative, and cosines
    and sines between -1 and 1. *)
Definition usable (e : frame) : Prop :=
  (within (bpow radix2 300) (e_l0 e) /\ 0 <= val (e_l0 e)) /\ (within (bpow radix2 300) (e_l1 e) /\ 0 <= val (e_l1 e)) /\
  within 1 (e_cu e) /\ within 1 (e_su e) /\ within 1 (e_cv e) /\ within 1 (e_sv e).
Definition placed (x : fvec) : Prop := within (bpow radix2 200) (x 0%nat) /\ within (bpow radix2 200) (x 1%nat).
Definition some_std (nstd : float) : Prop := within (bpow radix2 20) nstd /\ 0 <= val nstd.

(** Boxes that are numbers, the points in them, and boxes inside boxes. *)
Definition numbers (b : fbox) : Prop := fin (b_x0 b) /\ fin (b_y0 b) /\ fin (b_x1 b) /\ fin (b_y1 b).
Definition holds (b : fbox) (px py : R) : Prop :=
  val (b_x0 b) <= px <= val (b_x1 b) /\ val (b_y0 b) <= py <= val (b_y1 b).
Definition covers (b c : fbox) : Prop :=
  val (b_x0 b) <= val (b_x0 c) /\ val (b_y0 b) <= val (b_y0 c) /\ val (b_x1 c) <= val (b_x1 b) /\ val (b_y1 c) <= val (b_y1 b).

(** How far [nstd] standard deviations reach along an axis that has the coordinates [a], [b] in
    the frame. *)
Definition reach (nstd l0 l1 a b : float) : R :=
  let s l c := val nstd * R_sqrt.sqrt (val l) * val c in R_sqrt.sqrt (s l0 a * s l0 a + s l1 b * s l1 b).
Definition edge_error (x : float) (d : R) : R := 12 * bpow radix2 (-53) * (Rabs (val x) + d) + bpow radix2 (-390).
