(** What is asked of the correction of a mixture in doubles.  Independent of the model
    but for the record of a component. *)
From Coq Require Import List Reals ZArith Arith.
From Flocq Require Import Core.
From Coq Require Import Floats.
From Verif Require Import Scalar FloatBase KalmanFloatSpec KalmanCorrSpec GMFloatSpec LikFloatSpec MixFloat.
Local Open Scope R_scope.

(** A component and a report: finite coefficients, definite covariances, coefficients
    neither tiny nor huge, coordinates of the innovation not fully correlated. *)
Definition regular (K : R) (z : nat -> float) (V : nat -> nat -> float) (x : nat -> float) (P : nat -> nat -> float) : Prop :=
  (finite4 P /\ symmetric4 P /\ definite4 P /\ definite2 V) /\
  ((forall i j, (i < 4)%nat -> (j < 4)%nat -> mid0 (val (P i j))) /\ (forall i j, (i < 2)%nat -> (j < 2)%nat -> mid0 (val (V i j)))) /\
  untied K P V /\
  (forall i, (i < 4)%nat -> fin (x i) /\ Rabs (val (x i)) <= bpow radix2 200) /\ (forall i, (i < 2)%nat -> fin (z i) /\ Rabs (val (z i)) <= bpow radix2 200) /\
  (forall i, (i < 2)%nat -> mid0 (val (z i) - val (x i))).

(** The inverse of the covariance of the innovation, by Cramer's rule. *)
Definition precision (P V : nat -> nat -> float) (a b : nat) : R :=
  let det := sprd P V 0 0 * sprd P V 1 1 - sprd P V 0 1 * sprd P V 0 1 in
  match a, b with
  | O, O => sprd P V 1 1 / det
  | S O, S O => sprd P V 0 0 / det
  | _, _ => - sprd P V 0 1 / det
  end.

(** Weight times the probability of this report relative to clutter, in exact arithmetic. *)
Definition joint_weight (pD kappa : float) (z : nat -> float) (V : nat -> nat -> float) (c : fcomp) : R :=
  val (fc_w c) * (val pD * (INR (fc_k c) / 1000) * innovation_density (fc_P c) V (precision (fc_P c) V) (fc_x c) z / val kappa).
Definition evidence (pD kappa : float) (z : nat -> float) (V : nat -> nat -> float) (cs : list fcomp) : R :=
  sum_of (joint_weight pD kappa z V) cs.

(** The mean and covariance of a component after the exact correction, up to rounding. *)
Definition near_update (K : R) (z : nat -> float) (V : nat -> nat -> float) (c : fcomp) (x : nat -> float) (P : nat -> nat -> float) : Prop :=
  let D := precision (fc_P c) V in
  (forall i, (i < 4)%nat -> fin (x i) /\
     Rabs (val (x i) - (val (fc_x c i) + kmove (fc_x c) (fc_P c) z D i)) <=
       bpow radix2 (-53) * Rabs (val (fc_x c i)) + bpow radix2 (-47) * (K * K) *
         (sdev (fc_P c) i * (Rabs (val (z 0%nat) - val (fc_x c 0%nat)) / R_sqrt.sqrt (sprd (fc_P c) V 0 0) +
                             Rabs (val (z 1%nat) - val (fc_x c 1%nat)) / R_sqrt.sqrt (sprd (fc_P c) V 1 1)))) /\
  (forall i j, (i < 4)%nat -> (j < 4)%nat -> fin (P i j) /\
     Rabs (val (P i j) - (val (fc_P c i j) - kshrink (fc_P c) D i j)) <= bpow radix2 (-46) * (K * K) * (sdev (fc_P c) i * sdev (fc_P c) j)).
