(** C102, C103: the prediction of a Gaussian in IEEE doubles. *)
From Coq Require Import List Reals ZArith Arith.
From Flocq Require Import Core.
From Coq Require Import Floats.
From Verif Require Import FloatBase ClusterFloat KalmanFloat KalmanFloatSpec KalmanFloatWitness PredictFloat PredictFloatSpec PredictFloatWitness.
Local Open Scope R_scope.

(** The full statement is
      forall sum q dt P, (forall l, fsums l (sum l)) -> fin q -> fin dt -> usual (val q) -> usual (val dt) ->
        finite4 P -> symmetric4 P -> definite4 P -> (forall i j, i < 4 -> j < 4 -> medium0 (val (P i j))) ->
        symmetric4 (fpredP sum q dt P) /\ definite4 (fpredP sum q dt P)
    It fails, in whatever order sums are added up: one covariance becomes negative
    on the diagonal, another, of ordinary numbers, is no longer symmetric. *)
Theorem C102_double_prediction_refuted :
  (exists q dt P, fin q /\ fin dt /\ usual (val q) /\ usual (val dt) /\ finite4 P /\ symmetric4 P /\ definite4 P /\
     (forall i j, (i < 4)%nat -> (j < 4)%nat -> medium0 (val (P i j))) /\
     forall sum, (forall l, fsums l (sum l)) -> val (fpredP sum q dt P 0%nat 0%nat) < 0) /\
  (exists q dt P, fin q /\ fin dt /\ usual (val q) /\ usual (val dt) /\ finite4 P /\ symmetric4 P /\ definite4 P /\
     (forall i j, (i < 4)%nat -> (j < 4)%nat -> medium0 (val (P i j))) /\
     forall sum, (forall l, fsums l (sum l)) -> val (fpredP sum q dt P 1%nat 0%nat) < val (fpredP sum q dt P 0%nat 1%nat)).
Proof. exact (conj negative_prediction asymmetric_prediction). Qed.
Print Assumptions C102_double_prediction_refuted.

(** What holds, also for correlated axes: every coefficient is finite and within
    2^-50 of the exact one, relative to the absolute values of what goes into it;
    only the covariance of the two positions can differ from its mirror image, and
    it does not when the axes are uncorrelated; and the result is positive definite,
    read whole or from its lower half, when the exact one is so by more than the
    rounding.  Missing: the two refuted cases. *)
Theorem C102_double_prediction_partial : forall sum q dt P,
  (forall l, fsums l (sum l)) -> fin q -> fin dt -> usual (val q) -> usual (val dt) ->
  finite4 P -> symmetric4 P -> definite4 P -> (forall i j, (i < 4)%nat -> (j < 4)%nat -> medium0 (val (P i j))) ->
  (forall i j, (i < 4)%nat -> (j < 4)%nat -> fin (fpredP sum q dt P i j) /\
     Rabs (val (fpredP sum q dt P i j) - spread (val q) (val dt) P i j) <= bpow radix2 (-50) * bulk (val q) (val dt) P i j) /\
  (forall i j, (i < 4)%nat -> (j < 4)%nat -> ~ (i < 2 /\ j < 2)%nat -> val (fpredP sum q dt P i j) = val (fpredP sum q dt P j i)) /\
  (separate4 P -> symmetric4 (fpredP sum q dt P)) /\
  (roomy (val q) (val dt) P -> definite4 (fpredP sum q dt P) /\ definite4 (lower (fpredP sum q dt P))).
Proof. exact double_prediction. Qed.
Print Assumptions C102_double_prediction_partial.

(** Variances 100, correlated axes, the time step 0.1, the noise 1. *)
Example predicted_in_doubles : forall sum, (forall l, fsums l (sum l)) ->
  definite4 (fpredP sum 1 tenth tilted) /\ definite4 (lower (fpredP sum 1 tenth tilted)).
Proof.
  intros sum Hs. destruct tilted_ok as (A1 & A2 & A3 & A5).
  destruct (C102_double_prediction_partial sum 1 tenth tilted Hs (proj1 v1) (proj1 itenth) usual_1 usual_tenth A1 A2 A3 A5) as (_ & _ & _ & H).
  exact (H tilted_roomy).
Qed.

(** The mean: velocities stay as they are, positions are within 2^-51 of the exact
    ones, relative to the absolute values of position and way. *)
Theorem C103_double_drift : forall sum dt x, (forall l, fsums l (sum l)) -> fin dt -> usual (val dt) ->
  (forall i, (i < 4)%nat -> fin (x i) /\ Rabs (val (x i)) <= bpow radix2 200) -> forall i, (i < 4)%nat ->
  fin (fpredx sum dt x i) /\
  Rabs (val (fpredx sum dt x i) - drift (val dt) x i) <= bpow radix2 (-51) * reach (val dt) x i + bpow radix2 (-1074) /\
  ((2 <= i)%nat -> val (fpredx sum dt x i) = val (x i)).
Proof. exact double_drift. Qed.
Print Assumptions C103_double_drift.

(** A target at 3, 0 with velocity 1, 20, a tenth of a second later. *)
Example drifted_in_doubles : forall sum, (forall l, fsums l (sum l)) -> forall i, (i < 4)%nat ->
  fin (fpredx sum tenth (fun i => nth i (3 :: 0 :: 1 :: 20 :: nil)%float 0%float) i).
Proof. intros sum Hs i Hi. exact (proj1 (C103_double_drift sum _ _ Hs (proj1 itenth) usual_tenth moved_state i Hi)). Qed.
