(** The prediction of a Gaussian in IEEE double arithmetic: the model of constant
    velocity include/models.hpp:15-45 and include/gaussian.hpp:68-78
    [linear_update], for four states.

    As in KalmanFloat.v the order in which Eigen adds up the products of a
    coefficient stays open ([sum]); no contraction to fused operations.  [dt] is
    the scaled time step of models.hpp:16. *)
From Coq Require Import List Arith Bool Floats.
Import ListNotations.
From Verif Require Import KalmanFloat.

(** models.hpp:18-22 *)
Definition fF (dt : float) : fmat :=
  fun i j => if i =? j then 1%float else if j =? i + 2 then dt else 0%float.

(** models.hpp:32-38, before and after [Q *= q]. *)
Definition fdT2 (dt : float) : float := (dt * dt / 2)%float.
Definition fdT3 (dt : float) : float := (dt * dt * dt / 3)%float.
Definition fQ1 (dt : float) : fmat :=
  fun i j => if i =? j then (if i <? 2 then fdT3 dt else dt)
             else if (j =? i + 2) || (i =? j + 2) then fdT2 dt else 0%float.
Definition fQ (q dt : float) : fmat := fun i j => (fQ1 dt i j * q)%float.

Section Predict.
Variable sum : list float -> float.

(** gaussian.hpp:74 *)
Definition fpredx (dt : float) (x : fvec) : fvec := fprodv sum 4 (fF dt) x.
(** gaussian.hpp:75 *)
Definition fpredP (q dt : float) (P : fmat) : fmat :=
  fun i j => (fprod sum 4 (fprod sum 4 (fF dt) P) (ftr (fF dt)) i j + fQ q dt i j)%float.
End Predict.
