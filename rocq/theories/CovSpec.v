(** What is asked of reports, sensors and motion models so that covariances stay
    positive definite. *)
From Coq Require Import Reals List.
From mathcomp Require Import all_ssreflect ssralg ssrnum zmodp matrix mxalgebra.
From Verif Require Import Scalar GM TrackerOps Kalman KalmanSpec RField GaussOps.
Set Implicit Arguments. Unset Strict Implicit. Unset Printing Implicit Defensive.
Local Open Scope ring_scope.

Notation RF := R_realFieldType.

(** Process noise that is no negative variance. *)
Definition good_model (m : model) : Prop :=
  match m with CV _ q => Rle 0 q | NM _ Q => @psd RF _ (nmQ Q) end.

(** Positive definite covariances of the position and, for newborns, of the
    velocity. *)
Definition good_report (z : rep) : Prop := @pd RF _ (zP z) /\ @pd RF _ (zpv z).

Definition good_gauss (g : gauss) : Prop := @pd RF _ (gP g).

(** The covariance matrix of a mixture. *)
Definition mixcov (c : list (R * gauss)) : 'M[R]_(2 + 2) := \matrix_(i, j) covij i j c.
