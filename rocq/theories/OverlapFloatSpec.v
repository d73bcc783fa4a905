(** What is asked of the overlap in doubles.  Independent of the model. *)
From Coq Require Import List Reals.
Import ListNotations.
From Coq Require Import Floats.
From Verif Require Import FloatBase.
Local Open Scope R_scope.

(** The share of samples within the box. *)
Definition sample_share (within : list bool) : R := INR (count_occ Bool.bool_dec within true) / INR (length within).
(** The weighted share of a mixture, not rounded. *)
Fixpoint mixture_share (c : list (float * list bool)) : R :=
  match c with [] => 0 | (w, b) :: l => val w * sample_share b + mixture_share l end.
