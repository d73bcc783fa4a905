(** Specification: corrections and the places of targets on the Earth. *)
From Coq Require Import List Arith Bool Reals.
Import ListNotations.
From Verif Require Cf CfSpec.
From Verif Require Import Scalar GM Tracker TrackerOps.
Local Open Scope R_scope.

Section Spec.
Context {G BB Rep : Type}.
Variable op : ops G BB Rep.

(** The position of a Gaussian. *)
Definition place (g : G) : point := (g_x0 op g, g_x1 op g).

(** Changes of coordinates act on positions as cf.hpp says (where the model
    of cf::ne2ll gives a result). *)
Definition earthly : Prop :=
  (forall o g, place (g_local op o g) = Cf.ll2ne (place g) o) /\
  (forall o g p, Cf.ne2ll (place g) o = Some p -> place (g_global op o g) = p) /\
  (forall o z, r_pos op (r_local op o z) = Cf.ll2ne (r_pos op z) o) /\
  (forall o z p, Cf.ne2ll (r_pos op z) o = Some p -> r_pos op (r_global op o z) = p).

Definition between (a b x : R) : Prop := Rmin a b <= x <= Rmax a b.

(** The update by a report moves a position towards the report's. *)
Definition towards : Prop := forall z g,
  between (fst (r_pos op z)) (g_x0 op g) (g_x0 op (gain op z g)) /\
  between (snd (r_pos op z)) (g_x1 op g) (g_x1 op (gain op z g)).

(** Distance through the Earth, in metres. *)
Definition apart (p q : point) : R := sqrt (CfSpec.dist2 (Cf.ll2ecef p) (Cf.ll2ecef q)).
End Spec.
