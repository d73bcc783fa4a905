(** What is asked of Target_::pos_phd.  Independent of the model but for the record of a
    component. *)
From Coq Require Import List Reals.
Import ListNotations.
From Verif Require Import PosPdf.
Local Open Scope R_scope.

Definition det (c : pcomp) : R := pc_00 c * pc_11 c - pc_01 c * pc_10 c.
Definition symmetric (c : pcomp) : Prop := pc_10 c = pc_01 c.
(** Positive definite. *)
Definition definite (c : pcomp) : Prop :=
  forall u v, (u, v) <> (0, 0) -> 0 < pc_00 c * (u * u) + (pc_01 c + pc_10 c) * (u * v) + pc_11 c * (v * v).

(** The Gaussian density of the component at a point, inverse by Cramer's rule. *)
Definition density (c : pcomp) (p : R * R) : R :=
  let u := fst p - fst (pc_x c) in let v := snd p - snd (pc_x c) in
  exp (- (pc_11 c * (u * u) - (pc_01 c + pc_10 c) * (u * v) + pc_00 c * (v * v)) / (2 * det c)) / (2 * PI * sqrt (det c)).

Definition sum_at {A} (f : A -> R) (l : list A) : R := fold_right (fun x s => f x + s) 0 l.

(** The part of a component that a point gets: its density relative to that of all
    points, or nothing if the points have hardly any. *)
Definition part (c : pcomp) (points : list (R * R)) (p : R * R) : R :=
  let s := sum_at (density c) points in
  if Rlt_dec (1 / 10000000) s then density c p / s else 0.
Definition near (points : list (R * R)) (c : pcomp) : Prop := 1 / 10000000 < sum_at (density c) points.
