(** Expected values, and what is asked of samples of a Gaussian.  Independent of
    the model. *)
From Coq Require Import Reals.
From mathcomp Require Import all_ssreflect ssralg ssrnum zmodp matrix.
From Verif Require Import RField.
Set Implicit Arguments. Unset Strict Implicit. Unset Printing Implicit Defensive.
Local Open Scope ring_scope.

(** An expected value on random numbers (functions of the outcome [W]): defined
    for the integrable ones, linear, monotone, and 1 for the constant 1. *)
Record expectation (W : Type) := Expectation {
  integrable : (W -> R) -> Prop;
  ev : (W -> R) -> R;
  ev_ext : forall f g, f =1 g -> integrable f -> integrable g /\ ev g = ev f;
  ev_const : forall c, integrable (fun _ => c) /\ ev (fun _ => c) = c;
  ev_add : forall f g, integrable f -> integrable g ->
    integrable (fun w => f w + g w) /\ ev (fun w => f w + g w) = ev f + ev g;
  ev_scale : forall c f, integrable f -> integrable (fun w => c * f w) /\ ev (fun w => c * f w) = c * ev f;
  ev_mono : forall f g, integrable f -> integrable g -> (forall w, Rle (f w) (g w)) -> Rle (ev f) (ev g) }.

(** [f] is integrable and its expected value is [x]. *)
Definition expected W (X : expectation W) (f : W -> R) (x : R) : Prop := integrable X f /\ ev X f = x.

(** The first [m] random numbers have mean 0 and variance 1 and no correlation;
    the values of a generator of standard normals are such. *)
Definition white W (X : expectation W) (z : nat -> W -> R) (m : nat) : Prop :=
  (forall i, (i < m)%N -> expected X (z i) 0) /\
  (forall i j, (i < m)%N -> (j < m)%N -> expected X (fun w => z i w * z j w) (if i == j then 1 else 0)).

(** The [i]-th group of [n] successive numbers from [k0] on. *)
Definition group W n (z : nat -> W -> R) (k0 i : nat) (w : W) : 'cV[R]_n := \col_l z (k0 + i * n + l)%N w.
Definition one (b : bool) : R := if b then 1 else 0.

(** The first [m] groups of [n] numbers are independent (two at a time) and
    distributed alike, as far as the event [a] is concerned: it has probability
    [p] in each group and [p * p] in two groups. *)
Definition independent W (X : expectation W) n (z : nat -> W -> R) (k0 m : nat) (a : 'cV[R]_n -> bool) (p : R) : Prop :=
  (forall i, (i < m)%N -> expected X (fun w => one (a (group n z k0 i w))) p) /\
  (forall i j, (i < m)%N -> (j < m)%N -> i <> j ->
    expected X (fun w => one (a (group n z k0 i w)) * one (a (group n z k0 j w))) (p * p)).

(** What an eigenvalue solver for symmetric matrices returns: orthonormal
    eigenvectors (columns of [V]) and eigenvalues. *)
Definition eigen n (P V : 'M[R]_n) (d : 'rV[R]_n) : Prop := V *m V^T = 1%:M /\ P = V *m diag_mx d *m V^T.

(** The position in a state of position and velocity. *)
Definition pos2 (x : 'cV[R]_(2 + 2)) : R * R := (x (inord 0) 0, x (inord 1) 0).
