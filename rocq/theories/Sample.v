(** Model of nrand, include/statistics.hpp:9-18, and of the samples that
    Gaussian_::overlap counts, include/gaussian.hpp:92-95, 122-148.

    Arithmetic is exact.  The eigenvectors and eigenvalues are those the solver
    of statistics.hpp:11 returns; the generator of statistics.inc:17-19 is the
    sequence of its values.  Eigen evaluates the vector of normals of one column
    once and in order (statistics.hpp:15-16). *)
From Coq Require Import Reals List.
From mathcomp Require Import all_ssreflect ssralg ssrnum zmodp matrix.
From Verif Require Import Scalar Cf GM Box View RField.
Set Implicit Arguments. Unset Strict Implicit. Unset Printing Implicit Defensive.
Local Open Scope ring_scope.

(** statistics.hpp:12-13: eigenvectors times the roots of the eigenvalues. *)
Definition transform n (V : 'M[R]_n) (d : 'rV[R]_n) : 'M[R]_n := V *m diag_mx (map_mx R_sqrt.sqrt d).

(** statistics.hpp:14-17: the columns of [res], one after the other; [gen k] is
    the k-th value of the generator, [k0] of them have been used before. *)
Definition nrand n (mean : 'cV[R]_n) (V : 'M[R]_n) (d : 'rV[R]_n) (gen : nat -> R) (k0 cols : nat) : 'M[R]_(n, cols) :=
  \matrix_(k, i) (mean + transform V d *m \col_l gen (k0 + i * n + l)%N) k 0.

(** gaussian.hpp:124-125, 129: the positions of the samples of a Gaussian of four
    states. *)
Definition positions cols (S : 'M[R]_(2 + 2, cols)) : list pt :=
  [seq (S (inord 0) i, S (inord 1) i) | i <- enum 'I_cols].

(** Gaussian_::overlap(BBox), gaussian.hpp:122-134. *)
Definition drawn_overlap (b : bbox) mean V d gen k0 cols : R := overlap b (positions (nrand mean V d gen k0 cols)).

(** PositionSensor::pD, sensors.hpp:43-46, on such samples. *)
Definition drawn_pD (p : R) (fov : bbox) (o : pt) mean V d gen k0 cols : R :=
  pD p fov o (positions (nrand mean V d gen k0 cols)).
