(** The likelihood of a report in IEEE double arithmetic: include/report.hpp:33-37
    for a report of two coordinates, called at include/gaussian.hpp:37.

    [expf] is std::exp and [powf] std::pow (the exponent dz.size() is converted to
    double); the square root is IEEE's.  As in KalmanFloat.v the order in which
    Eigen adds up the products of a coefficient stays open ([sum]); no contraction
    to fused operations. *)
From Coq Require Import List Arith Bool Floats.
Import ListNotations.
From Verif Require Import KalmanFloat.

(** M_PI of math.h *)
Definition fpi : float := 0x1.921fb54442d18p+1%float.

Section Likelihood.
Variable sum : list float -> float.
Variables (expf : float -> float) (powf : float -> float -> float).

(** gaussian.hpp:32, sensors.hpp:38-41 *)
Definition fdz (x z : fvec) : fvec := fun k => (z k - fprodv sum 4 fH x k)%float.
(** report.hpp:35: dz.transpose() * Dinv * dz *)
Definition fquad (dz : fvec) (D : fmat) : float := fprodv sum 2 (fprod sum 2 (fun _ k => dz k) D) dz 0.
(** report.hpp:35-36 *)
Definition flik (dz : fvec) (D : fmat) : float :=
  (expf (- fquad dz D * 0.5) * PrimFloat.sqrt (fdet2 D / powf (2 * fpi) 2))%float.
(** gaussian.hpp:32-33, 37: the likelihood of the report for a component. *)
Definition flikelihood (x : fvec) (P : fmat) (z : fvec) (R : fmat) : float := flik (fdz x z) (finv2 (finnov sum P R)).
End Likelihood.
