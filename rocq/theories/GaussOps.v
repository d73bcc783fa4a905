(** The operations of TrackerOps.v on real Gaussians of four states (position and
    velocity): means and covariances as matrices, the Kalman step of Kalman.v.

    The state is 2 + 2 coefficients, matrices are given by their 2 x 2 blocks.
    Changes of coordinates, boxes and the field of view stay open ([ll2ne],
    [ne2ll], [gbox], ...); they touch no covariance.  Arithmetic is exact. *)
From Coq Require Import Reals List.
From mathcomp Require Import all_ssreflect ssralg ssrnum zmodp matrix mxalgebra.
From Verif Require Import Scalar RTree GM TrackerOps Kalman RField.
Set Implicit Arguments. Unset Strict Implicit. Unset Printing Implicit Defensive.
Local Open Scope ring_scope.

Definition i0 : 'I_(2 + 2) := inord 0.
Definition i1 : 'I_(2 + 2) := inord 1.

(** Gaussian_<4>::x and P, gaussian.hpp:18-19. *)
Record gauss := Gauss { gx : 'cV[R]_(2 + 2); gP : 'M[R]_(2 + 2) }.

(** GaussianReport_<2>, report.hpp:11-31: mean, covariance and kappa, which the
    program divides by (gaussian.hpp:37) and is taken as positive; [zpv] is the
    matrix pv of the sensor that made the scan (sensors.hpp:24). *)
Record rep := Rep { zx : 'cV[R]_2; zP : 'M[R]_2; zkappa : posreal; zpv : 'M[R]_2 }.

(** PositionSensor::H, sensors.hpp:22: ObservationMatrix::Identity(). *)
Definition obs : 'M[R]_(2, 2 + 2) := row_mx 1%:M 0.

(** models.hpp:18-22. *)
Definition cvF (dT : R) : 'M[R]_(2 + 2) := block_mx 1%:M dT%:M 0 1%:M.
(** models.hpp:32-38. *)
Definition cvQ (q dT : R) : 'M[R]_(2 + 2) :=
  let dT2 := Rdiv (Rmult dT dT) (IZR 2) in
  let dT3 := Rdiv (Rmult (Rmult dT dT) dT) (IZR 3) in
  q *: block_mx dT3%:M dT2%:M dT2%:M dT%:M.
(** NM::Q, models.hpp:61-65. *)
Definition nmQ (Q : list (list R)) : 'M[R]_(2 + 2) := \matrix_(i, j) List.nth j (List.nth i Q nil) R0.

Definition as_gaussian (g : gauss) : gaussian R_realFieldType (2 + 2) := Gaussian (gx g) (gP g) (1 : R).
Definition as_report (z : rep) : report R_realFieldType 2 := Report (zx z) (zP z) (zkappa z : R).
Definition of_gaussian (g : gaussian R_realFieldType (2 + 2)) : gauss := Gauss (mean g) (cov g).

(** linear_update, gaussian.hpp:68-78. *)
Definition lin (A Q : 'M[R]_(2 + 2)) (g : gauss) : gauss := of_gaussian (linear_update A Q (as_gaussian g)).

(** Gaussian_::correct, gaussian.hpp:30-42: mean and covariance, and z.likelihood(dz, Dinv). *)
Definition kgain (z : rep) (g : gauss) : gauss :=
  of_gaussian (correct Rtrigo_def.exp R_sqrt.sqrt Rtrigo1.PI obs (1 : R) (as_report z) (as_gaussian g)).
Definition klik (z : rep) (g : gauss) : R :=
  likelihood Rtrigo_def.exp R_sqrt.sqrt Rtrigo1.PI (zx z - obs *m gx g) (invmx (innovation obs (as_gaussian g) (as_report z))).

(** pdf_init1, sensors.hpp:66-76. *)
Definition born (z : rep) : gauss := Gauss (col_mx (zx z) 0) (block_mx (zP z) 0 0 (zpv z)).

(** transform_to_local and transform_to_global of a Gaussian or report,
    gaussian.hpp:158-164: only the position changes. *)
Definition put2 (p : point) : 'cV[R]_2 := \col_i (if (i : nat) == 0%N then fst p else snd p).
Definition moved (f : point -> point -> point) (o : point) (g : gauss) : gauss :=
  Gauss (col_mx (put2 (f (gx g i0 0, gx g i1 0) o)) (dsubmx (gx g))) (gP g).
Definition rmoved (f : point -> point -> point) (o : point) (z : rep) : rep :=
  Rep (put2 (f (zx z 0 0, zx z 1 0) o)) (zP z) (zkappa z) (zpv z).

(** One entry of a mixture's covariance, GM::cov, gm.hpp:238-250. *)
Definition covij (i j : 'I_(2 + 2)) (c : list (R * gauss)) : R :=
  GM.cov (fun g => gP g i j) (fun g => gx g i 0) (fun g => gx g j 0) c.

Section Ops.
Variable BB : Type.
Variables ll2ne ne2ll : point -> point -> point.
Variable gbox : gauss -> aabb.
Variable bof : list (R * gauss) -> BB.
Variable bll : point -> BB -> BB.
Variables rlo rhi : rep -> point.

(** poscov().norm(): Frobenius norm of the position block, gm.hpp:260-262. *)
Definition posnorm (c : list (R * gauss)) : ext R :=
  let sq x := Rmult x x in
  Fin (R_sqrt.sqrt (Rplus (Rplus (sq (covij i0 i0 c)) (sq (covij i0 i1 c))) (Rplus (sq (covij i1 i0 c)) (sq (covij i1 i1 c))))).

Definition gauss_ops : ops gauss BB rep := {|
  TrackerOps.ne2ll := ne2ll;
  g_x0 := fun g => gx g i0 0;
  g_x1 := fun g => gx g i1 0;
  g_box := gbox;
  g_local := moved ll2ne;
  g_global := moved ne2ll;
  g_cv := fun q dT => lin (cvF dT) (cvQ q dT);
  g_nm := fun Q => lin 1%:M (nmQ Q);
  b_of := bof;
  b_ll := bll;
  c_norm := posnorm;
  r_pos := fun z => (zx z 0 0, zx z 1 0);
  r_local := rmoved ll2ne;
  r_global := rmoved ne2ll;
  r_box := fun z => mkRect (Fin (fst (rlo z))) (Fin (snd (rlo z))) (Fin (fst (rhi z))) (Fin (snd (rhi z)));
  r_kappa := fun z => zkappa z : R;
  lik := klik;
  TrackerOps.gain := kgain;
  r_init := born |}.
End Ops.
