(** Model of the motion models: include/models.hpp:6-45 [CV] and 58-72 [NM], with
    include/gaussian.hpp:68-78 [linear_update] and include/gm.hpp:115-121, for a
    state of four coefficients.

    A target is its existence probability and the components of its density in
    the local frame.  A vector or matrix is a function of its indices, of which
    only 0..3 count.  Arithmetic is exact. *)
From Coq Require Import List Arith Reals.
Import ListNotations.
From Verif Require Import Scalar Metric.
Local Open Scope R_scope.

Definition vec := nat -> R.
Definition mat := nat -> nat -> R.

Definition sum4 (f : nat -> R) : R := f 0%nat + f 1%nat + f 2%nat + f 3%nat.
Definition mulv (A : mat) (x : vec) : vec := fun i => sum4 (fun k => A i k * x k).
Definition mulm (A B : mat) : mat := fun i j => sum4 (fun k => A i k * B k j).
Definition trm (A : mat) : mat := fun i j => A j i.
Definition addm (A B : mat) : mat := fun i j => A i j + B i j.

Record gauss := mkG { gw : R; gx : vec; gP : mat }.

(** gaussian.hpp:66-78. *)
Definition linear_update (F Q : mat) (g : gauss) : gauss :=
  mkG (gw g) (mulv F (gx g)) (addm (mulm (mulm F (gP g)) (trm F)) Q).

Record tgt := mkT { t_r : ext R; t_pdf : list gauss }.

(** A matrix given row by row ([F << 1, 0, ...]). *)
Definition rows (l : list (list R)) : mat := fun i j => nth j (nth i l []) 0.

(** models.hpp:18-22 *)
Definition cv_F (dT : R) : mat :=
  rows [[1; 0; dT; 0];
        [0; 1; 0; dT];
        [0; 0; 1; 0];
        [0; 0; 0; 1]].

(** models.hpp:32-38 *)
Definition cv_Q (q dT : R) : mat :=
  let dT2 := dT * dT / 2 in
  let dT3 := dT * dT * dT / 3 in
  fun i j => q * rows [[dT3; 0; dT2; 0];
                       [0; dT3; 0; dT2];
                       [dT2; 0; dT; 0];
                       [0; dT2; 0; dT]] i j.

(** models.hpp:15-45.  [tscale] is params->tscale; [CV]'s own field of that name
    is not read. *)
Definition cv (pS q tscale : R) (time last : R) (t : tgt) : tgt :=
  let dT := (time - last) / tscale in
  mkT (nmul extR (t_r t) (std_pow (Fin pS) dT))
      (map (linear_update (cv_F dT) (cv_Q q dT)) (t_pdf t)).

(** models.hpp:66-71: the identity matrix and a constant Q. *)
Definition nm_F : mat := fun i j => if Nat.eqb i j then 1 else 0.
Definition nm (pS : R) (Q : mat) (t : tgt) : tgt :=
  mkT (nmul extR (t_r t) (Fin pS)) (map (linear_update nm_F Q) (t_pdf t)).

(** models.hpp:47-55 [CV::predict]. *)
Definition cv_predict (x : vec) (dT : R) : vec := mulv (cv_F dT) x.
