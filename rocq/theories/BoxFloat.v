(** Model of the axis-aligned box of a Gaussian and of a mixture in IEEE double arithmetic
    (include/bbox.hpp:44-85, include/gm.hpp:57-77, include/gaussian.hpp:84-86).

    The eigenvalues of the covariance and the cosines and sines of the angle come from
    Eigen's solver and the C library; they are given by [solve]. *)
From Coq Require Import List Floats Bool.
Import ListNotations.
From Verif Require Import KalmanFloat.

(** AABBox, bbox.hpp:12-14. *)
Record fbox := mkFbox { b_x0 : float; b_y0 : float; b_x1 : float; b_y1 : float }.
(** The local variables l and the cosines and sines in from_gaussian, bbox.hpp:46-57. *)
Record frame := mkFrame { e_l0 : float; e_l1 : float; e_cu : float; e_su : float; e_cv : float; e_sv : float }.

(** AABBox::from_gaussian, bbox.hpp:50-65. *)
Definition fbox_gaussian (nstd : float) (x : fvec) (e : frame) : fbox :=
  let r1 := (nstd * PrimFloat.sqrt (e_l0 e))%float in
  let r2 := (nstd * PrimFloat.sqrt (e_l1 e))%float in
  let ux := (r1 * e_cu e)%float in let uy := (r1 * e_su e)%float in
  let vx := (r2 * e_cv e)%float in let vy := (r2 * e_sv e)%float in
  let dx := PrimFloat.sqrt (ux * ux + vx * vx) in
  let dy := PrimFloat.sqrt (uy * uy + vy * vy) in
  mkFbox (x 0 - dx) (x 1 - dy) (x 0 + dx) (x 1 + dy).

(** std::min and std::max, as the standard defines them on doubles. *)
Definition fmin (a b : float) : float := if PrimFloat.ltb b a then b else a.
Definition fmax (a b : float) : float := if PrimFloat.ltb a b then b else a.

(** One round of the loop in GM::update_local_bbox, gm.hpp:69-76. *)
Definition fgrow (b c : fbox) : fbox :=
  mkFbox (fmin (b_x0 b) (b_x0 c)) (fmin (b_y0 b) (b_y0 c)) (fmax (b_x1 b) (b_x1 c)) (fmax (b_y1 b) (b_y1 c)).
(** The member aabbox after GM::update_local_bbox, gm.hpp:57-77 (without the oriented box);
    [old] is its value before. *)
Definition fgm_box (solve : fmat -> frame) (nstd : float) (old : fbox) (cs : list (float * (fvec * fmat))) : fbox :=
  match cs with
  | [] => old
  | (_, (x, _)) :: _ => fold_left (fun b c => fgrow b (fbox_gaussian nstd (fst (snd c)) (solve (snd (snd c))))) cs (mkFbox (x 0) (x 1) (x 0) (x 1))
  end.

(** AABBox::intersects, bbox.hpp:77-80. *)
Definition fintersects (a b : fbox) : bool :=
  negb (PrimFloat.ltb (b_x1 a) (b_x0 b) || PrimFloat.ltb (b_x1 b) (b_x0 a) || PrimFloat.ltb (b_y1 b) (b_y0 a) || PrimFloat.ltb (b_y1 a) (b_y0 b)).
