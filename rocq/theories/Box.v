(** Axis-aligned and oriented boxes: include/bbox.hpp, over the reals. *)
From Coq Require Import List Bool Reals.
Import ListNotations.
From Verif Require Import Scalar Trig GM.
Local Open Scope R_scope.

Definition pt : Type := R * R.

(** ** AABBox *)

(** AABBox(x1, y1, x2, y2), bbox.hpp:30-33. *)
Definition aabb_of4 (x1 y1 x2 y2 : R) : aabb := mkAabb (Rmin x1 x2) (Rmin y1 y2) (Rmax x1 x2) (Rmax y1 y2).

(** AABBox::intersects, bbox.hpp:77-80. *)
Definition a_intersects (a b : aabb) : bool :=
  negb (Rltb (max0 a) (min0 b) || Rltb (max0 b) (min0 a) || Rltb (max1 b) (min1 a) || Rltb (max1 a) (min1 b)).

(** AABBox::within, bbox.hpp:82-85. *)
Definition a_within (b : aabb) (p : pt) : bool :=
  negb (Rltb (fst p) (min0 b) || Rltb (max0 b) (fst p) || Rltb (snd p) (min1 b) || Rltb (max1 b) (snd p)).

(** The result of Eigen::SelfAdjointEigenSolver<Matrix2d>: eigenvalues and
    eigenvectors (columns). *)
Record eig := mkEig { l0 : R; l1 : R; e0 : pt; e1 : pt }.

(** AABBox::from_gaussian, bbox.hpp:44-66, with the decomposition [d] of P. *)
Definition a_gaussian (x : pt) (d : eig) (nstd : R) : aabb :=
  let r1 := nstd * sqrt (l0 d) in
  let r2 := nstd * sqrt (l1 d) in
  let theta := atan2 (snd (e1 d)) (fst (e1 d)) in
  let ux := r1 * cos theta in
  let uy := r1 * sin theta in
  let vx := r2 * cos (theta + PI / 2) in
  let vy := r2 * sin (theta + PI / 2) in
  let dx := sqrt (ux * ux + vx * vx) in
  let dy := sqrt (uy * uy + vy * vy) in
  mkAabb (fst x - dx) (snd x - dy) (fst x + dx) (snd x + dy).

(** AABBox::from_points, bbox.hpp:68-75 (minCoeff and maxCoeff of no points are
    undefined). *)
Definition a_points (ps : list pt) : option aabb :=
  match ps with
  | [] => None
  | p :: ps => Some (mkAabb (fold_left (fun a q => Rmin a (fst q)) ps (fst p)) (fold_left (fun a q => Rmin a (snd q)) ps (snd p))
                            (fold_left (fun a q => Rmax a (fst q)) ps (fst p)) (fold_left (fun a q => Rmax a (snd q)) ps (snd p)))
  end.

(** ** BBox *)

(** The columns of Corners, bbox.hpp:112-113. *)
Record bbox := mkBBox { c0 : pt; c1 : pt; c2 : pt; c3 : pt }.

(** BBox(AABBox), bbox.hpp:124-127. *)
Definition bbox_of (b : aabb) : bbox :=
  mkBBox (max0 b, max1 b) (max0 b, min1 b) (min0 b, min1 b) (min0 b, max1 b).

Definition padd (p q : pt) : pt := (fst p + fst q, snd p + snd q).
Definition psub (p q : pt) : pt := (fst p - fst q, snd p - snd q).
Definition pscale (k : R) (p : pt) : pt := (k * fst p, k * snd p).

(** BBox::from_gaussian, bbox.hpp:159-171. *)
Definition b_gaussian (x : pt) (d : eig) (nstd : R) : bbox :=
  let u := pscale (nstd * sqrt (l0 d)) (e0 d) in
  let v := pscale (nstd * sqrt (l1 d)) (e1 d) in
  mkBBox (padd (padd x u) v) (padd (psub x u) v) (psub (psub x u) v) (psub (padd x u) v).

(** BBox::aabbox, bbox.hpp:237-243. *)
Definition min4 (a b c d : R) : R := Rmin (Rmin (Rmin a b) c) d.
Definition max4 (a b c d : R) : R := Rmax (Rmax (Rmax a b) c) d.
Definition b_aabbox (b : bbox) : aabb :=
  aabb_of4 (min4 (fst (c0 b)) (fst (c1 b)) (fst (c2 b)) (fst (c3 b))) (min4 (snd (c0 b)) (snd (c1 b)) (snd (c2 b)) (snd (c3 b)))
           (max4 (fst (c0 b)) (fst (c1 b)) (fst (c2 b)) (fst (c3 b))) (max4 (snd (c0 b)) (snd (c1 b)) (snd (c2 b)) (snd (c3 b))).

(** The test of one edge, bbox.hpp:228-230. *)
Definition edge (ci cj x : pt) : bool :=
  negb (Bool.eqb (Rltb (snd x) (snd ci)) (Rltb (snd x) (snd cj))) &&
  Rltb (fst x) ((fst cj - fst ci) * (snd x - snd ci) / (snd cj - snd ci) + fst ci).

(** BBox::within, bbox.hpp:216-235. *)
Definition b_within (b : bbox) (x : pt) : bool :=
  if negb (a_within (b_aabbox b) x) then false
  else fold_left (fun c e => if edge (fst e) (snd e) x then negb c else c)
         [(c0 b, c3 b); (c1 b, c0 b); (c2 b, c1 b); (c3 b, c2 b)] false.

Definition pt_eqb (p q : pt) : bool := Reqb (fst p) (fst q) && Reqb (snd p) (snd q).

(** BBox::intersects(BBox), bbox.hpp:173-210. *)
Definition b_intersects (a b : bbox) : bool :=
  if existsb (b_within b) [c0 a; c1 a; c2 a; c3 a] then true
  else if existsb (b_within a) [c0 b; c1 b; c2 b; c3 b] then true
  else if pt_eqb (c0 a) (c0 b) && pt_eqb (c1 a) (c1 b) && pt_eqb (c2 a) (c2 b) && pt_eqb (c3 a) (c3 b) then true
  else
    let '(x1, y1) := c0 a in
    let '(x2, y2) := c2 a in
    let '(x3, y3) := c0 b in
    let '(x4, y4) := c2 b in
    let denom := (x1 - x2) * (y3 - y4) - (y1 - y2) * (x3 - x4) in
    if Rltb denom (1 / 1000000000) then false
    else b_within a (((x1 * y2 - y1 * x2) * (x3 - x4) - (x1 - x2) * (x3 * y4 - y3 * x4)) / denom,
                     ((x1 * y2 - y1 * x2) * (y3 - y4) - (y1 - y2) * (x3 * y4 - y3 * x4)) / denom).

(** BBox::intersects(AABBox), bbox.hpp:212-214. *)
Definition b_intersects_aabb (b : bbox) (a : aabb) : bool := a_intersects (b_aabbox b) a.
