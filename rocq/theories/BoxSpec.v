(** Specification of boxes: the sets of points they stand for. *)
From Coq Require Import List Reals.
Import ListNotations.
From Verif Require Import GM Box.
Local Open Scope R_scope.

(** The corners are in order. *)
Definition ordered (b : aabb) : Prop := min0 b <= max0 b /\ min1 b <= max1 b.

(** The points of an axis-aligned box, edges included. *)
Definition in_aabb (b : aabb) (p : pt) : Prop := min0 b <= fst p <= max0 b /\ min1 b <= snd p <= max1 b.

(** The points of an oriented box: weighted means of its corners. *)
Definition in_bbox (b : bbox) (p : pt) : Prop :=
  exists w0 w1 w2 w3, 0 <= w0 /\ 0 <= w1 /\ 0 <= w2 /\ 0 <= w3 /\ w0 + w1 + w2 + w3 = 1 /\
    fst p = w0 * fst (c0 b) + w1 * fst (c1 b) + w2 * fst (c2 b) + w3 * fst (c3 b) /\
    snd p = w0 * snd (c0 b) + w1 * snd (c1 b) + w2 * snd (c2 b) + w3 * snd (c3 b).

(** The same without the edges. *)
Definition inside_bbox (b : bbox) (p : pt) : Prop :=
  exists w0 w1 w2 w3, 0 < w0 /\ 0 < w1 /\ 0 < w2 /\ 0 < w3 /\ w0 + w1 + w2 + w3 = 1 /\
    fst p = w0 * fst (c0 b) + w1 * fst (c1 b) + w2 * fst (c2 b) + w3 * fst (c3 b) /\
    snd p = w0 * snd (c0 b) + w1 * snd (c1 b) + w2 * snd (c2 b) + w3 * snd (c3 b).

(** Opposite sides are parallel, and the area is not 0. *)
Definition parallelogram (b : bbox) : Prop :=
  fst (c0 b) + fst (c2 b) = fst (c1 b) + fst (c3 b) /\ snd (c0 b) + snd (c2 b) = snd (c1 b) + snd (c3 b) /\
  (fst (c1 b) - fst (c0 b)) * (snd (c3 b) - snd (c0 b)) - (snd (c1 b) - snd (c0 b)) * (fst (c3 b) - fst (c0 b)) <> 0.

(** A symmetric 2x2 matrix ((p00, p01), (p01, p11)). *)
Record mat2 := mkMat2 { p00 : R; p01 : R; p11 : R }.
Definition det (P : mat2) : R := p00 P * p11 P - p01 P * p01 P.
Definition positive (P : mat2) : Prop := 0 < p00 P /\ 0 < det P.

(** [d] is an eigenvalue decomposition of [P] with the smaller eigenvalue first. *)
Definition decomposes (P : mat2) (d : eig) : Prop :=
  fst (e0 d) * fst (e0 d) + snd (e0 d) * snd (e0 d) = 1 /\ fst (e1 d) * fst (e1 d) + snd (e1 d) * snd (e1 d) = 1 /\
  fst (e0 d) * fst (e1 d) + snd (e0 d) * snd (e1 d) = 0 /\
  p00 P = l0 d * (fst (e0 d) * fst (e0 d)) + l1 d * (fst (e1 d) * fst (e1 d)) /\
  p01 P = l0 d * (fst (e0 d) * snd (e0 d)) + l1 d * (fst (e1 d) * snd (e1 d)) /\
  p11 P = l0 d * (snd (e0 d) * snd (e0 d)) + l1 d * (snd (e1 d) * snd (e1 d)) /\
  l0 d <= l1 d.

(** The squared Mahalanobis distance of [p] from the Gaussian (x, P), with the
    inverse of P written out. *)
Definition mahalanobis2 (x : pt) (P : mat2) (p : pt) : R :=
  let dx := fst p - fst x in
  let dy := snd p - snd x in
  (p11 P * (dx * dx) - 2 * p01 P * (dx * dy) + p00 P * (dy * dy)) / det P.

(** [b] is the smallest axis-aligned box that contains the points [ps]. *)
Definition smallest_box (b : aabb) (ps : list pt) : Prop :=
  (forall p, In p ps -> in_aabb b p) /\
  (forall b', (forall p, In p ps -> in_aabb b' p) -> min0 b' <= min0 b /\ min1 b' <= min1 b /\ max0 b <= max0 b' /\ max1 b <= max1 b').
