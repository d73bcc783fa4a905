(** Properties C47-C51, C60 and C61: boxes (include/bbox.hpp), over the reals. *)
From Coq Require Import List Bool Reals Lra Lia.
Import ListNotations.
From Verif Require Import Scalar Trig GM Box BoxSpec BoxProofs.
Local Open Scope R_scope.

(** *** C47 *)
Theorem C47_intersects : forall a b, ordered a -> ordered b ->
  (a_intersects a b = true <-> exists p, in_aabb a p /\ in_aabb b p).
Proof. exact a_intersects_spec. Qed.
Print Assumptions C47_intersects.

Theorem C47_symmetric : forall a b, a_intersects a b = a_intersects b a.
Proof. exact a_intersects_sym. Qed.
Print Assumptions C47_symmetric.

Theorem C47_within : forall b p, a_within b p = true <-> in_aabb b p.
Proof. exact a_within_spec. Qed.
Print Assumptions C47_within.

Theorem C47_constructor : forall x1 y1 x2 y2,
  ordered (aabb_of4 x1 y1 x2 y2) /\
  in_aabb (aabb_of4 x1 y1 x2 y2) (x1, y1) /\ in_aabb (aabb_of4 x1 y1 x2 y2) (x2, y2).
Proof. exact of4_box. Qed.
Print Assumptions C47_constructor.

(** Boxes that touch in one edge intersect, boxes a little apart do not. *)
Example ex_aabb : ordered (mkAabb 0 0 2 2) /\ ordered (mkAabb 2 1 3 4) /\
  a_intersects (mkAabb 0 0 2 2) (mkAabb 2 1 3 4) = true /\ a_intersects (mkAabb 0 0 2 2) (mkAabb (21 / 10) 1 3 4) = false.
Proof.
  assert (O1 : ordered (mkAabb 0 0 2 2)) by (split; cbn; lra). assert (O2 : ordered (mkAabb 2 1 3 4)) by (split; cbn; lra).
  assert (O3 : ordered (mkAabb (21 / 10) 1 3 4)) by (split; cbn; lra).
  split; auto. split; auto. split.
  - apply a_intersects_spec; auto. exists (2, 1). unfold in_aabb. cbn. lra.
  - destruct (a_intersects (mkAabb 0 0 2 2) (mkAabb (21 / 10) 1 3 4)) eqn:E; auto. apply a_intersects_spec in E; auto.
    destruct E as ((x & y) & H1 & H2). unfold in_aabb in *. cbn in *. lra.
Qed.

(** *** C48: the extents along the two axes are exchanged *)
(** What AABBox(x, P, nstd) is, for every covariance and whichever
    eigenvectors the solver returns. *)
Theorem C48_extents_exchanged : forall x P d nstd, decomposes P d -> 0 <= p00 P -> 0 <= p11 P -> 0 <= det P -> 0 <= nstd ->
  a_gaussian x d nstd = mkAabb (fst x - nstd * sqrt (p11 P)) (snd x - nstd * sqrt (p00 P))
                               (fst x + nstd * sqrt (p11 P)) (snd x + nstd * sqrt (p00 P)).
Proof. exact a_gaussian_extent. Qed.
Print Assumptions C48_extents_exchanged.

(** A standard deviation of 2 along the first axis and 1 along the second. *)
Definition exP : mat2 := mkMat2 4 0 1.
Definition exD : eig := mkEig 1 4 (0, 1) (1, 0).
Example exD_decomposes : decomposes exP exD /\ positive exP.
Proof. unfold decomposes, positive, det, exP, exD. cbn. lra. Qed.

Theorem C48_extents_refuted : ~ (forall x P d nstd, decomposes P d -> positive P -> 0 <= nstd ->
  a_gaussian x d nstd = mkAabb (fst x - nstd * sqrt (p00 P)) (snd x - nstd * sqrt (p11 P))
                               (fst x + nstd * sqrt (p00 P)) (snd x + nstd * sqrt (p11 P))).
Proof. exact extents_refuted. Qed.
Print Assumptions C48_extents_refuted.

(** The box misses points of the confidence ellipse: here 3/2 from the mean
    along an axis with standard deviation 2, nstd = 1. *)
Theorem C48_ellipse_refuted : ~ (forall x P d nstd p, decomposes P d -> positive P -> 0 <= nstd ->
  mahalanobis2 x P p <= nstd * nstd -> in_aabb (a_gaussian x d nstd) p).
Proof. exact ellipse_refuted. Qed.
Print Assumptions C48_ellipse_refuted.

(** *** C49 *)
Theorem C49_ellipse_in_box : forall x P d nstd p, decomposes P d -> positive P -> 0 <= nstd ->
  mahalanobis2 x P p <= nstd * nstd ->
  in_bbox (b_gaussian x d nstd) p /\ in_aabb (b_aabbox (b_gaussian x d nstd)) p /\
  (mahalanobis2 x P p < nstd * nstd -> b_within (b_gaussian x d nstd) p = true).
Proof. exact ellipse_in_box. Qed.
Print Assumptions C49_ellipse_in_box.

(** A tilted covariance: axes (3/5, -4/5) and (4/5, 3/5), deviations 1 and 2. *)
Definition exP2 : mat2 := mkMat2 (73 / 25) (36 / 25) (52 / 25).
Definition exD2 : eig := mkEig 1 4 (3 / 5, - (4 / 5)) (4 / 5, 3 / 5).
Example exD2_decomposes : decomposes exP2 exD2 /\ positive exP2 /\ mahalanobis2 (1, 2) exP2 (2, 3) < 2 * 2.
Proof. unfold decomposes, positive, mahalanobis2, det, exP2, exD2. cbn. lra. Qed.
Example ex_ellipse : b_within (b_gaussian (1, 2) exD2 2) (2, 3) = true.
Proof.
  destruct exD2_decomposes as (H1 & H2 & H3). apply (ellipse_in_box (1, 2) exP2 exD2 2 (2, 3)); auto; lra.
Qed.

(** *** C50 *)
Theorem C50_within_axis_aligned : forall b x, ordered b ->
  (b_within (bbox_of b) x = true <-> min0 b <= fst x < max0 b /\ min1 b <= snd x < max1 b).
Proof. exact b_of_within. Qed.
Print Assumptions C50_within_axis_aligned.

(** In any direction: [within] accepts every point strictly inside and no
    point outside. *)
Theorem C50_within_oriented : forall b x, parallelogram b ->
  (inside_bbox b x -> b_within b x = true) /\ (b_within b x = true -> in_bbox b x).
Proof. exact within_oriented. Qed.
Print Assumptions C50_within_oriented.

(** A diamond, and a point in it. *)
Example ex_diamond : parallelogram (mkBBox (1, 0) (0, 1) (-1, 0) (0, -1)) /\
  b_within (mkBBox (1, 0) (0, 1) (-1, 0) (0, -1)) (1 / 2, 1 / 4) = true /\
  b_within (mkBBox (1, 0) (0, 1) (-1, 0) (0, -1)) (3 / 4, 3 / 4) = false.
Proof.
  assert (H : parallelogram (mkBBox (1, 0) (0, 1) (-1, 0) (0, -1))) by (unfold parallelogram; cbn; lra).
  split; auto. split.
  - apply within_oriented; auto. exists (5 / 8 - 1 / 16), (5 / 16), (1 / 16), (1 / 16). cbn. lra.
  - destruct (b_within _ _) eqn:E; auto. apply within_oriented in E; auto.
    destruct E as (w0 & w1 & w2 & w3 & H0 & H1 & H2 & H3 & Hs & Ex & Ey). cbn in *. lra.
Qed.

(** *** C51 *)
(** A wide bar and a tall bar that cross in the middle. *)
Definition wide : aabb := mkAabb (-5) (-1) 5 1.
Definition tall : aabb := mkAabb (-1) (-5) 1 5.
Example bars_ordered : ordered wide /\ ordered tall /\ a_intersects wide tall = true.
Proof.
  assert (O1 : ordered wide) by (split; cbn; lra). assert (O2 : ordered tall) by (split; cbn; lra).
  split; auto. split; auto. apply a_intersects_spec; auto. exists (0, 0). unfold in_aabb. cbn. lra.
Qed.

Theorem C51_symmetric_refuted : b_intersects (bbox_of wide) (bbox_of tall) = true /\ b_intersects (bbox_of tall) (bbox_of wide) = false.
Proof. exact bars_asymmetric. Qed.
Print Assumptions C51_symmetric_refuted.

(** *** C60 *)
(** A missed intersection: the bars share the points within 1 of the origin. *)
Theorem C60_missed_refuted : ~ (forall a b, parallelogram a -> parallelogram b ->
  (exists p, inside_bbox a p /\ inside_bbox b p) -> b_intersects a b = true).
Proof. exact missed_refuted. Qed.
Print Assumptions C60_missed_refuted.

(** A reported intersection of boxes that lie far apart: the diagonals' lines
    meet in one of the boxes. *)
Theorem C60_disjoint_refuted : ~ (forall a b, parallelogram a -> parallelogram b ->
  b_intersects a b = true -> exists p, in_bbox a p /\ in_bbox b p).
Proof. exact disjoint_refuted. Qed.
Print Assumptions C60_disjoint_refuted.

(** What does hold: an overlap that includes a corner (of either box strictly
    inside the other) is found in both directions, and if both directions
    answer yes the boxes do share a point. *)
Theorem C60_corner_partial : forall a b, parallelogram a -> parallelogram b ->
  (forall p, In p [c0 a; c1 a; c2 a; c3 a] -> inside_bbox b p -> b_intersects a b = true /\ b_intersects b a = true) /\
  (b_intersects a b = true -> b_intersects b a = true -> exists p, in_bbox a p /\ in_bbox b p).
Proof. exact corner_partial. Qed.
Print Assumptions C60_corner_partial.

(** *** C61 *)
Theorem C61_from_points : forall ps b, a_points ps = Some b -> smallest_box b ps.
Proof. exact a_points_smallest. Qed.
Print Assumptions C61_from_points.

Theorem C61_aabbox : forall b, smallest_box (b_aabbox b) [c0 b; c1 b; c2 b; c3 b].
Proof. exact b_aabbox_smallest. Qed.
Print Assumptions C61_aabbox.

Example ex_points : exists b, a_points [(3, 1); (2, 5); (4, 0)] = Some b /\ b = mkAabb 2 0 4 5.
Proof.
  eexists. split; [reflexivity|]. cbn. unfold Rmin, Rmax. f_equal; repeat destruct (Rle_dec _ _); lra.
Qed.
