(** Properties of fields of view and boxes between frames (C69, C70). *)
From Coq Require Import List Bool Reals Lra Lia.
Import ListNotations.
From Verif Require Import Scalar Cf CfSpec GM Box BoxSpec BoxProofs View ViewProofs ViewEquator.
Local Open Scope R_scope.

(** *** C69 *)
(** Full statement: a target all of whose samples lie inside the sensor's field
    of view is detected with the sensor's probability, i.e. for every
    parallelogram [fov] and origin [o], [pD p fov o samples = p] whenever every
    sample is [ll2ne ll o] for some [ll] with [inside_bbox fov ll].

    It is false of a sensor with the default field of view, wherever the target
    is: in the local frame both north corners are the north pole. *)
Theorem C69_detects_refuted : forall p o ll, -90 < fst ll < 90 -> 0 < snd ll < 180 ->
  parallelogram default_fov /\ inside_bbox default_fov ll /\ forall n, pD p default_fov o (repeat (ll2ne ll o) n) = 0.
Proof.
  intros p o ll H1 H2. split; [unfold parallelogram, default_fov; cbn; split; [lra|split; [lra|nra]]|]. split; [exact (default_inside ll H1 H2)|].
  intros n. exact (default_pD p o _).
Qed.
Print Assumptions C69_detects_refuted.
Example ex_blind : pD (99 / 100) default_fov (10, 20) [(0, 0)] = 0 /\ inside_bbox default_fov (10, 20).
Proof. split; [apply default_pD|apply default_inside; simpl; lra]. Qed.

(** Nor of any field of view around a point of the equator: near its east and
    west edges targets are not detected. *)
Theorem C69_edges_refuted : forall phi lam, 0 < phi < 90 -> 0 < lam <= 90 ->
  exists l, 0 < l < lam /\ forall p o, let fov := bbox_of (mkAabb (- phi) (o - lam) phi (o + lam)) in
    inside_bbox fov (0, o + l) /\ pD p fov (0, o) [ll2ne (0, o + l) (0, o)] = 0.
Proof.
  intros phi lam H1 H2. destruct (edge_blind phi lam H1 H2) as (l & Hl & H). exists l. split; [exact Hl|]. intros p o. split; [apply aabb_inside; simpl; lra|exact (H p o)].
Qed.
Print Assumptions C69_edges_refuted.
Example ex_edge : exists l, 0 < l < 1 /\ pD 1 (bbox_of (mkAabb (- (1)) (10 - 1) 1 (10 + 1))) (0, 10) [ll2ne (0, 10 + l) (0, 10)] = 0.
Proof. destruct (C69_edges_refuted 1 1 ltac:(lra) ltac:(lra)) as (l & Hl & H). exists l. split; auto. apply H. Qed.

(** What holds: such a field of view, with the frame at its middle, and samples
    within the box between its corners in that frame.  Missing: other fields of
    view and origins. *)
Theorem C69_detects_partial : forall p phi lam o samples, 0 < phi < 90 -> 0 < lam < 180 -> samples <> [] ->
  (forall x, In x samples -> let corner := ll2ne (phi, o + lam) (0, o) in Rabs (fst x) < fst corner /\ Rabs (snd x) < snd corner) ->
  pD p (bbox_of (mkAabb (- phi) (o - lam) phi (o + lam))) (0, o) samples = p.
Proof.
  intros p phi lam o samples H1 H2 H3 H. apply (equator_pD p phi lam o samples H1 H2 H3). intros x Hx. specialize (H x Hx). cbv zeta in H.
  rewrite ll2ne_equator_frame in H. exact H.
Qed.
Print Assumptions C69_detects_partial.
Example ex_detects : pD (9 / 10) (bbox_of (mkAabb (- (1)) (10 - 1) 1 (10 + 1))) (0, 10) [(0, 0)] = 9 / 10.
Proof.
  apply (C69_detects_partial (9 / 10) 1 1 10 [(0, 0)]); try lra; [discriminate|]. intros x [<-|[]]. cbv zeta. rewrite ll2ne_equator_frame. cbn [fst snd].
  rewrite Rabs_R0. split; [apply north_pos; lra|apply east_pos; lra].
Qed.

(** *** C70 *)
(** Full statement: the box in global coordinates of a box around the origin of
    a local frame contains that origin, i.e. [a_llaabbox o b = Some b'] implies
    [in_aabb b' o] whenever [in_aabb b (0, 0)].

    It is false at the date line: the box of a square around (0, 180) contains
    neither it nor any position less than the square's half width away from it
    along the equator. *)
Theorem C70_global_box_refuted : forall d, 0 < d <= 1000 ->
  let b := mkAabb (- d) (- d) d d in
  in_aabb b (0, 0) /\ exists b', a_llaabbox (0, 180) b = Some b' /\ ~ in_aabb b' (0, 180) /\
    exists t, 0 < t < 1 /\ forall l, (180 - t < l <= 180 -> ~ in_aabb b' (0, l)) /\ (-180 <= l < -180 + t -> ~ in_aabb b' (0, l)).
Proof.
  intros d Hd. cbv zeta. split; [unfold in_aabb; cbn; lra|]. destruct (date_line_box d Hd) as (b' & t & E & _ & Ht & E1 & E2). exists b'. split; [exact E|].
  unfold in_aabb. cbn [fst snd]. rewrite E1, E2. split; [lra|]. exists t. split; [lra|]. intros l. split; intros H; lra.
Qed.
Print Assumptions C70_global_box_refuted.
Example ex_date_line : 0 < 100 <= 1000. Proof. lra. Qed.

(** What holds: origins on the equator and boxes of up to a kilometre to each
    side that do not reach the date line.  Missing: other latitudes and larger
    boxes. *)
Theorem C70_global_box_partial : forall o b,
  -180 < o + atan (min1 b / wgs_a) * 180 / PI -> o + atan (max1 b / wgs_a) * 180 / PI <= 180 ->
  -1000 <= min0 b <= 0 -> 0 <= max0 b <= 1000 -> -1000 <= min1 b < 0 -> 0 < max1 b <= 1000 ->
  exists b', a_llaabbox (0, o) b = Some b' /\ in_aabb b' (0, o).
Proof. exact equator_box. Qed.
Print Assumptions C70_global_box_partial.
Example ex_global_box : exists b', a_llaabbox (0, 20) (mkAabb (-10) (-20) 30 40) = Some b' /\ in_aabb b' (0, 20).
Proof.
  pose proof PI_RGT_0 as HPI. assert (H : forall x, -90 < atan x * 180 / PI < 90).
  { intros x. pose proof (atan_bound x). split; apply Rmult_lt_reg_r with PI; auto; unfold Rdiv; rewrite Rmult_assoc, Rinv_l by lra; lra. }
  apply C70_global_box_partial; cbn [min0 min1 max0 max1]; try lra.
  - pose proof (H (-20 / wgs_a)). lra.
  - pose proof (H (40 / wgs_a)). lra.
Qed.
