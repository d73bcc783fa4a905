(** Proofs about fields of view and boxes between frames. *)
From Coq Require Import List Bool Reals Lra Lia.
Import ListNotations.
From Verif Require Import Scalar Trig Cf CfSpec CfProofs CfMain GM Box BoxSpec BoxProofs EvalGeo View.
Local Open Scope R_scope.

Lemma sind_0 : sind 0 = 0.
Proof. unfold sind. replace (0 * PI / 180) with 0 by field. apply sin_0. Qed.
Lemma cosd_0 : cosd 0 = 1.
Proof. unfold cosd. replace (0 * PI / 180) with 0 by field. apply cos_0. Qed.
Lemma cosd_90 : cosd 90 = 0.
Proof. unfold cosd. replace (90 * PI / 180) with (PI / 2) by field. apply cos_PI2. Qed.
Lemma sind_opp x : sind (- x) = - sind x.
Proof. unfold sind. replace (- x * PI / 180) with (- (x * PI / 180)) by field. apply sin_neg. Qed.
Lemma cosd_opp x : cosd (- x) = cosd x.
Proof. unfold cosd. replace (- x * PI / 180) with (- (x * PI / 180)) by field. apply cos_neg. Qed.

(** All longitudes meet at the poles. *)
Lemma pole_north x y : ll2ecef (90, x) = ll2ecef (90, y).
Proof. unfold ll2ecef. cbn [fst snd]. rewrite cosd_90. f_equal; ring. Qed.
Lemma pole_south x y : ll2ecef (-90, x) = ll2ecef (-90, y).
Proof. unfold ll2ecef. cbn [fst snd]. replace (-90) with (- (90)) by lra. rewrite cosd_opp, cosd_90. f_equal; ring. Qed.

(** A box collapsed to a segment. *)
Lemma flat_within n s x : b_within (mkBBox n n s s) x = false.
Proof.
  unfold b_within. cbn [c0 c1 c2 c3]. destruct (negb _); auto. cbn [fold_left fst snd].
  rewrite (no_edge n n) by reflexivity. rewrite (no_edge s s) by reflexivity.
  assert (E : edge n s x = edge s n x).
  { unfold edge. destruct (Rltb_spec (snd x) (snd n)), (Rltb_spec (snd x) (snd s)); simpl; auto; f_equal; field; lra. }
  rewrite E. destruct (edge s n x); reflexivity.
Qed.

Lemma default_blind o x : b_within (nebbox o default_fov) x = false.
Proof.
  unfold nebbox, default_fov, ll2ne. cbn [c0 c1 c2 c3]. rewrite (pole_north 180 0), (pole_south 180 0). apply flat_within.
Qed.

Lemma default_pD p o samples : pD p default_fov o samples = 0.
Proof.
  unfold pD, overlap. replace (filter (b_within (nebbox o default_fov)) samples) with (@nil pt).
  - cbn [length]. cbn [INR]. unfold Rdiv. ring.
  - induction samples as [|x l IH]; auto. simpl. rewrite default_blind. auto.
Qed.

Lemma all_within b samples : samples <> [] -> (forall x, In x samples -> b_within b x = true) -> overlap b samples = 1.
Proof.
  intros Hn H. unfold overlap. replace (filter (b_within b) samples) with samples.
  - unfold Rdiv. apply Rinv_r. destruct samples; [congruence|]. change (length (p :: samples)) with (S (length samples)). rewrite S_INR. pose proof (pos_INR (length samples)). lra.
  - induction samples as [|x l IH]; auto. simpl. rewrite (H x) by (simpl; auto). f_equal. destruct l; auto. apply IH; [congruence|]. intros. apply H. simpl in *. auto.
Qed.

(** A field of view symmetric to the equator, seen from its middle. *)
Definition north (lat : R) : R := wgs_a / sqrt (1 - wgs_e2 * (sind lat * sind lat)) * (1 - wgs_e2) * sind lat.
Definition east (lat lon : R) : R := wgs_a / sqrt (1 - wgs_e2 * (sind lat * sind lat)) * cosd lat * sind lon.

Lemma ll2ne_equator_frame lat l o : ll2ne (lat, o + l) (0, o) = (north lat, east lat l).
Proof.
  unfold ll2ne, ecef2ne, nerot, ll2ecef, vsub, dot, north, east. cbn [fst snd vx vy vz]. rewrite sind_0, cosd_0.
  replace (1 - wgs_e2 * (0 * 0)) with 1 by ring. rewrite sqrt_1. unfold Rdiv. rewrite Rinv_1.
  replace (sind l) with (sind (o + l) * cosd o - cosd (o + l) * sind o).
  2: { unfold sind, cosd. rewrite <- sin_minus. f_equal. field. }
  f_equal; ring.
Qed.

Lemma equator_fov phi lam o : nebbox (0, o) (bbox_of (mkAabb (- phi) (o - lam) phi (o + lam))) =
  bbox_of (mkAabb (- north phi) (- east phi lam) (north phi) (east phi lam)).
Proof.
  unfold nebbox, bbox_of. cbn [c0 c1 c2 c3 min0 min1 max0 max1]. replace (o - lam) with (o + - lam) by ring. rewrite !ll2ne_equator_frame.
  assert (En : north (- phi) = - north phi) by (unfold north; rewrite sind_opp; replace (- sind phi * - sind phi) with (sind phi * sind phi) by ring; ring).
  assert (E1 : forall l, east (- phi) l = east phi l) by (intros; unfold east; rewrite sind_opp, cosd_opp; replace (- sind phi * - sind phi) with (sind phi * sind phi) by ring; ring).
  assert (E2 : forall p l, east p (- l) = - east p l) by (intros; unfold east; rewrite sind_opp; ring).
  rewrite En, !E1, !E2. reflexivity.
Qed.

Lemma north_pos phi : 0 < phi < 90 -> 0 < north phi.
Proof.
  intros H. unfold north. pose proof (n_arg phi). pose proof e2_range. pose proof a_pos. pose proof PI_RGT_0.
  assert (0 < sind phi) by (apply sin_gt_0; nra). assert (0 < / sqrt (1 - wgs_e2 * (sind phi * sind phi))) by (apply Rinv_0_lt_compat, sqrt_lt_R0; auto).
  unfold Rdiv. repeat apply Rmult_lt_0_compat; auto; lra.
Qed.
Lemma east_pos phi lam : 0 < phi < 90 -> 0 < lam < 180 -> 0 < east phi lam.
Proof.
  intros H Hl. unfold east. pose proof (n_arg phi). pose proof a_pos. pose proof PI_RGT_0.
  assert (0 < sind lam) by (apply sin_gt_0; nra). assert (0 < cosd phi) by (apply cos_gt_0; nra).
  assert (0 < / sqrt (1 - wgs_e2 * (sind phi * sind phi))) by (apply Rinv_0_lt_compat, sqrt_lt_R0; auto).
  unfold Rdiv. repeat apply Rmult_lt_0_compat; auto.
Qed.

Lemma equator_pD p phi lam o samples : 0 < phi < 90 -> 0 < lam < 180 -> samples <> [] ->
  (forall x, In x samples -> Rabs (fst x) < north phi /\ Rabs (snd x) < east phi lam) ->
  pD p (bbox_of (mkAabb (- phi) (o - lam) phi (o + lam))) (0, o) samples = p.
Proof.
  intros Hp Hl Hn H. pose proof (north_pos phi Hp). pose proof (east_pos phi lam Hp Hl). unfold pD. rewrite equator_fov, all_within; auto; [ring|].
  intros x Hx. destruct (H x Hx) as (Ha & Hb). apply Rabs_def2 in Ha, Hb. apply b_of_within; [split; simpl; lra|]. simpl. lra.
Qed.

(** Near the equator the parallels are longer than the north and south edges of
    the field of view, which bound the local box. *)
Lemma east_edge phi lam : 0 < phi < 90 -> 0 < lam <= 90 -> east phi lam < wgs_a * sind lam.
Proof.
  intros H Hl. unfold east. pose proof (n_arg phi) as Hn. pose proof e2_range as He. pose proof a_pos. pose proof PI_RGT_0.
  assert (Hs : 0 < sind phi) by (apply sin_gt_0; nra). assert (Hc : 0 < cosd phi) by (apply cos_gt_0; nra). assert (Hsl : 0 < sind lam) by (apply sin_gt_0; nra).
  set (w := 1 - wgs_e2 * (sind phi * sind phi)) in *. assert (Hq : 0 < sqrt w) by (apply sqrt_lt_R0; auto).
  assert (Hcw : cosd phi < sqrt w).
  { apply Rsqr_incrst_0; try lra. rewrite Rsqr_sqrt by lra. unfold w, Rsqr. pose proof (sin2_cos2 (phi * PI / 180)) as E. unfold Rsqr in E. fold (sind phi) (cosd phi) in E.
    assert (0 < sind phi * sind phi) by nra. nra. }
  assert (E : cosd phi / sqrt w < 1) by (apply Rmult_lt_reg_r with (sqrt w); auto; unfold Rdiv; rewrite Rmult_assoc, Rinv_l by lra; lra).
  replace (wgs_a / sqrt w * cosd phi * sind lam) with (wgs_a * sind lam * (cosd phi / sqrt w)) by (field; lra).
  assert (0 < wgs_a * sind lam) by (apply Rmult_lt_0_compat; auto). nra.
Qed.

Lemma edge_blind phi lam : 0 < phi < 90 -> 0 < lam <= 90 ->
  exists l, 0 < l < lam /\ forall p o, pD p (bbox_of (mkAabb (- phi) (o - lam) phi (o + lam))) (0, o) [ll2ne (0, o + l) (0, o)] = 0.
Proof.
  intros Hp Hl. pose proof (east_edge phi lam Hp Hl) as He. pose proof (east_pos phi lam Hp ltac:(lra)) as He0. pose proof (north_pos phi Hp) as Hn. pose proof a_pos as Ha. pose proof PI_RGT_0 as HPI.
  set (y := east phi lam / wgs_a). assert (Ey : wgs_a * y = east phi lam) by (unfold y; field; lra).
  assert (Hs1 : sind lam <= 1) by (apply SIN_bound). assert (Hy : 0 < y < 1) by (split; nra).
  pose proof (asin_bound_lt y ltac:(lra)) as Hb. assert (Hpos : 0 < asin y) by (apply sin_increasing_0; [lra|lra|lra|lra|rewrite sin_0, sin_asin; lra]).
  assert (Es : sind (asin y * 180 / PI) = y) by (unfold sind; replace (asin y * 180 / PI * PI / 180) with (asin y) by (field; lra); apply sin_asin; lra).
  exists (asin y * 180 / PI). split.
  - split; [apply Rmult_lt_0_compat; [lra|apply Rinv_0_lt_compat; auto]|].
    assert (asin y < lam * PI / 180).
    { apply sin_increasing_0; try nra. rewrite sin_asin by lra. fold (sind lam). apply Rmult_lt_reg_l with wgs_a; auto. lra. }
    apply Rmult_lt_reg_r with PI; auto. unfold Rdiv. rewrite Rmult_assoc, Rinv_l by lra. lra.
  - intros p o. unfold pD. rewrite equator_fov, ll2ne_equator_frame. unfold overlap. cbn [filter].
    assert (E0 : east 0 (asin y * 180 / PI) = east phi lam).
    { unfold east at 1. rewrite Es, sind_0, cosd_0. replace (1 - wgs_e2 * (0 * 0)) with 1 by ring. rewrite sqrt_1. rewrite <- Ey. field. }
    destruct (b_within _ _) eqn:E; [|cbn; unfold Rdiv; ring]. apply b_of_within in E; [|split; simpl; lra]. simpl in E. rewrite E0 in E. lra.
Qed.

Lemma default_inside ll : -90 < fst ll < 90 -> 0 < snd ll < 180 -> inside_bbox default_fov ll.
Proof.
  intros Hu Hv. set (u := (fst ll + 90) / 180). set (v := snd ll / 180). assert (0 < u < 1) by (unfold u; lra). assert (0 < v < 1) by (unfold v; lra).
  exists (u * v), (u * (1 - v)), ((1 - u) * (1 - v)), ((1 - u) * v). unfold default_fov. cbn [c0 c1 c2 c3 fst snd].
  repeat split; try (apply Rmult_lt_0_compat; lra); try ring; unfold u, v; field.
Qed.

Lemma aabb_inside a0 a1 b0 b1 ll : a0 < fst ll < b0 -> a1 < snd ll < b1 -> inside_bbox (bbox_of (mkAabb a0 a1 b0 b1)) ll.
Proof.
  intros Hu Hv. set (u := (fst ll - a0) / (b0 - a0)). set (v := (snd ll - a1) / (b1 - a1)).
  assert (Hu1 : 0 < u < 1) by (unfold u; split; [apply Rmult_lt_0_compat; [lra|apply Rinv_0_lt_compat; lra]|apply Rmult_lt_reg_r with (b0 - a0); [lra|unfold Rdiv; rewrite Rmult_assoc, Rinv_l by lra; lra]]).
  assert (Hv1 : 0 < v < 1) by (unfold v; split; [apply Rmult_lt_0_compat; [lra|apply Rinv_0_lt_compat; lra]|apply Rmult_lt_reg_r with (b1 - a1); [lra|unfold Rdiv; rewrite Rmult_assoc, Rinv_l by lra; lra]]).
  assert (Eu : fst ll = a0 + u * (b0 - a0)) by (unfold u; field; lra). assert (Ev : snd ll = a1 + v * (b1 - a1)) by (unfold v; field; lra). clearbody u v.
  unfold bbox_of. cbn [min0 min1 max0 max1]. unfold inside_bbox. cbn [c0 c1 c2 c3 fst snd]. rewrite Eu, Ev.
  (exists (u * v), (u * (1 - v)), ((1 - u) * (1 - v)), ((1 - u) * v); repeat split; try (apply Rmult_lt_0_compat; lra); ring) ||
  (exists ((1 - u) * (1 - v)), (u * (1 - v)), (u * v), ((1 - u) * v); repeat split; try (apply Rmult_lt_0_compat; lra); ring) ||
  (exists (u * v), ((1 - u) * v), ((1 - u) * (1 - v)), (u * (1 - v)); repeat split; try (apply Rmult_lt_0_compat; lra); ring) ||
  (exists ((1 - u) * (1 - v)), ((1 - u) * v), (u * v), (u * (1 - v)); repeat split; try (apply Rmult_lt_0_compat; lra); ring) ||
  (exists ((1 - u) * v), (u * v), (u * (1 - v)), ((1 - u) * (1 - v)); repeat split; try (apply Rmult_lt_0_compat; lra); ring) ||
  (exists (u * (1 - v)), (u * v), ((1 - u) * v), ((1 - u) * (1 - v)); repeat split; try (apply Rmult_lt_0_compat; lra); ring).
Qed.
