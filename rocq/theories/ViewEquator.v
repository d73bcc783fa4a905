(** Boxes around points of the equator. *)
From Coq Require Import List Bool Reals Lra Lia.
Import ListNotations.
From Interval Require Import Tactic.
From Verif Require Import Scalar Trig Cf CfSpec CfProofs CfOlson CfOlsonLow CfOlsonHigh CfMain GM Box BoxSpec BoxProofs EvalGeo View ViewProofs.
Local Open Scope R_scope.

(** The first approximation of the sine of the latitude is z times this. *)
Definition q_k (w z : R) : R :=
  / q_r w z * (1 + q_c2 w z * (k_a1 + k_a2 / q_r w z + q_s2 w z * (k_a3 - k_a4 / q_r w z)) / q_r w z).

Lemma q_s_k w z : q_s w z = z * q_k w z.
Proof. unfold q_s, q_k, Rdiv. ring. Qed.

Lemma meridian_sign w z : 6378100 <= w <= 6378300 -> 0 <= z <= 2000 ->
  exists lat alt, meridian w z = Some (lat, alt) /\ 0 <= lat <= 19 / 100000000 * z.
Proof.
  intros Hw Hz. unfold meridian. rewrite (Rabs_pos_eq z) by lra. destruct (Rltb_spec z 0); [lra|].
  assert (Hr : 6000000 < q_r w z) by (numbers; interval).
  assert (Hc : 3 / 10 < q_c2 w z) by (numbers; interval).
  assert (Hk : 15 / 100000000 <= q_k w z <= 16 / 100000000) by (unfold q_k; numbers; split; interval).
  pose proof (q_s_k w z) as Es. set (k := q_k w z) in *.
  assert (Hs : 0 <= q_s w z <= 33 / 100000) by (rewrite Es; split; [apply Rmult_le_pos; lra|clearbody k; interval]).
  rewrite first_low by lra. set (s := q_s w z) in *.
  assert (Hss : 0 <= s * s < 1) by nra.
  assert (Hd : 6000000 <= q_d w z s (sqrt (1 - s * s)) (s * s)) by (clearbody s; numbers; interval).
  rewrite correct_ok; [|apply g_pos; lra|lra].
  assert (Em : q_m w z s (sqrt (1 - s * s)) (s * s) =
    z * (sqrt (1 - s * s) * (1 - k_a6 * q_rg (s * s) * k) - k * (w - q_rg (s * s) * sqrt (1 - s * s)))).
  { unfold q_m. generalize (sqrt (1 - s * s)) (q_rg (s * s)). intros c rg. rewrite Es. ring. }
  set (L := sqrt (1 - s * s) * (1 - k_a6 * q_rg (s * s) * k) - k * (w - q_rg (s * s) * sqrt (1 - s * s))) in *.
  assert (HL : -3 / 100 <= L <= 6 / 100) by (unfold L; clearbody s k; numbers; split; interval).
  set (d := q_d w z s (sqrt (1 - s * s)) (s * s)) in *. rewrite Em.
  assert (Hp : - 1 / 100000000 * z <= z * L / d <= 1 / 100000000 * z).
  { assert (Hi : 0 < / d <= 1 / 6000000).
    { split; [apply Rinv_0_lt_compat; lra|]. replace (1 / 6000000) with (/ 6000000) by field. apply Rinv_le_contravar; lra. }
    assert (-1 / 100000000 <= L * / d <= 1 / 100000000) by (split; nra).
    replace (z * L / d) with (L * / d * z) by (unfold Rdiv; ring). split; apply Rmult_le_compat_r; lra. }
  assert (Ha : s <= asin s <= 11 / 10 * s).
  { split.
    - destruct (Rle_lt_dec (s) (asin s)) as [|Hlt]; auto. exfalso.
      assert (0 <= asin s). { destruct (Rle_lt_dec s 0); [replace s with 0 by lra; rewrite asin_0; lra|].
        left. rewrite asin_atan by lra. rewrite <- atan_0. apply atan_increasing. apply Rmult_lt_0_compat; auto.
        apply Rinv_0_lt_compat, sqrt_lt_R0. replace (1 - s²) with (1 - s * s) by reflexivity. lra. }
      assert (Hsin : sin (asin s) = s) by (apply sin_asin; lra).
      destruct (Req_dec (asin s) 0) as [E0|E0]; [rewrite E0, sin_0 in Hsin; lra|].
      assert (0 < asin s) by lra. pose proof (sin_lt_x (asin s) ltac:(lra)). lra.
    - destruct (Req_dec s 0) as [E0|E0]; [rewrite E0, asin_0; lra|]. rewrite asin_atan by lra. replace (1 - s²) with (1 - s * s) by reflexivity.
      assert (Hq : / sqrt (1 - s * s) <= 11 / 10) by (clearbody s; interval).
      assert (0 < / sqrt (1 - s * s)) by (apply Rinv_0_lt_compat, sqrt_lt_R0; lra).
      eapply Rle_trans; [left; apply atan_lt; apply Rmult_lt_0_compat; lra|]. unfold Rdiv at 1. rewrite Rmult_comm. apply Rmult_le_compat_r; lra. }
  eexists. eexists. split; [reflexivity|]. split.
  - assert (z * k <= asin s) by lra. nra.
  - assert (s <= 16 / 100000000 * z) by (rewrite Es; rewrite Rmult_comm; apply Rmult_le_compat_r; lra). lra.
Qed.

(** The sign of the latitude is that of the northward coordinate. *)
Lemma ne2ll_equator_sign n e o : 0 <= n <= 1000 -> Rabs e <= 1000 -> -180 < o + atan (e / wgs_a) * 180 / PI <= 180 ->
  exists lat, 0 <= lat /\
    ne2ll (n, e) (0, o) = Some (lat, o + atan (e / wgs_a) * 180 / PI) /\
    ne2ll (- n, e) (0, o) = Some (- lat, o + atan (e / wgs_a) * 180 / PI).
Proof.
  intros Hn He Hlon0. pose proof PI_RGT_0 as HPI. pose proof a_pos as Ha.
  set (t := atan (e / wgs_a)). set (x := o * PI / 180).
  set (k := sqrt (wgs_a * wgs_a + e * e)).
  assert (He2 : 0 <= e * e <= 1000 * 1000).
  { split; [nra|]. assert (E : e * e = Rabs e * Rabs e) by (rewrite <- Rabs_mult, Rabs_pos_eq; nra). rewrite E. apply Rmult_le_compat; auto; apply Rabs_pos. }
  assert (Hk : 6378100 <= k <= 6378300).
  { unfold k, wgs_a. split.
    - rewrite <- (sqrt_square 6378100) at 1 by lra. apply sqrt_le_1; lra.
    - rewrite <- (sqrt_square 6378300) by lra. apply sqrt_le_1; lra. }
  assert (Hkc : k * cos t = wgs_a /\ k * sin t = e).
  { unfold t. rewrite cos_atan, sin_atan, sqrt_scale by lra. rewrite (Rabs_pos_eq wgs_a) by lra. fold k. split; field; split; lra. }
  destruct Hkc as (Hkc & Hks).
  set (lon := o + t * 180 / PI).
  assert (Elon : lon * PI / 180 = x + t) by (unfold lon, x; field; lra).
  assert (Hlon : -180 < lon <= 180) by exact Hlon0.
  assert (Hx : - PI < x + t <= PI).
  { rewrite <- Elon. split; [apply Rmult_lt_reg_r with (180 / PI)|apply Rmult_le_reg_r with (180 / PI)]; try (apply Rmult_lt_0_compat; [lra|apply Rinv_0_lt_compat; auto]);
      replace (lon * PI / 180 * (180 / PI)) with lon by (field; lra).
    - replace (- PI * (180 / PI)) with (-180) by (field; lra). lra.
    - replace (PI * (180 / PI)) with 180 by (field; lra). lra. }
  assert (EP : forall n, vadd (ll2ecef (0, o)) (mul (transpose (nedrot 0 o)) (mkV n e 0)) = mkV (k * cosd lon) (k * sind lon) n).
  { intros n0. unfold cosd, sind at 1. rewrite Elon. rewrite cos_plus, sin_plus. unfold x. fold (cosd o) (sind o).
    apply vec_ext; unfold mul, dot, ll2ecef, vadd, transpose, nedrot; cbn [vx vy vz row0 row1 row2 fst snd]; rewrite sind_0, cosd_0;
      replace (1 - wgs_e2 * (0 * 0)) with 1 by ring; rewrite ?sqrt_1; unfold Rdiv; rewrite ?Rinv_1.
    - replace (k * (cosd o * cos t - sind o * sin t)) with (cosd o * (k * cos t) - sind o * (k * sin t)) by ring. rewrite Hkc, Hks. ring.
    - replace (k * (sind o * cos t + cosd o * sin t)) with (sind o * (k * cos t) + cosd o * (k * sin t)) by ring. rewrite Hkc, Hks. ring.
    - ring. }
  destruct (meridian_sign k n Hk ltac:(lra)) as (la & alt & Em & Hla).
  assert (E1 : ecef2ll (mkV (k * cosd lon) (k * sind lon) n) = Some (la * 180 / PI, lon)).
  { unfold ecef2ll. cbn [vx vy vz]. rewrite w_polar by lra. rewrite Em. f_equal. f_equal. unfold cosd, sind. rewrite atan2_polar; [|lra|rewrite Elon; lra].
    field. lra. }
  pose proof pi2_bound as Hpi.
  assert (Hla' : la * 180 / PI * PI / 180 = la) by (field; lra).
  assert (Hla2 : 0 <= la <= 19 / 100000) by lra.
  assert (Hsw : 6378100 <= surf_w la <= 6378300) by (clear - Hla2; numbers; split; interval).
  assert (Hsz : 0 <= surf_z la).
  { assert (0 <= sin la) by (apply sin_ge_0; lra). unfold surf_z. pose proof e2_range.
    assert (0 <= surf_n la) by (clear - Hla2; numbers; interval). apply Rmult_le_pos; [apply Rmult_le_pos|]; lra. }
  assert (Hsz' : surf_z la <= 2000) by (clear - Hla2; numbers; interval).
  destruct (meridian_sign (surf_w la) (surf_z la) Hsw ltac:(lra)) as (lb & alt2 & Em2 & Hlb).
  assert (E2 : ecef2ll (ll2ecef (la * 180 / PI, lon)) = Some (lb * 180 / PI, lon)).
  { rewrite ll2ecef_surf, Hla'. unfold ecef2ll. cbn [vx vy vz]. rewrite w_polar by lra. rewrite Em2. f_equal. f_equal. unfold cosd, sind.
    rewrite atan2_polar; [|lra|rewrite Elon; lra]. field. lra. }
  exists (lb * 180 / PI). fold lon. split.
  { apply Rmult_le_pos; [lra|left; apply Rinv_0_lt_compat; auto]. }
  unfold ne2ll, ne2ecef. cbn [fst snd]. rewrite !EP, E1, E2. split; auto.
  assert (E1' := ecef2ll_mirrored _ _ E1). unfold mirror in E1'. cbn [vx vy vz fst snd] in E1'. rewrite E1'.
  assert (E2' := ecef2ll_mirrored _ _ E2). cbn [fst snd] in E2'. rewrite <- E2'. f_equal.
  unfold mirror, ll2ecef. cbn [vx vy vz fst snd]. rewrite sind_opp, cosd_opp.
  replace (- sind (la * 180 / PI) * - sind (la * 180 / PI)) with (sind (la * 180 / PI) * sind (la * 180 / PI)) by ring.
  apply vec_ext; cbn [vx vy vz]; ring.
Qed.

Lemma atan_deg_pos e : 0 < e -> 0 < atan (e / wgs_a) * 180 / PI.
Proof.
  intros He. pose proof PI_RGT_0. pose proof a_pos. apply Rmult_lt_0_compat; [|apply Rinv_0_lt_compat; auto].
  apply Rmult_lt_0_compat; [|lra]. rewrite <- atan_0. apply atan_increasing. apply Rmult_lt_0_compat; auto. apply Rinv_0_lt_compat; auto.
Qed.
Lemma atan_deg_opp e : atan (- e / wgs_a) * 180 / PI = - (atan (e / wgs_a) * 180 / PI).
Proof. replace (- e / wgs_a) with (- (e / wgs_a)) by (unfold Rdiv; ring). rewrite atan_opp. unfold Rdiv. ring. Qed.

(** Boxes around the origin of a frame on the equator. *)
Lemma equator_box o b : -180 < o + atan (min1 b / wgs_a) * 180 / PI -> o + atan (max1 b / wgs_a) * 180 / PI <= 180 ->
  -1000 <= min0 b <= 0 -> 0 <= max0 b <= 1000 -> -1000 <= min1 b < 0 -> 0 < max1 b <= 1000 ->
  exists b', a_llaabbox (0, o) b = Some b' /\ in_aabb b' (0, o).
Proof.
  intros Hlo Hhi H1 H2 H3 H4. pose proof (atan_deg_pos (max1 b) ltac:(lra)) as P1. pose proof (atan_deg_pos (- min1 b) ltac:(lra)) as P2.
  rewrite atan_deg_opp in P2.
  destruct (ne2ll_equator_sign (- min0 b) (min1 b) o) as (l1 & Hl1 & _ & E1); [lra|apply Rabs_le; lra|lra|].
  destruct (ne2ll_equator_sign (max0 b) (max1 b) o) as (l2 & Hl2 & E2 & _); [lra|apply Rabs_le; lra|lra|].
  rewrite Ropp_involutive in E1. unfold a_llaabbox. rewrite E1, E2. eexists. split; [reflexivity|].
  cbn [fst snd]. unfold aabb_of4, in_aabb. cbn [min0 min1 max0 max1 fst snd].
  rewrite Rmin_left, Rmax_right, Rmin_left, Rmax_right by lra. lra.
Qed.

(** Longitudes 180 and -180 are the same meridian. *)
Lemma date_line p : ne2ll p (0, 180) = ne2ll p (0, -180).
Proof.
  assert (Ec : cosd 180 = cosd (-180)) by (replace (-180) with (- (180)) by lra; rewrite cosd_opp; reflexivity).
  assert (Es : sind 180 = sind (-180)).
  { replace (-180) with (- (180)) by lra. rewrite sind_opp. unfold sind. replace (180 * PI / 180) with PI by field. rewrite sin_PI. ring. }
  unfold ne2ll, ne2ecef, ll2ecef, nedrot. cbn [fst snd]. rewrite Ec, Es. reflexivity.
Qed.

(** A box around a point of the date line stands for everything but the strip
    it was made for. *)
Lemma date_line_box d : 0 < d <= 1000 ->
  exists b' t, a_llaabbox (0, 180) (mkAabb (- d) (- d) d d) = Some b' /\ t = atan (d / wgs_a) * 180 / PI /\ 0 < t < 1 /\
    min1 b' = -180 + t /\ max1 b' = 180 - t.
Proof.
  intros Hd. pose proof (atan_deg_pos d ltac:(lra)) as Hp. pose proof a_pos as Ha. pose proof pi2_bound as Hpi.
  assert (Ht : atan (d / wgs_a) * 180 / PI < 1).
  { assert (atan (d / wgs_a) < 2 / 10000).
    { assert (0 < d / wgs_a <= 1000 / 6378137) by (unfold wgs_a; lra). pose proof (atan_lt (d / wgs_a) ltac:(lra)). lra. }
    apply Rmult_lt_reg_r with PI; [lra|]. unfold Rdiv at 1. rewrite Rmult_assoc, Rinv_l by lra. lra. }
  destruct (ne2ll_equator_sign d (- d) 180) as (l1 & Hl1 & _ & E1); [lra|apply Rabs_le; lra|rewrite atan_deg_opp; lra|].
  destruct (ne2ll_equator_sign d d (-180)) as (l2 & Hl2 & E2 & _); [lra|apply Rabs_le; lra|lra|].
  rewrite <- date_line in E2. exists (aabb_of4 (- l1) (180 + atan (- d / wgs_a) * 180 / PI) l2 (-180 + atan (d / wgs_a) * 180 / PI)), (atan (d / wgs_a) * 180 / PI).
  unfold a_llaabbox. cbn [min0 min1 max0 max1]. rewrite E1, E2. split; [reflexivity|]. split; [reflexivity|]. split; [lra|].
  unfold aabb_of4. cbn [min1 max1]. rewrite atan_deg_opp, Rmin_right, Rmax_left by lra. lra.
Qed.
