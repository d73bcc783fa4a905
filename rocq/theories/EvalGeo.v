(** The change to the frame of an origin on the equator and back, for points near
    the equator. *)
From Coq Require Import Bool Reals Lra Lia.
From Interval Require Import Tactic.
From Verif Require Import Scalar Trig Cf CfSpec CfProofs CfOlson CfOlsonLow CfOlsonHigh CfMain.
Local Open Scope R_scope.

Lemma meridian_plus w z : 6378137 <= w <= 9100000 -> 0 <= z <= 1000 ->
  exists lat alt, meridian w z = Some (lat, alt) /\ Rabs lat <= 1 / 2 /\ (z = 0 -> lat = 0).
Proof.
  intros Hw Hz. unfold meridian. rewrite (Rabs_pos_eq z) by lra. destruct (Rltb_spec z 0); [lra|].
  assert (Hr : 6000000 < q_r w z) by (numbers; interval).
  assert (Hc : 3 / 10 < q_c2 w z) by (numbers; interval).
  assert (Hs : -1 / 1000 <= q_s w z <= 1 / 1000) by (numbers; split; interval).
  assert (Hs0 : z = 0 -> q_s w z = 0) by (intros ->; unfold q_s; unfold Rdiv; rewrite !Rmult_0_l; reflexivity).
  rewrite first_low by lra. set (s := q_s w z) in *.
  assert (Hss : 0 <= s * s < 1) by nra.
  assert (Hd : 1000000 <= q_d w z s (sqrt (1 - s * s)) (s * s)) by (clearbody s; numbers; interval).
  rewrite correct_ok; [|apply g_pos; lra|lra]. rewrite asin_atan by lra. replace (1 - s²) with (1 - s * s) by reflexivity.
  eexists. eexists. split; [reflexivity|]. split.
  - clearbody s. numbers. interval.
  - intros Ez. specialize (Hs0 Ez). rewrite Hs0, Ez. unfold Rdiv at 1. rewrite Rmult_0_l, atan_0.
    unfold q_m. replace (sqrt (1 - 0 * 0) * (0 - k_a6 * q_rg (0 * 0) * 0) - 0 * (w - q_rg (0 * 0) * sqrt (1 - 0 * 0))) with 0 by ring.
    unfold Rdiv. ring.
Qed.

Lemma meridian_near w z : 6378137 <= w <= 9100000 -> Rabs z <= 1000 ->
  exists lat alt, meridian w z = Some (lat, alt) /\ Rabs lat <= 1 / 2 /\ (z = 0 -> lat = 0).
Proof.
  intros Hw Hz. destruct (Rle_lt_dec 0 z) as [Hp|Hn].
  - apply meridian_plus; auto. rewrite Rabs_pos_eq in Hz by auto. lra.
  - rewrite Rabs_left in Hz by auto. destruct (meridian_plus w (- z) Hw) as (lat & alt & E & H1 & _); [lra|].
    apply meridian_mirror in E; [|lra]. rewrite Ropp_involutive in E. exists (- lat), alt. split; auto. rewrite Rabs_Ropp. split; auto. lra.
Qed.

(** The point (n, e) in the frame of (0, o). *)
Lemma ne2ll_equator n e o : Rabs n <= 1000 -> Rabs e <= 6378200 -> -180 < o + atan (e / wgs_a) * 180 / PI <= 180 ->
  exists lat, ne2ll (n, e) (0, o) = Some (lat, o + atan (e / wgs_a) * 180 / PI) /\ Rabs lat <= 30 /\ (n = 0 -> lat = 0).
Proof.
  intros Hn He Hlon0. pose proof PI_RGT_0 as HPI. pose proof a_pos as Ha.
  set (t := atan (e / wgs_a)). set (x := o * PI / 180).
  set (k := sqrt (wgs_a * wgs_a + e * e)).
  assert (He2 : 0 <= e * e <= 6378200 * 6378200).
  { split; [nra|]. assert (E : e * e = Rabs e * Rabs e) by (rewrite <- Rabs_mult, Rabs_pos_eq; nra). rewrite E. apply Rmult_le_compat; auto; apply Rabs_pos. }
  assert (Hk : 6378137 <= k <= 9100000).
  { unfold k, wgs_a. split.
    - rewrite <- (sqrt_square 6378137) at 1 by lra. apply sqrt_le_1; lra.
    - rewrite <- (sqrt_square 9100000) by lra. apply sqrt_le_1; lra. }
  assert (Hkc : k * cos t = wgs_a /\ k * sin t = e).
  { unfold t. rewrite cos_atan, sin_atan, sqrt_scale by lra. rewrite (Rabs_pos_eq wgs_a) by lra. fold k. split; field; split; lra. }
  destruct Hkc as (Hkc & Hks).
  assert (Ht : - (PI / 2) < t < PI / 2) by (unfold t; pose proof (atan_bound (e / wgs_a)); lra).
  set (lon := o + t * 180 / PI).
  assert (Elon : lon * PI / 180 = x + t) by (unfold lon, x; field; lra).
  assert (Hlon : -180 < lon <= 180) by exact Hlon0.
  assert (Hx : - PI < x + t <= PI).
  { rewrite <- Elon. split; [apply Rmult_lt_reg_r with (180 / PI)|apply Rmult_le_reg_r with (180 / PI)]; try (apply Rmult_lt_0_compat; [lra|apply Rinv_0_lt_compat; auto]);
      replace (lon * PI / 180 * (180 / PI)) with lon by (field; lra).
    - replace (- PI * (180 / PI)) with (-180) by (field; lra). lra.
    - replace (PI * (180 / PI)) with 180 by (field; lra). lra. }
  assert (EP : vadd (ll2ecef (0, o)) (mul (transpose (nedrot 0 o)) (mkV n e 0)) = mkV (k * cosd lon) (k * sind lon) n).
  { unfold cosd, sind at 1. rewrite Elon. rewrite cos_plus, sin_plus. unfold x. fold (cosd o) (sind o).
    assert (E0 : sind 0 = 0) by (unfold sind; replace (0 * PI / 180) with 0 by field; apply sin_0).
    assert (E1 : cosd 0 = 1) by (unfold cosd; replace (0 * PI / 180) with 0 by field; apply cos_0).
    apply vec_ext; unfold mul, dot, ll2ecef, vadd, transpose, nedrot; cbn [vx vy vz row0 row1 row2 fst snd]; rewrite E0, E1;
      replace (1 - wgs_e2 * (0 * 0)) with 1 by ring; rewrite ?sqrt_1; unfold Rdiv; rewrite ?Rinv_1.
    - replace (k * (cosd o * cos t - sind o * sin t)) with (cosd o * (k * cos t) - sind o * (k * sin t)) by ring. rewrite Hkc, Hks. ring.
    - replace (k * (sind o * cos t + cosd o * sin t)) with (sind o * (k * cos t) + cosd o * (k * sin t)) by ring. rewrite Hkc, Hks. ring.
    - ring. }
  destruct (meridian_near k n Hk Hn) as (la & alt & Em & Hla & Hz).
  assert (E1 : ecef2ll (mkV (k * cosd lon) (k * sind lon) n) = Some (la * 180 / PI, lon)).
  { unfold ecef2ll. cbn [vx vy vz]. rewrite w_polar by lra. rewrite Em. f_equal. f_equal. unfold cosd, sind. rewrite atan2_polar; [|lra|rewrite Elon; lra].
    field. lra. }
  assert (Hl : -90 < la * 180 / PI < 90).
  { pose proof (Rle_abs la). pose proof (Rle_abs (- la)) as H'. rewrite Rabs_Ropp in H'. pose proof pi2_bound.
    split; apply Rmult_lt_reg_r with PI; auto; replace (la * 180 / PI * PI) with (la * 180) by (field; lra); nra. }
  destruct (ll_round_trip (la * 180 / PI) lon ltac:(lra)) as (l2 & o2 & E2 & D2 & O2). rewrite (O2 Hl Hlon) in E2.
  exists l2. unfold ne2ll, ne2ecef. cbn [fst snd]. rewrite EP, E1, E2. split; auto. split.
  { replace l2 with (l2 - la * 180 / PI + la * 180 / PI) by ring. eapply Rle_trans; [apply Rabs_triang|].
    replace (la * 180 / PI) with (la * (180 / PI)) in * by (field; lra). rewrite (Rabs_mult la).
    assert (Hq : 0 < 180 / PI <= 58).
    { pose proof pi2_bound. split; [apply Rmult_lt_0_compat; [lra|apply Rinv_0_lt_compat; lra]|].
      apply Rmult_le_reg_r with PI; auto. replace (180 / PI * PI) with 180 by (field; lra). lra. }
    rewrite (Rabs_pos_eq (180 / PI)) by lra. pose proof (Rabs_pos la).
    assert (Rabs la * (180 / PI) <= 1 / 2 * 58) by (apply Rmult_le_compat; lra). lra. }
  intros Hn0. pose proof (equator (ll2ecef (la * 180 / PI, lon))) as Hq. rewrite ecef2ll_lla in E2.
  destruct (ecef2lla _) as [lla|] eqn:E3; [|discriminate]. injection E2 as E4 E5. rewrite <- E4.
  apply Hq; auto. rewrite ll2ecef_surf. cbn [vz]. rewrite (Hz Hn0). unfold surf_z.
  replace (0 * 180 / PI * PI / 180) with 0 by (field; lra). rewrite sin_0. ring.
Qed.

Lemma ne2ll_equatorial n e o : Rabs n <= 1000 -> Rabs e <= 6378200 -> -90 < o < 90 ->
  exists lat, ne2ll (n, e) (0, o) = Some (lat, o + atan (e / wgs_a) * 180 / PI) /\ Rabs lat <= 30 /\ (n = 0 -> lat = 0).
Proof.
  intros Hn He Ho. apply ne2ll_equator; auto. pose proof PI_RGT_0 as HPI. pose proof (atan_bound (e / wgs_a)) as Ha.
  assert (-90 < atan (e / wgs_a) * 180 / PI < 90); [|lra].
  split; apply Rmult_lt_reg_r with PI; auto; replace (atan (e / wgs_a) * 180 / PI * PI) with (atan (e / wgs_a) * 180) by (field; lra); lra.
Qed.

(** Equatorial points in the frame of an equatorial origin. *)
Lemma ll2ne_equator lam o : ll2ne (0, o + lam) (0, o) = (0, wgs_a * sind lam).
Proof.
  assert (E0 : sind 0 = 0) by (unfold sind; replace (0 * PI / 180) with 0 by field; apply sin_0).
  assert (E1 : cosd 0 = 1) by (unfold cosd; replace (0 * PI / 180) with 0 by field; apply cos_0).
  unfold ll2ne, ecef2ne, ll2ecef, vsub, nerot, dot. cbn [vx vy vz fst snd]. rewrite E0, E1.
  replace (1 - wgs_e2 * (0 * 0)) with 1 by ring. rewrite sqrt_1. unfold Rdiv. rewrite Rinv_1.
  replace (sind lam) with (sind (o + lam) * cosd o - cosd (o + lam) * sind o).
  2: { unfold sind, cosd. rewrite <- sin_minus. f_equal. field. }
  f_equal; ring.
Qed.

(** There and back: the longitude difference [lam] becomes atan (sin lam). *)
Lemma drift lam o : -90 < o < 90 ->
  ne2ll (ll2ne (0, o + lam) (0, o)) (0, o) = Some (0, o + atan (sind lam) * 180 / PI).
Proof.
  intros Ho. rewrite ll2ne_equator. pose proof a_pos as Ha.
  destruct (ne2ll_equatorial 0 (wgs_a * sind lam) o) as (lat & E & _ & H0); auto.
  - rewrite Rabs_R0. lra.
  - rewrite Rabs_mult, (Rabs_pos_eq wgs_a) by lra. assert (Rabs (sind lam) <= 1) by (apply Rabs_le; pose proof (SIN_bound (lam * PI / 180)); unfold sind; lra).
    unfold wgs_a. pose proof (Rabs_pos (sind lam)). lra.
  - rewrite (H0 eq_refl) in E. replace (wgs_a * sind lam / wgs_a) with (sind lam) in E by (field; lra). exact E.
Qed.

Lemma atan_lt x : 0 < x -> atan x < x.
Proof.
  intros Hx. destruct (MVT_cor2 atan (fun y => / (1 + y ^ 2)) 0 x Hx) as (c & Ec & Hc).
  - intros c _. apply derivable_pt_lim_atan.
  - rewrite atan_0, !Rminus_0_r in Ec. rewrite Ec. assert (/ (1 + c ^ 2) < 1).
    { rewrite <- Rinv_1. apply Rinv_lt_contravar; nra. }
    nra.
Qed.

(** So the point always comes back nearer to the origin. *)
Lemma drift_inward lam : 0 < lam <= 90 -> 0 < atan (sind lam) * 180 / PI < lam.
Proof.
  intros Hl. pose proof PI_RGT_0 as HPI. set (x := lam * PI / 180). assert (Hx : 0 < x <= PI / 2) by (unfold x; split; nra).
  assert (Hs : 0 < sind lam) by (apply sin_gt_0; fold x; lra). assert (Hs' : sind lam < x) by (apply sin_lt_x; fold x; lra).
  assert (H0 : 0 < atan (sind lam)) by (rewrite <- atan_0; apply atan_increasing; auto).
  pose proof (atan_lt _ Hs). split.
  - apply Rmult_lt_0_compat; [lra|apply Rinv_0_lt_compat; auto].
  - apply Rmult_lt_reg_r with PI; auto. replace (atan (sind lam) * 180 / PI * PI) with (atan (sind lam) * 180) by (field; lra). unfold x in *. lra.
Qed.
