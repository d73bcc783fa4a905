(** Round trips between latitude/longitude and Earth-centred coordinates. *)
From Coq Require Import Bool Reals Lra.
From Interval Require Import Tactic.
From Verif Require Import Scalar Trig Cf CfSpec CfProofs CfOlson CfOlsonLow CfOlsonHigh.
Local Open Scope R_scope.

Lemma k6 : 0 < k_a6 < 1.
Proof. unfold k_a6. lra. Qed.

Lemma g_pos ss : 0 <= ss <= 1 -> 0 < q_g ss.
Proof. intros H. unfold q_g. pose proof e2_range. nra. Qed.

Lemma pi2_bound : 15707 / 10000 < PI / 2 < 15708 / 10000.
Proof. split; interval. Qed.

(** [first_guess] and [correct_guess] in terms of the named quantities. *)
Lemma first_low w z : q_r w z <> 0 -> 3 / 10 < q_c2 w z -> -1 <= q_s w z <= 1 ->
  first_guess w z = Some (asin (q_s w z), q_s w z, sqrt (1 - q_s w z * q_s w z), q_s w z * q_s w z).
Proof.
  intros Hr Hc Hs. unfold first_guess. fold (q_r w z) (q_c2 w z) (q_s2 w z). fold (q_s w z).
  destruct (Reqb_spec (q_r w z) 0); [contradiction|]. destruct (Rltb_spec (3 / 10) (q_c2 w z)); [|contradiction].
  destruct (Rleb_spec (-1) (q_s w z)); [|lra]. destruct (Rleb_spec (q_s w z) 1); [|lra]. reflexivity.
Qed.
Lemma first_high w z : q_r w z <> 0 -> q_c2 w z <= 3 / 10 -> -1 <= q_c w z <= 1 ->
  first_guess w z = Some (acos (q_c w z), sqrt (1 - q_c w z * q_c w z), q_c w z, 1 - q_c w z * q_c w z).
Proof.
  intros Hr Hc Hs. unfold first_guess. fold (q_r w z) (q_c2 w z) (q_s2 w z). fold (q_c w z).
  destruct (Reqb_spec (q_r w z) 0); [contradiction|]. destruct (Rltb_spec (3 / 10) (q_c2 w z)); [lra|].
  destruct (Rleb_spec (-1) (q_c w z)); [|lra]. destruct (Rleb_spec (q_c w z) 1); [|lra]. reflexivity.
Qed.
Lemma correct_ok w z lat s c ss : 0 < q_g ss -> q_d w z s c ss <> 0 ->
  correct_guess w z (lat, s, c, ss) =
    Some (lat + q_m w z s c ss / q_d w z s c ss, q_f w z s c ss + q_m w z s c ss * (q_m w z s c ss / q_d w z s c ss) / 2).
Proof.
  intros Hg Hd. unfold correct_guess. fold (q_g ss). fold (q_rg ss). fold (q_f w z s c ss). fold (q_m w z s c ss). fold (q_d w z s c ss).
  destruct (Rleb_spec (q_g ss) 0); [lra|]. destruct (Reqb_spec (q_d w z s c ss) 0); [contradiction|]. reflexivity.
Qed.

(** Surface points in the northern hemisphere. *)
Lemma meridian_north x : 0 <= x <= PI / 2 ->
  exists lat alt, meridian (surf_w x) (surf_z x) = Some (lat, alt) /\ Rabs (lat - x) <= 1 / 100000000000000 /\ Rabs alt <= 1 / 1000000.
Proof.
  intros Hx. pose proof pi2_bound as HP.
  assert (Hn : 0 < surf_n x).
  { unfold surf_n. apply Rmult_lt_0_compat; [apply a_pos|]. apply Rinv_0_lt_compat, sqrt_lt_R0.
    pose proof e2_range. pose proof (sin2_cos2 x) as Hsc. unfold Rsqr in Hsc. nra. }
  assert (Hz : 0 <= surf_z x).
  { unfold surf_z. pose proof e2_range. assert (0 <= sin x) by (apply sin_ge_0; lra). apply Rmult_le_pos; auto. apply Rmult_le_pos; lra. }
  unfold meridian. rewrite (Rabs_pos_eq _ Hz). destruct (Rltb_spec (surf_z x) 0); [lra|].
  pose proof (low_r x ltac:(lra)) as Hr.
  destruct (Rlt_le_dec (3 / 10) (q_c2 (surf_w x) (surf_z x))) as [Hc|Hc].
  - assert (Hx1 : 0 <= x <= 1). { split; [lra|]. destruct (Rle_lt_dec x 1); auto. pose proof (high_c2 x ltac:(lra)). lra. }
    pose proof (low_s x Hx1) as Hs. rewrite first_low by lra.
    set (s := q_s (surf_w x) (surf_z x)) in *.
    assert (Hss : 0 <= s * s < 1) by nra.
    rewrite correct_ok; [|apply g_pos; lra|pose proof (low_d x Hx1) as Hd; cbv zeta in Hd; fold s in Hd; lra].
    rewrite asin_atan by lra. replace (1 - s²) with (1 - s * s) by reflexivity.
    eexists. eexists. split; [reflexivity|]. split; [apply (low_lat x Hx1)|apply (low_alt x Hx1)].
  - assert (Hx1 : 98 / 100 <= x <= 15708 / 10000). { split; [|lra]. destruct (Rle_lt_dec (98 / 100) x); auto. pose proof (low_c2 x ltac:(lra)). lra. }
    pose proof (high_c x Hx1) as Hs. rewrite first_high by lra.
    set (c := q_c (surf_w x) (surf_z x)) in *.
    assert (Hss : 0 <= c * c < 1) by nra.
    rewrite correct_ok; [|apply g_pos; lra|pose proof (high_d x Hx1) as Hd; cbv zeta in Hd; fold c in Hd; lra].
    rewrite acos_asin, asin_atan by lra. replace (1 - c²) with (1 - c * c) by reflexivity.
    eexists. eexists. split; [reflexivity|]. split; [apply (high_lat x Hx1)|apply (high_alt x Hx1)].
Qed.

Lemma surf_even x : surf_w (- x) = surf_w x /\ surf_z (- x) = - surf_z x.
Proof.
  unfold surf_w, surf_z, surf_n. rewrite sin_neg, cos_neg. replace (- sin x * - sin x) with (sin x * sin x) by ring. split; ring.
Qed.

Lemma meridian_surface x : - (PI / 2) <= x <= PI / 2 ->
  exists lat alt, meridian (surf_w x) (surf_z x) = Some (lat, alt) /\ Rabs (lat - x) <= 1 / 100000000000000 /\ Rabs alt <= 1 / 1000000.
Proof.
  intros Hx. destruct (Rle_lt_dec 0 x) as [Hp|Hn]; [apply meridian_north; lra|].
  destruct (meridian_north (- x)) as (lat & alt & E & H1 & H2); [lra|].
  destruct (surf_even x) as (Ew & Ez). rewrite Ew, Ez in E.
  assert (Hz : 0 < - surf_z x).
  { rewrite <- Ez. unfold surf_z. pose proof e2_range. pose proof pi2_bound. assert (0 < sin (- x)) by (apply sin_gt_0; lra).
    apply Rmult_lt_0_compat; auto. apply Rmult_lt_0_compat; [|lra]. unfold surf_n. apply Rmult_lt_0_compat; [apply a_pos|]. apply Rinv_0_lt_compat, sqrt_lt_R0.
    pose proof (sin2_cos2 (- x)) as Hsc. unfold Rsqr in Hsc. nra. }
  apply meridian_mirror in E; auto. rewrite Ropp_involutive in E. exists (- lat), alt. split; auto. split; auto.
  replace (- lat - x) with (- (lat - - x)) by ring. rewrite Rabs_Ropp. auto.
Qed.

Lemma ll2ecef_surf lat lon : ll2ecef (lat, lon) =
  mkV (surf_w (lat * PI / 180) * cosd lon) (surf_w (lat * PI / 180) * sind lon) (surf_z (lat * PI / 180)).
Proof. reflexivity. Qed.

Lemma surface_round_trip lat lon : -90 <= lat <= 90 ->
  exists lla, ecef2lla (ll2ecef (lat, lon)) = Some lla /\
    Rabs (vx lla - lat) <= 1 / 1000000000000 /\ Rabs (vz lla) <= 1 / 1000000 /\
    (-90 < lat < 90 -> -180 < lon <= 180 -> vy lla = lon).
Proof.
  intros Hl. pose proof PI_RGT_0 as HPI. pose proof pi2_bound as HP2.
  set (x := lat * PI / 180). assert (Hx : - (PI / 2) <= x <= PI / 2) by (unfold x; split; nra).
  assert (Hn : 0 < surf_n x).
  { unfold surf_n. apply Rmult_lt_0_compat; [apply a_pos|]. apply Rinv_0_lt_compat, sqrt_lt_R0.
    pose proof e2_range. pose proof (sin2_cos2 x) as Hsc. unfold Rsqr in Hsc. nra. }
  assert (Hw : 0 <= surf_w x) by (unfold surf_w; apply Rmult_le_pos; [lra|]; apply cos_ge_0; lra).
  destruct (meridian_surface x Hx) as (la & alt & E & H1 & H2).
  assert (E' : ecef2lla (ll2ecef (lat, lon)) = Some (mkV (la * 180 / PI) (atan2 (surf_w x * sind lon) (surf_w x * cosd lon) * 180 / PI) alt)).
  { rewrite ll2ecef_surf. unfold ecef2lla. cbn [vx vy vz]. fold x. rewrite w_polar by auto. rewrite E. reflexivity. }
  eexists. split; [exact E'|]. cbn [vx vz]. split; [|split; auto].
  - replace (la * 180 / PI - lat) with ((la - x) * (180 / PI)) by (unfold x; field; lra).
    rewrite Rabs_mult, (Rabs_pos_eq (180 / PI)) by (apply Rmult_le_pos; [lra|left; apply Rinv_0_lt_compat; lra]).
    apply Rle_trans with (1 / 100000000000000 * 60); [|lra]. apply Rmult_le_compat; auto; [apply Rabs_pos|apply Rmult_le_pos; [lra|left; apply Rinv_0_lt_compat; lra]|].
    apply Rmult_le_reg_r with PI; [lra|]. replace (180 / PI * PI) with 180 by (field; lra). lra.
  - intros Hlat Hlon. cbn [vy]. assert (Hw' : 0 < surf_w x).
    { unfold surf_w. apply Rmult_lt_0_compat; auto. apply cos_gt_0; unfold x; nra. }
    unfold sind, cosd. rewrite atan2_polar; auto; [field; lra|]. split; nra.
Qed.

Lemma ll_round_trip lat lon : -90 <= lat <= 90 ->
  exists lat' lon', ecef2ll (ll2ecef (lat, lon)) = Some (lat', lon') /\ Rabs (lat' - lat) <= 1 / 1000000000000 /\
    (-90 < lat < 90 -> -180 < lon <= 180 -> lon' = lon).
Proof.
  intros Hl. destruct (surface_round_trip lat lon Hl) as (lla & E & H1 & _ & H3).
  exists (vx lla), (vy lla). rewrite ecef2ll_lla, E. auto.
Qed.

(** A position survives the change to the frame centred at it and back. *)
Lemma ne2ll_origin lat lon : Rabs lat < 90 - 1 / 1000000000000 -> -180 < lon <= 180 ->
  exists lat', ne2ll (0, 0) (lat, lon) = Some (lat', lon) /\ Rabs (lat' - lat) <= 2 / 1000000000000.
Proof.
  intros Hlat Hlon. apply Rabs_def2 in Hlat. unfold ne2ll, ne2ecef.
  assert (E0 : vadd (ll2ecef (lat, lon)) (mul (transpose (nedrot lat lon)) (mkV 0 0 0)) = ll2ecef (lat, lon)).
  { apply vec_ext; unfold mul, dot; cbn; ring. }
  cbn [fst snd]. rewrite E0. destruct (ll_round_trip lat lon ltac:(lra)) as (l1 & o1 & E1 & D1 & O1).
  rewrite (O1 ltac:(lra) Hlon) in E1. rewrite E1.
  assert (Hl1 : -90 < l1 < 90) by (revert D1; unfold Rabs; destruct (Rcase_abs (l1 - lat)); lra).
  destruct (ll_round_trip l1 lon ltac:(lra)) as (l2 & o2 & E2 & D2 & O2).
  rewrite (O2 Hl1 Hlon) in E2. rewrite E2. exists l2. split; auto.
  replace (l2 - lat) with (l2 - l1 + (l1 - lat)) by ring. eapply Rle_trans; [apply Rabs_triang|]. lra.
Qed.

(** Points in the equator plane have latitude 0. *)
Lemma equator p lla : vz p = 0 -> ecef2lla p = Some lla -> vx lla = 0.
Proof.
  intros Hz. unfold ecef2lla. rewrite Hz. set (w := sqrt (vx p * vx p + vy p * vy p)).
  destruct (meridian w 0) as [[lat alt]|] eqn:E; [|discriminate]. intros H. injection H as <-. cbn [vx].
  assert (Hw : 0 <= w) by apply sqrt_pos.
  assert (E0 : lat = 0); [|rewrite E0; unfold Rdiv; ring].
  unfold meridian in E. rewrite Rabs_R0 in E. destruct (first_guess w 0) as [guess|] eqn:G; [|discriminate].
  destruct (correct_guess w 0 guess) as [[lat' alt']|] eqn:C; [|discriminate]. destruct (Rltb_spec 0 0); [lra|]. injection E as <- <-.
  assert (Hr : q_r w 0 = w) by (unfold q_r; replace (w * w + 0 * 0) with (w * w) by ring; apply sqrt_square; auto).
  assert (Hw' : w <> 0).
  { intros E. unfold first_guess in G. fold (q_r w 0) in G. rewrite Hr in G. destruct (Reqb_spec w 0); [discriminate|contradiction]. }
  assert (Hs : q_s w 0 = 0) by (unfold q_s; rewrite Hr; unfold Rdiv; rewrite !Rmult_0_l; reflexivity).
  rewrite first_low in G.
  2:{ rewrite Hr. auto. }
  2:{ unfold q_c2. replace (w * w / (w * w + 0 * 0)) with 1 by (field; auto). lra. }
  2:{ rewrite Hs. lra. }
  injection G as <-. rewrite Hs in C. replace (0 * 0) with 0 in C by ring.
  assert (Hg : 0 < q_g 0) by (apply g_pos; lra).
  assert (Hm : forall c, q_m w 0 0 c 0 = 0) by (intros c; unfold q_m; ring).
  unfold correct_guess in C. fold (q_g 0) in C. fold (q_rg 0) in C. fold (q_f w 0 0 (sqrt (1 - 0)) 0) in C. fold (q_m w 0 0 (sqrt (1 - 0)) 0) in C.
  fold (q_d w 0 0 (sqrt (1 - 0)) 0) in C. destruct (Rleb (q_g 0) 0); [discriminate|]. destruct (Reqb (q_d w 0 0 (sqrt (1 - 0)) 0) 0); [discriminate|].
  injection C as <- _. rewrite Hm, asin_0. unfold Rdiv. ring.
Qed.

Lemma ecef2lla_mirrored p lla : ecef2lla p = Some lla -> ecef2lla (mirror p) = Some (mkV (- vx lla) (vy lla) (vz lla)).
Proof.
  intros H. destruct (Req_dec (vz p) 0) as [Hz|Hz]; [|apply ecef2lla_mirror; auto].
  rewrite (equator p lla Hz H). rewrite Ropp_0. unfold mirror. rewrite Hz, Ropp_0. destruct p as [px py pz]. cbn [vx vy vz] in *. subst pz.
  pose proof (equator (mkV px py 0) lla eq_refl H) as E0.
  rewrite H. f_equal. destruct lla as [la lo al]. cbn in *. subst la. reflexivity.
Qed.

Lemma ecef2ll_mirrored p ll : ecef2ll p = Some ll -> ecef2ll (mirror p) = Some (- fst ll, snd ll).
Proof.
  rewrite !ecef2ll_lla. destruct (ecef2lla p) as [lla|] eqn:E; [|discriminate]. intros H. injection H as <-.
  rewrite (ecef2lla_mirrored p lla E). reflexivity.
Qed.

Lemma longitude_back lat lon : -90 < lat < 90 -> -180 < lon <= 180 ->
  exists lat', ecef2ll (ll2ecef (lat, lon)) = Some (lat', lon).
Proof.
  intros H1 H2. destruct (ll_round_trip lat lon ltac:(lra)) as (l1 & o1 & E1 & D1 & O1). rewrite (O1 H1 H2) in E1. eauto.
Qed.

