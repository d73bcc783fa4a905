(** Proofs about coordinate frames: the exact laws. *)
From Coq Require Import Bool Reals Lra Lia.
From Verif Require Import Scalar Trig Cf CfSpec.
Local Open Scope R_scope.

Lemma sc d : sind d * sind d + cosd d * cosd d = 1.
Proof. unfold sind, cosd. pose proof (sin2_cos2 (d * PI / 180)). unfold Rsqr in *. lra. Qed.

Lemma nedrot_rotation lat lon : rotation (nedrot lat lon).
Proof.
  pose proof (sc lat) as H1. pose proof (sc lon) as H2. unfold rotation, nedrot, dot. cbn [row0 row1 row2 vx vy vz].
  set (sl := sind lat) in *. set (cl := cosd lat) in *. set (so := sind lon) in *. set (co := cosd lon) in *.
  assert (H : forall k, k * (so * so + co * co) = k) by (intros k; rewrite H2; ring).
  repeat split; try ring.
  - replace (- sl * co * (- sl * co) + - sl * so * (- sl * so) + cl * cl) with (sl * sl * (so * so + co * co) + cl * cl) by ring. rewrite H. lra.
  - lra.
  - replace (- cl * co * (- cl * co) + - cl * so * (- cl * so) + - sl * - sl) with (cl * cl * (so * so + co * co) + sl * sl) by ring. rewrite H. lra.
  - replace (- sl * co * (- cl * co) + - sl * so * (- cl * so) + cl * - sl) with (sl * cl * (so * so + co * co) - sl * cl) by ring. rewrite H. ring.
  - replace (- sl * co * co - - sl * so * - so) with (- (sl * (so * so + co * co))) by ring. rewrite H. ring.
Qed.

Lemma vec_ext a b : vx a = vx b -> vy a = vy b -> vz a = vz b -> a = b.
Proof. destruct a, b. cbn. congruence. Qed.

Lemma columns m : rotation m -> let t := transpose m in
  dot (row0 t) (row0 t) = 1 /\ dot (row1 t) (row1 t) = 1 /\ dot (row2 t) (row2 t) = 1 /\
  dot (row0 t) (row1 t) = 0 /\ dot (row0 t) (row2 t) = 0 /\ dot (row1 t) (row2 t) = 0.
Proof.
  destruct m as [[a b c] [d e f] [g h i]]. unfold rotation, dot, transpose. cbn.
  intros (H1 & H2 & H3 & H4 & H5 & H6 & -> & -> & ->).
  (* with third row the cross product: Lagrange's identities *)
  assert (D : (b * f - c * e) * (b * f - c * e) + (c * d - a * f) * (c * d - a * f) + (a * e - b * d) * (a * e - b * d) =
    (a * a + b * b + c * c) * (d * d + e * e + f * f) - (a * d + b * e + c * f) * (a * d + b * e + c * f)) by ring.
  set (p := a * a + b * b + c * c) in *. set (q := d * d + e * e + f * f) in *. set (o := a * d + b * e + c * f) in *.
  assert (E11 : a * a + d * d + (b * f - c * e) * (b * f - c * e) = 1).
  { transitivity (a * a + d * d + (p - a * a) * (q - d * d) - (o - a * d) * (o - a * d)); [unfold p, q, o; ring|rewrite H1, H2, H4; ring]. }
  assert (E22 : b * b + e * e + (c * d - a * f) * (c * d - a * f) = 1).
  { transitivity (b * b + e * e + (p - b * b) * (q - e * e) - (o - b * e) * (o - b * e)); [unfold p, q, o; ring|rewrite H1, H2, H4; ring]. }
  assert (E33 : c * c + f * f + (a * e - b * d) * (a * e - b * d) = 1).
  { transitivity (c * c + f * f + (p - c * c) * (q - f * f) - (o - c * f) * (o - c * f)); [unfold p, q, o; ring|rewrite H1, H2, H4; ring]. }
  assert (E12 : a * b + d * e + (b * f - c * e) * (c * d - a * f) = 0).
  { transitivity (a * b + d * e - a * b * q - d * e * p + (a * e + b * d) * o); [unfold p, q, o; ring|rewrite H1, H2, H4; ring]. }
  assert (E13 : a * c + d * f + (b * f - c * e) * (a * e - b * d) = 0).
  { transitivity (a * c + d * f - a * c * q - d * f * p + (a * f + c * d) * o); [unfold p, q, o; ring|rewrite H1, H2, H4; ring]. }
  assert (E23 : b * c + e * f + (c * d - a * f) * (a * e - b * d) = 0).
  { transitivity (b * c + e * f - b * c * q - e * f * p + (b * f + c * e) * o); [unfold p, q, o; ring|rewrite H1, H2, H4; ring]. }
  auto 10.
Qed.

Lemma mul_transpose m v : rotation m -> mul m (mul (transpose m) v) = v.
Proof.
  intros H. destruct m as [[a b c] [d e f] [g h i]], v as [x y z]. unfold rotation, dot in H. cbn in H.
  destruct H as (H1 & H2 & H3 & H4 & H5 & H6 & _).
  apply vec_ext; unfold mul, transpose, dot; cbn.
  - transitivity (x * (a * a + b * b + c * c) + y * (a * d + b * e + c * f) + z * (a * g + b * h + c * i)); [ring|]. rewrite H1, H4, H5. ring.
  - transitivity (x * (a * d + b * e + c * f) + y * (d * d + e * e + f * f) + z * (d * g + e * h + f * i)); [ring|]. rewrite H2, H4, H6. ring.
  - transitivity (x * (a * g + b * h + c * i) + y * (d * g + e * h + f * i) + z * (g * g + h * h + i * i)); [ring|]. rewrite H3, H5, H6. ring.
Qed.

Lemma transpose_mul m v : rotation m -> mul (transpose m) (mul m v) = v.
Proof.
  intros H. apply columns in H. destruct m as [[a b c] [d e f] [g h i]], v as [x y z]. unfold dot in H. cbn in H.
  destruct H as (H1 & H2 & H3 & H4 & H5 & H6).
  apply vec_ext; unfold mul, transpose, dot; cbn.
  - transitivity (x * (a * a + d * d + g * g) + y * (a * b + d * e + g * h) + z * (a * c + d * f + g * i)); [ring|]. rewrite H1, H4, H5. ring.
  - transitivity (x * (a * b + d * e + g * h) + y * (b * b + e * e + h * h) + z * (b * c + e * f + h * i)); [ring|]. rewrite H2, H4, H6. ring.
  - transitivity (x * (a * c + d * f + g * i) + y * (b * c + e * f + h * i) + z * (c * c + f * f + i * i)); [ring|]. rewrite H3, H5, H6. ring.
Qed.

Lemma ned_ecef_ned ned origin : ecef2ned (ned2ecef ned origin) origin = ned.
Proof.
  unfold ecef2ned, ned2ecef. set (m := nedrot (vx origin) (vy origin)). set (o := lla2ecef origin).
  replace (vsub (vadd o (mul (transpose m) ned)) o) with (mul (transpose m) ned) by (apply vec_ext; cbn; ring).
  apply mul_transpose, nedrot_rotation.
Qed.

Lemma ecef_ned_ecef ecef origin : ned2ecef (ecef2ned ecef origin) origin = ecef.
Proof.
  unfold ecef2ned, ned2ecef. set (m := nedrot (vx origin) (vy origin)). set (o := lla2ecef origin).
  rewrite transpose_mul by apply nedrot_rotation. apply vec_ext; cbn; ring.
Qed.

Lemma mul_dist m p q : rotation m -> dist2 (mul m p) (mul m q) = dist2 p q.
Proof.
  intros H. apply columns in H. destruct m as [[a b c] [d e f] [g h i]], p as [x y z], q as [x' y' z']. unfold dot in H. cbn in H.
  destruct H as (H1 & H2 & H3 & H4 & H5 & H6). unfold dist2, mul, dot. cbn.
  transitivity ((x - x') * (x - x') * (a * a + d * d + g * g) + (y - y') * (y - y') * (b * b + e * e + h * h) +
    (z - z') * (z - z') * (c * c + f * f + i * i) + 2 * ((x - x') * (y - y')) * (a * b + d * e + g * h) +
    2 * ((x - x') * (z - z')) * (a * c + d * f + g * i) + 2 * ((y - y') * (z - z')) * (b * c + e * f + h * i)); [ring|].
  rewrite H1, H2, H3, H4, H5, H6. ring.
Qed.

Lemma ecef2ned_dist p q origin : dist2 (ecef2ned p origin) (ecef2ned q origin) = dist2 p q.
Proof. unfold ecef2ned. rewrite mul_dist by apply nedrot_rotation. unfold dist2. cbn. ring. Qed.

Lemma ned2ecef_dist p q origin : dist2 (ned2ecef p origin) (ned2ecef q origin) = dist2 p q.
Proof. rewrite <- (ned_ecef_ned p origin) at 2. rewrite <- (ned_ecef_ned q origin) at 2. symmetry. apply ecef2ned_dist. Qed.

(** ** The ellipsoid *)
Lemma e2_range : 0 < wgs_e2 < 1 / 100.
Proof. unfold wgs_e2. lra. Qed.
Lemma a_pos : 0 < wgs_a.
Proof. unfold wgs_a. lra. Qed.

Lemma sind2 d : 0 <= sind d * sind d <= 1.
Proof. pose proof (sc d). nra. Qed.

Lemma n_arg d : 0 < 1 - wgs_e2 * (sind d * sind d).
Proof. pose proof e2_range. pose proof (sind2 d). nra. Qed.

Lemma ll2ecef_on ll : on_ellipsoid (ll2ecef ll).
Proof.
  unfold on_ellipsoid, ll2ecef. cbn [vx vy vz]. destruct ll as (lat, lon). cbn [fst snd].
  pose proof (n_arg lat) as Hn. pose proof e2_range as He. pose proof a_pos as Ha. pose proof (sc lat) as H1. pose proof (sc lon) as H2.
  set (n := wgs_a / sqrt (1 - wgs_e2 * (sind lat * sind lat))).
  assert (Hnn : n * n * (1 - wgs_e2 * (sind lat * sind lat)) = wgs_a * wgs_a).
  { unfold n. pose proof (sqrt_sqrt _ (Rlt_le _ _ Hn)) as Hs. pose proof (sqrt_lt_R0 _ Hn) as Hs'.
    rewrite <- Hs at 3. field. lra. }
  replace (n * cosd lat * cosd lon * (n * cosd lat * cosd lon) + n * cosd lat * sind lon * (n * cosd lat * sind lon))
    with (n * n * (cosd lat * cosd lat) * (sind lon * sind lon + cosd lon * cosd lon)) by ring.
  rewrite H2. replace (cosd lat * cosd lat) with (1 - sind lat * sind lat) by lra.
  apply Rmult_eq_reg_r with (wgs_a * wgs_a); [|nra].
  transitivity (n * n * (1 - wgs_e2 * (sind lat * sind lat))); [field; split; lra|]. rewrite Hnn. ring.
Qed.

Lemma ll_lla ll : ll2ecef ll = lla2ecef (mkV (fst ll) (snd ll) 0).
Proof. apply vec_ext; unfold ll2ecef, lla2ecef; cbn [vx vy vz]; ring. Qed.

(** A point at altitude h is h along the normal above the surface point. *)
Lemma lla_up lat lon h : lla2ecef (mkV lat lon h) = vadd (ll2ecef (lat, lon)) (mkV (h * vx (up lat lon)) (h * vy (up lat lon)) (h * vz (up lat lon))).
Proof. apply vec_ext; unfold ll2ecef, lla2ecef, up; cbn [vx vy vz vadd fst snd]; ring. Qed.

Lemma ne2ecef_on ne origin e : ne2ecef ne origin = Some e -> on_ellipsoid e.
Proof. unfold ne2ecef. destruct (ecef2ll _) as [ll|]; [|discriminate]. intros H. injection H as <-. apply ll2ecef_on. Qed.

Lemma ll2ne_self ll : ll2ne ll ll = (0, 0).
Proof. unfold ll2ne, ecef2ne, vsub, dot. cbn. f_equal; ring. Qed.

Lemma lla2ned_self lla : lla2ned lla lla = mkV 0 0 0.
Proof. unfold lla2ned, ecef2ned, vsub, mul, dot. cbn. apply vec_ext; cbn; ring. Qed.

(** ll2ne is the horizontal part of the local frame. *)
Lemma ll2ne_ned ll origin : ll2ne ll origin =
  (vx (lla2ned (mkV (fst ll) (snd ll) 0) (mkV (fst origin) (snd origin) 0)), vy (lla2ned (mkV (fst ll) (snd ll) 0) (mkV (fst origin) (snd origin) 0))).
Proof.
  unfold ll2ne, ecef2ne, lla2ned, ecef2ned. cbn [vx vy vz mul].
  rewrite (ll_lla ll), (ll_lla origin). reflexivity.
Qed.

(** ** Back to latitude and longitude *)
Lemma meridian_mirror w z lat alt : meridian w z = Some (lat, alt) -> 0 < z -> meridian w (- z) = Some (- lat, alt).
Proof.
  unfold meridian. rewrite Rabs_Ropp. destruct (first_guess w (Rabs z)) as [guess|]; [|discriminate].
  destruct (correct_guess w (Rabs z) guess) as [[lat' alt']|]; [|discriminate].
  intros H Hz. destruct (Rltb_spec z 0); [lra|]. destruct (Rltb_spec (- z) 0); [|lra]. injection H as <- <-. reflexivity.
Qed.

Lemma ecef2lla_mirror p lla : vz p <> 0 -> ecef2lla p = Some lla -> ecef2lla (mirror p) = Some (mkV (- vx lla) (vy lla) (vz lla)).
Proof.
  intros Hz. unfold ecef2lla, mirror. cbn [vx vy vz]. set (w := sqrt (vx p * vx p + vy p * vy p)).
  destruct (meridian w (vz p)) as [[lat alt]|] eqn:E; [|discriminate]. intros H. injection H as <-. cbn [vx vy vz].
  destruct (Rlt_le_dec 0 (vz p)) as [Hp|Hp].
  - rewrite (meridian_mirror w (vz p) lat alt E Hp). f_equal. f_equal. pose proof PI_RGT_0. field. lra.
  - assert (E' : meridian w (- vz p) = Some (- lat, alt)).
    { unfold meridian in *. rewrite Rabs_Ropp. destruct (first_guess w (Rabs (vz p))) as [guess|]; [|discriminate].
      destruct (correct_guess w (Rabs (vz p)) guess) as [[lat' alt']|]; [|discriminate].
      destruct (Rltb_spec (vz p) 0); [|lra]. destruct (Rltb_spec (- vz p) 0); [lra|]. injection E as <- <-. rewrite Ropp_involutive. reflexivity. }
    rewrite E'. f_equal. f_equal. pose proof PI_RGT_0. field. lra.
Qed.

(** ecef2ll is ecef2lla without the altitude. *)
Lemma ecef2ll_lla p : ecef2ll p = match ecef2lla p with Some lla => Some (vx lla, vy lla) | None => None end.
Proof. unfold ecef2ll, ecef2lla. destruct (meridian _ _) as [[lat alt]|]; reflexivity. Qed.

Lemma ecef2ll_mirror p ll : vz p <> 0 -> ecef2ll p = Some ll -> ecef2ll (mirror p) = Some (- fst ll, snd ll).
Proof.
  intros Hz. rewrite !ecef2ll_lla. destruct (ecef2lla p) as [lla|] eqn:E; [|discriminate]. intros H. injection H as <-.
  rewrite (ecef2lla_mirror p lla Hz E). reflexivity.
Qed.

(** The longitude of k (cos lon, sin lon) is lon. *)
Lemma lon_exact k lon z lla : 0 < k -> - 180 < lon <= 180 -> ecef2lla (mkV (k * cosd lon) (k * sind lon) z) = Some lla -> vy lla = lon.
Proof.
  intros Hk Hl H. unfold ecef2lla in H. cbn [vx vy vz] in H.
  destruct (meridian _ _) as [[lat alt]|]; [|discriminate]. injection H as <-. cbn [vy].
  pose proof PI_RGT_0 as HPI. unfold cosd, sind. rewrite atan2_polar; auto; [field; lra|]. split; nra.
Qed.

Lemma w_polar k lon : 0 <= k -> sqrt (k * cosd lon * (k * cosd lon) + k * sind lon * (k * sind lon)) = k.
Proof.
  intros Hk. replace (k * cosd lon * (k * cosd lon) + k * sind lon * (k * sind lon)) with (k * k * (sind lon * sind lon + cosd lon * cosd lon)) by ring.
  rewrite sc, Rmult_1_r. apply sqrt_square. auto.
Qed.
