(** Properties C52-C54 and C62: coordinate frames (include/cf.hpp), over the
    reals. *)
From Coq Require Import Reals Lra.
From Verif Require Import Cf CfSpec CfProofs CfMain.
Local Open Scope R_scope.

(** *** C52 *)
Theorem C52_rotation : forall lat lon, rotation (nedrot lat lon).
Proof. exact nedrot_rotation. Qed.
Print Assumptions C52_rotation.

Theorem C52_inverse : forall p origin,
  ecef2ned (ned2ecef p origin) origin = p /\ ned2ecef (ecef2ned p origin) origin = p.
Proof. intros p o. exact (conj (ned_ecef_ned p o) (ecef_ned_ecef p o)). Qed.
Print Assumptions C52_inverse.

Theorem C52_lengths : forall p q origin,
  dist2 (ecef2ned p origin) (ecef2ned q origin) = dist2 p q /\ dist2 (ned2ecef p origin) (ned2ecef q origin) = dist2 p q.
Proof. intros p q o. exact (conj (ecef2ned_dist p q o) (ned2ecef_dist p q o)). Qed.
Print Assumptions C52_lengths.

(** The Earth's centre is 6378137 m below the point with latitude and longitude 0. *)
Example ex_ned : ecef2ned (mkV 0 0 0) (mkV 0 0 0) = mkV 0 0 6378137.
Proof.
  assert (S : sind 0 = 0) by (unfold sind; replace (0 * PI / 180) with 0 by field; apply sin_0).
  assert (C : cosd 0 = 1) by (unfold cosd; replace (0 * PI / 180) with 0 by field; apply cos_0).
  unfold ecef2ned, lla2ecef, nedrot. cbn [vx vy vz]. rewrite S, C.
  replace (1 - wgs_e2 * (0 * 0)) with 1 by ring. rewrite sqrt_1. unfold wgs_a, mul, dot, vsub. cbn.
  apply vec_ext; cbn; field.
Qed.

(** *** C53 *)
Theorem C53_on_ellipsoid : forall ll, on_ellipsoid (ll2ecef ll).
Proof. exact ll2ecef_on. Qed.
Print Assumptions C53_on_ellipsoid.

Theorem C53_ne_on_ellipsoid : forall ne origin e, ne2ecef ne origin = Some e -> on_ellipsoid e.
Proof. exact ne2ecef_on. Qed.
Print Assumptions C53_ne_on_ellipsoid.

(** Altitude moves a point along the normal; at altitude 0 both functions agree. *)
Theorem C53_altitude : forall lat lon h,
  lla2ecef (mkV lat lon h) =
    vadd (ll2ecef (lat, lon)) (mkV (h * vx (up lat lon)) (h * vy (up lat lon)) (h * vz (up lat lon))) /\
  lla2ecef (mkV lat lon 0) = ll2ecef (lat, lon).
Proof. intros lat lon h. exact (conj (lla_up lat lon h) (eq_sym (ll_lla (lat, lon)))). Qed.
Print Assumptions C53_altitude.

Theorem C53_own_frame : forall ll lla, ll2ne ll ll = (0, 0) /\ lla2ned lla lla = mkV 0 0 0.
Proof. intros ll lla. exact (conj (ll2ne_self ll) (lla2ned_self lla)). Qed.
Print Assumptions C53_own_frame.

Theorem C53_horizontal : forall ll origin, ll2ne ll origin =
  (vx (lla2ned (mkV (fst ll) (snd ll) 0) (mkV (fst origin) (snd origin) 0)),
   vy (lla2ned (mkV (fst ll) (snd ll) 0) (mkV (fst origin) (snd origin) 0))).
Proof. exact ll2ne_ned. Qed.
Print Assumptions C53_horizontal.

(** [ne2ecef] returns: here for the origin at 60 degrees north, 10 degrees east. *)
Example ex_ne2ecef : exists e, ne2ecef (0, 0) (60, 10) = Some e.
Proof.
  unfold ne2ecef. replace (vadd _ _) with (ll2ecef (60, 10)) by (apply vec_ext; unfold mul, dot; cbn; ring).
  destruct (longitude_back 60 10) as (l & E); [lra..|]. rewrite E. eauto.
Qed.

(** *** C54 *)
Theorem C54_longitude : forall lat lon, -90 < lat < 90 -> -180 < lon <= 180 ->
  exists lat', ecef2ll (ll2ecef (lat, lon)) = Some (lat', lon).
Proof. exact longitude_back. Qed.
Print Assumptions C54_longitude.

Theorem C54_mirror : forall p ll, ecef2ll p = Some ll -> ecef2ll (mirror p) = Some (- fst ll, snd ll).
Proof. exact ecef2ll_mirrored. Qed.
Print Assumptions C54_mirror.

Example ex_mirror : exists ll, ecef2ll (ll2ecef (60, 10)) = Some ll /\ snd ll = 10.
Proof. destruct (longitude_back 60 10) as (l & E); [lra..|]. exists (l, 10). auto. Qed.

(** *** C62 *)
(** One thousand-millionth of a degree is about 0.1 mm on the ground; the
    altitude is within a micrometre of 0. *)
Theorem C62_surface_round_trip : forall lat lon, -90 <= lat <= 90 ->
  exists lla, ecef2lla (ll2ecef (lat, lon)) = Some lla /\
    Rabs (vx lla - lat) <= 1 / 1000000000000 /\ Rabs (vz lla) <= 1 / 1000000 /\
    (-90 < lat < 90 -> -180 < lon <= 180 -> vy lla = lon).
Proof. exact surface_round_trip. Qed.
Print Assumptions C62_surface_round_trip.

Theorem C62_ll_round_trip : forall lat lon, -90 <= lat <= 90 ->
  exists lat' lon', ecef2ll (ll2ecef (lat, lon)) = Some (lat', lon') /\ Rabs (lat' - lat) <= 1 / 1000000000000 /\
    (-90 < lat < 90 -> -180 < lon <= 180 -> lon' = lon).
Proof. exact ll_round_trip. Qed.
Print Assumptions C62_ll_round_trip.

Theorem C62_own_frame_round_trip : forall lat lon, Rabs lat < 90 - 1 / 1000000000000 -> -180 < lon <= 180 ->
  exists lat', ne2ll (ll2ne (lat, lon) (lat, lon)) (lat, lon) = Some (lat', lon) /\ Rabs (lat' - lat) <= 2 / 1000000000000.
Proof. intros lat lon. rewrite ll2ne_self. exact (ne2ll_origin lat lon). Qed.
Print Assumptions C62_own_frame_round_trip.

Example ex_lat : -90 <= 60 <= 90 /\ Rabs 60 < 90 - 1 / 1000000000000 /\ -180 < 10 <= 180.
Proof. rewrite Rabs_pos_eq by lra. lra. Qed.
