(** Coordinate frames: include/cf.hpp, over the reals.

    A computation leaves the real numbers where the code divides by 0 or calls
    asin, acos or sqrt outside of their domains (the result is then infinite or
    not a number); the model returns [None] there. *)
From Coq Require Import Bool Reals.
From Verif Require Import Scalar Trig.
Local Open Scope R_scope.

Record vec3 := mkV { vx : R; vy : R; vz : R }.
Definition vadd (a b : vec3) : vec3 := mkV (vx a + vx b) (vy a + vy b) (vz a + vz b).
Definition vsub (a b : vec3) : vec3 := mkV (vx a - vx b) (vy a - vy b) (vz a - vz b).

(** sind, cosd, cf.hpp:15-16. *)
Definition sind (deg : R) : R := sin (deg * PI / 180).
Definition cosd (deg : R) : R := cos (deg * PI / 180).

(** Rows of a rotation matrix. *)
Record mat3 := mkM { row0 : vec3; row1 : vec3; row2 : vec3 }.
Definition dot (a b : vec3) : R := vx a * vx b + vy a * vy b + vz a * vz b.
Definition mul (m : mat3) (v : vec3) : vec3 := mkV (dot (row0 m) v) (dot (row1 m) v) (dot (row2 m) v).
Definition transpose (m : mat3) : mat3 :=
  mkM (mkV (vx (row0 m)) (vx (row1 m)) (vx (row2 m))) (mkV (vy (row0 m)) (vy (row1 m)) (vy (row2 m)))
      (mkV (vz (row0 m)) (vz (row1 m)) (vz (row2 m))).

(** nedrot, cf.hpp:18-35 (of latitude and longitude; the altitude is not used). *)
Definition nedrot (lat lon : R) : mat3 :=
  let slat := sind lat in let slon := sind lon in let clat := cosd lat in let clon := cosd lon in
  mkM (mkV (- slat * clon) (- slat * slon) clat)
      (mkV (- slon) clon 0)
      (mkV (- clat * clon) (- clat * slon) (- slat)).

(** nerot, cf.hpp:37-53: the first two rows. *)
Definition nerot (lat lon : R) : vec3 * vec3 :=
  let slat := sind lat in let slon := sind lon in let clat := cosd lat in let clon := cosd lon in
  (mkV (- slat * clon) (- slat * slon) clat, mkV (- slon) clon 0).

(** The constants, cf.hpp:57-58, 85-86, 140-147, 205-212 (decimal values; the
    doubles nearest to them are not distinguished). *)
Definition wgs_a : R := 6378137.
Definition wgs_e2 : R := 66943799901377997 / 10000000000000000000.
Definition k_a1 : R := 42697672707157535 / 1000000000000.
Definition k_a2 : R := 1823091254607545500 / 1000000000.
Definition k_a3 : R := 14291722289812413 / 100000000000000.
Definition k_a4 : R := 4557728136518863700 / 1000000000.
Definition k_a5 : R := 42840589930055659 / 1000000000000.
Definition k_a6 : R := 9933056200098622 / 10000000000000000.

(** lla2ecef, cf.hpp:55-81. *)
Definition lla2ecef (lla : vec3) : vec3 :=
  let slat := sind (vx lla) in let slon := sind (vy lla) in let clat := cosd (vx lla) in let clon := cosd (vy lla) in
  let slat2 := slat * slat in
  let n := wgs_a / sqrt (1 - wgs_e2 * slat2) in
  let nalt := n + vz lla in
  mkV (nalt * clat * clon) (nalt * clat * slon) ((n * (1 - wgs_e2) + vz lla) * slat).

(** ll2ecef, cf.hpp:83-107. *)
Definition ll2ecef (ll : R * R) : vec3 :=
  let slat := sind (fst ll) in let slon := sind (snd ll) in let clat := cosd (fst ll) in let clon := cosd (snd ll) in
  let slat2 := slat * slat in
  let n := wgs_a / sqrt (1 - wgs_e2 * slat2) in
  mkV (n * clat * clon) (n * clat * slon) (n * (1 - wgs_e2) * slat).

(** ecef2ned, cf.hpp:109-113. *)
Definition ecef2ned (ecef origin : vec3) : vec3 :=
  mul (nedrot (vx origin) (vy origin)) (vsub ecef (lla2ecef origin)).

(** ecef2ne, cf.hpp:115-119. *)
Definition ecef2ne (ecef : vec3) (origin : R * R) : R * R :=
  let d := vsub ecef (ll2ecef origin) in
  (dot (fst (nerot (fst origin) (snd origin))) d, dot (snd (nerot (fst origin) (snd origin))) d).

(** lla2ned, cf.hpp:121-125. *)
Definition lla2ned (lla origin : vec3) : vec3 := ecef2ned (lla2ecef lla) origin.

(** ll2ne, cf.hpp:127-131. *)
Definition ll2ne (ll origin : R * R) : R * R := ecef2ne (ll2ecef ll) origin.

(** The first approximation of the latitude of a point at distance w from the
    axis and zp from the equator plane, cf.hpp:164-178 (the same text at
    229-243): (lat, s, c, ss), [None] outside the domains of the divisions,
    roots, asin and acos. *)
Definition first_guess (w zp : R) : option (R * R * R * R) :=
  let w2 := w * w in
  let z2 := zp * zp in
  let r2 := w2 + z2 in
  let r := sqrt r2 in
  let s2 := z2 / r2 in
  let c2 := w2 / r2 in
  let u := k_a2 / r in
  let v := k_a3 - k_a4 / r in
  if Reqb r 0 then None
  else if Rltb (3 / 10) c2 then
    let s := (zp / r) * (1 + c2 * (k_a1 + u + s2 * v) / r) in
    if Rleb (-1) s && Rleb s 1 then
      let ss := s * s in Some (asin s, s, sqrt (1 - ss), ss)
    else None
  else
    let c := (w / r) * (1 - s2 * (k_a5 - u - c2 * v) / r) in
    if Rleb (-1) c && Rleb c 1 then
      let ss := 1 - c * c in Some (acos c, sqrt ss, c, ss)
    else None.

(** The correction step, cf.hpp:179-188 (244-252): (lat, alt). *)
Definition correct_guess (w zp : R) (guess : R * R * R * R) : option (R * R) :=
  let '(lat, s, c, ss) := guess in
  let g := 1 - wgs_e2 * ss in
  let rg := wgs_a / sqrt g in
  let rf := k_a6 * rg in
  let u := w - rg * c in
  let v := zp - rf * s in
  let f := c * u + s * v in
  let m := c * v - s * u in
  if Rleb g 0 then None
  else if Reqb (rf / g + f) 0 then None
  else let p := m / (rf / g + f) in Some (lat + p, f + m * p / 2).

(** Latitude (radians) and altitude of the meridian point (w, z), cf.hpp:156-191. *)
Definition meridian (w z : R) : option (R * R) :=
  let zp := Rabs z in
  match first_guess w zp with
  | Some guess =>
    match correct_guess w zp guess with
    | Some (lat, alt) => Some (if Rltb z 0 then - lat else lat, alt)
    | None => None
    end
  | None => None
  end.

(** ecef2lla, cf.hpp:133-196.  r2 = w2 + z2 with w2 = w * w. *)
Definition ecef2lla (ecef : vec3) : option vec3 :=
  let w := sqrt (vx ecef * vx ecef + vy ecef * vy ecef) in
  let lon := atan2 (vy ecef) (vx ecef) in
  match meridian w (vz ecef) with
  | Some (lat, alt) => Some (mkV (lat * 180 / PI) (lon * 180 / PI) alt)
  | None => None
  end.

(** ecef2ll, cf.hpp:198-259. *)
Definition ecef2ll (ecef : vec3) : option (R * R) :=
  let w := sqrt (vx ecef * vx ecef + vy ecef * vy ecef) in
  let lon := atan2 (vy ecef) (vx ecef) in
  match meridian w (vz ecef) with
  | Some (lat, _) => Some (lat * 180 / PI, lon * 180 / PI)
  | None => None
  end.

(** ned2ecef, cf.hpp:261-265. *)
Definition ned2ecef (ned origin : vec3) : vec3 :=
  vadd (lla2ecef origin) (mul (transpose (nedrot (vx origin) (vy origin))) ned).

(** ne2ecef, cf.hpp:267-274. *)
Definition ne2ecef (ne origin : R * R) : option vec3 :=
  match ecef2ll (vadd (ll2ecef origin) (mul (transpose (nedrot (fst origin) (snd origin))) (mkV (fst ne) (snd ne) 0))) with
  | Some ll => Some (ll2ecef ll)
  | None => None
  end.

(** ned2lla, cf.hpp:276-280. *)
Definition ned2lla (ned origin : vec3) : option vec3 := ecef2lla (ned2ecef ned origin).

(** ne2ll, cf.hpp:282-286. *)
Definition ne2ll (ne origin : R * R) : option (R * R) :=
  match ne2ecef ne origin with
  | Some e => ecef2ll e
  | None => None
  end.
