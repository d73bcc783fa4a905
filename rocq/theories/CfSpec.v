(** Specification of coordinate frames. *)
From Coq Require Import Reals.
From Verif Require Import Cf.
Local Open Scope R_scope.

(** The ellipsoid with semi-axes a, a, a * sqrt (1 - e2). *)
Definition on_ellipsoid (p : vec3) : Prop :=
  (vx p * vx p + vy p * vy p) / (wgs_a * wgs_a) + vz p * vz p / (wgs_a * wgs_a * (1 - wgs_e2)) = 1.

(** The squared distance of two points. *)
Definition dist2 (a b : vec3) : R :=
  (vx a - vx b) * (vx a - vx b) + (vy a - vy b) * (vy a - vy b) + (vz a - vz b) * (vz a - vz b).

(** Rows of unit length, orthogonal to each other, right-handed. *)
Definition rotation (m : mat3) : Prop :=
  dot (row0 m) (row0 m) = 1 /\ dot (row1 m) (row1 m) = 1 /\ dot (row2 m) (row2 m) = 1 /\
  dot (row0 m) (row1 m) = 0 /\ dot (row0 m) (row2 m) = 0 /\ dot (row1 m) (row2 m) = 0 /\
  vx (row2 m) = vy (row0 m) * vz (row1 m) - vz (row0 m) * vy (row1 m) /\
  vy (row2 m) = vz (row0 m) * vx (row1 m) - vx (row0 m) * vz (row1 m) /\
  vz (row2 m) = vx (row0 m) * vy (row1 m) - vy (row0 m) * vx (row1 m).

(** The point mirrored at the equator plane. *)
Definition mirror (p : vec3) : vec3 := mkV (vx p) (vy p) (- vz p).

(** The outward normal of the ellipsoid at latitude and longitude (degrees). *)
Definition up (lat lon : R) : vec3 := mkV (cosd lat * cosd lon) (cosd lat * sind lon) (sind lat).
