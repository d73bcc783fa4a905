(** Fields of view and boxes between the global and a local frame: the parts of
    include/bbox.hpp and include/sensors.hpp that use include/cf.hpp. *)
From Coq Require Import List Bool Reals.
Import ListNotations.
From Verif Require Import Scalar Cf GM Box.
Local Open Scope R_scope.

(** BBox::nebbox, bbox.hpp:149-157. *)
Definition nebbox (o : pt) (b : bbox) : bbox :=
  mkBBox (ll2ne (c0 b) o) (ll2ne (c1 b) o) (ll2ne (c2 b) o) (ll2ne (c3 b) o).

(** BBox::llbbox, bbox.hpp:139-147. *)
Definition llbbox (o : pt) (b : bbox) : option bbox :=
  match ne2ll (c0 b) o, ne2ll (c1 b) o, ne2ll (c2 b) o, ne2ll (c3 b) o with
  | Some a, Some b, Some c, Some d => Some (mkBBox a b c d)
  | _, _, _, _ => None
  end.

(** AABBox::llaabbox, bbox.hpp:91-96. *)
Definition a_llaabbox (o : pt) (b : aabb) : option aabb :=
  match ne2ll (min0 b, min1 b) o, ne2ll (max0 b, max1 b) o with
  | Some a, Some c => Some (aabb_of4 (fst a) (snd a) (fst c) (snd c))
  | _, _ => None
  end.

(** The field of view of PositionSensor(), sensors.hpp:29-33. *)
Definition default_fov : bbox := mkBBox (90, 180) (90, 0) (-90, 0) (-90, 180).

(** Gaussian_::overlap, gaussian.hpp:122-134, of the positions of its (1000)
    samples. *)
Definition overlap (b : bbox) (samples : list pt) : R :=
  INR (length (filter (b_within b) samples)) / INR (length samples).

(** PositionSensor::pD, sensors.hpp:43-46, for the parameter [p] (pD_) and the
    origin [o] of the local frame. *)
Definition pD (p : R) (fov : bbox) (o : pt) (samples : list pt) : R := p * overlap (nebbox o fov) samples.
