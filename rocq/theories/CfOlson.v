(** Accuracy of the latitude of surface points (cf.hpp:198-259): numerical
    bounds over the whole range of latitudes, by interval arithmetic with Taylor
    models (the [interval] tactic; its proofs are checked by the kernel). *)
From Coq Require Import Bool Reals Lra.
From Interval Require Import Tactic.
From Verif Require Import Scalar Cf.
Local Open Scope R_scope.

(** The surface point at latitude x (radians): distance from the axis and from
    the equator plane. *)
Definition surf_n (x : R) : R := wgs_a / sqrt (1 - wgs_e2 * (sin x * sin x)).
Definition surf_w (x : R) : R := surf_n x * cos x.
Definition surf_z (x : R) : R := surf_n x * (1 - wgs_e2) * sin x.

(** The quantities of [first_guess]. *)
Definition q_r (w z : R) : R := sqrt (w * w + z * z).
Definition q_s2 (w z : R) : R := z * z / (w * w + z * z).
Definition q_c2 (w z : R) : R := w * w / (w * w + z * z).
Definition q_s (w z : R) : R :=
  (z / q_r w z) * (1 + q_c2 w z * (k_a1 + k_a2 / q_r w z + q_s2 w z * (k_a3 - k_a4 / q_r w z)) / q_r w z).
Definition q_c (w z : R) : R :=
  (w / q_r w z) * (1 - q_s2 w z * (k_a5 - k_a2 / q_r w z - q_c2 w z * (k_a3 - k_a4 / q_r w z)) / q_r w z).
(** The quantities of [correct_guess]. *)
Definition q_g (ss : R) : R := 1 - wgs_e2 * ss.
Definition q_rg (ss : R) : R := wgs_a / sqrt (q_g ss).
Definition q_f (w z s c ss : R) : R := c * (w - q_rg ss * c) + s * (z - k_a6 * q_rg ss * s).
Definition q_m (w z s c ss : R) : R := c * (z - k_a6 * q_rg ss * s) - s * (w - q_rg ss * c).
Definition q_d (w z s c ss : R) : R := k_a6 * q_rg ss / q_g ss + q_f w z s c ss.

Ltac numbers := unfold q_d, q_m, q_f, q_rg, q_g, q_c, q_s, q_c2, q_s2, q_r, surf_z, surf_w, surf_n,
  k_a1, k_a2, k_a3, k_a4, k_a5, k_a6, wgs_a, wgs_e2.

Lemma low_c2 x : 0 <= x <= 98 / 100 -> 3 / 10 < q_c2 (surf_w x) (surf_z x).
Proof. intros H. numbers. interval with (i_bisect x, i_depth 12). Qed.
Lemma high_c2 x : 1 <= x <= 15708 / 10000 -> q_c2 (surf_w x) (surf_z x) < 3 / 10.
Proof. intros H. numbers. interval with (i_bisect x, i_depth 12). Qed.

Lemma low_r x : 0 <= x <= 15708 / 10000 -> 6000000 < q_r (surf_w x) (surf_z x).
Proof. intros H. numbers. interval with (i_bisect x, i_depth 12). Qed.

Lemma low_s x : 0 <= x <= 1 -> -1 / 10 < q_s (surf_w x) (surf_z x) < 9 / 10.
Proof. intros H. numbers. split; interval with (i_bisect x, i_depth 12). Qed.
Lemma high_c x : 98 / 100 <= x <= 15708 / 10000 -> -1 / 10 < q_c (surf_w x) (surf_z x) < 9 / 10.
Proof. intros H. numbers. split; interval with (i_bisect x, i_depth 12). Qed.
