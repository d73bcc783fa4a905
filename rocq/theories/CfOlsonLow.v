(** CfOlsonLow: the branch for lower latitudes (cf.hpp:233-237). *)
From Coq Require Import Bool Reals Lra.
From Interval Require Import Tactic.
From Verif Require Import Scalar Cf CfOlson CfNewton.
Local Open Scope R_scope.

(** The guess for sin x as a function of t = sin x. *)
Definition k2 : R := (1 - wgs_e2) * (1 - wgs_e2).
Definition guess_s (t : R) : R :=
  let n := wgs_a / sqrt (1 - wgs_e2 * (t * t)) in
  let h := (1 - t * t) + k2 * (t * t) in
  let r := n * sqrt h in
  ((1 - wgs_e2) * t / sqrt h) * (1 + ((1 - t * t) / h) * (k_a1 + k_a2 / r + (k2 * (t * t) / h) * (k_a3 - k_a4 / r)) / r).

Lemma guess_s_close t : 0 <= t <= 842 / 1000 -> Rabs (guess_s t - t) <= 1 / 10000000.
Proof.
  intros H. unfold guess_s. cbv zeta. unfold k2, k_a1, k_a2, k_a3, k_a4, k_a5, wgs_a, wgs_e2.
  interval with (i_bisect t, i_taylor t, i_degree 6, i_prec 60, i_depth 8).
Qed.

Lemma n_pos x : 0 < surf_n x.
Proof. unfold surf_n. pose proof (sg_low x). apply Rdiv_lt_0_compat; [unfold wgs_a|]; lra. Qed.

Lemma h_pos t : 0 <= t * t <= 1 -> 9 / 10 < (1 - t * t) + k2 * (t * t).
Proof. intros H. unfold k2, wgs_e2. lra. Qed.

Lemma wz_n x : surf_w x * surf_w x + surf_z x * surf_z x = surf_n x * surf_n x * ((1 - sin x * sin x) + k2 * (sin x * sin x)).
Proof. unfold surf_w, surf_z, k2. rewrite <- (sc2 x). ring. Qed.

Lemma r_n x : q_r (surf_w x) (surf_z x) = surf_n x * sqrt ((1 - sin x * sin x) + k2 * (sin x * sin x)).
Proof.
  unfold q_r. rewrite wz_n. pose proof (n_pos x). assert (Hs : 0 <= sin x * sin x <= 1).
  { pose proof (sc2 x). pose proof (Rle_0_sqr (cos x)). pose proof (Rle_0_sqr (sin x)). unfold Rsqr in *. lra. }
  pose proof (h_pos _ Hs). rewrite sqrt_mult by (try apply Rle_0_sqr; lra). rewrite sqrt_square by lra. reflexivity.
Qed.

Lemma s2_n x : q_s2 (surf_w x) (surf_z x) = k2 * (sin x * sin x) / ((1 - sin x * sin x) + k2 * (sin x * sin x)).
Proof.
  unfold q_s2. rewrite wz_n. pose proof (n_pos x). assert (Hs : 0 <= sin x * sin x <= 1).
  { pose proof (sc2 x). pose proof (Rle_0_sqr (cos x)). pose proof (Rle_0_sqr (sin x)). unfold Rsqr in *. lra. }
  pose proof (h_pos _ Hs). unfold surf_z, k2 in *. field. split; lra.
Qed.
Lemma c2_n x : q_c2 (surf_w x) (surf_z x) = (1 - sin x * sin x) / ((1 - sin x * sin x) + k2 * (sin x * sin x)).
Proof.
  unfold q_c2. rewrite wz_n. pose proof (n_pos x). assert (Hs : 0 <= sin x * sin x <= 1).
  { pose proof (sc2 x). pose proof (Rle_0_sqr (cos x)). pose proof (Rle_0_sqr (sin x)). unfold Rsqr in *. lra. }
  pose proof (h_pos _ Hs). unfold surf_w. rewrite <- (sc2 x) in *. field. split; lra.
Qed.

Lemma s_guess x : q_s (surf_w x) (surf_z x) = guess_s (sin x).
Proof.
  unfold q_s, guess_s. cbv zeta. rewrite r_n, s2_n, c2_n. fold (surf_n x). f_equal.
  unfold surf_z. pose proof (n_pos x). assert (Hs : 0 <= sin x * sin x <= 1).
  { pose proof (sc2 x). pose proof (Rle_0_sqr (cos x)). pose proof (Rle_0_sqr (sin x)). unfold Rsqr in *. lra. }
  pose proof (h_pos _ Hs). assert (0 < sqrt ((1 - sin x * sin x) + k2 * (sin x * sin x))) by (apply sqrt_lt_R0; lra). field. split; lra.
Qed.

(** The latitude guessed. *)
Lemma low_guess x : 0 <= x <= 1 -> let s := q_s (surf_w x) (surf_z x) in
  sin (atan (s / sqrt (1 - s * s))) = s /\ cos (atan (s / sqrt (1 - s * s))) = sqrt (1 - s * s) /\
  Rabs (x - atan (s / sqrt (1 - s * s))) <= 3 / 10000000.
Proof.
  intros Hx s. pose proof (low_s x Hx) as Hs. fold s in Hs.
  assert (Hq : 0 < 1 - s * s) by nra. assert (E : atan (s / sqrt (1 - s * s)) = asin s) by (rewrite asin_atan by lra; reflexivity).
  rewrite E. rewrite sin_asin, cos_asin by lra. split; auto. split; auto.
  assert (Hd : Rabs (s - sin x) <= 1 / 10000000).
  { unfold s. rewrite s_guess. apply guess_s_close. assert (0 <= sin x <= 842 / 1000) by interval. lra. }
  assert (Ha : -2 / 10 <= asin s <= 115 / 100).
  { rewrite <- E. clearbody s. clear - Hs. split; interval with (i_bisect s). }
  destruct (mvt sin cos x (asin s)) as (t & (_ & Ht) & Et); [intros; apply Coquelicot.Derive.is_derive_Reals, derivable_pt_lim_sin|].
  rewrite sin_asin in Et by lra.
  assert (Hc : 40 / 100 <= cos t).
  { assert (-2 / 10 <= t <= 115 / 100) by (unfold Rmin, Rmax in Ht; destruct (Rle_dec x (asin s)); lra). interval. }
  rewrite Et, Rabs_mult in Hd. rewrite (Rabs_right (cos t)) in Hd by lra. rewrite <- Rabs_Ropp. replace (- (x - asin s)) with (asin s - x) by ring.
  pose proof (Rabs_pos (asin s - x)). nra.
Qed.

(** The denominator, the latitude and the altitude after the correction. *)
Lemma low_d x : 0 <= x <= 1 -> let w := surf_w x in let z := surf_z x in let s := q_s w z in
  1000000 < q_d w z s (sqrt (1 - s * s)) (s * s).
Proof.
  intros H w z s. destruct (low_guess x H) as (Es & Ec & Hb). fold w z in Es, Ec, Hb. fold s in Es, Ec, Hb.
  pose proof (d_big _ x _ Hb (Rle_refl _)) as Hd. rewrite Es, Ec in Hd. fold w z in Hd. lra.
Qed.

Lemma low_lat x : 0 <= x <= 1 -> let w := surf_w x in let z := surf_z x in let s := q_s w z in
  let c := sqrt (1 - s * s) in
  Rabs (atan (s / c) + q_m w z s c (s * s) / q_d w z s c (s * s) - x) <= 1 / 100000000000000.
Proof.
  intros H w z s c. destruct (low_guess x H) as (Es & Ec & Hb). fold w z in Es, Ec, Hb. fold s in Es, Ec, Hb. fold c in Es, Ec, Hb.
  pose proof (lat_step _ x _ Hb (Rle_refl _)) as Hd. rewrite Es, Ec in Hd. exact Hd.
Qed.

Lemma low_alt x : 0 <= x <= 1 -> let w := surf_w x in let z := surf_z x in let s := q_s w z in
  let c := sqrt (1 - s * s) in
  Rabs (q_f w z s c (s * s) + q_m w z s c (s * s) * (q_m w z s c (s * s) / q_d w z s c (s * s)) / 2) <= 1 / 1000000.
Proof.
  intros H w z s c. destruct (low_guess x H) as (Es & Ec & Hb). fold w z in Es, Ec, Hb. fold s in Es, Ec, Hb. fold c in Es, Ec, Hb.
  pose proof (alt_step _ x _ Hb (Rle_refl _)) as Hd. rewrite Es, Ec in Hd. exact Hd.
Qed.
