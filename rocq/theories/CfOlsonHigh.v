(** CfOlsonHigh: the branch near the poles (cf.hpp:238-243). *)
From Coq Require Import Bool Reals Lra.
From Interval Require Import Tactic.
From Verif Require Import Scalar Cf CfOlson CfNewton CfOlsonLow.
Local Open Scope R_scope.

(** The guess for cos x as a function of t = cos x. *)
Definition guess_c (t : R) : R :=
  let n := wgs_a / sqrt (1 - wgs_e2 * (1 - t * t)) in
  let h := t * t + k2 * (1 - t * t) in
  let r := n * sqrt h in
  (t / sqrt h) * (1 - (k2 * (1 - t * t) / h) * (k_a5 - k_a2 / r - (t * t / h) * (k_a3 - k_a4 / r)) / r).

Lemma guess_c_close t : -1 / 100000 <= t <= 56 / 100 -> Rabs (guess_c t - t) <= 1 / 10000000.
Proof.
  intros H. unfold guess_c. cbv zeta. unfold k2, k_a1, k_a2, k_a3, k_a4, k_a5, wgs_a, wgs_e2.
  interval with (i_bisect t, i_taylor t, i_degree 6, i_prec 60, i_depth 8).
Qed.

Lemma c_guess x : q_c (surf_w x) (surf_z x) = guess_c (cos x).
Proof.
  unfold q_c, guess_c. cbv zeta. rewrite r_n, s2_n, c2_n. pose proof (sc2 x) as E.
  replace (1 - cos x * cos x) with (sin x * sin x) by lra. replace (cos x * cos x) with (1 - sin x * sin x) by lra. fold (surf_n x). f_equal.
  unfold surf_w. pose proof (n_pos x). assert (Hs : 0 <= sin x * sin x <= 1).
  { pose proof (sc2 x). pose proof (Rle_0_sqr (cos x)). pose proof (Rle_0_sqr (sin x)). unfold Rsqr in *. lra. }
  pose proof (h_pos _ Hs). assert (0 < sqrt ((1 - sin x * sin x) + k2 * (sin x * sin x))) by (apply sqrt_lt_R0; lra). field. split; lra.
Qed.

(** The latitude guessed. *)
Lemma high_guess x : 98 / 100 <= x <= 15708 / 10000 -> let c := q_c (surf_w x) (surf_z x) in
  let phi := PI / 2 - atan (c / sqrt (1 - c * c)) in
  sin phi = sqrt (1 - c * c) /\ cos phi = c /\ sin phi * sin phi = 1 - c * c /\ Rabs (x - phi) <= 3 / 10000000.
Proof.
  intros Hx c phi. pose proof (high_c x Hx) as Hs. fold c in Hs.
  assert (Hq : 0 < 1 - c * c) by nra. assert (E : phi = acos c) by (rewrite acos_asin, asin_atan by lra; reflexivity).
  assert (Ecos : cos (acos c) = c) by (apply cos_acos; lra).
  assert (Hd : Rabs (c - cos x) <= 1 / 10000000).
  { unfold c. rewrite c_guess. apply guess_c_close. assert (-1 / 100000 <= cos x <= 56 / 100) by (split; interval). lra. }
  assert (Ha : 42 / 100 <= phi <= 168 / 100).
  { unfold phi. clearbody c. clear - Hs. split; interval with (i_bisect c). }
  rewrite E in *. split; [apply sin_acos; lra|]. split; [auto|]. split; [rewrite sin_acos by lra; apply sqrt_sqrt; unfold Rsqr; lra|].
  destruct (mvt cos (fun t => - sin t) x (acos c)) as (t & (_ & Ht) & Et); [intros; apply Coquelicot.Derive.is_derive_Reals, derivable_pt_lim_cos|].
  rewrite Ecos in Et.
  assert (Hc : 40 / 100 <= sin t).
  { assert (42 / 100 <= t <= 168 / 100) by (unfold Rmin, Rmax in Ht; destruct (Rle_dec x (acos c)); lra). interval. }
  rewrite Et, Rabs_mult, Rabs_Ropp in Hd. rewrite (Rabs_right (sin t)) in Hd by lra. rewrite <- Rabs_Ropp. replace (- (x - acos c)) with (acos c - x) by ring.
  pose proof (Rabs_pos (acos c - x)). nra.
Qed.

(** The denominator, the latitude and the altitude after the correction. *)
Lemma high_d x : 98 / 100 <= x <= 15708 / 10000 -> let w := surf_w x in let z := surf_z x in let c := q_c w z in
  1000000 < q_d w z (sqrt (1 - c * c)) c (1 - c * c).
Proof.
  intros H w z c. destruct (high_guess x H) as (Es & Ec & Ess & Hb). fold w z in Es, Ec, Ess, Hb. fold c in Es, Ec, Ess, Hb.
  pose proof (d_big _ x _ Hb (Rle_refl _)) as Hd. rewrite Ess, Es, Ec in Hd. fold w z in Hd. lra.
Qed.

Lemma high_lat x : 98 / 100 <= x <= 15708 / 10000 -> let w := surf_w x in let z := surf_z x in let c := q_c w z in
  let s := sqrt (1 - c * c) in
  Rabs (PI / 2 - atan (c / s) + q_m w z s c (1 - c * c) / q_d w z s c (1 - c * c) - x) <= 1 / 100000000000000.
Proof.
  intros H w z c s. destruct (high_guess x H) as (Es & Ec & Ess & Hb). fold w z in Es, Ec, Ess, Hb. fold c in Es, Ec, Ess, Hb. fold s in Es, Ec, Ess, Hb.
  pose proof (lat_step _ x _ Hb (Rle_refl _)) as Hd. rewrite Ess, Es, Ec in Hd. exact Hd.
Qed.

Lemma high_alt x : 98 / 100 <= x <= 15708 / 10000 -> let w := surf_w x in let z := surf_z x in let c := q_c w z in
  let s := sqrt (1 - c * c) in
  Rabs (q_f w z s c (1 - c * c) + q_m w z s c (1 - c * c) * (q_m w z s c (1 - c * c) / q_d w z s c (1 - c * c)) / 2) <= 1 / 1000000.
Proof.
  intros H w z c s. destruct (high_guess x H) as (Es & Ec & Ess & Hb). fold w z in Es, Ec, Ess, Hb. fold c in Es, Ec, Ess, Hb. fold s in Es, Ec, Ess, Hb.
  pose proof (alt_step _ x _ Hb (Rle_refl _)) as Hd. rewrite Ess, Es, Ec in Hd. exact Hd.
Qed.
