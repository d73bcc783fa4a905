(** One step of the latitude correction (cf.hpp:244-252) from a guess [phi] near
    the latitude [x] of a surface point: the error left is of second order. *)
From Coq Require Import Bool Reals Lra.
From Coquelicot Require Import Coquelicot.
From Interval Require Import Tactic.
From Verif Require Import Scalar Cf CfOlson.
Local Open Scope R_scope.

(** The meridian's radius of curvature. *)
Definition rho (t : R) : R := wgs_a * (1 - wgs_e2) / ((1 - wgs_e2 * (sin t * sin t)) * sqrt (1 - wgs_e2 * (sin t * sin t))).
Definition drho (t : R) : R := rho t * (3 * wgs_e2 * (sin t * cos t)) / (1 - wgs_e2 * (sin t * sin t)).

Lemma sc2 t : cos t * cos t = 1 - sin t * sin t.
Proof. pose proof (sin2_cos2 t). unfold Rsqr in H. lra. Qed.

Lemma g_low t : 99 / 100 < 1 - wgs_e2 * (sin t * sin t) <= 1.
Proof.
  assert (0 <= sin t * sin t <= 1).
  { pose proof (sc2 t). pose proof (Rle_0_sqr (cos t)). pose proof (Rle_0_sqr (sin t)). unfold Rsqr in *. lra. }
  unfold wgs_e2. lra.
Qed.

Lemma sg_low t : 99 / 100 < sqrt (1 - wgs_e2 * (sin t * sin t)) <= 1.
Proof.
  pose proof (g_low t) as H. split.
  - rewrite <- (sqrt_square (99 / 100)) by lra. apply sqrt_lt_1; lra.
  - apply Rle_trans with (sqrt 1); [apply sqrt_le_1; lra|rewrite sqrt_1; lra].
Qed.

Lemma rho_bounds t : 6300000 < rho t < 6530000.
Proof.
  pose proof (g_low t) as Hg. pose proof (sg_low t) as Hs. unfold rho.
  set (g := 1 - wgs_e2 * (sin t * sin t)) in *. set (q := sqrt g) in *.
  assert (H1 : 9801 / 10000 < g * q) by (apply Rlt_trans with (99 / 100 * q); [|apply Rmult_lt_compat_r; lra]; lra).
  assert (H2 : g * q <= 1) by (apply Rle_trans with (1 * q); [apply Rmult_le_compat_r; lra|lra]).
  assert (E : wgs_a * (1 - wgs_e2) = 6378137 * (9933056200098622003 / 10000000000000000000)) by (unfold wgs_a, wgs_e2; lra).
  rewrite E. split.
  - apply Rmult_lt_reg_r with (g * q); [lra|]. unfold Rdiv at 1. rewrite Rmult_assoc, Rinv_l by lra. nra.
  - apply Rmult_lt_reg_r with (g * q); [lra|]. unfold Rdiv at 1. rewrite Rmult_assoc, Rinv_l by lra. nra.
Qed.

Lemma drho_bounds t : Rabs (drho t) <= 80000.
Proof.
  pose proof (g_low t) as Hg. pose proof (rho_bounds t) as Hr. unfold drho.
  set (g := 1 - wgs_e2 * (sin t * sin t)) in *. clearbody g.
  assert (Hsc : Rabs (sin t * cos t) <= 1 / 2).
  { pose proof (sc2 t). pose proof (Rle_0_sqr (sin t - cos t)). pose proof (Rle_0_sqr (sin t + cos t)). unfold Rsqr in *. apply Rabs_le. split; nra. }
  unfold Rdiv. rewrite !Rabs_mult. rewrite (Rabs_right (rho t)) by lra. rewrite (Rabs_right (/ g)) by (apply Rle_ge, Rlt_le, Rinv_0_lt_compat; lra).
  rewrite (Rabs_right 3) by lra. rewrite (Rabs_right wgs_e2) by (unfold wgs_e2; lra).
  assert (Hi : / g <= 100 / 99). { replace (100 / 99) with (/ (99 / 100)) by field. apply Rinv_le_contravar; lra. }
  assert (Hip : 0 < / g) by (apply Rinv_0_lt_compat; lra).
  rewrite <- Rabs_mult. set (p := Rabs (sin t * cos t)) in *. assert (0 <= p) by apply Rabs_pos.
  assert (H1 : 3 * wgs_e2 * p <= 10042 / 1000000) by (unfold wgs_e2; lra).
  assert (H0 : 0 <= 3 * wgs_e2 * p) by (unfold wgs_e2; lra).
  apply Rle_trans with (rho t * (10042 / 1000000) * (100 / 99)); [|lra].
  apply Rmult_le_compat; try lra; [apply Rmult_le_pos; lra|]. apply Rmult_le_compat_l; lra.
Qed.

Lemma d_w (t : R) : is_derive surf_w t (- rho t * sin t).
Proof.
  pose proof (g_low t) as Hg. pose proof (sg_low t) as Hs. unfold surf_w, surf_n, rho.
  auto_derive; [split; [lra|split; [unfold Rminus in Hs; lra|auto]]|].
  assert (Eq : sqrt (1 - wgs_e2 * (sin t * sin t)) * sqrt (1 - wgs_e2 * (sin t * sin t)) = 1 - wgs_e2 * (sin t * sin t)) by (apply sqrt_sqrt; lra).
  pose proof (sc2 t) as Hc.
  replace (1 + - (wgs_e2 * (sin t * sin t))) with (1 - wgs_e2 * (sin t * sin t)) by ring.
  set (q := sqrt (1 - wgs_e2 * (sin t * sin t))) in *. clearbody q. rewrite <- Eq. 
  field_simplify_eq; [|lra].
  replace (cos t ^ 2) with (1 - sin t * sin t) by (rewrite <- Hc; ring).
  replace (q ^ 2) with (1 - wgs_e2 * (sin t * sin t)) by (rewrite <- Eq; ring). ring.
Qed.

Lemma d_z (t : R) : is_derive surf_z t (rho t * cos t).
Proof.
  pose proof (g_low t) as Hg. pose proof (sg_low t) as Hs. unfold surf_z, surf_n, rho.
  auto_derive; [split; [lra|split; [unfold Rminus in Hs; lra|auto]]|].
  assert (Eq : sqrt (1 - wgs_e2 * (sin t * sin t)) * sqrt (1 - wgs_e2 * (sin t * sin t)) = 1 - wgs_e2 * (sin t * sin t)) by (apply sqrt_sqrt; lra).
  replace (1 + - (wgs_e2 * (sin t * sin t))) with (1 - wgs_e2 * (sin t * sin t)) by ring.
  set (q := sqrt (1 - wgs_e2 * (sin t * sin t))) in *. clearbody q. rewrite <- Eq. 
  field_simplify_eq; [|lra].
  replace (q ^ 2) with (1 - wgs_e2 * (sin t * sin t)) by (rewrite <- Eq; ring). ring.
Qed.

Lemma d_rho (t : R) : is_derive rho t (drho t).
Proof.
  pose proof (g_low t) as Hg. pose proof (sg_low t) as Hs. unfold drho, rho.
  auto_derive.
  - split; [lra|]. split; [|auto]. unfold Rminus in Hs. apply Rmult_integral_contrapositive. split; lra.
  - assert (Eq : sqrt (1 - wgs_e2 * (sin t * sin t)) * sqrt (1 - wgs_e2 * (sin t * sin t)) = 1 - wgs_e2 * (sin t * sin t)) by (apply sqrt_sqrt; lra).
    replace (1 + - (wgs_e2 * (sin t * sin t))) with (1 - wgs_e2 * (sin t * sin t)) by ring.
    set (q := sqrt (1 - wgs_e2 * (sin t * sin t))) in *. clearbody q. rewrite <- Eq. 
    field_simplify_eq; [|lra]. ring.
Qed.

Lemma sin_abs u : Rabs (sin u) <= Rabs u.
Proof.
  destruct (Rtotal_order u 0) as [H|[->|H]].
  - rewrite <- (Rabs_Ropp (sin u)), <- sin_neg, <- (Rabs_Ropp u). rewrite (Rabs_right (- u)) by lra.
    destruct (Rle_lt_dec (- u) 1) as [H1|H1].
    + rewrite Rabs_right; [apply Rlt_le, sin_lt_x; lra|]. apply Rle_ge, sin_ge_0; [lra|]. pose proof PI2_1. lra.
    + apply Rle_trans with 1; [|lra]. apply Rabs_le. apply SIN_bound.
  - rewrite sin_0. lra.
  - rewrite (Rabs_right u) by lra. destruct (Rle_lt_dec u 1) as [H1|H1].
    + rewrite Rabs_right; [apply Rlt_le, sin_lt_x; lra|]. apply Rle_ge, sin_ge_0; [lra|]. pose proof PI2_1. lra.
    + apply Rle_trans with 1; [|lra]. apply Rabs_le. apply SIN_bound.
Qed.

Lemma cos_near u : 0 <= 1 - cos u <= u * u / 2.
Proof.
  assert (E : 1 - cos u = 2 * (sin (u / 2) * sin (u / 2))).
  { replace u with (2 * (u / 2)) at 1 by field. rewrite cos_2a_sin. ring. }
  rewrite E. pose proof (sin_abs (u / 2)) as H. apply Rsqr_le_abs_1 in H. unfold Rsqr in H. pose proof (Rle_0_sqr (sin (u / 2))). unfold Rsqr in *. lra.
Qed.

(** Mean value theorem for a function with a derivative everywhere. *)
Lemma mvt (f df : R -> R) a b : (forall t, is_derive f t (df t)) -> exists c, (Rabs (c - a) <= Rabs (b - a) /\ Rmin a b <= c <= Rmax a b) /\ f b - f a = df c * (b - a).
Proof.
  intros H. destruct (MVT_gen f a b df) as (c & Hc & E).
  - intros t _. apply H.
  - intros t _. apply continuity_pt_filterlim. apply (ex_derive_continuous f t). exists (df t). apply H.
  - exists c. split; auto. split; auto. unfold Rmin, Rmax in Hc. destruct (Rle_dec a b); unfold Rabs; destruct (Rcase_abs (c - a)); destruct (Rcase_abs (b - a)); lra.
Qed.

Section Step.
Variables phi x e : R.
Hypothesis He : Rabs (x - phi) <= e.
Hypothesis He7 : e <= 3 / 10000000.
Let s := sin phi.
Let c := cos phi.
Let w := surf_w x.
Let z := surf_z x.

Let e_pos : 0 <= e.
Proof. pose proof (Rabs_pos (x - phi)). lra. Qed.

(** Distance along the normal and along the meridian. *)
Definition F t := c * (surf_w t - surf_w phi) + s * (surf_z t - surf_z phi).
Definition M t := c * (surf_z t - surf_z phi) - s * (surf_w t - surf_w phi).

Lemma d_F t : is_derive F t (- rho t * sin (t - phi)).
Proof.
  unfold F. replace (- rho t * sin (t - phi)) with (c * (- rho t * sin t) + s * (rho t * cos t)) by (rewrite sin_minus; unfold s, c; ring).
  apply (is_derive_plus (K := R_AbsRing) (V := R_NormedModule)).
  - apply (is_derive_scal (fun t => surf_w t - surf_w phi)). replace (- rho t * sin t) with (- rho t * sin t - 0) by ring.
    apply (is_derive_minus (K := R_AbsRing) (V := R_NormedModule)); [apply d_w|apply (is_derive_const (K := R_AbsRing) (V := R_NormedModule))].
  - apply (is_derive_scal (fun t => surf_z t - surf_z phi)). replace (rho t * cos t) with (rho t * cos t - 0) by ring.
    apply (is_derive_minus (K := R_AbsRing) (V := R_NormedModule)); [apply d_z|apply (is_derive_const (K := R_AbsRing) (V := R_NormedModule))].
Qed.
Lemma d_M t : is_derive M t (rho t * cos (t - phi)).
Proof.
  unfold M. replace (rho t * cos (t - phi)) with (c * (rho t * cos t) - s * (- rho t * sin t)) by (rewrite cos_minus; unfold s, c; ring).
  apply (is_derive_minus (K := R_AbsRing) (V := R_NormedModule)).
  - apply (is_derive_scal (fun t => surf_z t - surf_z phi)). replace (rho t * cos t) with (rho t * cos t - 0) by ring.
    apply (is_derive_minus (K := R_AbsRing) (V := R_NormedModule)); [apply d_z|apply (is_derive_const (K := R_AbsRing) (V := R_NormedModule))].
  - apply (is_derive_scal (fun t => surf_w t - surf_w phi)). replace (- rho t * sin t) with (- rho t * sin t - 0) by ring.
    apply (is_derive_minus (K := R_AbsRing) (V := R_NormedModule)); [apply d_w|apply (is_derive_const (K := R_AbsRing) (V := R_NormedModule))].
Qed.

Lemma F_small : Rabs (F x) <= 6530000 * (e * e).
Proof.
  destruct (mvt F _ phi x d_F) as (t & (Ht & _) & E).
  replace (F phi) with 0 in E by (unfold F; ring). rewrite Rminus_0_r in E. rewrite E, !Rabs_mult, Rabs_Ropp.
  pose proof (rho_bounds t) as Hr. rewrite (Rabs_right (rho t)) by lra. pose proof (sin_abs (t - phi)) as Hs.
  pose proof (Rabs_pos (sin (t - phi))). pose proof (Rabs_pos (x - phi)).
  rewrite Rmult_assoc. apply Rmult_le_compat; try lra; [apply Rmult_le_pos; lra|]. apply Rmult_le_compat; lra.
Qed.

Lemma M_near : Rabs (M x - rho phi * (x - phi)) <= 80001 * (e * e).
Proof.
  destruct (mvt M _ phi x d_M) as (t & (Ht & _) & E).
  replace (M phi) with 0 in E by (unfold M; ring). rewrite Rminus_0_r in E. rewrite E.
  destruct (mvt rho _ phi t d_rho) as (u & (Hu & _) & Eu).
  replace (rho t * cos (t - phi) * (x - phi) - rho phi * (x - phi)) with ((rho t - rho phi - rho t * (1 - cos (t - phi))) * (x - phi)) by ring.
  rewrite Rabs_mult. pose proof (Rabs_pos (x - phi)). pose proof (rho_bounds t) as Hr.
  assert (H1 : Rabs (rho t - rho phi) <= 80000 * e).
  { rewrite Eu, Rabs_mult. pose proof (drho_bounds u). pose proof (Rabs_pos (drho u)). pose proof (Rabs_pos (t - phi)). apply Rmult_le_compat; lra. }
  assert (H2 : Rabs (rho t * (1 - cos (t - phi))) <= 1 * e).
  { pose proof (cos_near (t - phi)) as Hc. assert (Ht2 : (t - phi) * (t - phi) <= e * e).
    { assert (Ha : Rabs (t - phi) <= Rabs e) by (rewrite (Rabs_right e) by lra; lra). apply Rsqr_le_abs_1 in Ha. exact Ha. }
    rewrite Rabs_mult. rewrite (Rabs_right (rho t)) by lra. rewrite (Rabs_right (1 - cos (t - phi))) by lra.
    apply Rle_trans with (6530000 * (e * e / 2)); [apply Rmult_le_compat; lra|].
    apply Rle_trans with (6530000 * (e * (3 / 10000000) / 2)); [|lra]. apply Rmult_le_compat_l; [lra|]. unfold Rdiv. apply Rmult_le_compat_r; [lra|]. apply Rmult_le_compat_l; lra. }
  replace (80001 * (e * e)) with ((80000 * e + 1 * e) * e) by ring. apply Rmult_le_compat; try lra; [apply Rabs_pos|].
  apply Rle_trans with (Rabs (rho t - rho phi) + Rabs (- (rho t * (1 - cos (t - phi))))); [apply Rabs_triang|rewrite Rabs_Ropp; lra].
Qed.

(** The code's k_a6 is 1 - e2, rounded. *)
Let eta := (3 / 10000000000000000000) * surf_n phi.
Lemma eta_small : 0 <= eta <= 1 / 100000000000.
Proof.
  unfold eta, surf_n. pose proof (sg_low phi) as H. set (q := sqrt _) in *.
  assert (/ q <= 100 / 99). { replace (100 / 99) with (/ (99 / 100)) by field. apply Rinv_le_contravar; lra. }
  assert (0 < / q) by (apply Rinv_0_lt_compat; lra). unfold Rdiv at 2 4. unfold wgs_a. split; lra.
Qed.
Lemma k6_near : k_a6 = 1 - wgs_e2 - 3 / 10000000000000000000.
Proof. unfold k_a6, wgs_e2. lra. Qed.

Lemma rg_n : q_rg (s * s) = surf_n phi.
Proof. reflexivity. Qed.

Lemma f_eq : q_f w z s c (s * s) = F x + eta * (s * s).
Proof.
  unfold q_f. rewrite rg_n, k6_near. unfold F, w, z, eta.
  replace (surf_w phi) with (surf_n phi * c) by reflexivity. replace (surf_z phi) with (surf_n phi * (1 - wgs_e2) * s) by reflexivity. ring.
Qed.
Lemma m_eq : q_m w z s c (s * s) = M x + eta * (s * c).
Proof.
  unfold q_m. rewrite rg_n, k6_near. unfold M, w, z, eta.
  replace (surf_w phi) with (surf_n phi * c) by reflexivity. replace (surf_z phi) with (surf_n phi * (1 - wgs_e2) * s) by reflexivity. ring.
Qed.
Lemma d_eq : q_d w z s c (s * s) = rho phi - eta / (1 - wgs_e2 * (s * s)) + q_f w z s c (s * s).
Proof.
  unfold q_d. rewrite rg_n, k6_near. unfold q_g, eta, rho, surf_n. fold s. pose proof (g_low phi) as H1. pose proof (sg_low phi) as H2. fold s in H1, H2.
  field. split; lra.
Qed.

Lemma unit_products : 0 <= s * s <= 1 /\ Rabs (s * c) <= 1.
Proof.
  pose proof (sc2 phi) as H. fold s c in H. pose proof (Rle_0_sqr s). pose proof (Rle_0_sqr c). pose proof (Rle_0_sqr (s + c)). pose proof (Rle_0_sqr (s - c)).
  unfold Rsqr in *. split; [lra|]. apply Rabs_le. lra.
Qed.

Lemma ee : 0 <= e * e <= 9 / 100000000000000.
Proof. split; [apply Rmult_le_pos; lra|]. replace (9 / 100000000000000) with (3 / 10000000 * (3 / 10000000)) by field. apply Rmult_le_compat; lra. Qed.

Lemma f_small : Rabs (q_f w z s c (s * s)) <= 6530000 * (e * e) + 1 / 100000000000.
Proof.
  rewrite f_eq. pose proof eta_small as He'. destruct unit_products as [H1 _].
  apply Rle_trans with (Rabs (F x) + Rabs (eta * (s * s))); [apply Rabs_triang|]. apply Rplus_le_compat; [apply F_small|].
  rewrite Rabs_right by (apply Rle_ge, Rmult_le_pos; lra). replace (1 / 100000000000) with (1 / 100000000000 * 1) by ring. apply Rmult_le_compat; lra.
Qed.

Lemma d_big : 6200000 < q_d w z s c (s * s).
Proof.
  rewrite d_eq. pose proof (rho_bounds phi). pose proof f_small as Hf. pose proof ee. pose proof eta_small. pose proof (g_low phi) as Hg. fold s in Hg.
  assert (eta / (1 - wgs_e2 * (s * s)) <= 1).
  { apply Rmult_le_reg_r with (1 - wgs_e2 * (s * s)); [lra|]. unfold Rdiv. rewrite Rmult_assoc, Rinv_l by lra. lra. }
  unfold Rabs in Hf. destruct (Rcase_abs _); lra.
Qed.

(** The corrected latitude. *)
Lemma lat_step : Rabs (phi + q_m w z s c (s * s) / q_d w z s c (s * s) - x) <= 1 / 100000000000000.
Proof.
  pose proof d_big as Hd. pose proof d_eq as Ed. pose proof f_small as Hf. pose proof M_near as HM. pose proof m_eq as Em. pose proof eta_small as Ht. pose proof ee as Hee.
  pose proof (g_low phi) as Hg. fold s in Hg. destruct unit_products as [_ Hsc].
  set (d := q_d w z s c (s * s)) in *. set (f := q_f w z s c (s * s)) in *. set (m := q_m w z s c (s * s)) in *.
  assert (Hq : 0 <= eta / (1 - wgs_e2 * (s * s)) <= 1 / 50000000000).
  { split; [apply Rmult_le_pos; [lra|apply Rlt_le, Rinv_0_lt_compat; lra]|].
    apply Rmult_le_reg_r with (1 - wgs_e2 * (s * s)); [lra|]. unfold Rdiv at 1. rewrite Rmult_assoc, Rinv_l by lra. lra. }
  set (h := eta / (1 - wgs_e2 * (s * s))) in *. clearbody d f m h.
  replace (phi + m / d - x) with ((m - d * (x - phi)) / d) by (field; lra).
  assert (E : m - d * (x - phi) = (M x - rho phi * (x - phi)) + eta * (s * c) + (h - f) * (x - phi)) by (rewrite Em, Ed; ring).
  assert (B : Rabs (m - d * (x - phi)) <= 1 / 50000000).
  { rewrite E. eapply Rle_trans; [apply Rabs_triang|]. eapply Rle_trans; [apply Rplus_le_compat_r, Rabs_triang|].
    assert (B1 : Rabs (eta * (s * c)) <= 1 / 100000000000).
    { rewrite Rabs_mult, (Rabs_right eta) by lra. pose proof (Rabs_pos (s * c)). replace (1 / 100000000000) with (1 / 100000000000 * 1) by ring. apply Rmult_le_compat; lra. }
    assert (B2 : Rabs ((h - f) * (x - phi)) <= 1 * (3 / 10000000)).
    { rewrite Rabs_mult. pose proof (Rabs_pos (x - phi)). apply Rmult_le_compat; try lra; [apply Rabs_pos|]. unfold Rabs in Hf |- *. destruct (Rcase_abs f), (Rcase_abs (h - f)); lra. }
    assert (B3 : Rabs ((h - f) * (x - phi)) <= (1 / 1000000) * (3 / 10000000)).
    { rewrite Rabs_mult. pose proof (Rabs_pos (x - phi)). apply Rmult_le_compat; try lra; [apply Rabs_pos|]. unfold Rabs in Hf |- *. destruct (Rcase_abs f), (Rcase_abs (h - f)); lra. }
    lra. }
  unfold Rdiv. rewrite Rabs_mult. rewrite (Rabs_right (/ d)) by (apply Rle_ge, Rlt_le, Rinv_0_lt_compat; lra).
  apply Rle_trans with (1 / 50000000 * / 6200000); [|lra]. pose proof (Rabs_pos (m - d * (x - phi))).
  apply Rmult_le_compat; try lra; [apply Rlt_le, Rinv_0_lt_compat; lra|apply Rinv_le_contravar; lra].
Qed.

(** The altitude. *)
Lemma alt_step : Rabs (q_f w z s c (s * s) + q_m w z s c (s * s) * (q_m w z s c (s * s) / q_d w z s c (s * s)) / 2) <= 1 / 1000000.
Proof.
  pose proof d_big as Hd. pose proof f_small as Hf. pose proof M_near as HM. pose proof m_eq as Em. pose proof eta_small as Ht. pose proof ee as Hee.
  destruct unit_products as [_ Hsc]. pose proof (rho_bounds phi) as Hr.
  assert (Hm : Rabs (q_m w z s c (s * s)) <= 6530000 * e + 1 / 10000000).
  { rewrite Em. eapply Rle_trans; [apply Rabs_triang|].
    assert (B1 : Rabs (eta * (s * c)) <= 1 / 100000000000).
    { rewrite Rabs_mult, (Rabs_right eta) by lra. pose proof (Rabs_pos (s * c)). replace (1 / 100000000000) with (1 / 100000000000 * 1) by ring. apply Rmult_le_compat; lra. }
    assert (B2 : Rabs (rho phi * (x - phi)) <= 6530000 * e).
    { rewrite Rabs_mult, (Rabs_right (rho phi)) by lra. pose proof (Rabs_pos (x - phi)). apply Rmult_le_compat; lra. }
    replace (M x) with (rho phi * (x - phi) + (M x - rho phi * (x - phi))) by ring.
    pose proof (Rabs_triang (rho phi * (x - phi)) (M x - rho phi * (x - phi))). lra. }
  set (d := q_d w z s c (s * s)) in *. set (f := q_f w z s c (s * s)) in *. set (m := q_m w z s c (s * s)) in *. clearbody d f m.
  assert (Hmm : m * (m / d) / 2 = (m * m) * (/ d / 2)) by (field; lra). rewrite Hmm.
  assert (Hm2 : 0 <= m * m <= (19591 / 10000) * (19591 / 10000)).
  { split; [apply Rle_0_sqr|]. assert (Ha : Rabs m <= Rabs (19591 / 10000)) by (rewrite (Rabs_right (19591 / 10000)); lra). apply Rsqr_le_abs_1 in Ha. exact Ha. }
  assert (Hi : 0 < / d <= / 6200000) by (split; [apply Rinv_0_lt_compat; lra|apply Rinv_le_contravar; lra]).
  assert (Hp : 0 <= m * m * (/ d / 2) <= 4 * (/ 6200000 / 2)) by (split; [apply Rmult_le_pos; lra|apply Rmult_le_compat; lra]).
  unfold Rabs in Hf |- *. destruct (Rcase_abs f), (Rcase_abs (f + _)); lra.
Qed.
End Step.
