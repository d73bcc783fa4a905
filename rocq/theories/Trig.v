(** atan2 over the reals. *)
From Coq Require Import Reals Lra Lia ZArith.
Local Open Scope R_scope.

(** std::atan2 without signed zeros (C17, 7.12.4.4). *)
Definition atan2 (y x : R) : R :=
  if Rlt_dec 0 x then atan (y / x)
  else if Rlt_dec x 0 then (if Rle_dec 0 y then atan (y / x) + PI else atan (y / x) - PI)
  else if Rlt_dec 0 y then PI / 2
  else if Rlt_dec y 0 then - (PI / 2) else 0.

Lemma norm_pos x y : x <> 0 \/ y <> 0 -> 0 < x * x + y * y.
Proof. intros [H|H]; nra. Qed.

Lemma sqrt_scale x y : x <> 0 -> sqrt (1 + (y / x)²) = sqrt (x * x + y * y) / Rabs x.
Proof.
  intros Hx. assert (Hp : 0 < x * x + y * y) by (apply norm_pos; auto).
  replace (1 + (y / x)²) with ((x * x + y * y) / (x * x)) by (unfold Rsqr; field; auto).
  rewrite sqrt_div_alt by nra. f_equal. replace (x * x) with (Rsqr x) by reflexivity. apply sqrt_Rsqr_abs.
Qed.

Lemma atan2_cos_sin x y : x <> 0 \/ y <> 0 ->
  cos (atan2 y x) = x / sqrt (x * x + y * y) /\ sin (atan2 y x) = y / sqrt (x * x + y * y).
Proof.
  intros H. pose proof (norm_pos x y H) as Hp. pose proof (sqrt_lt_R0 _ Hp) as Hs.
  unfold atan2. destruct (Rlt_dec 0 x) as [Hx|Hx].
  - rewrite cos_atan, sin_atan, sqrt_scale by lra. rewrite Rabs_pos_eq by lra. split; field; lra.
  - destruct (Rlt_dec x 0) as [Hx'|Hx'].
    + assert (E : cos (atan (y / x)) = - x / sqrt (x * x + y * y) /\ sin (atan (y / x)) = - y / sqrt (x * x + y * y)).
      { rewrite cos_atan, sin_atan, sqrt_scale by lra. rewrite Rabs_left by lra. split; field; lra. }
      destruct E as (E1 & E2). destruct (Rle_dec 0 y).
      * rewrite neg_cos, neg_sin, E1, E2. split; field; lra.
      * replace (atan (y / x) - PI) with (- (PI - atan (y / x))) by ring.
        rewrite cos_neg, sin_neg, Rtrigo_facts.cos_pi_minus, Rtrigo_facts.sin_pi_minus, E1, E2. split; field; lra.
    + assert (x = 0) by lra. subst x. replace (0 * 0 + y * y) with (Rsqr y) by (unfold Rsqr; ring). rewrite sqrt_Rsqr_abs.
      destruct (Rlt_dec 0 y) as [Hy|Hy]; [|destruct (Rlt_dec y 0) as [Hy'|Hy']].
      * rewrite cos_PI2, sin_PI2, Rabs_pos_eq by lra. split; field; lra.
      * rewrite cos_neg, sin_neg, cos_PI2, sin_PI2, Rabs_left by lra. split; field; lra.
      * lra.
Qed.

Lemma atan2_range x y : - PI < atan2 y x <= PI.
Proof.
  unfold atan2. pose proof PI_RGT_0. pose proof (atan_bound (y / x)) as Hb.
  destruct (Rlt_dec 0 x) as [Hx|Hx]; [lra|]. destruct (Rlt_dec x 0) as [Hx'|Hx'].
  - destruct (Rle_dec 0 y) as [Hy|Hy].
    + assert (Hq : y / x <= 0). { unfold Rdiv. assert (/ x < 0) by (apply Rinv_lt_0_compat; auto). nra. }
      assert (Ha : atan (y / x) <= 0). { destruct Hq as [Hq| ->]; [left; rewrite <- atan_0; apply atan_increasing; auto|rewrite atan_0; lra]. }
      lra.
    + assert (Hq : 0 < y / x). { unfold Rdiv. assert (/ x < 0) by (apply Rinv_lt_0_compat; auto). nra. }
      assert (Ha : 0 < atan (y / x)) by (rewrite <- atan_0; apply atan_increasing; auto). lra.
  - destruct (Rlt_dec 0 y); [lra|]. destruct (Rlt_dec y 0); lra.
Qed.

Lemma angle_unique a b : - PI < a <= PI -> - PI < b <= PI -> cos a = cos b -> sin a = sin b -> a = b.
Proof.
  intros Ha Hb Hc Hs. pose proof PI_RGT_0.
  assert (H1 : cos (a - b) = 1).
  { rewrite cos_minus, Hc, Hs. pose proof (sin2_cos2 b). unfold Rsqr in *. lra. }
  assert (H2 : sin ((a - b) / 2) = 0).
  { replace (a - b) with (2 * ((a - b) / 2)) in H1 by field. rewrite cos_2a_sin in H1. nra. }
  apply sin_eq_0_0 in H2. destruct H2 as (k & Hk).
  assert (Hk' : IZR k = 0).
  { assert (-1 < IZR k < 1) as (K1 & K2) by (split; nra). apply (lt_IZR (-1)) in K1. apply (lt_IZR k 1) in K2.
    replace k with 0%Z by lia. reflexivity. }
  rewrite Hk' in Hk. lra.
Qed.

Lemma atan2_polar k t : 0 < k -> - PI < t <= PI -> atan2 (k * sin t) (k * cos t) = t.
Proof.
  intros Hk Ht. assert (Hn : k * cos t * (k * cos t) + k * sin t * (k * sin t) = Rsqr k).
  { pose proof (sin2_cos2 t). unfold Rsqr in *. replace (k * cos t * (k * cos t) + k * sin t * (k * sin t)) with (k * k * (sin t * sin t + cos t * cos t)) by ring.
    rewrite H. ring. }
  assert (Hnz : k * cos t <> 0 \/ k * sin t <> 0).
  { destruct (Req_dec (k * cos t) 0) as [E|]; auto. right. intros E'. rewrite E, E' in Hn. unfold Rsqr in Hn. nra. }
  destruct (atan2_cos_sin _ _ Hnz) as (H1 & H2). rewrite Hn, sqrt_Rsqr in H1, H2 by lra.
  apply angle_unique; auto; [apply atan2_range| |].
  - rewrite H1. field. lra.
  - rewrite H2. field. lra.
Qed.
