(** Rounding errors of one axis of the correction. *)
From Coq Require Import Reals ZArith Lra Lia Psatz.
From Flocq Require Import Core Relative Plus_error.
From Verif Require Import FloatBase KalmanFloatSpec.
Local Open Scope R_scope.
Local Notation bp := (bpow radix2).
Local Notation u := (bp (-53)).

Lemma u_pos : 0 < u. Proof. apply bpow_gt_0. Qed.
Lemma u_small : u <= / 1000000.
Proof. change u with (/ IZR (2 ^ 53)). apply Rinv_le_contravar; [lra|]. apply IZR_le. lia. Qed.

Lemma rel x : x = 0 \/ bp (-1000) <= Rabs x -> exists d, rnd x = x * (1 + d) /\ Rabs d <= u.
Proof.
  intros [->|H].
  - exists 0. rewrite rnd_0, Rabs_R0. split; [ring|apply Rlt_le, u_pos].
  - destruct (relative_error_N_FLT_ex radix2 (-1074) 53 eq_refl (fun x => negb (Z.even x)) x) as (d & Hd & Ed).
    + eapply Rle_trans; [|exact H]. apply bpow_le. lia.
    + exists d. split; [exact Ed|]. eapply Rle_trans; [exact Hd|]. right. change (/ 2) with (bp (-1)). rewrite <- bpow_plus. reflexivity.
Qed.

(** A relative error of [k] units. *)
Definition err (k x y : R) : Prop := exists d, x = y * (1 + d) /\ Rabs d <= k * u.

Lemma err_bound k x y : 0 <= k <= 1000 -> err k x y -> Rabs y / 2 <= Rabs x <= 2 * Rabs y.
Proof.
  intros Hk (d & -> & Hd). rewrite Rabs_mult. pose proof (Rabs_pos y). pose proof u_small. pose proof u_pos.
  apply Rabs_le_inv in Hd. assert (Rabs d <= / 1000) by (apply Rabs_le; nra).
  apply Rabs_le_inv in H2. rewrite (Rabs_pos_eq (1 + d)) by lra. split; nra.
Qed.
Lemma err_mul k k' x y a b : err k x y -> err k' a b -> 0 <= k <= 1000 -> 0 <= k' <= 1000 -> err (k + k' + / 100) (x * a) (y * b).
Proof.
  intros (d & -> & Hd) (d' & -> & Hd') Hk Hk'. exists (d + d' + d * d'). split; [ring|].
  pose proof u_small. pose proof u_pos.
  apply Rle_trans with (Rabs d + Rabs d' + Rabs d * Rabs d').
  { rewrite <- Rabs_mult. eapply Rle_trans; [apply Rabs_triang|]. pose proof (Rabs_triang d d'). lra. }
  pose proof (Rabs_pos d). pose proof (Rabs_pos d').
  assert (Rabs d * Rabs d' <= (k * u) * (k' * u)) by (apply Rmult_le_compat; auto).
  assert ((k * u) * (k' * u) <= / 100 * u); [|nra].
  replace ((k * u) * (k' * u)) with ((k * k' * u) * u) by ring. apply Rmult_le_compat_r; [lra|].
  assert (k * k' <= 1000000) by nra.
  assert (k * k' * u <= 1000000 * u) by (apply Rmult_le_compat_r; lra).
  assert (1000000 * u <= / 100); [|lra].
  change u with (/ IZR (2 ^ 53)). apply Rmult_le_reg_r with (IZR (2 ^ 53)); [apply IZR_lt; lia|].
  rewrite Rmult_assoc, Rinv_l by (apply not_0_IZR; lia). cbn. lra.
Qed.
Lemma err_inv k x y : 0 <= k <= 1000 -> y <> 0 -> err k x y -> err (k + / 100) (/ x) (/ y).
Proof.
  intros Hk Hy (d & -> & Hd). pose proof u_small. pose proof u_pos.
  assert (A : Rabs d <= / 1000) by nra. assert (B := Rabs_le_inv _ _ A).
  exists (- d / (1 + d)). split; [field; split; lra|].
  unfold Rdiv. rewrite Rabs_mult, Rabs_Ropp, Rabs_inv, (Rabs_pos_eq (1 + d)) by lra.
  apply Rmult_le_reg_r with (1 + d); [lra|]. rewrite Rmult_assoc, Rinv_l by lra. rewrite Rmult_1_r.
  pose proof (Rabs_pos d).
  assert (k * u * k <= / 200).
  { assert (k * k <= 1000000) by nra. assert (k * k * u <= 1000000 * u) by (apply Rmult_le_compat_r; lra).
    assert (1000000 * u <= / 200); [|lra].
    change u with (/ IZR (2 ^ 53)). apply Rmult_le_reg_r with (IZR (2 ^ 53)); [apply IZR_lt; lia|].
    rewrite Rmult_assoc, Rinv_l by (apply not_0_IZR; lia). cbn. lra. }
  assert (- d <= k * u) by (destruct (Rabs_le_inv _ _ Hd); lra).
  assert ((k + / 100) * u * (- d) <= (k + / 100) * u * (k * u)) by (apply Rmult_le_compat_l; nra).
  assert ((k + / 100) * u * (k * u) <= / 100 * u); [|lra].
  replace ((k + / 100) * u * (k * u)) with ((k * u * k + / 100 * (k * u)) * u) by ring. apply Rmult_le_compat_r; [lra|].
  assert (k * u <= / 100) by nra. nra.
Qed.
Lemma err_rnd k x y : 0 <= k <= 900 -> y = 0 \/ bp (-900) <= Rabs y -> err k x y -> err (k + 1 + / 100) (rnd x) y.
Proof.
  intros Hk Hy He. pose proof (err_bound k x y ltac:(lra) He) as Hb.
  destruct (rel x) as (d & -> & Hd).
  { destruct Hy as [->|Hy].
    - left. rewrite Rabs_R0 in Hb. destruct (Req_dec x 0); auto. apply Rabs_pos_lt in H. lra.
    - right. apply Rle_trans with (bp (-901)); [apply bpow_le; lia|]. replace (-901)%Z with (-900 + -1)%Z by lia. rewrite bpow_plus.
      change (bp (-1)) with (/ 2). lra. }
  replace y with (y * 1) by ring.
  apply (err_mul k 1 x y (1 + d) 1); try lra; auto.
  exists d. split; [ring|lra].
Qed.
Lemma err_exact x : err 0 x x.
Proof. exists 0. rewrite Rabs_R0. split; [ring|lra]. Qed.

Lemma err_weaken k k' x y : k <= k' -> err k x y -> err k' x y.
Proof. intros H (d & E & Hd). exists d. split; auto. pose proof u_pos. nra. Qed.

Lemma medium_pos x : medium x -> 0 < x.
Proof. intros [H _]. pose proof (bpow_gt_0 radix2 (-200)). lra. Qed.

Section Axis.
(** [p], [r]: variances of the position and of the report; [p'], [r'] those of the other axis. *)
Variables p r p' r' : R.
Hypothesis Hp : medium p.
Hypothesis Hr : medium r.
Hypothesis Hp' : medium p'.
Hypothesis Hr' : medium r'.
Let s := rnd (p + r).
Let s' := rnd (p' + r').
Let det := rnd (s * s').
Let inv := rnd (1 / det).
Let D := rnd (s' * inv).

Lemma sum_range a b : medium a -> medium b -> bp (-200) <= a + b <= bp 201.
Proof.
  intros [H1 H2] [H3 H4]. pose proof (bpow_gt_0 radix2 (-200)). split; [lra|].
  replace 201%Z with (200 + 1)%Z by lia. rewrite bpow_plus. change (bp 1) with 2. lra.
Qed.
Lemma s_err a b : medium a -> medium b -> err (1 + / 50) (rnd (a + b)) (a + b).
Proof.
  intros Ha Hb. pose proof (sum_range a b Ha Hb). pose proof (bpow_gt_0 radix2 (-200)).
  pose proof (err_rnd 0 (a + b) (a + b)) as H1. destruct H1 as (d & E & Hd); [lra| |apply err_exact|].
  - right. rewrite Rabs_pos_eq by lra. apply Rle_trans with (bp (-200)); [apply bpow_le; lia|lra].
  - exists d. split; auto. pose proof u_pos. nra.
Qed.
Lemma err_pos k x y : err k x y -> 0 <= k <= 1000 -> 0 < y -> y / 2 <= x <= 2 * y.
Proof.
  intros (d & -> & Hd) Hk Hy. pose proof u_small. pose proof u_pos. assert (A : Rabs d <= / 1000) by nra. apply Rabs_le_inv in A. nra.
Qed.
Lemma s_range a b : medium a -> medium b -> bp (-201) <= rnd (a + b) <= bp 202.
Proof.
  intros Ha Hb. pose proof (sum_range a b Ha Hb). pose proof (bpow_gt_0 radix2 (-200)).
  pose proof (err_pos _ _ _ (s_err a b Ha Hb) ltac:(lra) ltac:(lra)).
  replace (-201)%Z with (-200 + -1)%Z by lia. replace 202%Z with (201 + 1)%Z by lia. rewrite !bpow_plus.
  change (bp (-1)) with (/ 2). change (bp 1) with 2. lra.
Qed.
Lemma ss_range : bp (-402) <= s * s' <= bp 404.
Proof.
  pose proof (s_range p r Hp Hr). pose proof (s_range p' r' Hp' Hr'). fold s in H. fold s' in H0.
  pose proof (bpow_gt_0 radix2 (-201)).
  replace (-402)%Z with (-201 + -201)%Z by lia. replace 404%Z with (202 + 202)%Z by lia. rewrite !bpow_plus.
  split; apply Rmult_le_compat; lra.
Qed.
Lemma sum_pos : 0 < p + r. Proof. pose proof (medium_pos _ Hp). pose proof (medium_pos _ Hr). lra. Qed.
Lemma sum_pos' : 0 < p' + r'. Proof. pose proof (medium_pos _ Hp'). pose proof (medium_pos _ Hr'). lra. Qed.

Lemma det_err : err (2 + / 20) (s * s') ((p + r) * (p' + r')).
Proof.
  pose proof (err_mul _ _ _ _ _ _ (s_err p r Hp Hr) (s_err p' r' Hp' Hr') ltac:(lra) ltac:(lra)) as (d & E & Hd).
  exists d. split; auto. pose proof u_pos. nra.
Qed.
Lemma exact_range : bp (-400) <= (p + r) * (p' + r') <= bp 402.
Proof.
  pose proof (sum_range p r Hp Hr). pose proof (sum_range p' r' Hp' Hr'). pose proof (bpow_gt_0 radix2 (-200)).
  replace (-400)%Z with (-200 + -200)%Z by lia. replace 402%Z with (201 + 201)%Z by lia. rewrite !bpow_plus. split; apply Rmult_le_compat; lra.
Qed.
(** Relative to rounded sums, so that those cancel in part. *)
Lemma det_ok : bp (-403) <= det <= bp 405 /\ err (1 + / 50) det (s * s').
Proof.
  pose proof ss_range. pose proof (bpow_gt_0 radix2 (-402)).
  assert (He : err (1 + / 50) det (s * s')).
  { destruct (err_rnd 0 (s * s') (s * s')) as (d & E & Hd); [lra| |apply err_exact|].
    - right. rewrite Rabs_pos_eq by lra. apply Rle_trans with (bp (-402)); [apply bpow_le; lia|lra].
    - exists d. split; auto. pose proof u_pos. nra. }
  split; auto. pose proof (err_pos _ _ _ He ltac:(lra) ltac:(lra)).
  replace (-403)%Z with (-402 + -1)%Z by lia. replace 405%Z with (404 + 1)%Z by lia. rewrite !bpow_plus.
  change (bp (-1)) with (/ 2). change (bp 1) with 2. lra.
Qed.
Lemma inv_ok : bp (-406) <= inv <= bp 404 /\ err (2 + / 10) inv (/ (s * s')).
Proof.
  pose proof ss_range. pose proof (bpow_gt_0 radix2 (-402)). destruct det_ok as [Hd He]. pose proof (bpow_gt_0 radix2 (-403)).
  assert (Hn : s * s' <> 0) by lra.
  assert (H3 : bp (-404) <= / (s * s') <= bp 402).
  { replace (-404)%Z with (- (404))%Z by lia. rewrite bpow_opp. change 402%Z with (- (-402))%Z. rewrite bpow_opp.
    split; apply Rinv_le_contravar; lra. }
  assert (Hi : err (2 + / 10) inv (/ (s * s'))).
  { unfold inv. replace (1 / det) with (/ det) by (field; lra).
    eapply err_weaken; [|apply (err_rnd (1 + / 50 + / 100)); [lra| |apply err_inv; [lra|exact Hn|exact He]]]; [lra|].
    right. pose proof (bpow_gt_0 radix2 (-404)). rewrite Rabs_pos_eq by lra. apply Rle_trans with (bp (-404)); [apply bpow_le; lia|lra]. }
  split; auto. pose proof (bpow_gt_0 radix2 (-404)). pose proof (err_pos _ _ _ Hi ltac:(lra) ltac:(lra)).
  replace (-406)%Z with (-404 + -2)%Z by lia. replace 404%Z with (402 + 2)%Z by lia. rewrite !bpow_plus.
  change (bp (-2)) with (/ 4). change (bp 2) with 4. lra.
Qed.
Lemma D_ok : bp (-202) <= D <= bp 201 /\ err (4 + / 2) D (/ (p + r)).
Proof.
  destruct inv_ok as [Hi He]. pose proof (s_range p r Hp Hr) as Hs. pose proof (s_range p' r' Hp' Hr') as Hs'. fold s in Hs. fold s' in Hs'.
  pose proof (bpow_gt_0 radix2 (-201)).
  pose proof (err_mul _ _ _ _ _ _ (err_exact s') He ltac:(lra) ltac:(lra)) as H1.
  replace (s' * / (s * s')) with (/ s) in H1 by (field; lra).
  pose proof sum_pos as Hpr. pose proof (sum_range p r Hp Hr) as Hrange. pose proof (bpow_gt_0 radix2 (-200)).
  assert (H2 : err (1 + / 20) (/ s) (/ (p + r))).
  { eapply err_weaken; [|apply err_inv; [|lra|apply (s_err p r Hp Hr)]]; lra. }
  assert (H3 : err (0 + (2 + / 10) + / 100 + (1 + / 20) + / 100) (s' * inv) (/ (p + r))).
  { destruct H1 as (d & E & Hd).
    assert (H5 : err (0 + (2 + / 10) + / 100) (1 + d) 1) by (exists d; split; [ring|exact Hd]).
    pose proof (err_mul _ _ _ _ _ _ H2 H5 ltac:(lra) ltac:(lra)) as H6. rewrite E. rewrite Rmult_1_r in H6.
    eapply err_weaken; [|exact H6]. lra. }
  assert (HR : bp (-201) <= / (p + r) <= bp 200).
  { replace (-201)%Z with (- (201))%Z by lia. rewrite bpow_opp. change 200%Z with (- (-200))%Z. rewrite bpow_opp.
    split; apply Rinv_le_contravar; lra. }
  assert (H4 : err (4 + / 2) D (/ (p + r))).
  { eapply err_weaken; [|eapply (err_rnd _ _ (/ (p + r))); [| |exact H3]]; [lra|lra|].
    right. rewrite Rabs_pos_eq by (pose proof (bpow_gt_0 radix2 (-201)); lra). apply Rle_trans with (bp (-201)); [apply bpow_le; lia|lra]. }
  split; auto. pose proof (err_pos _ _ _ H4 ltac:(lra) ltac:(lra)).
  replace (-202)%Z with (-201 + -1)%Z by lia. replace 201%Z with (200 + 1)%Z by lia. rewrite !bpow_plus.
  change (bp (-1)) with (/ 2). change (bp 1) with 2. lra.
Qed.

(** One coefficient: [a - c b / (p + r)]. *)
Lemma cell a b c : medium0 a -> medium0 b -> medium0 c -> (a = 0 -> b * c = 0) -> Rabs (c * b) <= (p + r) * Rabs a ->
  let k := rnd (c * D) in let t := rnd (k * b) in
  Rabs (c * D) <= bp 1000 /\ Rabs (k * b) <= bp 1000 /\ Rabs (a - t) <= bp 1000 /\
  Rabs (rnd (a - t) - (a - c * b / (p + r))) <= bp (-49) * Rabs a.
Proof.
  intros Ha Hb Hc H0 Hcb k t. destruct D_ok as [HD He]. pose proof sum_pos as Hpr. pose proof (sum_range p r Hp Hr) as Hrange.
  pose proof (bpow_gt_0 radix2 (-202)). pose proof (bpow_gt_0 radix2 (-201)). pose proof u_pos. pose proof u_small.
  assert (HR : bp (-201) <= / (p + r) <= bp 200).
  { pose proof (bpow_gt_0 radix2 (-200)). replace (-201)%Z with (- (201))%Z by lia. rewrite bpow_opp. change 200%Z with (- (-200))%Z. rewrite bpow_opp.
    split; apply Rinv_le_contravar; lra. }
  assert (top : forall x, medium0 x -> Rabs x <= bp 200).
  { intros x [->|[_ Hx]]; auto. rewrite Rabs_R0. apply Rlt_le, bpow_gt_0. }
  assert (B1 : Rabs (c * D) <= bp 401).
  { rewrite Rabs_mult, (Rabs_pos_eq D) by lra. replace 401%Z with (200 + 201)%Z by lia. rewrite bpow_plus.
    apply Rmult_le_compat; try lra; auto using Rabs_pos. }
  assert (E1 : err (5 + 3 / 5) k (c * / (p + r))).
  { pose proof (err_mul _ _ _ _ _ _ (err_exact c) He ltac:(lra) ltac:(lra)) as X2.
    eapply err_weaken; [|eapply (err_rnd _ _ (c * / (p + r))); [| |exact X2]]; [lra|lra|].
    { destruct Hc as [->|[Hc _]]; [left; ring|right]. rewrite Rabs_mult, (Rabs_pos_eq (/ (p + r))) by lra.
        apply Rle_trans with (bp (-200) * bp (-201)).
        - rewrite <- bpow_plus. apply bpow_le. lia.
        - apply Rmult_le_compat; try lra; apply Rlt_le, bpow_gt_0. } }
  assert (B2 : Rabs k <= bp 401) by (apply rnd_abs; auto; lia).
  assert (B3 : Rabs (k * b) <= bp 601).
  { rewrite Rabs_mult. replace 601%Z with (401 + 200)%Z by lia. rewrite bpow_plus. apply Rmult_le_compat; auto using Rabs_pos. }
  assert (E2 : err (6 + 7 / 10) t (c * b / (p + r))).
  { pose proof (err_mul _ _ _ _ _ _ E1 (err_exact b) ltac:(lra) ltac:(lra)) as X2.
    replace (c * / (p + r) * b) with (c * b / (p + r)) in X2 by (field; lra).
    eapply err_weaken; [|eapply (err_rnd _ _ (c * b / (p + r))); [| |exact X2]]; [lra|lra|].
    { destruct Hc as [->|[Hc _]]; [left; field; lra|]. destruct Hb as [->|[Hb _]]; [left; field; lra|right].
        unfold Rdiv. rewrite !Rabs_mult, (Rabs_pos_eq (/ (p + r))) by lra.
        apply Rle_trans with (bp (-200) * bp (-200) * bp (-201)).
        - rewrite <- !bpow_plus. apply bpow_le. lia.
        - pose proof (bpow_gt_0 radix2 (-200)). pose proof (bpow_gt_0 radix2 (-201)).
          apply Rmult_le_compat; try lra; [nra|]. apply Rmult_le_compat; lra. } }
  assert (Q : Rabs (c * b / (p + r)) <= Rabs a).
  { unfold Rdiv. rewrite Rabs_mult, (Rabs_pos_eq (/ (p + r))) by lra. apply Rmult_le_reg_r with (p + r); auto.
    rewrite Rmult_assoc, Rinv_l by lra. lra. }
  set (q := c * b / (p + r)) in *.
  pose proof (Rabs_pos a) as Pa. pose proof (Rabs_pos q) as Pq.
  destruct E2 as (d & Et & Hd).
  assert (Dt : Rabs (t - q) <= 7 * u * Rabs a).
  { rewrite Et. replace (q * (1 + d) - q) with (q * d) by ring. rewrite Rabs_mult. pose proof (Rabs_pos d).
    apply Rle_trans with (Rabs a * ((6 + 7 / 10) * u)); [apply Rmult_le_compat; auto|]. nra. }
  assert (At : Rabs (a - t) <= (2 + 7 * u) * Rabs a).
  { replace (a - t) with (a + - q + - (t - q)) by ring. eapply Rle_trans; [apply Rabs_triang|]. rewrite (Rabs_Ropp (t - q)).
    pose proof (Rabs_triang a (- q)) as X2. rewrite Rabs_Ropp in X2. lra. }
  split; [eapply Rle_trans; [exact B1|apply bpow_le; lia]|]. split; [eapply Rle_trans; [exact B3|apply bpow_le; lia]|].
  split.
  { eapply Rle_trans; [exact At|]. apply Rle_trans with (4 * bp 200).
    - apply Rmult_le_compat; auto; nra.
    - change 4 with (bp 2). rewrite <- bpow_plus. apply bpow_le. lia. }
  destruct Ha as [Ha|Ha].
  { assert (Eq : q = 0) by (unfold q; rewrite (Rmult_comm c b), (H0 Ha); field; lra).
    assert (E0 : t = 0) by (rewrite Et, Eq; ring). rewrite E0, Ha, Eq, Rminus_0_r, rnd_0. rewrite Rminus_0_r, Rabs_R0, Rmult_0_r. apply Rle_refl. }
  assert (Hrn : Rabs (rnd (a - t) - (a - t)) <= u * Rabs (a - t) + bp (-1075)).
  { pose proof (error_N_FLT radix2 (-1074) 53 eq_refl (fun x => negb (Z.even x)) (a - t)) as (e & f & He1 & Hf1 & _ & Eef).
    change (round radix2 (FLT_exp (-1074) 53) (Znearest (fun x => negb (Z.even x))) (a - t)) with (rnd (a - t)) in Eef.
    rewrite Eef. replace ((a - t) * (1 + e) + f - (a - t)) with ((a - t) * e + f) by ring. eapply Rle_trans; [apply Rabs_triang|].
    apply Rplus_le_compat.
    - rewrite Rabs_mult, Rmult_comm. apply Rmult_le_compat_r; [apply Rabs_pos|]. eapply Rle_trans; [exact He1|].
      unfold u_ro. change (/ 2) with (bp (-1)). rewrite <- bpow_plus. right. reflexivity.
    - eapply Rle_trans; [exact Hf1|]. change (/ 2) with (bp (-1)). rewrite <- bpow_plus. right. reflexivity. }
  assert (Tiny : bp (-1075) <= u * Rabs a).
  { destruct Ha as [Ha _]. apply Rle_trans with (u * bp (-200)); [rewrite <- bpow_plus; apply bpow_le; lia|]. apply Rmult_le_compat_l; lra. }
  replace (rnd (a - t) - (a - q)) with ((rnd (a - t) - (a - t)) + - (t - q)) by ring.
  eapply Rle_trans; [apply Rabs_triang|]. rewrite Rabs_Ropp.
  replace (-49)%Z with (-53 + 4)%Z by lia. rewrite bpow_plus. change (bp 4) with 16.
  assert (u * Rabs (a - t) <= u * ((2 + 7 * u) * Rabs a)) by (apply Rmult_le_compat_l; lra).
  assert (u * ((2 + 7 * u) * Rabs a) <= 3 * u * Rabs a).
  { replace (u * ((2 + 7 * u) * Rabs a)) with ((2 + 7 * u) * (u * Rabs a)) by ring. rewrite Rmult_assoc. apply Rmult_le_compat_r; [nra|lra]. }
  assert (0 <= u * Rabs a) by (apply Rmult_le_pos; lra).
  nra.
Qed.
(** The gain of a coefficient, and the mean. *)
Lemma k_err c : medium0 c -> err (5 + 3 / 5) (rnd (c * D)) (c * / (p + r)).
Proof.
  intros Hc. destruct D_ok as [HD He]. pose proof sum_pos as Hpr. pose proof (sum_range p r Hp Hr) as Hrange.
  assert (HR : bp (-201) <= / (p + r) <= bp 200).
  { pose proof (bpow_gt_0 radix2 (-200)). replace (-201)%Z with (- (201))%Z by lia. rewrite bpow_opp. change 200%Z with (- (-200))%Z. rewrite bpow_opp.
    split; apply Rinv_le_contravar; lra. }
  pose proof (bpow_gt_0 radix2 (-201)).
  pose proof (err_mul _ _ _ _ _ _ (err_exact c) He ltac:(lra) ltac:(lra)) as X2.
  eapply err_weaken; [|eapply (err_rnd _ _ (c * / (p + r))); [| |exact X2]]; [lra|lra|].
  destruct Hc as [->|[Hc _]]; [left; ring|right]. rewrite Rabs_mult, (Rabs_pos_eq (/ (p + r))) by lra.
  apply Rle_trans with (bp (-200) * bp (-201)).
  - rewrite <- bpow_plus. apply bpow_le. lia.
  - apply Rmult_le_compat; try lra; apply Rlt_le, bpow_gt_0.
Qed.

Lemma fmt x : rnd x = x -> generic_format radix2 (FLT_exp (-1074) 53) x.
Proof. intros H. rewrite <- H. change (FLT_exp (-1074) 53) with fexp64. apply generic_format_round; [exact valid64|auto with typeclass_instances]. Qed.
Lemma plus_rel x y : rnd x = x -> rnd y = y -> exists d, rnd (x + y) = (x + y) * (1 + d) /\ Rabs d <= u.
Proof.
  intros Hx Hy. destruct (@FLT_plus_error_N_ex radix2 (-1074) 53 eq_refl (fun x => negb (Z.even x)) x y) as (d & Hd & Ed).
  - apply fmt, Hx.
  - apply fmt, Hy.
  - exists d. split; [exact Ed|]. eapply Rle_trans; [exact Hd|]. eapply Rle_trans; [apply u_rod1pu_ro_le_u_ro|]. right.
    unfold u_ro. change (/ 2) with (bp (-1)). rewrite <- bpow_plus. reflexivity.
Qed.
Lemma abs_err x : exists e f, rnd x = x * (1 + e) + f /\ Rabs e <= u /\ Rabs f <= bp (-1075).
Proof.
  pose proof (error_N_FLT radix2 (-1074) 53 eq_refl (fun x => negb (Z.even x)) x) as (e & f & He1 & Hf1 & _ & Eef).
  exists e, f. split; [exact Eef|]. split.
  - eapply Rle_trans; [exact He1|]. change (/ 2) with (bp (-1)). rewrite <- bpow_plus. right. reflexivity.
  - eapply Rle_trans; [exact Hf1|]. change (/ 2) with (bp (-1)). rewrite <- bpow_plus. right. reflexivity.
Qed.

Lemma mean_cell c x y z : medium0 c -> rnd x = x -> rnd y = y -> rnd z = z ->
  Rabs x <= bp 200 -> Rabs y <= bp 200 -> Rabs z <= bp 200 ->
  let k := rnd (c * D) in let d := rnd (z - y) in let t := rnd (k * d) in
  Rabs (z - y) <= bp 201 /\ Rabs (k * d) <= bp 602 /\ Rabs (x + t) <= bp 603 /\
  Rabs (rnd (x + t) - (x + c * / (p + r) * (z - y))) <= u * Rabs x + bp (-49) * Rabs (c * / (p + r) * (z - y)) + bp (-1074).
Proof.
  intros Hc Fx Fy Fz Bx By Bz k d t. pose proof (k_err c Hc) as Ek. fold k in Ek. pose proof u_pos as U0. pose proof u_small as U1.
  destruct D_ok as [HD _]. pose proof (bpow_gt_0 radix2 (-202)).
  assert (Bk : Rabs k <= bp 401).
  { apply rnd_abs; [lia|]. rewrite Rabs_mult, (Rabs_pos_eq D) by lra. replace 401%Z with (200 + 201)%Z by lia. rewrite bpow_plus.
    apply Rmult_le_compat; try lra; [apply Rabs_pos|]. destruct Hc as [->|[_ Hc]]; [rewrite Rabs_R0; apply Rlt_le, bpow_gt_0|exact Hc]. }
  assert (Be : Rabs (z - y) <= bp 201).
  { replace 201%Z with (1 + 200)%Z by lia. rewrite bpow_plus. change (bp 1) with 2. unfold Rminus. eapply Rle_trans; [apply Rabs_triang|]. rewrite Rabs_Ropp. lra. }
  assert (Bd : Rabs d <= bp 201) by (apply rnd_abs; [lia|exact Be]).
  assert (Bkd : Rabs (k * d) <= bp 602).
  { rewrite Rabs_mult. replace 602%Z with (401 + 201)%Z by lia. rewrite bpow_plus. apply Rmult_le_compat; auto using Rabs_pos. }
  assert (Bt : Rabs t <= bp 602) by (apply rnd_abs; [lia|exact Bkd]).
  split; [exact Be|]. split; [exact Bkd|]. split.
  { eapply Rle_trans; [apply Rabs_triang|]. apply Rle_trans with (bp 602 + bp 602).
    - apply Rplus_le_compat; [|exact Bt]. eapply Rle_trans; [exact Bx|apply bpow_le; lia].
    - right. replace 603%Z with (1 + 602)%Z by lia. rewrite (bpow_plus radix2 1). change (bp 1) with 2. ring. }
  destruct (plus_rel z (- y)) as (d1 & E1 & H1); [exact Fz| |].
  { rewrite <- Fy at 2. unfold rnd. rewrite round_NE_opp. reflexivity. }
  fold (z - y) in E1. fold d in E1.
  destruct Ek as (d2 & E2 & H2).
  destruct (abs_err (k * d)) as (d3 & f & E3 & H3 & Hf). fold t in E3.
  destruct (plus_rel x t) as (d4 & E4 & H4); [exact Fx| |].
  { unfold t. apply round_generic; [auto with typeclass_instances|]. apply generic_format_round; [exact valid64|auto with typeclass_instances]. }
  set (q := c * / (p + r) * (z - y)) in *.
  assert (Et : t - q = q * ((1 + d1) * (1 + d2) * (1 + d3) - 1) + f).
  { rewrite E3, E1, E2. unfold q. ring. }
  assert (H5 : Rabs ((1 + d1) * (1 + d2) * (1 + d3) - 1) <= (7 + 7 / 10) * u).
  { replace ((1 + d1) * (1 + d2) * (1 + d3) - 1) with (d2 + d1 * (1 + d2) + d3 * ((1 + d1) * (1 + d2))) by ring.
    assert (A1 : Rabs (1 + d1) <= 1 + u) by (eapply Rle_trans; [apply Rabs_triang|rewrite Rabs_R1; lra]).
    assert (A2 : Rabs (1 + d2) <= 1 + (5 + 3 / 5) * u) by (eapply Rle_trans; [apply Rabs_triang|rewrite Rabs_R1; lra]).
    assert (A3 : Rabs ((1 + d1) * (1 + d2)) <= (1 + u) * (1 + (5 + 3 / 5) * u)) by (rewrite Rabs_mult; apply Rmult_le_compat; auto using Rabs_pos).
    assert (A4 : Rabs (d1 * (1 + d2)) <= u * (1 + (5 + 3 / 5) * u)) by (rewrite Rabs_mult; apply Rmult_le_compat; auto using Rabs_pos).
    assert (A5 : Rabs (d3 * ((1 + d1) * (1 + d2))) <= u * ((1 + u) * (1 + (5 + 3 / 5) * u))) by (rewrite (Rabs_mult d3); apply Rmult_le_compat; auto using Rabs_pos).
    eapply Rle_trans; [apply Rabs_triang|]. eapply Rle_trans; [apply Rplus_le_compat; [apply Rabs_triang|exact A5]|].
    assert (u * u <= u * / 1000000) by (apply Rmult_le_compat_l; lra).
    assert (u * (u * u) <= u * / 1000000) by (apply Rmult_le_compat_l; [lra|]; nra).
    nra. }
  assert (H6 : Rabs (t - q) <= (7 + 7 / 10) * u * Rabs q + bp (-1075)).
  { rewrite Et. eapply Rle_trans; [apply Rabs_triang|]. apply Rplus_le_compat; [|exact Hf]. rewrite Rabs_mult, Rmult_comm. apply Rmult_le_compat_r; auto using Rabs_pos. }
  assert (H7 : Rabs (x + t) <= Rabs x + Rabs q + ((7 + 7 / 10) * u * Rabs q + bp (-1075))).
  { replace (x + t) with (x + q + (t - q)) by ring. eapply Rle_trans; [apply Rabs_triang|]. apply Rplus_le_compat; [apply Rabs_triang|exact H6]. }
  replace (rnd (x + t) - (x + q)) with ((x + t) * d4 + (t - q)) by (rewrite E4; ring).
  eapply Rle_trans; [apply Rabs_triang|]. rewrite Rabs_mult.
  assert (H8 : Rabs (x + t) * Rabs d4 <= (Rabs x + Rabs q + ((7 + 7 / 10) * u * Rabs q + bp (-1075))) * u) by (apply Rmult_le_compat; auto using Rabs_pos).
  replace (-49)%Z with (4 + -53)%Z by lia. rewrite (bpow_plus radix2 4). change (bp 4) with 16.
  assert (B2 : bp (-1074) = 2 * bp (-1075)) by (replace (-1074)%Z with (1 + -1075)%Z by lia; rewrite bpow_plus; reflexivity).
  rewrite B2. pose proof (bpow_gt_0 radix2 (-1075)) as B3. pose proof (Rabs_pos q) as Pq.
  assert (bp (-1075) * u <= bp (-1075)) by nra.
  assert ((7 + 7 / 10) * u * Rabs q * u <= u * Rabs q).
  { replace ((7 + 7 / 10) * u * Rabs q * u) with (((7 + 7 / 10) * u) * (u * Rabs q)) by ring. pose proof (Rmult_le_pos u (Rabs q) ltac:(lra) Pq). nra. }
  pose proof (Rmult_le_pos u (Rabs q) ltac:(lra) Pq). lra.
Qed.

End Axis.
