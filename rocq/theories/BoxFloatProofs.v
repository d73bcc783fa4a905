(** Boxes in doubles. *)
From Coq Require Import List Arith Lia ZArith Reals Lra Psatz Bool.
From Flocq Require Import Core.
From Coq Require Import Floats.
Import ListNotations.
From Verif Require Import Scalar FloatBase FloatExt FloatSum KalmanFloat KalmanFloatErr MeanFloatProofs ViableFloatProofs BoxFloat BoxFloatSpec.
Local Open Scope R_scope.

Lemma uro_small : 0 < uro <= / 1000000.
Proof. split; [apply uro_pos|]. unfold uro. apply Rle_trans with (bp (-20)); [apply bpow_le; lia|simpl; lra]. Qed.

(** ** One leg: [nstd * sqrt l * c] *)
Lemma leg_ok nstd l c : some_std nstd -> within (bp 300) l /\ 0 <= fval l -> within 1 c ->
  let v := (nstd * PrimFloat.sqrt l * c)%float in let V := fval nstd * sqrt (fval l) * fval c in
  fin v /\ Rabs (fval v - V) <= 31 / 10 * uro * Rabs V + bp (-1050) /\ Rabs V <= bp 170.
Proof.
  intros [[Fn Bn] N0] [[Fl Bl] L0] [Fc Bc] v V. unfold v, V. pose proof uro_small as Hu. rewrite (Rabs_pos_eq (fval nstd)) in Bn by auto. rewrite (Rabs_pos_eq (fval l)) in Bl by auto.
  destruct (f_sqrt l Fl L0) as [Fq Vq]. set (s := sqrt (fval l)) in *. assert (s0 : 0 <= s) by apply sqrt_pos.
  assert (sb : s <= bp 150).
  { unfold s. rewrite <- (sqrt_square (bp 150)) by apply bpow_ge_0. rewrite <- bpow_plus. apply sqrt_le_1_alt. exact Bl. }
  pose proof (abs_rel s) as E1. rewrite <- Vq in E1. rewrite (Rabs_pos_eq s) in E1 by auto. set (q := fval (PrimFloat.sqrt l)) in *. set (e := bp (-1075)) in *.
  assert (e0 : 0 < e) by apply bpow_gt_0. assert (us : 0 <= uro * s <= / 1000000 * s) by (split; [apply Rmult_le_pos; lra|apply Rmult_le_compat_r; lra]).
  assert (e150 : e <= bp 150) by (apply bpow_le; lia).
  assert (q0 : 0 <= q) by (rewrite Vq; apply rnd_pos; auto). assert (qb : q <= 3 * bp 150) by (apply Rabs_le_inv in E1; lra).
  set (n := fval nstd) in *. assert (n20 : 1 <= bp 20) by (change 1 with (bp 0); apply bpow_le; lia).
  assert (nqb : n * q <= bp 172).
  { apply Rle_trans with (bp 20 * (3 * bp 150)); [apply Rmult_le_compat; lra|]. replace (bp 20 * (3 * bp 150)) with (3 * (bp 20 * bp 150)) by ring. rewrite <- bpow_plus.
    change (bp 172) with (bp (2 + 170)). rewrite (bpow_plus radix2 2 170). change (bp 2) with 4. change (20 + 150)%Z with 170%Z. pose proof (bpow_ge_0 radix2 170). lra. }
  assert (nq0 : 0 <= n * q) by (apply Rmult_le_pos; auto).
  destruct (f_mul nstd (PrimFloat.sqrt l) 172 ltac:(lia) Fn Fq) as [Fr Vr]; [fold n q; rewrite Rabs_pos_eq; auto|]. fold n q in Vr.
  pose proof (abs_rel (n * q)) as E2. rewrite <- Vr in E2. rewrite (Rabs_pos_eq (n * q)) in E2 by auto. fold e in E2. set (r := fval (nstd * PrimFloat.sqrt l)%float) in *.
  assert (ns0 : 0 <= n * s) by (apply Rmult_le_pos; auto).
  assert (uns : 0 <= uro * (n * s) <= / 1000000 * (n * s)) by (split; [apply Rmult_le_pos; lra|apply Rmult_le_compat_r; lra]).
  assert (ne : n * e <= bp (-1055)) by (change (-1055)%Z with (20 + -1075)%Z; rewrite bpow_plus; fold e; apply Rmult_le_compat_r; lra).
  assert (nee : 0 <= n * e) by (apply Rmult_le_pos; lra).
  assert (D1 : Rabs (n * q - n * s) <= uro * (n * s) + n * e).
  { rewrite <- Rmult_minus_distr_l, Rabs_mult, (Rabs_pos_eq n) by auto. apply Rle_trans with (n * (uro * s + e)); [apply Rmult_le_compat_l; auto|lra]. }
  assert (D2 : uro * (n * q) <= uro * (10001 / 10000 * (n * s) + n * e)) by (apply Rmult_le_compat_l; [lra|]; apply Rabs_le_inv in D1; lra).
  assert (une : uro * (n * e) <= / 1000000 * (n * e)) by (apply Rmult_le_compat_r; lra).
  assert (e55 : e <= / 4 * bp (-1055)) by (change (/ 4) with (bp (-2)); unfold e; rewrite <- bpow_plus; apply bpow_le; lia).
  assert (D3 : Rabs (r - n * s) <= 201 / 100 * (uro * (n * s)) + 2 * bp (-1055)).
  { replace (r - n * s) with ((r - n * q) + (n * q - n * s)) by ring. eapply Rle_trans; [apply Rabs_triang|]. lra. }
  assert (r0 : 0 <= r) by (rewrite Vr; apply rnd_pos; auto).
  assert (rb : r <= bp 172) by (rewrite <- (Rabs_pos_eq r), Vr by auto; apply rnd_abs; [lia|rewrite Rabs_pos_eq; auto]).
  set (k := fval c) in *. pose proof (Rabs_pos k) as k0.
  assert (rkb : Rabs (r * k) <= bp 172).
  { rewrite Rabs_mult, (Rabs_pos_eq r) by auto. apply Rle_trans with (r * 1); [apply Rmult_le_compat_l; auto|lra]. }
  destruct (f_mul (nstd * PrimFloat.sqrt l)%float c 172 ltac:(lia) Fr Fc rkb) as [Fv Vv]. fold r k in Vv.
  pose proof (abs_rel (r * k)) as E3. rewrite <- Vv in E3. fold e in E3.
  split; [exact Fv|].
  assert (HV : Rabs (n * s * k) = n * s * Rabs k) by (rewrite Rabs_mult, (Rabs_pos_eq (n * s)); auto).
  rewrite HV. set (W := n * s * Rabs k) in *. assert (W0 : 0 <= W) by (apply Rmult_le_pos; auto).
  assert (D4 : Rabs (r * k - n * s * k) <= 201 / 100 * (uro * W) + 2 * bp (-1055)).
  { rewrite <- Rmult_minus_distr_r, Rabs_mult. apply Rle_trans with ((201 / 100 * (uro * (n * s)) + 2 * bp (-1055)) * Rabs k); [apply Rmult_le_compat_r; auto|].
    pose proof (bpow_ge_0 radix2 (-1055)). assert (2 * bp (-1055) * Rabs k <= 2 * bp (-1055) * 1) by (apply Rmult_le_compat_l; lra). unfold W. lra. }
  assert (UW : 0 <= uro * W <= / 1000000 * W) by (split; [apply Rmult_le_pos; lra|apply Rmult_le_compat_r; lra]).
  assert (D5 : Rabs (r * k) <= 10001 / 10000 * W + 2 * bp (-1055)).
  { replace (r * k) with (n * s * k + (r * k - n * s * k)) by ring. eapply Rle_trans; [apply Rabs_triang|]. rewrite HV. lra. }
  assert (D6 : uro * Rabs (r * k) <= uro * (10001 / 10000 * W + 2 * bp (-1055))) by (apply Rmult_le_compat_l; lra).
  assert (U55 : uro * bp (-1055) <= / 1000000 * bp (-1055)) by (apply Rmult_le_compat_r; [apply bpow_ge_0|lra]).
  assert (B50 : 8 * bp (-1055) <= bp (-1050)) by (change 8 with (bp 3); rewrite <- bpow_plus; apply bpow_le; lia). pose proof (bpow_ge_0 radix2 (-1055)) as P55.
  split.
  - replace (fval (nstd * PrimFloat.sqrt l * c)%float - n * s * k) with ((fval (nstd * PrimFloat.sqrt l * c)%float - r * k) + (r * k - n * s * k)) by ring.
    eapply Rle_trans; [apply Rabs_triang|]. lra.
  - apply Rle_trans with (n * s * 1); [apply Rmult_le_compat_l; auto|]. rewrite Rmult_1_r. change 170%Z with (20 + 150)%Z. rewrite bpow_plus. apply Rmult_le_compat; auto.
Qed.

Lemma square_near v V : Rabs (v - V) <= 31 / 10 * uro * Rabs V + bp (-1050) -> Rabs V <= bp 170 ->
  Rabs (v * v - V * V) <= 63 / 10 * uro * (V * V) + bp (-870) /\ v * v <= bp 350.
Proof.
  intros H B. pose proof uro_small as Hu. pose proof (Rabs_pos V) as V0. set (A := Rabs V) in *. set (t := bp (-1050)) in *. assert (t0 : 0 < t) by apply bpow_gt_0.
  assert (VV : V * V = A * A) by (unfold A; rewrite <- Rabs_mult; symmetry; apply Rabs_pos_eq, Rle_0_sqr). rewrite VV.
  assert (UA : 0 <= uro * A <= / 1000000 * A) by (split; [apply Rmult_le_pos; lra|apply Rmult_le_compat_r; lra]).
  assert (HvV : Rabs (v + V) <= 200001 / 100000 * A + t).
  { replace (v + V) with ((v - V) + 2 * V) by ring. eapply Rle_trans; [apply Rabs_triang|]. rewrite Rabs_mult, (Rabs_pos_eq 2) by lra. fold A. lra. }
  assert (HP : Rabs (v * v - V * V) <= (31 / 10 * uro * A + t) * (200001 / 100000 * A + t)).
  { replace (v * v - V * V) with ((v - V) * (v + V)) by ring. rewrite Rabs_mult. apply Rmult_le_compat; auto; apply Rabs_pos. }
  assert (tA : t * A <= bp (-880)) by (change (-880)%Z with (-1050 + 170)%Z; rewrite bpow_plus; fold t; apply Rmult_le_compat_l; lra).
  assert (tt : t * t <= bp (-880)) by (unfold t; rewrite <- bpow_plus; apply bpow_le; lia).
  assert (UAA : 0 <= uro * (A * A)) by (apply Rmult_le_pos; [lra|apply Rmult_le_pos; auto]).
  assert (utA : uro * (t * A) <= / 1000000 * (t * A)) by (apply Rmult_le_compat_r; [apply Rmult_le_pos; lra|lra]).
  assert (B870 : 8 * bp (-880) <= bp (-870)) by (change 8 with (bp 3); rewrite <- bpow_plus; apply bpow_le; lia).
  assert (tA0 : 0 <= t * A) by (apply Rmult_le_pos; lra). rewrite VV in HP.
  assert (X : Rabs (v * v - A * A) <= 63 / 10 * uro * (A * A) + bp (-870)).
  { eapply Rle_trans; [exact HP|].
    replace ((31 / 10 * uro * A + t) * (200001 / 100000 * A + t)) with (31 / 10 * (200001 / 100000) * (uro * (A * A)) + 31 / 10 * (uro * (t * A)) + 200001 / 100000 * (t * A) + t * t) by ring. lra. }
  split; [exact X|]. apply Rabs_le_inv in X.
  assert (AA : A * A <= bp 340) by (change 340%Z with (170 + 170)%Z; rewrite bpow_plus; apply Rmult_le_compat; auto).
  assert (UAA2 : uro * (A * A) <= / 1000000 * (A * A)) by (apply Rmult_le_compat_r; [apply Rmult_le_pos; auto|lra]).
  assert (bp (-870) <= bp 340) by (apply bpow_le; lia). assert (4 * bp 340 <= bp 350) by (change 4 with (bp 2); rewrite <- bpow_plus; apply bpow_le; lia). lra.
Qed.

(** ** The half width *)
Lemma width_ok nstd l0 l1 a b : some_std nstd -> within (bp 300) l0 /\ 0 <= fval l0 -> within (bp 300) l1 /\ 0 <= fval l1 -> within 1 a -> within 1 b ->
  let u := (nstd * PrimFloat.sqrt l0 * a)%float in let v := (nstd * PrimFloat.sqrt l1 * b)%float in
  let d := PrimFloat.sqrt (u * u + v * v) in let D := reach nstd l0 l1 a b in
  fin d /\ 0 <= fval d /\ Rabs (fval d - D) <= 10 * uro * D + bp (-400) /\ 0 <= D <= bp 180.
Proof.
  intros Hn H0 H1 Ha Hb u v d D. pose proof uro_small as Hu.
  destruct (leg_ok nstd l0 a Hn H0 Ha) as (Fu & Eu & Bu). destruct (leg_ok nstd l1 b Hn H1 Hb) as (Fv & Ev & Bv). fold u in Fu, Eu. fold v in Fv, Ev.
  set (U := fval nstd * sqrt (fval l0) * fval a) in *. set (V := fval nstd * sqrt (fval l1) * fval b) in *.
  destruct (square_near _ _ Eu Bu) as [Su Lu]. destruct (square_near _ _ Ev Bv) as [Sv Lv]. set (x := fval u) in *. set (y := fval v) in *.
  pose proof (Rle_0_sqr x) as x0. pose proof (Rle_0_sqr y) as y0. unfold Rsqr in x0, y0.
  destruct (f_mul u u 350 ltac:(lia) Fu Fu) as [Fuu Vuu]; [fold x; rewrite Rabs_pos_eq; auto|]. destruct (f_mul v v 350 ltac:(lia) Fv Fv) as [Fvv Vvv]; [fold y; rewrite Rabs_pos_eq; auto|]. fold x in Vuu. fold y in Vvv.
  pose proof (abs_rel (x * x)) as Rx. pose proof (abs_rel (y * y)) as Ry. rewrite <- Vuu in Rx. rewrite <- Vvv in Ry. rewrite (Rabs_pos_eq _ x0) in Rx. rewrite (Rabs_pos_eq _ y0) in Ry.
  assert (p0 : 0 <= fval (u * u)%float) by (rewrite Vuu; apply rnd_pos; auto). assert (q0 : 0 <= fval (v * v)%float) by (rewrite Vvv; apply rnd_pos; auto).
  assert (pb : fval (u * u)%float <= bp 350) by (rewrite <- (Rabs_pos_eq _ p0), Vuu; apply rnd_abs; [lia|rewrite Rabs_pos_eq; auto]).
  assert (qb : fval (v * v)%float <= bp 350) by (rewrite <- (Rabs_pos_eq _ q0), Vvv; apply rnd_abs; [lia|rewrite Rabs_pos_eq; auto]).
  set (p := fval (u * u)%float) in *. set (q := fval (v * v)%float) in *.
  destruct (f_add (u * u)%float (v * v)%float 351 ltac:(lia) Fuu Fvv) as [Fs Vs].
  { fold p q. rewrite Rabs_pos_eq by lra. change 351%Z with (1 + 350)%Z. rewrite bpow_plus. change (bp 1) with 2. lra. }
  pose proof (rnd_plus p q (val_format _) (val_format _)) as Rs. fold p q in Vs. rewrite <- Vs in Rs. rewrite (Rabs_pos_eq (p + q)) in Rs by lra.
  assert (s0 : 0 <= fval (u * u + v * v)%float) by (rewrite Vs; apply rnd_pos; lra). set (s := fval (u * u + v * v)%float) in *.
  destruct (f_sqrt _ Fs s0) as [Fd Vd]. fold s in Vd. fold d in Fd, Vd. split; [exact Fd|]. split; [rewrite Vd; apply rnd_pos, sqrt_pos|].
  pose proof (Rle_0_sqr U) as U0. pose proof (Rle_0_sqr V) as V0. unfold Rsqr in U0, V0. set (S := U * U + V * V).
  assert (HD : D = sqrt S) by reflexivity.
  set (t := bp (-870)) in *. assert (t0 : 0 < t) by apply bpow_gt_0. set (e := bp (-1075)) in *. assert (et : 0 < e <= t) by (split; [apply bpow_gt_0|apply bpow_le; lia]).
  assert (uUU : 0 <= uro * (U * U) <= / 1000000 * (U * U)) by (split; [apply Rmult_le_pos; lra|apply Rmult_le_compat_r; lra]).
  assert (uVV : 0 <= uro * (V * V) <= / 1000000 * (V * V)) by (split; [apply Rmult_le_pos; lra|apply Rmult_le_compat_r; lra]).
  assert (ut : uro * t <= / 1000000 * t) by (apply Rmult_le_compat_r; lra).
  assert (A1 : uro * (x * x) <= uro * (10001 / 10000 * (U * U) + t)) by (apply Rmult_le_compat_l; [lra|]; apply Rabs_le_inv in Su; lra).
  assert (A2 : uro * (y * y) <= uro * (10001 / 10000 * (V * V) + t)) by (apply Rmult_le_compat_l; [lra|]; apply Rabs_le_inv in Sv; lra).
  assert (P1 : Rabs (p - U * U) <= 731 / 100 * (uro * (U * U)) + 3 * t).
  { replace (p - U * U) with ((p - x * x) + (x * x - U * U)) by ring. eapply Rle_trans; [apply Rabs_triang|]. lra. }
  assert (P2 : Rabs (q - V * V) <= 731 / 100 * (uro * (V * V)) + 3 * t).
  { replace (q - V * V) with ((q - y * y) + (y * y - V * V)) by ring. eapply Rle_trans; [apply Rabs_triang|]. lra. }
  assert (uS : 0 <= uro * S <= / 1000000 * S) by (unfold S; lra).
  assert (A3 : uro * (p + q) <= uro * (10001 / 10000 * S + 6 * t)).
  { apply Rmult_le_compat_l; [lra|]. apply Rabs_le_inv in P1. apply Rabs_le_inv in P2. unfold S. lra. }
  assert (HS : Rabs (s - S) <= (84 / 10 * uro) * S + 16 * t).
  { replace (s - S) with ((s - (p + q)) + ((p - U * U) + (q - V * V))) by (unfold S; ring). eapply Rle_trans; [apply Rabs_triang|]. pose proof (Rabs_triang (p - U * U) (q - V * V)). unfold S in *. lra. }
  pose proof (sqrt_near s S (84 / 10 * uro) (16 * t) s0 ltac:(unfold S; lra) ltac:(lra) ltac:(lra) HS) as HR.
  assert (E433 : sqrt (16 * t) = bp (-433)).
  { unfold t. change 16 with (bp 4). rewrite <- bpow_plus. change (4 + -870)%Z with (-433 + -433)%Z. rewrite bpow_plus. apply sqrt_square, bpow_ge_0. }
  rewrite E433, <- HD in HR. assert (D0 : 0 <= D) by (rewrite HD; apply sqrt_pos). pose proof (sqrt_pos s) as ss.
  pose proof (abs_rel (sqrt s)) as Rd. rewrite <- Vd in Rd. rewrite (Rabs_pos_eq _ ss) in Rd. fold e in Rd.
  assert (uD : 0 <= uro * D <= / 1000000 * D) by (split; [apply Rmult_le_pos; lra|apply Rmult_le_compat_r; lra]).
  assert (P433 : 0 < bp (-433)) by apply bpow_gt_0. assert (e433 : e <= bp (-433)) by (apply bpow_le; lia).
  assert (A4 : uro * sqrt s <= uro * (10001 / 10000 * D + bp (-433))) by (apply Rmult_le_compat_l; [lra|]; apply Rabs_le_inv in HR; lra).
  assert (u433 : uro * bp (-433) <= / 1000000 * bp (-433)) by (apply Rmult_le_compat_r; lra).
  assert (B400 : 4 * bp (-433) <= bp (-400)) by (change 4 with (bp 2); rewrite <- bpow_plus; apply bpow_le; lia).
  split.
  - replace (fval d - D) with ((fval d - sqrt s) + (sqrt s - D)) by ring. eapply Rle_trans; [apply Rabs_triang|]. lra.
  - split; [exact D0|]. rewrite HD. unfold S. eapply Rle_trans; [apply sqrt_add; auto|].
    replace (sqrt (U * U)) with (Rabs U) by (symmetry; apply sqrt_Rsqr_abs). replace (sqrt (V * V)) with (Rabs V) by (symmetry; apply sqrt_Rsqr_abs).
    assert (2 * bp 170 <= bp 180) by (change 2 with (bp 1); rewrite <- bpow_plus; apply bpow_le; lia). lra.
Qed.

(** ** An edge *)
Lemma edges_ok x d D : within (bp 200) x -> fin d -> 0 <= fval d -> Rabs (fval d - D) <= 10 * uro * D + bp (-400) -> 0 <= D <= bp 180 ->
  (fin (x - d)%float /\ fval (x - d)%float <= fval x /\ Rabs (fval (x - d)%float - (fval x - D)) <= edge_error x D) /\
  (fin (x + d)%float /\ fval x <= fval (x + d)%float /\ Rabs (fval (x + d)%float - (fval x + D)) <= edge_error x D).
Proof.
  intros [Fx Bx] Fd d0 E [D0 Db]. pose proof uro_small as Hu. unfold edge_error. change (bp (-53)) with uro.
  assert (uD : 0 <= uro * D <= / 1000000 * D) by (split; [apply Rmult_le_pos; lra|apply Rmult_le_compat_r; lra]).
  set (t := bp (-400)) in *. assert (t0 : 0 < t) by apply bpow_gt_0. assert (t180 : t <= bp 180) by (apply bpow_le; lia). set (X := Rabs (fval x)) in *.
  assert (db : fval d <= 10001 / 10000 * D + t) by (apply Rabs_le_inv in E; lra).
  assert (B : 4 * bp 200 <= bp 210) by (change 4 with (bp 2); rewrite <- bpow_plus; apply bpow_le; lia). assert (B2 : bp 180 <= bp 200) by (apply bpow_le; lia).
  assert (t390 : 2 * t <= bp (-390)) by (change 2 with (bp 1); unfold t; rewrite <- bpow_plus; apply bpow_le; lia).
  assert (S1 : Rabs (fval x - fval d) <= X + fval d) by (unfold Rminus; eapply Rle_trans; [apply Rabs_triang|]; rewrite Rabs_Ropp, (Rabs_pos_eq (fval d)) by auto; apply Rle_refl).
  assert (S2 : Rabs (fval x + fval d) <= X + fval d) by (eapply Rle_trans; [apply Rabs_triang|]; rewrite (Rabs_pos_eq (fval d)) by auto; apply Rle_refl).
  destruct (f_sub x d 210 ltac:(lia) Fx Fd ltac:(lra)) as [F1 V1]. destruct (f_add x d 210 ltac:(lia) Fx Fd ltac:(lra)) as [F2 V2].
  pose proof (rnd_plus (fval x) (- fval d) (val_format _) (generic_format_opp _ _ _ (val_format _))) as R1. fold (fval x - fval d) in R1. rewrite <- V1 in R1.
  pose proof (rnd_plus (fval x) (fval d) (val_format _) (val_format _)) as R2. rewrite <- V2 in R2.
  assert (ut : uro * t <= / 1000000 * t) by (apply Rmult_le_compat_r; lra).
  assert (U1 : uro * Rabs (fval x - fval d) <= uro * (X + (10001 / 10000 * D + t))) by (apply Rmult_le_compat_l; lra).
  assert (U2 : uro * Rabs (fval x + fval d) <= uro * (X + (10001 / 10000 * D + t))) by (apply Rmult_le_compat_l; lra).
  assert (uX : 0 <= uro * X) by (apply Rmult_le_pos; [lra|apply Rabs_pos]).
  split; (split; [assumption|]); split.
  - rewrite V1, <- (rnd_val x) at 1. rewrite rnd_val. rewrite <- (rnd_val x). apply rnd_le. rewrite rnd_val. lra.
  - replace (fval (x - d)%float - (fval x - D)) with ((fval (x - d)%float - (fval x - fval d)) + - (fval d - D)) by ring. eapply Rle_trans; [apply Rabs_triang|]. rewrite Rabs_Ropp. lra.
  - rewrite V2. rewrite <- (rnd_val x) at 1. apply rnd_le. lra.
  - replace (fval (x + d)%float - (fval x + D)) with ((fval (x + d)%float - (fval x + fval d)) + (fval d - D)) by ring. eapply Rle_trans; [apply Rabs_triang|]. lra.
Qed.

Lemma gaussian_ok nstd x e : some_std nstd -> placed x -> usable e ->
  let b := fbox_gaussian nstd x e in
  let dx := reach nstd (e_l0 e) (e_l1 e) (e_cu e) (e_cv e) in let dy := reach nstd (e_l0 e) (e_l1 e) (e_su e) (e_sv e) in
  numbers b /\ holds b (fval (x 0%nat)) (fval (x 1%nat)) /\
  Rabs (fval (b_x0 b) - (fval (x 0%nat) - dx)) <= edge_error (x 0%nat) dx /\ Rabs (fval (b_x1 b) - (fval (x 0%nat) + dx)) <= edge_error (x 0%nat) dx /\
  Rabs (fval (b_y0 b) - (fval (x 1%nat) - dy)) <= edge_error (x 1%nat) dy /\ Rabs (fval (b_y1 b) - (fval (x 1%nat) + dy)) <= edge_error (x 1%nat) dy.
Proof.
  intros Hn [X0 X1] (L0 & L1 & Cu & Su & Cv & Sv) b dx dy.
  destruct (width_ok nstd _ _ _ _ Hn L0 L1 Cu Cv) as (F1 & P1 & E1 & B1). destruct (width_ok nstd _ _ _ _ Hn L0 L1 Su Sv) as (F2 & P2 & E2 & B2).
  destruct (edges_ok _ _ _ X0 F1 P1 E1 B1) as [(A1 & A2 & A3) (A4 & A5 & A6)]. destruct (edges_ok _ _ _ X1 F2 P2 E2 B2) as [(C1 & C2 & C3) (C4 & C5 & C6)].
  split; [split; [exact A1|split; [exact C1|split; [exact A4|exact C4]]]|]. split; [split; split; assumption|]. auto.
Qed.

(** ** A mixture *)
Lemma ltb_fin x y : fin x -> fin y -> PrimFloat.ltb x y = Rlt_bool (fval x) (fval y).
Proof. intros Fx Fy. exact (f_lt x y Fx Fy). Qed.
Lemma fmin_ok a b : fin a -> fin b -> fin (fmin a b) /\ fval (fmin a b) <= fval a /\ fval (fmin a b) <= fval b /\ (fmin a b = a \/ fmin a b = b).
Proof. intros Fa Fb. unfold fmin. rewrite ltb_fin by auto. destruct (Rlt_bool_spec (fval b) (fval a)); repeat split; auto; lra. Qed.
Lemma fmax_ok a b : fin a -> fin b -> fin (fmax a b) /\ fval a <= fval (fmax a b) /\ fval b <= fval (fmax a b) /\ (fmax a b = a \/ fmax a b = b).
Proof. intros Fa Fb. unfold fmax. rewrite ltb_fin by auto. destruct (Rlt_bool_spec (fval a) (fval b)); repeat split; auto; lra. Qed.

Lemma covers_trans a b c : covers a b -> covers b c -> covers a c.
Proof. unfold covers. lra. Qed.
Lemma covers_refl a : covers a a.
Proof. unfold covers. lra. Qed.
Lemma covers_holds b c px py : covers b c -> holds c px py -> holds b px py.
Proof. unfold covers, holds. lra. Qed.

Lemma grow_ok b c : numbers b -> numbers c -> numbers (fgrow b c) /\ covers (fgrow b c) b /\ covers (fgrow b c) c /\
  (b_x0 (fgrow b c) = b_x0 b \/ b_x0 (fgrow b c) = b_x0 c) /\ (b_y0 (fgrow b c) = b_y0 b \/ b_y0 (fgrow b c) = b_y0 c) /\
  (b_x1 (fgrow b c) = b_x1 b \/ b_x1 (fgrow b c) = b_x1 c) /\ (b_y1 (fgrow b c) = b_y1 b \/ b_y1 (fgrow b c) = b_y1 c).
Proof.
  intros (B1 & B2 & B3 & B4) (C1 & C2 & C3 & C4).
  destruct (fmin_ok _ _ B1 C1) as (M1 & M2 & M3 & M4). destruct (fmin_ok _ _ B2 C2) as (N1 & N2 & N3 & N4).
  destruct (fmax_ok _ _ B3 C3) as (O1 & O2 & O3 & O4). destruct (fmax_ok _ _ B4 C4) as (P1 & P2 & P3 & P4).
  unfold numbers, covers, fgrow. cbn [b_x0 b_y0 b_x1 b_y1]. auto 20.
Qed.

(** Every edge of [b] is an edge of one of the boxes [l] or of [a]. *)
Definition edge_of (f : fbox -> float) (b : fbox) (l : list fbox) : Prop := exists c, In c l /\ f b = f c.

Lemma fold_grow l : forall b, numbers b -> (forall c, In c l -> numbers c) ->
  let r := fold_left fgrow l b in
  numbers r /\ covers r b /\ (forall c, In c l -> covers r c) /\
  edge_of b_x0 r (b :: l) /\ edge_of b_y0 r (b :: l) /\ edge_of b_x1 r (b :: l) /\ edge_of b_y1 r (b :: l).
Proof.
  induction l as [|c l IH]; intros b Hb Hl r; unfold r; cbn [fold_left].
  - split; [exact Hb|]. split; [apply covers_refl|]. split; [intros ? []|]. unfold edge_of. repeat split; exists b; simpl; auto.
  - destruct (grow_ok b c Hb (Hl c (or_introl eq_refl))) as (G1 & G2 & G3 & G4 & G5 & G6 & G7).
    destruct (IH (fgrow b c) G1 (fun y Hy => Hl y (or_intror Hy))) as (I1 & I2 & I3 & I4 & I5 & I6 & I7).
    split; [exact I1|]. split; [eapply covers_trans; eauto|]. split; [intros y [<-|Hy]; [eapply covers_trans; eauto|auto]|].
    assert (K : forall f : fbox -> float, f (fgrow b c) = f b \/ f (fgrow b c) = f c -> edge_of f (fold_left fgrow l (fgrow b c)) (fgrow b c :: l) ->
      edge_of f (fold_left fgrow l (fgrow b c)) (b :: c :: l)).
    { intros f Hf (y & [<-|Hy] & Ey); [destruct Hf as [Hf|Hf]; rewrite Hf in Ey; [exists b|exists c]; simpl; auto|exists y; simpl; auto]. }
    repeat split; apply K; auto.
Qed.

Section Mixture.
Variables (solve : fmat -> frame) (nstd : float) (old : fbox).
Variable cs : list (float * (fvec * fmat)).
Hypothesis Hn : some_std nstd.
Hypothesis Hcs : forall w x P, In (w, (x, P)) cs -> placed x /\ usable (solve P).
Notation boxes := (map (fun c : float * (fvec * fmat) => fbox_gaussian nstd (fst (snd c)) (solve (snd (snd c)))) cs).

Lemma box_numbers b : In b boxes -> numbers b.
Proof. intros Hb. apply in_map_iff in Hb. destruct Hb as ([w [x P]] & <- & Hx). destruct (Hcs w x P Hx) as [H1 H2]. apply (gaussian_ok nstd x (solve P) Hn H1 H2). Qed.

Lemma mixture_box_ok : cs <> [] -> let b := fgm_box solve nstd old cs in
  numbers b /\ (forall c, In c boxes -> covers b c) /\
  (exists c, In c boxes /\ fval (b_x0 b) = fval (b_x0 c)) /\ (exists c, In c boxes /\ fval (b_y0 b) = fval (b_y0 c)) /\
  (exists c, In c boxes /\ fval (b_x1 b) = fval (b_x1 c)) /\ (exists c, In c boxes /\ fval (b_y1 b) = fval (b_y1 c)).
Proof.
  intros Hne b. destruct cs as [|[w0 [x0 P0]] l] eqn:Ecs; [congruence|]. unfold b, fgm_box. rewrite <- Ecs in *.
  set (start := mkFbox (x0 0%nat) (x0 1%nat) (x0 0%nat) (x0 1%nat)).
  assert (E : forall m z, fold_left (fun b c => fgrow b (fbox_gaussian nstd (fst (snd c)) (solve (snd (snd c))))) m z =
    fold_left fgrow (map (fun c : float * (fvec * fmat) => fbox_gaussian nstd (fst (snd c)) (solve (snd (snd c)))) m) z).
  { induction m as [|c m IH]; intros z; [reflexivity|]. cbn [fold_left map]. apply IH. }
  rewrite E. assert (H0 : In (w0, (x0, P0)) cs) by (rewrite Ecs; simpl; auto). destruct (Hcs w0 x0 P0 H0) as [[X0 X1] U0].
  destruct (gaussian_ok nstd x0 (solve P0) Hn (conj X0 X1) U0) as (N0 & K0 & _). set (first := fbox_gaussian nstd x0 (solve P0)) in *.
  assert (Hf : In first boxes) by (apply in_map_iff; exists (w0, (x0, P0)); auto).
  destruct (fold_grow boxes start) as (I1 & I2 & I3 & I4 & I5 & I6 & I7); [unfold numbers, start; cbn; destruct X0, X1; auto|apply box_numbers|].
  set (r := fold_left fgrow boxes start) in *. split; [exact I1|]. split; [exact I3|]. pose proof (I3 first Hf) as C. unfold covers in C. destruct K0 as [K1 K2].
  repeat split.
  - destruct I4 as (c & [<-|Hc] & Ec); [exists first; split; [exact Hf|]; rewrite Ec in *; cbn [start b_x0] in *; lra|exists c; split; [exact Hc|rewrite Ec; reflexivity]].
  - destruct I5 as (c & [<-|Hc] & Ec); [exists first; split; [exact Hf|]; rewrite Ec in *; cbn [start b_y0] in *; lra|exists c; split; [exact Hc|rewrite Ec; reflexivity]].
  - destruct I6 as (c & [<-|Hc] & Ec); [exists first; split; [exact Hf|]; rewrite Ec in *; cbn [start b_x1] in *; lra|exists c; split; [exact Hc|rewrite Ec; reflexivity]].
  - destruct I7 as (c & [<-|Hc] & Ec); [exists first; split; [exact Hf|]; rewrite Ec in *; cbn [start b_y1] in *; lra|exists c; split; [exact Hc|rewrite Ec; reflexivity]].
Qed.
End Mixture.

(** ** Intersection *)
Lemma intersects_ok a b px py : numbers a -> numbers b -> holds a px py -> holds b px py -> fintersects a b = true.
Proof.
  intros (A1 & A2 & A3 & A4) (B1 & B2 & B3 & B4) [Ha1 Ha2] [Hb1 Hb2]. unfold fintersects. rewrite !ltb_fin by auto.
  repeat (rewrite Rlt_bool_false by lra). reflexivity.
Qed.
Lemma intersects_point a b : numbers a -> numbers b -> (exists px py, holds a px py) -> (exists px py, holds b px py) -> fintersects a b = true -> exists px py, holds a px py /\ holds b px py.
Proof.
  intros (A1 & A2 & A3 & A4) (B1 & B2 & B3 & B4) (ax & ay & Ha) (bx & by_ & Hb). unfold fintersects. rewrite !ltb_fin, negb_true_iff, !orb_false_iff by auto. intros [[[H1 H2] H3] H4].
  destruct (Rlt_bool_spec (fval (b_x1 a)) (fval (b_x0 b))); [discriminate|]. destruct (Rlt_bool_spec (fval (b_x1 b)) (fval (b_x0 a))); [discriminate|].
  destruct (Rlt_bool_spec (fval (b_y1 b)) (fval (b_y0 a))); [discriminate|]. destruct (Rlt_bool_spec (fval (b_y1 a)) (fval (b_y0 b))); [discriminate|].
  exists (Rmax (fval (b_x0 a)) (fval (b_x0 b))), (Rmax (fval (b_y0 a)) (fval (b_y0 b))). unfold holds in *. unfold Rmax. destruct (Rle_dec _ _), (Rle_dec _ _); lra.
Qed.
