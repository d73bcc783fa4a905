(** The likelihood in doubles. *)
From Coq Require Import List Arith Lia Bool Reals ZArith Lra Psatz.
From Flocq Require Import Core.
From Coq Require Import Floats.
From Verif Require Import Scalar FloatBase ClusterFloat ClusterFloatClose KalmanFloat KalmanFloatSpec KalmanFloatProofs KalmanFloatErr PredictFloatProofs KalmanCorrSpec KalmanCorr
  LikFloat LikFloatSpec.
From Interval Require Import Tactic.
Import ListNotations.
Local Open Scope R_scope.
Local Notation bp := (bpow radix2).
Local Notation u := (bp (-53)).

(** More rules for [ap]. *)
Lemma ap_rel k m y x : 0 < y -> bp (- m) <= y <= bp m -> forall r, is x r -> Rabs (r - y) <= k * u * y -> ap k m y x y.
Proof. intros Py [H1 H2] r Ir E. exists r. repeat split; try apply Ir; auto. rewrite Rabs_pos_eq; lra. Qed.
Lemma ap_div k k' m m' s x x' y y' : 0 <= k <= 1000000000000 -> 0 <= k' <= 1000000000000 -> (0 <= m)%Z -> (0 <= m')%Z -> (m + m' <= 900)%Z -> 0 < y' ->
  ap k m s x y -> ap k' m' y' x' y' -> ap ((k + k') * (101 / 100) + 1 + / 50) (m + m') (s / y') (x / x')%float (y / y').
Proof.
  intros Hk Hk' Lm Lm' L Py' A A'. pose proof (ap_pos _ _ _ _ _ A) as Ps.
  destruct A as (r & Ir & E & By & S & B). destruct A' as (r' & Ir' & E' & _ & S' & B'). destruct S' as [S'|S']; [lra|].
  pose proof (ku k Hk) as K1. pose proof (ku k' Hk') as K2. pose proof u_pos as U.
  assert (Rr : y' * (1 - k' * u) <= r' <= y' * (1 + k' * u)) by (split; apply Rabs_le_inv in E'; lra).
  assert (Pr : 0 < r') by nra. assert (PI' : 0 < / y') by (apply Rinv_0_lt_compat; auto). assert (PR' : 0 < / r') by (apply Rinv_0_lt_compat; auto).
  assert (IY : bp (- m') <= / y' <= bp m').
  { split; [rewrite bpow_opp; apply Rinv_le_contravar; auto|]. replace m' with (- - m')%Z by lia. rewrite bpow_opp. apply Rinv_le_contravar; [apply bp_pos|exact S']. }
  assert (EI : Rabs (/ r' - / y') <= k' * (1002 / 1000) * u * / y').
  { replace (/ r' - / y') with ((y' - r') * / r' * / y') by (field; lra). rewrite !Rabs_mult, (Rabs_pos_eq (/ y')) by lra. apply Rmult_le_compat_r; [lra|].
    rewrite (Rabs_pos_eq (/ r')) by lra. rewrite Rabs_minus_sym.
    apply Rle_trans with (k' * u * y' * / r'); [apply Rmult_le_compat_r; [lra|exact E']|].
    apply Rmult_le_reg_r with r'; [auto|]. rewrite Rmult_assoc, Rinv_l by lra. nra. }
  assert (IR : / r' <= (1002 / 1000) * / y').
  { replace (/ r') with ((/ r' - / y') + / y') by ring. pose proof (Rle_abs (/ r' - / y')). assert (k' * (1002 / 1000) * u * / y' <= (2 / 1000) * / y') by (apply Rmult_le_compat_r; lra). lra. }
  set (t := s / y'). assert (Pt : 0 <= t) by (apply Rmult_le_pos; lra).
  assert (EQ : Rabs (r / r' - y / y') <= (k + k') * (1005 / 1000) * u * t).
  { replace (r / r' - y / y') with ((r - y) * / r' + y * (/ r' - / y')) by (field; lra). eapply Rle_trans; [apply Rabs_triang|]. rewrite !Rabs_mult, (Rabs_pos_eq (/ r')) by lra.
    assert (G1 : Rabs (r - y) * / r' <= k * u * s * ((1002 / 1000) * / y')) by (apply Rmult_le_compat; auto; [apply Rabs_pos|lra]).
    assert (G2 : Rabs y * Rabs (/ r' - / y') <= s * (k' * (1002 / 1000) * u * / y')) by (apply Rmult_le_compat; auto; apply Rabs_pos).
    replace (k * u * s * ((1002 / 1000) * / y')) with (k * u * t * (1002 / 1000)) in G1 by (unfold t, Rdiv; ring).
    replace (s * (k' * (1002 / 1000) * u * / y')) with (k' * u * t * (1002 / 1000)) in G2 by (unfold t, Rdiv; ring).
    assert (0 <= k * u * t) by (apply Rmult_le_pos; lra). assert (0 <= k' * u * t) by (apply Rmult_le_pos; lra). lra. }
  assert (YT : Rabs (y / y') <= t). { unfold t, Rdiv. rewrite Rabs_mult, (Rabs_pos_eq (/ y')) by lra. apply Rmult_le_compat_r; lra. }
  assert (TB : t <= bp (m + m')). { unfold t, Rdiv. rewrite bpow_plus. apply Rmult_le_compat; lra. }
  assert (TS : t = 0 \/ bp (- (m + m')) <= t).
  { destruct S as [->|S]; [left; unfold t; lra|right]. replace (- (m + m'))%Z with (- m + - m')%Z by lia. unfold t, Rdiv. rewrite bpow_plus.
    apply Rmult_le_compat; try lra; apply Rlt_le, bp_pos. }
  assert (KB : (k + k') * (1005 / 1000) * u * t <= 1 * t) by (apply Rmult_le_compat_r; lra).
  assert (QB : Rabs (r / r') <= 2 * t).
  { replace (r / r') with ((r / r' - y / y') + y / y') by ring. eapply Rle_trans; [apply Rabs_triang|]. lra. }
  assert (BM : bp (m + m') <= bp 998) by (apply bp_le; lia).
  exists (rnd (r / r')). split; [|split; [|split; [exact YT|split; [exact TS|exact TB]]]].
  - apply is_div; auto; [lra|]. eapply Rle_trans; [exact QB|]. change (bp 1000) with (bp (2 + 998)). rewrite bpow_plus. change (bp 2) with 4. lra.
  - destruct TS as [T0|TS].
    { assert (H : r / r' = 0) by (destruct (Req_dec (r / r') 0) as [|N]; auto; apply Rabs_pos_lt in N; lra).
      assert (H0 : y / y' = 0) by (destruct (Req_dec (y / y') 0) as [|N]; auto; apply Rabs_pos_lt in N; lra).
      rewrite H, H0, rnd_0, T0. replace (0 - 0) with 0 by ring. rewrite Rabs_R0. lra. }
    destruct (abs_err (r / r')) as (e & f & -> & He & Hf).
    replace (r / r' * (1 + e) + f - y / y') with ((r / r' - y / y') * (1 + e) + y / y' * e + f) by ring.
    eapply Rle_trans; [apply Rabs_triang|]. eapply Rle_trans; [apply Rplus_le_compat_r, Rabs_triang|]. rewrite (Rabs_mult _ (1 + e)), (Rabs_mult (y / y')).
    assert (T3 : Rabs (1 + e) <= 1 + / 1000). { eapply Rle_trans; [apply Rabs_triang|]. rewrite Rabs_R1. pose proof u_small. lra. }
    assert (Fb : bp (-1075) <= / 50 * u * t).
    { apply Rle_trans with (bp (-6) * u * bp (-900)).
      - rewrite <- !bpow_plus. apply bp_le. lia.
      - apply Rmult_le_compat; [apply Rmult_le_pos; apply Rlt_le, bp_pos|apply Rlt_le, bp_pos| |eapply Rle_trans; [apply bp_le|exact TS]; lia].
        apply Rmult_le_compat_r; [lra|]. change (bp (-6)) with (/ 64). lra. }
    assert (G1 : Rabs (r / r' - y / y') * Rabs (1 + e) <= (k + k') * (1005 / 1000) * u * t * (1 + / 1000)) by (apply Rmult_le_compat; auto; apply Rabs_pos).
    assert (G2 : Rabs (y / y') * Rabs e <= t * u) by (apply Rmult_le_compat; auto; apply Rabs_pos).
    assert (0 <= k * u * t) by (apply Rmult_le_pos; lra). assert (0 <= k' * u * t) by (apply Rmult_le_pos; lra). lra.
Qed.
Lemma ap_sqrt k m x y : 0 <= k <= 1000000000000 -> (0 <= m <= 450)%Z -> 0 < y -> ap k (2 * m) y x y ->
  ap (k * (51 / 100) + 1 + / 50) m (R_sqrt.sqrt y) (PrimFloat.sqrt x) (R_sqrt.sqrt y).
Proof.
  intros Hk Lm Py (r & Ir & E & _ & S & B). destruct S as [S|S]; [lra|]. pose proof (ku k Hk) as K1. pose proof u_pos as U.
  assert (Rr : y * (1 - k * u) <= r <= y * (1 + k * u)) by (split; apply Rabs_le_inv in E; lra).
  assert (Pr : 0 < r) by nra. set (q := R_sqrt.sqrt y). set (p := R_sqrt.sqrt r).
  assert (Pq : 0 < q) by (apply sqrt_lt_R0; auto). assert (Pp : 0 < p) by (apply sqrt_lt_R0; auto).
  assert (Eq : q * q = y) by (apply sqrt_sqrt; lra). assert (Ep : p * p = r) by (apply sqrt_sqrt; lra).
  assert (SB : bp (- m) <= q <= bp m).
  { assert (D : forall a, R_sqrt.sqrt (bp (2 * a)) = bp a).
    { intros a. replace (2 * a)%Z with (a + a)%Z by lia. rewrite bpow_plus. apply sqrt_square, Rlt_le, bp_pos. }
    split; [rewrite <- (D (- m)%Z)|rewrite <- (D m)]; apply sqrt_le_1_alt; auto. replace (2 * - m)%Z with (- (2 * m))%Z by lia. exact S. }
  assert (Lp : p >= (999 / 1000) * q).
  { apply Rle_ge. apply Rsqr_incr_0; try lra. unfold Rsqr. replace ((999 / 1000) * q * ((999 / 1000) * q)) with ((998001 / 1000000) * (q * q)) by field. rewrite Eq, Ep. nra. }
  assert (EP : Rabs (p - q) <= k * (501 / 1000) * u * q).
  { assert (F : (p - q) * (p + q) = r - y) by (rewrite <- Eq, <- Ep; ring).
    assert (F2 : Rabs (p - q) * (p + q) <= k * u * (q * q)) by (rewrite <- (Rabs_pos_eq (p + q)) by lra; rewrite <- Rabs_mult, F, Eq; exact E).
    apply Rmult_le_reg_r with (p + q); [lra|]. eapply Rle_trans; [exact F2|].
    replace (k * (501 / 1000) * u * q * (p + q)) with (k * u * (q * ((501 / 1000) * (p + q)))) by ring. apply Rmult_le_compat_l; [lra|].
    apply Rmult_le_compat_l; lra. }
  assert (PB : p <= 2 * q). { pose proof (Rle_abs (p - q)). assert (k * (501 / 1000) * u * q <= 1 * q) by (apply Rmult_le_compat_r; lra). lra. }
  assert (BM : bp m <= bp 998) by (apply bp_le; lia).
  exists (rnd p). split; [|split; [|split; [|split]]].
  - destruct Ir as [Fx Vx]. destruct (f_sqrt x Fx ltac:(lra)) as [F1 F2]. split; [exact F1|]. rewrite F2, Vx. reflexivity.
  - destruct (abs_err p) as (e & f & -> & He & Hf).
    replace (p * (1 + e) + f - q) with ((p - q) * (1 + e) + q * e + f) by ring.
    eapply Rle_trans; [apply Rabs_triang|]. eapply Rle_trans; [apply Rplus_le_compat_r, Rabs_triang|]. rewrite (Rabs_mult _ (1 + e)), (Rabs_mult q), (Rabs_pos_eq q) by lra.
    assert (T3 : Rabs (1 + e) <= 1 + / 1000). { eapply Rle_trans; [apply Rabs_triang|]. rewrite Rabs_R1. pose proof u_small. lra. }
    assert (Fb : bp (-1075) <= / 50 * u * q).
    { apply Rle_trans with (bp (-6) * u * bp (-900)).
      - rewrite <- !bpow_plus. apply bp_le. lia.
      - apply Rmult_le_compat; [apply Rmult_le_pos; apply Rlt_le, bp_pos|apply Rlt_le, bp_pos| |eapply Rle_trans; [apply bp_le|exact (proj1 SB)]; lia].
        apply Rmult_le_compat_r; [lra|]. change (bp (-6)) with (/ 64). lra. }
    assert (G1 : Rabs (p - q) * Rabs (1 + e) <= k * (501 / 1000) * u * q * (1 + / 1000)) by (apply Rmult_le_compat; auto; apply Rabs_pos).
    assert (G2 : q * Rabs e <= q * u) by (apply Rmult_le_compat_l; lra).
    assert (0 <= k * u * q) by (apply Rmult_le_pos; lra). lra.
  - rewrite Rabs_pos_eq; lra.
  - right. exact (proj1 SB).
  - exact (proj2 SB).
Qed.

(** The constants. *)
Lemma half_is : is 0.5%float (/ 2).
Proof. split; [reflexivity|]. unfold val. cbv -[Rmult Rinv IZR]. lra. Qed.
Lemma pi_is : is fpi (884279719003555 / 281474976710656).
Proof. split; [reflexivity|]. unfold val. cbv -[Rmult Rinv IZR Rdiv]. lra. Qed.
Lemma pi_near : Rabs (884279719003555 / 281474976710656 - PI) <= u * PI.
Proof. change u with (/ 9007199254740992). interval with (i_prec 120). Qed.
Lemma exp_450 : bp (-700) <= exp (-450).
Proof. change (bp (-700)) with (/ IZR (2 ^ 700)). interval with (i_prec 60). Qed.
Lemma two_pi_is : is (2 * fpi)%float (2 * (884279719003555 / 281474976710656)).
Proof. split; [reflexivity|]. unfold val. cbv -[Rmult Rinv IZR Rdiv]. lra. Qed.
Lemma pow_ap powf : square_accurate powf -> ap 8200 6 (2 * PI * (2 * PI)) (powf (2 * fpi)%float 2%float) (2 * PI * (2 * PI)).
Proof.
  intros Hp. destruct two_pi_is as [F V]. set (p := 884279719003555 / 281474976710656) in *.
  assert (HP : 3 <= PI <= 4) by (split; interval).
  assert (B1 : 3 <= p <= 4) by (unfold p; lra).
  destruct (Hp _ F) as [F2 E2]; [rewrite V; lra|]. rewrite V in E2.
  assert (P2 : 0 < 2 * PI * (2 * PI)) by (apply Rmult_lt_0_compat; lra).
  apply (ap_rel 8200 6 _ _ P2) with (val (powf (2 * fpi)%float 2%float)); [|split; [exact F2|reflexivity]|].
  - change (bp (- (6))) with (/ 64). change (bp 6) with 64. assert (6 * 6 <= 2 * PI * (2 * PI) <= 8 * 8) by (split; apply Rmult_le_compat; lra). lra.
  - pose proof pi_near as PN. fold p in PN. pose proof u_pos as U. pose proof u_small as U2.
    set (v := val (powf (2 * fpi)%float 2%float)) in *. replace (v - 2 * PI * (2 * PI)) with ((v - 2 * p * (2 * p)) + 4 * ((p - PI) * (p + PI))) by ring.
    eapply Rle_trans; [apply Rabs_triang|]. change (bp (-40)) with (bp (13 + -53)) in E2. rewrite bpow_plus in E2. change (bp 13) with 8192 in E2.
    rewrite (Rabs_mult 4), (Rabs_mult (p - PI)), (Rabs_pos_eq 4), (Rabs_pos_eq (p + PI)) by lra.
    assert (PL : p <= (1 + u) * PI) by (pose proof (Rle_abs (p - PI)); lra).
    assert (G1 : Rabs (p - PI) * (p + PI) <= u * PI * ((2 + u) * PI)) by (apply Rmult_le_compat; try apply Rabs_pos; lra).
    assert (G2 : p * p <= (1 + u) * PI * ((1 + u) * PI)) by (apply Rmult_le_compat; lra).
    assert (PP : 0 < PI * PI) by nra. set (w := PI * PI) in *.
    replace (u * PI * ((2 + u) * PI)) with (u * (2 + u) * w) in G1 by (unfold w; ring).
    replace ((1 + u) * PI * ((1 + u) * PI)) with ((1 + u) * (1 + u) * w) in G2 by (unfold w; ring).
    replace (8200 * u * (2 * PI * (2 * PI))) with (8200 * u * (4 * w)) by (unfold w; ring).
    replace (8192 * u * (2 * p * (2 * p))) with (4 * 8192 * u * (p * p)) in E2 by ring.
    assert (G3 : 4 * 8192 * u * (p * p) <= 4 * 8192 * u * ((1 + u) * (1 + u) * w)) by (apply Rmult_le_compat_l; lra).
    assert (UW : 0 <= u * w) by (apply Rmult_le_pos; lra).
    assert (UU : (1 + u) * (1 + u) <= 1 + / 100000) by nra.
    assert (G4 : u * w * ((1 + u) * (1 + u)) <= u * w * (1 + / 100000)) by (apply Rmult_le_compat_l; lra).
    assert (G5 : u * w * (2 + u) <= u * w * 3) by (apply Rmult_le_compat_l; lra). lra.
Qed.

(** The quadratic form dominates the sum of the sizes of its terms. *)
Lemma form_size (a b rho K : R) : 0 <= a -> 0 <= b -> 0 <= rho -> 1 <= K -> 1 <= K * (1 - rho * rho) -> a * a + b * b <= 2 * K * (a * a + b * b - 2 * rho * (a * b)).
Proof.
  intros Ha Hb Hr HK H. assert (R1 : rho < 1). { apply Rnot_le_lt. intros L. assert (1 <= rho * rho) by nra. assert (K * (1 - rho * rho) <= 0) by (assert (0 <= K * (rho * rho - 1)) by (apply Rmult_le_pos; lra); lra). lra. }
  assert (H2 : 1 <= 2 * K * (1 - rho)). { replace (K * (1 - rho * rho)) with (K * (1 - rho) * (1 + rho)) in H by ring. assert (0 <= K * (1 - rho)) by (apply Rmult_le_pos; lra). assert (K * (1 - rho) * (1 + rho) <= K * (1 - rho) * 2) by (apply Rmult_le_compat_l; lra). lra. }
  assert (H3 : (1 - rho) * (a * a + b * b) <= a * a + b * b - 2 * rho * (a * b)) by (pose proof (Rle_0_sqr (a - b)); unfold Rsqr in *; nra).
  assert (0 <= a * a + b * b) by nra.
  apply Rle_trans with (2 * K * (1 - rho) * (a * a + b * b)); [nra|]. replace (2 * K * (1 - rho) * (a * a + b * b)) with (2 * K * ((1 - rho) * (a * a + b * b))) by ring.
  apply Rmult_le_compat_l; lra.
Qed.
Lemma exp_step d e : 0 <= e <= / 1000 -> Rabs d <= e -> Rabs (exp d - 1) <= (101 / 100) * e.
Proof.
  intros He Hd. apply Rabs_le_inv in Hd. pose proof (exp_lin d) as L. pose proof (exp_lin (- d)) as L2.
  rewrite exp_Ropp in L2. pose proof (exp_pos d) as P.
  assert (U : exp d * (1 - d) <= 1). { apply Rmult_le_reg_l with (/ exp d); [apply Rinv_0_lt_compat; auto|]. rewrite <- Rmult_assoc, Rinv_l by lra. lra. }
  apply Rabs_le. split; [lra|]. assert (exp d * (1 - e) <= 1) by nra. nra.
Qed.

Section Lik.
Variable sum : list float -> float.
Hypothesis Hsum : forall l, fsums l (sum l).
Variables P V : fmat.
Hypothesis FP : finite4 P.
Hypothesis SP : symmetric4 P.
Hypothesis DP : definite4 P.
Hypothesis DV : definite2 V.
Hypothesis MP : forall i j, (i < 4)%nat -> (j < 4)%nat -> mid0 (val (P i j)).
Hypothesis MV : forall i j, (i < 2)%nat -> (j < 2)%nat -> mid0 (val (V i j)).
Variable K : R.
Hypothesis HK0 : 1 <= K <= 1000.
Hypothesis UT : untied K P V.
Variables x z : fvec.
Hypothesis Hx : forall i, (i < 4)%nat -> fin (x i) /\ Rabs (val (x i)) <= bp 200.
Hypothesis Hz : forall i, (i < 2)%nat -> fin (z i) /\ Rabs (val (z i)) <= bp 200.
Hypothesis Hd : forall i, (i < 2)%nat -> mid0 (val (z i) - val (x i)).

Lemma HK : 1 <= K <= 1000000000. Proof. lra. Qed.
Let y k := val (z k) - val (x k).
Lemma dz_ap k : (k < 2)%nat -> ap (51 / 50) 101 (Rabs (y k)) (fdz sum x z k) (y k).
Proof.
  intros Lk. unfold fdz. destruct (Hx k ltac:(lia)) as [Fx Bx]. destruct (Hz k Lk) as [Fz Bz]. destruct (mid_size _ (Hd k Lk)) as [M1 M2]. fold (y k) in M1, M2.
  assert (HX : is (fprodv sum 4 fH x k) (val (x k))).
  { unfold fprodv. eapply (sum_pick 4); [apply Hsum| |cbv beta; rewrite H_on; apply is_mul1l; [apply is_1|split; auto|eapply up; [exact Bx|lia]]|eapply up; [exact Bx|lia]|]; [lia|].
    intros l Ll N. cbv beta; rewrite H_off by congruence. eapply is_mul0l; [apply is_0|split; [apply Hx; auto|reflexivity]]. }
  assert (I : is (z k - fprodv sum 4 fH x k)%float (rnd (y k))).
  { apply is_sub; [split; auto|exact HX|]. fold (y k). eapply up; [exact M2|lia]. }
  exists (rnd (y k)). split; [exact I|]. split; [|split; [lra|split; [|eapply up; [exact M2|lia]]]].
  - destruct (rel (y k)) as (d & -> & Hdd).
    + destruct M1 as [M1|M1]; [left; destruct (Req_dec (y k) 0) as [|N]; auto; apply Rabs_no_R0 in N; contradiction|right].
      eapply Rle_trans; [apply bp_le|exact M1]. lia.
    + replace (y k * (1 + d) - y k) with (y k * d) by ring. rewrite Rabs_mult. pose proof (Rabs_pos (y k)). pose proof u_pos.
      assert (Rabs (y k) * Rabs d <= Rabs (y k) * u) by (apply Rmult_le_compat_l; auto). assert (0 <= u * Rabs (y k)) by (apply Rmult_le_pos; lra). lra.
  - destruct M1 as [M1|M1]; [left; exact M1|right]. eapply Rle_trans; [apply bp_le|exact M1]. lia.
Qed.
Let fD := finv2 (finnov sum P V).
Let DX := Dx P V.
Let DZ := Dz P V.
Lemma D_ap a b : (a < 2)%nat -> (b < 2)%nat -> ap (126 / 10 * K) 335 (DZ a b) (fD a b) (DX a b).
Proof. exact (inv_ap sum Hsum P V FP SP DP DV MP MV K HK UT a b). Qed.
Definition rowz b := Rabs (y 0%nat) * DZ 0 b + Rabs (y 1%nat) * DZ 1 b.
Definition rowx b := y 0%nat * DX 0 b + y 1%nat * DX 1 b.
Lemma row_ap b : (b < 2)%nat -> ap (159 / 10 * K) 437 (rowz b) (fprod sum 2 (fun _ k => fdz sum x z k) fD 0%nat b) (rowx b).
Proof.
  intros Lb. unfold rowz, rowx.
  assert (T : forall a, (a < 2)%nat -> ap (148 / 10 * K) 436 (Rabs (y a) * DZ a b) (fdz sum x z a * fD a b)%float (y a * DX a b)).
  { intros a La. eapply ap_weaken; [| |eapply ap_mult; [| | | | |exact (dz_ap a La)|exact (D_ap a b La Lb)]]; try lra; try lia. }
  eapply ap_weaken; [| |eapply ap_plus; [| | |exact (T 0%nat ltac:(lia))|exact (T 1%nat ltac:(lia))|]]; try lra; try lia.
  intros r r' Ir Ir' B B'. unfold fprod. eapply (sum_pair 2) with (i := 0%nat) (j := 1%nat); [apply Hsum|lia|lia|lia|exact Ir|exact Ir'|eapply up; [exact B|lia]|eapply up; [exact B'|lia]|]. intros; lia.
Qed.
Definition qz := rowz 0 * Rabs (y 0%nat) + rowz 1 * Rabs (y 1%nat).
Definition qx := rowx 0 * y 0%nat + rowx 1 * y 1%nat.
Lemma quad_ap0 : ap (193 / 10 * K) 539 qz (fquad sum (fdz sum x z) fD) qx.
Proof.
  unfold qz, qx, fquad.
  assert (T : forall b, (b < 2)%nat -> ap (182 / 10 * K) 538 (rowz b * Rabs (y b)) (fprod sum 2 (fun _ k => fdz sum x z k) fD 0%nat b * fdz sum x z b)%float (rowx b * y b)).
  { intros b Lb. eapply ap_weaken; [| |eapply ap_mult; [| | | | |exact (row_ap b Lb)|exact (dz_ap b Lb)]]; try lra; try lia. }
  eapply ap_weaken; [| |eapply ap_plus; [| | |exact (T 0%nat ltac:(lia))|exact (T 1%nat ltac:(lia))|]]; try lra; try lia.
  intros r r' Ir Ir' B B'. unfold fprodv. eapply (sum_pair 2) with (i := 0%nat) (j := 1%nat); [apply Hsum|lia|lia|lia|exact Ir|exact Ir'|eapply up; [exact B|lia]|eapply up; [exact B'|lia]|]. intros; lia.
Qed.
Let s := sprd P V.
Let det := s 0%nat 0%nat * s 1%nat 1%nat - s 0%nat 1%nat * s 0%nat 1%nat.
Lemma dpos : 0 < det. Proof. exact (det_pos P V DP DV K HK UT). Qed.
Lemma qz_le : 0 <= qz /\ qz <= 4 * K * qx.
Proof.
  pose proof dpos as Pd. pose proof (det_ge P V K UT) as Ge. fold s in Ge. fold det in Ge. pose proof (g_off P V SP DP DV) as Go. cbv beta in Go. fold s in Go.
  pose proof (proj1 (s_pos P V DP DV 0 ltac:(lia))) as S0. pose proof (proj1 (s_pos P V DP DV 1 ltac:(lia))) as S1. fold s in S0, S1.
  assert (Pi : 0 < / det) by (apply Rinv_0_lt_compat; auto).
  set (g := Rabs (val (P 0%nat 1%nat)) + Rabs (val (V 0%nat 1%nat))) in *.
  assert (G0 : 0 <= g) by (pose proof (Rabs_pos (val (P 0%nat 1%nat))); pose proof (Rabs_pos (val (V 0%nat 1%nat))); unfold g; lra).
  set (w0 := R_sqrt.sqrt (s 0%nat 0%nat)). set (w1 := R_sqrt.sqrt (s 1%nat 1%nat)).
  assert (W0 : 0 < w0) by (apply sqrt_lt_R0; auto). assert (W1 : 0 < w1) by (apply sqrt_lt_R0; auto).
  assert (E0 : w0 * w0 = s 0%nat 0%nat) by (apply sqrt_sqrt; lra). assert (E1 : w1 * w1 = s 1%nat 1%nat) by (apply sqrt_sqrt; lra).
  assert (Gw : g <= w0 * w1). { rewrite <- (Rabs_pos_eq _ G0). apply sqrt_prod_le; lra. }
  set (a := Rabs (y 0%nat) * w1). set (b := Rabs (y 1%nat) * w0). pose proof (Rabs_pos (y 0%nat)) as Y0. pose proof (Rabs_pos (y 1%nat)) as Y1.
  assert (Ha : 0 <= a) by (apply Rmult_le_pos; lra). assert (Hb : 0 <= b) by (apply Rmult_le_pos; lra).
  set (c := w0 * w1). assert (Pc : 0 < c) by (apply Rmult_lt_0_compat; auto). set (rho := Rabs (s 0%nat 1%nat) / c).
  assert (Er : rho * c = Rabs (s 0%nat 1%nat)) by (unfold rho; field; lra).
  assert (Hr : 0 <= rho) by (apply Rmult_le_pos; [apply Rabs_pos|apply Rlt_le, Rinv_0_lt_compat; auto]).
  assert (SQ : forall v, Rabs v * Rabs v = v * v) by (intros v; rewrite <- Rabs_mult; apply Rabs_pos_eq; apply Rle_0_sqr).
  assert (Ec : c * c = s 0%nat 0%nat * s 1%nat 1%nat) by (unfold c; rewrite <- E0, <- E1; ring).
  assert (Ed : det = c * c * (1 - rho * rho)). { unfold det. rewrite <- Ec, <- (SQ (s 0%nat 1%nat)), <- Er. ring. }
  assert (KR : 1 <= K * (1 - rho * rho)).
  { apply Rmult_le_reg_l with (c * c); [nra|]. rewrite Rmult_1_r, Ec. eapply Rle_trans; [exact Ge|]. rewrite Ed. rewrite <- Ec. right. ring. }
  pose proof (form_size a b rho K Ha Hb Hr ltac:(lra) KR) as FS.
  assert (QX : (a * a + b * b - 2 * rho * (a * b)) * / det <= qx).
  { replace qx with ((s 1%nat 1%nat * (y 0%nat * y 0%nat) + s 0%nat 0%nat * (y 1%nat * y 1%nat) - 2 * (s 0%nat 1%nat * (y 0%nat * y 1%nat))) * / det)
      by (unfold qx, rowx, DX, Dx; fold s; fold det; ring).
    apply Rmult_le_compat_r; [lra|]. rewrite <- (SQ (y 0%nat)), <- (SQ (y 1%nat)), <- E0, <- E1.
    assert (M : s 0%nat 1%nat * (y 0%nat * y 1%nat) <= rho * (a * b)).
    { eapply Rle_trans; [apply Rle_abs|]. rewrite !Rabs_mult, <- Er. unfold a, b, c. right. ring. }
    unfold a, b in *. lra. }
  assert (QZ : qz <= 2 * (a * a + b * b) * / det).
  { replace qz with ((s 1%nat 1%nat * (Rabs (y 0%nat) * Rabs (y 0%nat)) + s 0%nat 0%nat * (Rabs (y 1%nat) * Rabs (y 1%nat)) + 2 * (g * (Rabs (y 0%nat) * Rabs (y 1%nat)))) * / det)
      by (unfold qz, rowz, DZ, Dz; fold s; fold det; fold g; ring).
    apply Rmult_le_compat_r; [lra|]. rewrite <- E0, <- E1.
    assert (M : g * (Rabs (y 0%nat) * Rabs (y 1%nat)) <= a * b).
    { apply Rle_trans with (w0 * w1 * (Rabs (y 0%nat) * Rabs (y 1%nat))); [apply Rmult_le_compat_r; auto; apply Rmult_le_pos; auto|]. unfold a, b. right. ring. }
    pose proof (Rle_0_sqr (a - b)). unfold Rsqr in *. unfold a, b in *. lra. }
  split.
  - apply (ap_pos _ _ _ _ _ quad_ap0).
  - eapply Rle_trans; [exact QZ|]. apply Rle_trans with (4 * K * ((a * a + b * b - 2 * rho * (a * b)) * / det)).
    + replace (4 * K * ((a * a + b * b - 2 * rho * (a * b)) * / det)) with (2 * (2 * K * (a * a + b * b - 2 * rho * (a * b))) * / det) by ring.
      apply Rmult_le_compat_r; lra.
    + apply Rmult_le_compat_l; lra.
Qed.
(** The exponential. *)
Variable expf : float -> float.
Hypothesis Hexp : exp_accurate expf.
(** The argument of the exponential. *)
Lemma arg_ok : exists r, is (- fquad sum (fdz sum x z) fD * 0.5)%float r /\ Rabs (r + qx / 2) <= 408 / 10 * (K * K) * u * qx.
Proof.
  destruct qz_le as [Z0 Z1]. assert (Q0 : 0 <= qx) by (apply Rmult_le_reg_l with (4 * K); lra). pose proof u_pos as U.
  assert (A : ap (204 / 10 * K) 540 (/ 2 * qz) (- fquad sum (fdz sum x z) fD * 0.5)%float (/ 2 * - qx)).
  { eapply ap_weaken; [| |eapply (ap_scale _ _ 1 qz); [| | | | | | |exact (ap_opp _ _ _ _ _ quad_ap0)|]]; try lra; try lia.
    - right. change (bp (- (1))) with (/ 2). lra.
    - change (bp 1) with 2. lra.
    - intros r Ir B. rewrite Rmult_comm. apply is_mul; [exact Ir|exact half_is|]. rewrite Rmult_comm. eapply up; [exact B|lia]. }
  destruct A as (r & Ir & E & _ & _ & _). exists r. split; [exact Ir|].
  replace (r + qx / 2) with (r - / 2 * - qx) by field. eapply Rle_trans; [exact E|].
  apply Rle_trans with (204 / 10 * K * u * (/ 2 * (4 * K * qx))).
  - apply Rmult_le_compat_l; [apply Rmult_le_pos; lra|]. lra.
  - right. field.
Qed.
(** Far away. *)
Lemma exp_far : 900 < qx -> fin (expf (- fquad sum (fdz sum x z) fD * 0.5)%float) /\ 0 <= val (expf (- fquad sum (fdz sum x z) fD * 0.5)%float) <= bp (-646).
Proof.
  intros HF. destruct arg_ok as (r & [Fr Vr] & E). set (arg := (- fquad sum (fdz sum x z) fD * 0.5)%float) in *.
  assert (KK : 1 <= K * K <= 1000000) by (split; nra).
  assert (r <= -449).
  { pose proof (Rle_abs (r + qx / 2)). assert (408 / 10 * (K * K) * u * qx <= / 1000 * qx); [|lra]. apply Rmult_le_compat_r; [lra|].
    change u with (/ 9007199254740992). lra. }
  assert (X : exp (-449) <= / 2 * bp (-646)) by (change (bp (-646)) with (/ IZR (2 ^ 646)); interval with (i_prec 60)).
  destruct (Hexp arg Fr) as (X1 & X2 & _). rewrite Vr in X1, X2. destruct (Rle_or_lt (-700) r) as [L|L].
  - destruct X1 as [F Y]; [lra|]. split; [exact F|]. assert (exp r <= exp (-449)) by (apply exp_mono; lra). pose proof (exp_pos r).
    apply Rabs_le_inv in Y. assert (bp (-40) * exp r <= 1 * exp r). { apply Rmult_le_compat_r; [lra|]. change 1 with (bp 0). apply bp_le. lia. } lra.
  - destruct X2 as [F Y]; [lra|]. split; [exact F|]. split; [lra|]. eapply Rle_trans; [apply Y|]. apply bp_le. lia.
Qed.
Lemma exp_ap : qx <= 900 -> ap (42 * (K * K) * qx + 8210) 700 (exp (- qx / 2)) (expf (- fquad sum (fdz sum x z) fD * 0.5)%float) (exp (- qx / 2)).
Proof.
  intros HQ. destruct qz_le as [Z0 Z1]. assert (Q0 : 0 <= qx) by (apply Rmult_le_reg_l with (4 * K); lra). pose proof u_pos as U. pose proof u_small as U2.
  destruct arg_ok as (r & [Fr Vr] & E1). set (arg := (- fquad sum (fdz sum x z) fD * 0.5)%float) in *.
  assert (KK : 1 <= K * K <= 1000000) by (split; nra). set (e := 408 / 10 * (K * K) * u * qx) in *.
  assert (UQ : u * qx <= / 9007199254740992 * 900) by (change u with (/ 9007199254740992); apply Rmult_le_compat_l; lra).
  assert (UQ0 : 0 <= u * qx) by (apply Rmult_le_pos; lra).
  assert (He : 0 <= e <= / 1000).
  { unfold e. replace (408 / 10 * (K * K) * u * qx) with (408 / 10 * (K * K) * (u * qx)) by ring. split; [apply Rmult_le_pos; lra|].
    apply Rle_trans with (408 / 10 * 1000000 * (/ 9007199254740992 * 900)); [apply Rmult_le_compat; lra|lra]. }
  pose proof (exp_step _ _ He E1) as ES. apply Rabs_le_inv in E1.
  destruct (Hexp arg Fr) as [X _]. destruct X as [Fe Ee]; [rewrite Vr|].
  { split; lra. }
  rewrite Vr in Ee. set (E0 := exp (- qx / 2)). set (t := exp (r + qx / 2)) in *.
  assert (EX : exp r = E0 * t) by (unfold E0, t; rewrite <- exp_plus; f_equal; field).
  assert (PE : 0 < E0) by apply exp_pos. rewrite EX in Ee.
  apply (ap_rel _ 700 _ _ PE) with (val (expf arg)); [|split; [exact Fe|reflexivity]|].
  - split; [eapply Rle_trans; [exact exp_450|]; apply exp_mono; lra|]. apply Rle_trans with (bp 0); [|apply bp_le; lia]. change (bp 0) with 1.
    rewrite <- exp_0. apply exp_mono. lra.
  - replace (val (expf arg) - E0) with ((val (expf arg) - E0 * t) + E0 * (t - 1)) by ring. eapply Rle_trans; [apply Rabs_triang|].
    rewrite (Rabs_mult E0), (Rabs_pos_eq E0) by lra. change (bp (-40)) with (bp (13 + -53)) in Ee. rewrite bpow_plus in Ee. change (bp 13) with 8192 in Ee.
    apply Rabs_le_inv in ES. assert (T1 : t <= 1002 / 1000) by lra.
    assert (G1 : 8192 * u * (E0 * t) <= 8192 * u * (E0 * (1002 / 1000))) by (apply Rmult_le_compat_l; [lra|]; apply Rmult_le_compat_l; lra).
    assert (G2 : E0 * Rabs (t - 1) <= E0 * (101 / 100 * e)) by (apply Rmult_le_compat_l; [lra|]; apply Rabs_le; lra).
    assert (UE : 0 <= u * E0) by (apply Rmult_le_pos; lra). assert (0 <= K * K * (u * qx) * E0) by (apply Rmult_le_pos; [apply Rmult_le_pos; lra|lra]).
    replace (E0 * (101 / 100 * e)) with (101 / 100 * (408 / 10) * (K * K * (u * qx) * E0)) in G2 by (unfold e; ring).
    replace ((42 * (K * K) * qx + 8210) * u * E0) with (42 * (K * K * (u * qx) * E0) + 8210 * (u * E0)) by ring. lra.
Qed.
(** The determinant. *)
Lemma invdet2_ap : ap (56 * (K * K)) 234 (/ det) (fdet2 fD) (/ det).
Proof.
  pose proof (D_ap 0 0 ltac:(lia) ltac:(lia)) as A00. pose proof (D_ap 0 1 ltac:(lia) ltac:(lia)) as A01.
  pose proof (D_ap 1 0 ltac:(lia) ltac:(lia)) as A10. pose proof (D_ap 1 1 ltac:(lia) ltac:(lia)) as A11.
  pose proof dpos as Pd. assert (Pi : 0 < / det) by (apply Rinv_0_lt_compat; auto).
  pose proof (proj1 (s_pos P V DP DV 0 ltac:(lia))) as S0. pose proof (proj1 (s_pos P V DP DV 1 ltac:(lia))) as S1. fold s in S0, S1.
  assert (X1 : ap (266 / 10 * K) 670 (DZ 0 0 * DZ 1 1) (fD 0%nat 0%nat * fD 1%nat 1%nat)%float (DX 0 0 * DX 1 1)).
  { eapply ap_weaken; [| |eapply ap_mult; [| | | | |exact A00|exact A11]]; try lra; try lia. }
  assert (X2 : ap (266 / 10 * K) 670 (DZ 1 0 * DZ 0 1) (fD 1%nat 0%nat * fD 0%nat 1%nat)%float (DX 1 0 * DX 0 1)).
  { eapply ap_weaken; [| |eapply ap_mult; [| | | | |exact A10|exact A01]]; try lra; try lia. }
  assert (X3 : ap (277 / 10 * K) 671 (DZ 0 0 * DZ 1 1 + DZ 1 0 * DZ 0 1) (fdet2 fD) (DX 0 0 * DX 1 1 - DX 1 0 * DX 0 1)).
  { unfold fdet2. eapply ap_weaken; [| |eapply ap_minus; [| | |exact X1|exact X2]]; try lra; try lia. }
  assert (ED : DX 0 0 * DX 1 1 - DX 1 0 * DX 0 1 = / det).
  { unfold DX, Dx. fold s. fold det. replace (s 1%nat 1%nat * / det * (s 0%nat 0%nat * / det) - - s 0%nat 1%nat * / det * (- s 0%nat 1%nat * / det)) with (det * / det * / det) by (unfold det at 1; ring).
    rewrite Rinv_r by lra. ring. }
  assert (EZ : DZ 0 0 * DZ 1 1 + DZ 1 0 * DZ 0 1 <= 2 * K * / det).
  { pose proof (g_off P V SP DP DV) as Go. cbv beta in Go. fold s in Go. pose proof (det_ge P V K UT) as Ge. fold s in Ge. fold det in Ge.
    unfold DZ, Dz. fold s. fold det. set (g := Rabs (val (P 0%nat 1%nat)) + Rabs (val (V 0%nat 1%nat))) in *.
    replace (s 1%nat 1%nat * / det * (s 0%nat 0%nat * / det) + g * / det * (g * / det)) with ((s 0%nat 0%nat * s 1%nat 1%nat + g * g) * / det * / det) by ring.
    apply Rmult_le_compat_r; [lra|]. apply Rmult_le_reg_r with det; auto. rewrite Rmult_assoc, Rinv_l by lra. lra. }
  destruct X3 as (r & Ir & E & _). rewrite ED in E. pose proof (invdet_ap sum Hsum P V FP SP DP DV MP MV K HK UT) as I2. fold s in I2. fold det in I2. destruct I2 as (_ & _ & _ & _ & [Z|SI] & BI); [lra|].
  exists r. split; [exact Ir|]. split; [|split; [rewrite Rabs_pos_eq; lra|split; [right; exact SI|exact BI]]].
  eapply Rle_trans; [exact E|]. pose proof u_pos. apply Rle_trans with (277 / 10 * K * u * (2 * K * / det)); [apply Rmult_le_compat_l; [apply Rmult_le_pos; lra|exact EZ]|].
  assert (0 <= K * K * (u * / det)) by (apply Rmult_le_pos; [nra|apply Rmult_le_pos; lra]). lra.
Qed.
Variable powf : float -> float -> float.
Hypothesis Hpow : square_accurate powf.
Let L := exp (- qx / 2) / (2 * PI * R_sqrt.sqrt det).
Lemma pi3 : 3 <= PI <= 4. Proof. split; interval. Qed.
Lemma root_ap : ap (30 * (K * K) + 4240) 120 (/ (2 * PI * R_sqrt.sqrt det)) (PrimFloat.sqrt (fdet2 fD / powf (2 * fpi) 2)%float) (/ (2 * PI * R_sqrt.sqrt det)).
Proof.
  pose proof pi3 as HP. assert (P2 : 0 < 2 * PI * (2 * PI)) by (apply Rmult_lt_0_compat; lra).
  pose proof dpos as Pd. assert (Pi : 0 < / det) by (apply Rinv_0_lt_compat; auto). assert (KK : 1 <= K * K <= 1000000) by (split; nra).
  assert (A : ap (57 * (K * K) + 8300) 240 (/ det / (2 * PI * (2 * PI))) (fdet2 fD / powf (2 * fpi) 2)%float (/ det / (2 * PI * (2 * PI)))).
  { eapply ap_weaken; [| |eapply ap_div; [| | | | | |exact invdet2_ap|exact (pow_ap powf Hpow)]]; try lra; try lia. }
  assert (PA : 0 < / det / (2 * PI * (2 * PI))) by (apply Rmult_lt_0_compat; [lra|apply Rinv_0_lt_compat; lra]).
  assert (SD : R_sqrt.sqrt (/ det / (2 * PI * (2 * PI))) = / (2 * PI * R_sqrt.sqrt det)).
  { unfold Rdiv. rewrite sqrt_mult by (try lra; apply Rlt_le, Rinv_0_lt_compat; lra). rewrite !sqrt_inv, sqrt_square by lra. field. split; [|lra]. apply Rgt_not_eq, sqrt_lt_R0; auto. }
  rewrite <- SD. eapply ap_weaken; [| |eapply (ap_sqrt _ 120); [| | |exact A]]; try lra; try lia.
Qed.
Lemma lik_close : qx <= 900 -> fin (flikelihood sum expf powf x P z V) /\
  Rabs (val (flikelihood sum expf powf x P z V) - L) <= (bp (-39) + bp (-47) * (K * K) * (1 + qx)) * L.
Proof.
  intros HQ. assert (KK : 1 <= K * K <= 1000000) by (split; nra). destruct qz_le as [Z0 Z1]. assert (Q0 : 0 <= qx) by (apply Rmult_le_reg_l with (4 * K); lra).
  assert (KQ : 0 <= K * K * qx <= 900000000). { split; [apply Rmult_le_pos; lra|]. apply Rle_trans with (1000000 * 900); [apply Rmult_le_compat; lra|lra]. }
  assert (C : ap ((42 * (K * K) * qx + 8210 + (30 * (K * K) + 4240)) * (101 / 100) + 1 + / 50) 820 L (flikelihood sum expf powf x P z V) L).
  { unfold L, Rdiv. eapply ap_weaken; [| |eapply ap_mult; [| | | | |exact (exp_ap HQ)|exact root_ap]]; try lra; try lia. }
  pose proof (ap_pos _ _ _ _ _ C) as PL. destruct C as (r & [F Vr] & E & _). split; [exact F|]. rewrite Vr. eapply Rle_trans; [exact E|]. apply Rmult_le_compat_r; auto.
  change (bp (-39)) with (bp (14 + -53)). change (bp (-47)) with (bp (6 + -53)). rewrite !bpow_plus. change (bp 14) with 16384. change (bp 6) with 64. pose proof u_pos as U.
  replace (16384 * u + 64 * u * (K * K) * (1 + qx)) with ((16384 + 64 * (K * K + K * K * qx)) * u) by ring. apply Rmult_le_compat_r; lra.
Qed.
Lemma root_size : bp (-101) <= / R_sqrt.sqrt det <= bp 117.
Proof.
  pose proof dpos as Pd. pose proof (det_ap sum Hsum P V FP SP DP DV MP MV K HK UT) as DA. fold s in DA. fold det in DA. destruct DA as (_ & _ & _ & _ & [Z|SI] & _); [lra|].
  assert (D : forall a, R_sqrt.sqrt (bp (2 * a)) = bp a).
  { intros a. replace (2 * a)%Z with (a + a)%Z by lia. rewrite bpow_plus. apply sqrt_square, Rlt_le, bp_pos. }
  assert (L1 : bp (-117) <= R_sqrt.sqrt det) by (rewrite <- (D (-117)%Z); apply sqrt_le_1_alt; exact SI).
  assert (L2 : R_sqrt.sqrt det <= bp 101).
  { rewrite <- (D 101%Z). apply sqrt_le_1_alt. pose proof (s_size P V DP DV MP MV 0 ltac:(lia)) as [A0 A]. pose proof (s_size P V DP DV MP MV 1 ltac:(lia)) as [B0 B]. fold s in A, B, A0, B0.
    assert (s 0%nat 0%nat * s 1%nat 1%nat <= bp (2 * 101)).
    { change (2 * 101)%Z with (101 + 101)%Z. rewrite bpow_plus. pose proof (bp_pos (-100)). apply Rmult_le_compat; lra. }
    pose proof (Rle_0_sqr (s 0%nat 1%nat)). unfold Rsqr in *. unfold det. lra. }
  pose proof (bp_pos (-117)). split.
  - replace (bp (-101)) with (/ bp 101) by (symmetry; apply (bpow_opp radix2 101)). apply Rinv_le_contravar; lra.
  - replace (bp 117) with (/ bp (-117)) by (symmetry; apply (bpow_opp radix2 (-117))). apply Rinv_le_contravar; lra.
Qed.
Lemma lik_far : 900 < qx -> fin (flikelihood sum expf powf x P z V) /\ 0 <= val (flikelihood sum expf powf x P z V) <= bp (-640) / R_sqrt.sqrt det /\
  0 <= L <= bp (-640) / R_sqrt.sqrt det.
Proof.
  intros HF. pose proof pi3 as HP. pose proof dpos as Pd. assert (KK : 1 <= K * K <= 1000000) by (split; nra). pose proof u_pos as U. pose proof u_small as U2.
  assert (Ps : 0 < R_sqrt.sqrt det) by (apply sqrt_lt_R0; auto). assert (Pi : 0 < / R_sqrt.sqrt det) by (apply Rinv_0_lt_compat; auto).
  destruct root_size as [RS RB]. set (i := / R_sqrt.sqrt det) in *.
  assert (EI : / (2 * PI * R_sqrt.sqrt det) = / (2 * PI) * i) by (unfold i; field; split; lra).
  assert (PI6 : 0 < / (2 * PI) <= / 6) by (split; [apply Rinv_0_lt_compat; lra|apply Rinv_le_contravar; lra]).
  pose proof (bp_pos (-640)) as P640. pose proof (bp_pos (-646)) as P646.
  assert (B6 : bp (-646) <= / 64 * bp (-640)) by (change (-646)%Z with (-6 + -640)%Z; rewrite bpow_plus; change (bp (-6)) with (/ 64); lra).
  destruct (exp_far HF) as [Fe Be]. destruct root_ap as (r & Ir & E & _). rewrite EI in E. set (ir := / (2 * PI) * i) in *.
  assert (Bi : 0 <= ir <= / 6 * i) by (unfold ir; split; [apply Rmult_le_pos; lra|apply Rmult_le_compat_r; lra]).
  assert (Br : 0 <= r <= / 3 * i).
  { assert ((30 * (K * K) + 4240) * u * ir <= 1 * ir). { apply Rmult_le_compat_r; [lra|]. change u with (/ 9007199254740992). lra. } apply Rabs_le_inv in E. lra. }
  set (e := val (expf (- fquad sum (fdz sum x z) fD * 0.5)%float)) in *.
  assert (ER : 0 <= e * r <= bp (-646) * (/ 3 * i)) by (split; [apply Rmult_le_pos; lra|apply Rmult_le_compat; lra]).
  assert (IB : bp (-640) * i <= bp (-523)) by (change (-523)%Z with (-640 + 117)%Z; rewrite bpow_plus; apply Rmult_le_compat_l; lra).
  assert (IB2 : bp (-741) <= bp (-640) * i) by (change (-741)%Z with (-640 + -101)%Z; rewrite bpow_plus; apply Rmult_le_compat_l; lra).
  assert (ES : bp (-646) * (/ 3 * i) <= / 100 * (bp (-640) * i)).
  { replace (bp (-646) * (/ 3 * i)) with (/ 3 * (bp (-646) * i)) by ring. assert (bp (-646) * i <= / 64 * bp (-640) * i) by (apply Rmult_le_compat_r; lra). lra. }
  assert (G : is (flikelihood sum expf powf x P z V) (rnd (e * r))).
  { unfold flikelihood, flik. apply is_mul; [split; [exact Fe|reflexivity]|exact Ir|]. rewrite Rabs_pos_eq by lra. apply Rle_trans with (bp (-523)); [lra|apply bp_le; lia]. }
  destruct G as [F Vr]. split; [exact F|]. rewrite Vr. unfold Rdiv. fold i. split.
  - split; [apply rnd_pos; lra|]. destruct (abs_err (e * r)) as (d & f & -> & Hd' & Hf).
    assert (T : bp (-1075) <= / 4 * bp (-741)) by (change (/ 4) with (bp (-2)); rewrite <- bpow_plus; apply bp_le; lia).
    apply Rabs_le_inv in Hd'. apply Rabs_le_inv in Hf. assert (e * r * d <= e * r * 1) by (apply Rmult_le_compat_l; lra). lra.
  - unfold L, Rdiv. rewrite EI. fold ir. assert (X : exp (- qx / 2) <= bp (-646)).
    { apply Rle_trans with (exp (-449)); [apply exp_mono; lra|]. change (bp (-646)) with (/ IZR (2 ^ 646)); interval with (i_prec 60). }
    pose proof (exp_pos (- qx / 2)). split; [apply Rmult_le_pos; lra|].
    apply Rle_trans with (bp (-646) * (/ 3 * i)); [apply Rmult_le_compat; lra|]. lra.
Qed.
(** Both clauses in one, with a bound on the size. *)
Lemma lik_near : fin (flikelihood sum expf powf x P z V) /\ 0 <= val (flikelihood sum expf powf x P z V) <= bp 118 /\ 0 <= L <= bp 117 /\
  Rabs (val (flikelihood sum expf powf x P z V) - L) <= bp (-36) * (K * K) * L + bp (-520).
Proof.
  pose proof pi3 as HP. pose proof dpos as Pd. assert (KK : 1 <= K * K <= 1000000) by (split; nra). destruct qz_le as [Z0 Z1]. assert (Q0 : 0 <= qx) by (apply Rmult_le_reg_l with (4 * K); lra).
  destruct root_size as [RS RB]. assert (Ps : 0 < R_sqrt.sqrt det) by (apply sqrt_lt_R0; auto).
  assert (L0 : 0 <= L <= bp 117).
  { assert (EI : L = exp (- qx / 2) * / (2 * PI) * / R_sqrt.sqrt det) by (unfold L; field; split; lra). rewrite EI.
    assert (0 < / (2 * PI) <= 1). { split; [apply Rinv_0_lt_compat; lra|]. rewrite <- Rinv_1. apply Rinv_le_contravar; lra. }
    assert (exp (- qx / 2) <= 1) by (rewrite <- exp_0; apply exp_mono; lra). pose proof (exp_pos (- qx / 2)). pose proof (bp_pos (-101)).
    assert (0 <= exp (- qx / 2) * / (2 * PI) <= 1 * 1) by (split; [apply Rmult_le_pos; lra|apply Rmult_le_compat; lra]).
    split; [apply Rmult_le_pos; lra|]. rewrite <- (Rmult_1_l (bp 117)). apply Rmult_le_compat; lra. }
  pose proof (bp_pos (-520)) as P520. pose proof (bp_pos 117) as P117. assert (E118 : bp 118 = 2 * bp 117) by (change 118%Z with (1 + 117)%Z; rewrite bpow_plus; reflexivity).
  assert (KL : 0 <= K * K * L) by (apply Rmult_le_pos; lra).
  destruct (Rle_or_lt qx 900) as [HQ|HF].
  - destruct (lik_close HQ) as [F E]. split; [exact F|].
    assert (E2 : (bp (-39) + bp (-47) * (K * K) * (1 + qx)) * L <= bp (-36) * (K * K) * L).
    { apply Rmult_le_compat_r; [lra|]. change (bp (-39)) with (bp (8 + -47)). change (bp (-36)) with (bp (11 + -47)). rewrite !bpow_plus. change (bp 8) with 256. change (bp 11) with 2048.
      pose proof (bp_pos (-47)) as P47. replace (256 * bp (-47) + bp (-47) * (K * K) * (1 + qx)) with ((256 + K * K * (1 + qx)) * bp (-47)) by ring.
      replace (2048 * bp (-47) * (K * K)) with (2048 * (K * K) * bp (-47)) by ring. apply Rmult_le_compat_r; [lra|]. assert (K * K * (1 + qx) <= K * K * 901) by (apply Rmult_le_compat_l; lra). lra. }
    assert (E3 : bp (-36) * (K * K) * L <= / 2 * L).
    { apply Rmult_le_compat_r; [lra|]. change (bp (-36)) with (/ 68719476736). lra. }
    split; [|split; [lra|lra]]. apply Rabs_le_inv in E. lra.
  - destruct (lik_far HF) as (F & B & B2). split; [exact F|].
    assert (FB : bp (-640) / R_sqrt.sqrt det <= bp (-523)).
    { change (-523)%Z with (-640 + 117)%Z. rewrite bpow_plus. pose proof (bp_pos (-640)). apply Rmult_le_compat_l; lra. }
    assert (bp (-523) <= bp 117) by (apply bp_le; lia). assert (bp (-523) <= / 2 * bp (-520)) by (change (/ 2) with (bp (-1)); rewrite <- bpow_plus; apply bp_le; lia).
    split; [lra|]. split; [lra|]. assert (0 <= bp (-36) * (K * K * L)) by (apply Rmult_le_pos; [apply Rlt_le, bp_pos|lra]). apply Rabs_le. lra.
Qed.
End Lik.

Lemma double_likelihood sum expf powf x P z V K : (forall l, fsums l (sum l)) -> exp_accurate expf -> square_accurate powf ->
  finite4 P -> symmetric4 P -> definite4 P -> definite2 V ->
  (forall i j, (i < 4)%nat -> (j < 4)%nat -> mid0 (val (P i j))) -> (forall i j, (i < 2)%nat -> (j < 2)%nat -> mid0 (val (V i j))) ->
  1 <= K <= 1000 -> untied K P V ->
  (forall i, (i < 4)%nat -> fin (x i) /\ Rabs (val (x i)) <= bp 200) -> (forall i, (i < 2)%nat -> fin (z i) /\ Rabs (val (z i)) <= bp 200) ->
  (forall i, (i < 2)%nat -> mid0 (val (z i) - val (x i))) ->
  forall D, inverts2 P V D ->
  let l := flikelihood sum expf powf x P z V in let q := distance2 D x z in
  fin l /\
  (q <= 900 -> Rabs (val l - innovation_density P V D x z) <= (bp (-39) + bp (-47) * (K * K) * (1 + q)) * innovation_density P V D x z) /\
  (900 < q -> let far := bp (-640) / R_sqrt.sqrt (sprd P V 0 0 * sprd P V 1 1 - sprd P V 0 1 * sprd P V 0 1) in
     0 <= val l <= far /\ 0 <= innovation_density P V D x z <= far).
Proof.
  intros Hs He Hp FP SP DP DV MP MV HK UT Hx Hz Hd D HD.
  assert (HK' : 1 <= K <= 1000000000) by lra.
  assert (E : distance2 D x z = qx P V x z).
  { unfold distance2, qx, rowx. rewrite !(inverse_is P V SP DP DV K HK' UT D HD) by lia. unfold Dx. ring. }
  unfold innovation_density. cbv zeta. rewrite E.
  pose proof (lik_close sum Hs P V FP SP DP DV MP MV K HK UT x z Hx Hz Hd expf He powf Hp) as H1.
  pose proof (lik_far sum Hs P V FP SP DP DV MP MV K HK UT x z Hx Hz Hd expf He powf Hp) as H2.
  destruct (Rle_or_lt (qx P V x z) 900) as [L|L].
  - split; [exact (proj1 (H1 L))|]. split; [exact (fun _ => proj2 (H1 L))|]. intros. lra.
  - split; [exact (proj1 (H2 L))|]. split; [intros; lra|]. exact (fun _ => proj2 (H2 L)).
Qed.
