(** The test that removes targets, in doubles. *)
From Coq Require Import List Arith Lia ZArith Reals Lra Psatz.
From Flocq Require Import Core.
From Coq Require Import Floats.
Import ListNotations.
From Verif Require Import Scalar FloatBase FloatExt FloatSum ClusterFloat KalmanFloat KalmanFloatErr GMFloatSpec MeanFloat MeanFloatSpec MeanFloatProofs ViableFloat ViableFloatSpec.
Local Open Scope R_scope.
Notation sqrt := R_sqrt.sqrt.

(** ** Square roots *)
Lemma sqrt_add a b : 0 <= a -> 0 <= b -> sqrt (a + b) <= sqrt a + sqrt b.
Proof.
  intros Ha Hb. pose proof (sqrt_pos a). pose proof (sqrt_pos b). rewrite <- (sqrt_Rsqr (sqrt a + sqrt b)) by lra. apply sqrt_le_1_alt.
  unfold Rsqr. pose proof (sqrt_sqrt a Ha). pose proof (sqrt_sqrt b Hb). assert (0 <= sqrt a * sqrt b) by (apply Rmult_le_pos; auto). lra.
Qed.

Lemma sqrt_near a b h d : 0 <= a -> 0 <= b -> 0 <= h <= 1 -> 0 <= d -> Rabs (a - b) <= h * b + d -> Rabs (sqrt a - sqrt b) <= h * sqrt b + sqrt d.
Proof.
  intros Ha Hb Hh Hd H. apply Rabs_le_inv in H. pose proof (sqrt_pos b) as P. pose proof (sqrt_sqrt b Hb) as Q.
  assert (0 <= h * b) by (apply Rmult_le_pos; lra).
  assert (U : sqrt a <= sqrt b * (1 + h) + sqrt d).
  { apply Rle_trans with (sqrt (b * (1 + h) + d)); [apply sqrt_le_1_alt; lra|]. eapply Rle_trans; [apply sqrt_add; lra|]. apply Rplus_le_compat_r.
    rewrite sqrt_mult by lra. apply Rmult_le_compat_l; [lra|]. rewrite <- (sqrt_Rsqr (1 + h)) at 2 by lra. apply sqrt_le_1_alt. unfold Rsqr. nra. }
  assert (L : sqrt b * (1 - h) <= sqrt a + sqrt d).
  { apply Rle_trans with (sqrt (a + d)); [|apply sqrt_add; auto]. rewrite <- (sqrt_Rsqr (sqrt b * (1 - h))) by (apply Rmult_le_pos; lra). apply sqrt_le_1_alt.
    unfold Rsqr. replace (sqrt b * (1 - h) * (sqrt b * (1 - h))) with (sqrt b * sqrt b * ((1 - h) * (1 - h))) by ring. rewrite Q.
    apply Rle_trans with (b * (1 - h)); [apply Rmult_le_compat_l; nra|]. lra. }
  apply Rabs_le. lra.
Qed.

Lemma sqrt_shift x y k : 0 <= k -> sqrt (x * x + k) <= sqrt (y * y + k) + Rabs (x - y).
Proof.
  intros Hk. pose proof (Rabs_pos (x - y)) as D. pose proof (sqrt_pos (y * y + k)) as P.
  assert (Y : 0 <= y * y + k) by nra. pose proof (sqrt_sqrt _ Y) as Q.
  assert (A : Rabs y <= sqrt (y * y + k)).
  { rewrite <- sqrt_Rsqr_abs. apply sqrt_le_1_alt. unfold Rsqr. lra. }
  rewrite <- (sqrt_Rsqr (sqrt (y * y + k) + Rabs (x - y))) by lra. apply sqrt_le_1_alt. unfold Rsqr.
  assert (B : Rabs y * Rabs (x - y) <= sqrt (y * y + k) * Rabs (x - y)) by (apply Rmult_le_compat_r; auto).
  assert (C : y * (x - y) <= Rabs y * Rabs (x - y)) by (rewrite <- Rabs_mult; apply Rle_abs).
  assert (E : Rabs (x - y) * Rabs (x - y) = (x - y) * (x - y)) by (rewrite <- Rabs_mult; apply Rabs_pos_eq, Rle_0_sqr). lra.
Qed.

Lemma frobenius_le c d : frobenius c <= frobenius d +
  (Rabs (c 0%nat 0%nat - d 0%nat 0%nat) + Rabs (c 1%nat 0%nat - d 1%nat 0%nat) + Rabs (c 0%nat 1%nat - d 0%nat 1%nat) + Rabs (c 1%nat 1%nat - d 1%nat 1%nat)).
Proof.
  unfold frobenius. set (c0 := c 0%nat 0%nat). set (c1 := c 1%nat 0%nat). set (c2 := c 0%nat 1%nat). set (c3 := c 1%nat 1%nat).
  set (d0 := d 0%nat 0%nat). set (d1 := d 1%nat 0%nat). set (d2 := d 0%nat 1%nat). set (d3 := d 1%nat 1%nat).
  pose proof (Rle_0_sqr c0) as C0. pose proof (Rle_0_sqr c1) as C1. pose proof (Rle_0_sqr c2) as C2. pose proof (Rle_0_sqr c3) as C3.
  pose proof (Rle_0_sqr d0) as D0. pose proof (Rle_0_sqr d1) as D1. pose proof (Rle_0_sqr d2) as D2. pose proof (Rle_0_sqr d3) as D3. unfold Rsqr in *.
  pose proof (sqrt_shift c0 d0 (c1 * c1 + c2 * c2 + c3 * c3) ltac:(lra)) as H0.
  pose proof (sqrt_shift c1 d1 (d0 * d0 + c2 * c2 + c3 * c3) ltac:(lra)) as H1.
  pose proof (sqrt_shift c2 d2 (d0 * d0 + d1 * d1 + c3 * c3) ltac:(lra)) as H2.
  pose proof (sqrt_shift c3 d3 (d0 * d0 + d1 * d1 + d2 * d2) ltac:(lra)) as H3.
  replace (c0 * c0 + c1 * c1 + c2 * c2 + c3 * c3) with (c0 * c0 + (c1 * c1 + c2 * c2 + c3 * c3)) by ring.
  replace (c1 * c1 + (d0 * d0 + c2 * c2 + c3 * c3)) with (d0 * d0 + (c1 * c1 + c2 * c2 + c3 * c3)) in H1 by ring.
  replace (c2 * c2 + (d0 * d0 + d1 * d1 + c3 * c3)) with (d1 * d1 + (d0 * d0 + c2 * c2 + c3 * c3)) in H2 by ring.
  replace (c3 * c3 + (d0 * d0 + d1 * d1 + d2 * d2)) with (d2 * d2 + (d0 * d0 + d1 * d1 + c3 * c3)) in H3 by ring.
  replace (d0 * d0 + d1 * d1 + d2 * d2 + d3 * d3) with (d3 * d3 + (d0 * d0 + d1 * d1 + d2 * d2)) by ring. lra.
Qed.

Lemma frobenius_near c d e : (forall i j, (i < 2)%nat -> (j < 2)%nat -> Rabs (c i j - d i j) <= e i j) ->
  Rabs (frobenius c - frobenius d) <= e 0%nat 0%nat + e 1%nat 0%nat + e 0%nat 1%nat + e 1%nat 1%nat.
Proof.
  intros H. pose proof (H 0 0 ltac:(lia) ltac:(lia))%nat. pose proof (H 1 0 ltac:(lia) ltac:(lia))%nat. pose proof (H 0 1 ltac:(lia) ltac:(lia))%nat. pose proof (H 1 1 ltac:(lia) ltac:(lia))%nat.
  pose proof (frobenius_le c d) as A. pose proof (frobenius_le d c) as B. rewrite !(Rabs_minus_sym (d _ _)) in B. apply Rabs_le. lra.
Qed.

(** ** The norm *)
Section Norm.
Variable sum : list float -> float.
Hypothesis Hsum : forall l, fsums l (sum l).

Lemma norm_ok (P : fmat) : (forall i j, (i < 2)%nat -> (j < 2)%nat -> fin (P i j) /\ Rabs (fval (P i j)) <= bp 300) ->
  let n := frobenius (fun i j => fval (P i j)) in
  fin (fnorm sum P) /\ Rabs (fval (fnorm sum P) - n) <= 11 * uro * n + bp (-535).
Proof.
  intros HP n. unfold fnorm. set (l := map _ _). pose proof (Hsum l) as Hs.
  pose proof uro_pos as Pu. assert (Hu : uro <= / 1000000) by (unfold uro; apply Rle_trans with (bp (-20)); [apply bpow_le; lia|simpl; lra]).
  assert (Pe : 0 < bp (-1075)) by apply bpow_gt_0.
  assert (Hq : forall i j, (i < 2)%nat -> (j < 2)%nat -> fin (P i j * P i j)%float /\ 0 <= fval (P i j * P i j)%float <= bp 600 /\
    Rabs (fval (P i j * P i j)%float - fval (P i j) * fval (P i j)) <= uro * (fval (P i j) * fval (P i j)) + bp (-1075)).
  { intros i j Hi Hj. destruct (HP i j Hi Hj) as [F B]. set (p := fval (P i j)) in *. assert (P2 : 0 <= p * p) by apply Rle_0_sqr.
    assert (B2 : p * p <= bp 600).
    { rewrite <- (Rabs_pos_eq (p * p)), Rabs_mult by auto. change 600%Z with (300 + 300)%Z. rewrite bpow_plus. apply Rmult_le_compat; auto; apply Rabs_pos. }
    destruct (f_mul (P i j) (P i j) 600 ltac:(lia) F F) as [F2 V2]; [fold p; rewrite Rabs_pos_eq; auto|]. fold p in V2. split; [exact F2|]. rewrite V2. split.
    - split; [apply rnd_pos; auto|]. rewrite <- (Rabs_pos_eq (rnd (p * p))) by (apply rnd_pos; auto). apply rnd_abs; [lia|]. rewrite Rabs_pos_eq; auto.
    - pose proof (abs_rel (p * p)) as H. rewrite (Rabs_pos_eq (p * p)) in H by auto. exact H. }
  destruct (Hq 0 0 ltac:(lia) ltac:(lia))%nat as (F0 & R0 & E0). destruct (Hq 1 0 ltac:(lia) ltac:(lia))%nat as (F1 & R1 & E1).
  destruct (Hq 0 1 ltac:(lia) ltac:(lia))%nat as (F2 & R2 & E2). destruct (Hq 1 1 ltac:(lia) ltac:(lia))%nat as (F3 & R3 & E3).
  assert (Hl : forall x, In x l -> exists r, proj x = Fin r /\ 0 <= r <= bp 600).
  { intros x Hx. unfold l in Hx. cbn [map fst snd In] in Hx. destruct Hx as [<-|[<-|[<-|[<-|[]]]]]; (eexists; split; [apply proj_fin; assumption|assumption]). }
  destruct (fsums_ok l (sum l) (bp 600) Hs) as [t Et]; auto.
  { split; [apply bpow_ge_0|apply bpow_le; lia]. }
  { vm_compute. discriminate. }
  destruct (fsums_fin l (sum l) Hs) as [Hnn Hf].
  { intros x Hx. right. destruct (Hl x Hx) as (r & E & R). exists r. split; [exact E|lra]. }
  destruct (Hf t Et) as [_ Ht]. specialize (Ht ltac:(vm_compute; discriminate)). pose proof (nn_fin _ _ Hnn Et) as T0.
  apply proj_Fin in Et. destruct Et as [Fs Vs]. destruct (f_sqrt (sum l) Fs ltac:(lra)) as [Fz Vz]. split; [exact Fz|]. rewrite Vz, Vs.
  unfold l in Ht. cbn [map fst snd length INR rsum fold_right] in Ht.
  unfold n, frobenius. set (S := _ + _ : R).
  set (q0 := fval (P 0%nat 0%nat * P 0%nat 0%nat)%float) in *. set (q1 := fval (P 1%nat 0%nat * P 1%nat 0%nat)%float) in *. set (q2 := fval (P 0%nat 1%nat * P 0%nat 1%nat)%float) in *. set (q3 := fval (P 1%nat 1%nat * P 1%nat 1%nat)%float) in *.
  set (e := bp (-1075)) in *.
  assert (S0 : 0 <= S).
  { unfold S. pose proof (Rle_0_sqr (fval (P 0 0)))%nat. pose proof (Rle_0_sqr (fval (P 1 0)))%nat. pose proof (Rle_0_sqr (fval (P 0 1)))%nat. pose proof (Rle_0_sqr (fval (P 1 1)))%nat. unfold Rsqr in *. lra. }
  set (Q := q0 + (q1 + (q2 + (q3 + 0)))) in *.
  assert (HQ : Rabs (Q - S) <= uro * S + 4 * e).
  { apply Rabs_le_inv in E0. apply Rabs_le_inv in E1. apply Rabs_le_inv in E2. apply Rabs_le_inv in E3. apply Rabs_le. unfold Q, S. lra. }
  assert (US : 0 <= uro * S <= / 1000000 * S) by (split; [apply Rmult_le_pos; lra|apply Rmult_le_compat_r; lra]).
  assert (HQ2 : uro * Q <= uro * (1001 / 1000 * S + 4 * e)) by (apply Rmult_le_compat_l; [lra|]; apply Rabs_le_inv in HQ; lra).
  assert (Ue : uro * e <= / 1000000 * e) by (apply Rmult_le_compat_r; lra).
  assert (HS : Rabs (t - S) <= (91 / 10 * uro) * S + 8 * e).
  { replace (t - S) with ((t - Q) + (Q - S)) by ring. eapply Rle_trans; [apply Rabs_triang|]. lra. }
  pose proof (sqrt_near t S (91 / 10 * uro) (8 * e) T0 S0 ltac:(lra) ltac:(lra) HS) as HR.
  assert (E536 : sqrt (8 * e) = bp (-536)).
  { unfold e. change 8 with (bp 3). rewrite <- bpow_plus. change (3 + -1075)%Z with (-536 + -536)%Z. rewrite bpow_plus. apply sqrt_square, bpow_ge_0. }
  rewrite E536 in HR. pose proof (sqrt_pos S) as PS. pose proof (sqrt_pos t) as PT. pose proof (abs_rel (sqrt t)) as HZ. fold e in HZ. rewrite (Rabs_pos_eq (sqrt t)) in HZ by auto.
  assert (e536 : e <= / 4 * bp (-536)) by (change (/ 4) with (bp (-2)); rewrite <- bpow_plus; apply bpow_le; lia).
  assert (B35 : bp (-535) = 2 * bp (-536)) by (change 2 with (bp 1); rewrite <- bpow_plus; reflexivity). pose proof (bpow_gt_0 radix2 (-536)) as P36.
  assert (U1 : 0 <= uro * sqrt S <= / 1000000 * sqrt S) by (split; [apply Rmult_le_pos; lra|apply Rmult_le_compat_r; lra]).
  assert (U2 : uro * sqrt t <= uro * (1001 / 1000 * sqrt S + bp (-536))) by (apply Rmult_le_compat_l; [lra|]; apply Rabs_le_inv in HR; lra).
  assert (U3 : uro * bp (-536) <= / 1000000 * bp (-536)) by (apply Rmult_le_compat_r; lra).
  rewrite B35. replace (rnd (sqrt t) - sqrt S) with ((rnd (sqrt t) - sqrt t) + (sqrt t - sqrt S)) by ring. eapply Rle_trans; [apply Rabs_triang|]. lra.
Qed.

(** ** Sizes *)
Lemma average_bound f B cs : (forall w x P, In (w, (x, P)) cs -> upto 1 w /\ 0 <= f x P <= B) -> 0 <= average f cs <= INR (length cs) * B.
Proof.
  unfold average. rewrite <- asum_of. induction cs as [|[w [x P]] l IH]; intros H; [simpl; lra|]. cbn [asum length fst snd]. rewrite S_INR.
  specialize (IH (fun w x P Hx => H w x P (or_intror Hx))). destruct (H w x P (or_introl eq_refl)) as ((_ & Bw) & Bf).
  assert (0 <= fval w * f x P) by (apply Rmult_le_pos; lra). assert (fval w * f x P <= 1 * f x P) by (apply Rmult_le_compat_r; lra). lra.
Qed.

Lemma count_le cs : moderate cs -> 0 <= INR (length cs) <= bp 20.
Proof. intros [Hn _]. split; [apply pos_INR|]. rewrite INR_IZR_INZ. change (bp 20) with (IZR (2 ^ 20)). apply IZR_le. exact Hn. Qed.

Lemma modest_mean cs i : modest cs -> (i < 4)%nat -> Rabs (fval (fmean cs i)) <= bp 122.
Proof.
  intros [Hm Hs] Hi. destruct (mean_ok cs i Hm Hi) as [_ H]. destruct (mean_size_le cs i Hm Hi) as [H1 _]. pose proof (count_le cs Hm) as Hn.
  assert (H2 : 0 <= mean_size cs i <= INR (length cs) * bp 100).
  { apply average_bound. intros w x P Hx. destruct (proj2 Hm w x P Hx) as (Hw & _). split; [exact Hw|]. split; [apply Rabs_pos|apply (proj1 (Hs w x P Hx)); auto]. }
  unfold mean_error in H. set (n := INR (length cs)) in *. set (s := mean_size cs i) in *.
  assert (A : (2 * n + 2) * bp (-53) <= 1).
  { apply Rle_trans with (bp 22 * bp (-53)); [apply Rmult_le_compat_r; [apply bpow_ge_0|]|rewrite <- bpow_plus; change 1 with (bp 0); apply bpow_le; lia].
    change (bp 22) with (bp (2 + 20)). rewrite bpow_plus. change (bp 2) with 4. assert (1 <= bp 20) by (change 1 with (bp 0); apply bpow_le; lia). lra. }
  assert (B : (2 * n + 2) * bp (-53) * s <= 1 * s) by (apply Rmult_le_compat_r; lra).
  assert (C : n * bp (-1074) <= bp 20 * bp (-1074)) by (apply Rmult_le_compat_r; [apply bpow_ge_0|lra]). rewrite <- bpow_plus in C.
  assert (D : bp (20 + -1074) <= bp 120) by (apply bpow_le; lia).
  assert (E : n * bp 100 <= bp 20 * bp 100) by (apply Rmult_le_compat_r; [apply bpow_ge_0|lra]). rewrite <- bpow_plus in E. change (20 + 100)%Z with 120%Z in E.
  change (bp 122) with (bp (2 + 120)). rewrite bpow_plus. change (bp 2) with 4.
  replace (fval (fmean cs i)) with (exact_mean cs i + (fval (fmean cs i) - exact_mean cs i)) by ring. eapply Rle_trans; [apply Rabs_triang|]. lra.
Qed.

Lemma modest_cov cs i j : modest cs -> (i < 4)%nat -> (j < 4)%nat -> fin (fcov cs i j) /\ Rabs (fval (fcov cs i j)) <= bp 300.
Proof.
  intros Hc Hi Hj. pose proof (proj1 Hc) as Hm. pose proof (count_le cs Hm) as Hn.
  destruct (cov_ok (fmean cs) cs Hm (mean_bounded cs Hm) i j Hi Hj) as [F H]. fold (fcov cs) in F, H. split; [exact F|].
  set (mv := fun k => fval (fmean cs k)) in *.
  assert (Hd : forall w x P k, In (w, (x, P)) cs -> (k < 4)%nat -> Rabs (fval (x k) - mv k) <= bp 123).
  { intros w x P k Hx Hk. pose proof (modest_mean cs k Hc Hk) as M. pose proof (proj1 (proj2 Hc w x P Hx) k Hk) as X. fold (mv k) in M. unfold Rminus. eapply Rle_trans; [apply Rabs_triang|]. rewrite Rabs_Ropp.
    assert (bp 100 <= bp 122) by (apply bpow_le; lia). change (bp 123) with (bp (1 + 122)). rewrite bpow_plus. change (bp 1) with 2. lra. }
  assert (K : bp 246 + bp 200 <= bp 250).
  { assert (bp 200 <= bp 246) by (apply bpow_le; lia). change 250%Z with (4 + 246)%Z. rewrite bpow_plus. change (bp 4) with 16. pose proof (bpow_ge_0 radix2 246). lra. }
  assert (Hs : 0 <= size_about mv cs i j <= INR (length cs) * bp 250).
  { apply average_bound. intros w x P Hx. destruct (proj2 Hm w x P Hx) as (Hw & _). split; [exact Hw|]. pose proof (Rabs_pos (fval (P i j))). pose proof (proj2 (proj2 Hc w x P Hx) i j Hi Hj).
    pose proof (Hd w x P i Hx Hi) as A. pose proof (Hd w x P j Hx Hj) as B. pose proof (Rabs_pos (fval (x i) - mv i)) as A0. pose proof (Rabs_pos (fval (x j) - mv j)) as B0.
    assert (0 <= Rabs (fval (x i) - mv i) * Rabs (fval (x j) - mv j)) by (apply Rmult_le_pos; auto).
    assert (Rabs (fval (x i) - mv i) * Rabs (fval (x j) - mv j) <= bp 246) by (change 246%Z with (123 + 123)%Z; rewrite bpow_plus; apply Rmult_le_compat; auto). lra. }
  assert (He : Rabs (exact_cov mv cs i j) <= size_about mv cs i j).
  { unfold exact_cov, size_about, average. rewrite <- !asum_of. clearbody mv. generalize (proj2 Hm). clear. induction cs as [|[w [x P]] l IH]; intros Hm; [simpl; rewrite Rabs_R0; lra|]. cbn [asum fst snd].
    specialize (IH (fun w x P Hx => Hm w x P (or_intror Hx))). destruct (Hm w x P (or_introl eq_refl)) as ((_ & Bw) & _). eapply Rle_trans; [apply Rabs_triang|]. apply Rplus_le_compat; [|exact IH].
    rewrite Rabs_mult, (Rabs_pos_eq (fval w)) by lra. apply Rmult_le_compat_l; [lra|]. rewrite <- Rabs_mult. apply Rabs_triang. }
  set (n := INR (length cs)) in *. set (s := size_about mv cs i j) in *.
  assert (A : (2 * n + 12) * bp (-53) <= 1).
  { apply Rle_trans with (bp 24 * bp (-53)); [apply Rmult_le_compat_r; [apply bpow_ge_0|]|rewrite <- bpow_plus; change 1 with (bp 0); apply bpow_le; lia].
    change (bp 24) with (bp (4 + 20)). rewrite bpow_plus. change (bp 4) with 16. assert (1 <= bp 20) by (change 1 with (bp 0); apply bpow_le; lia). lra. }
  assert (B : (2 * n + 12) * bp (-53) * s <= 1 * s) by (apply Rmult_le_compat_r; lra).
  assert (C : n * bp (-1072) <= bp 20 * bp (-1072)) by (apply Rmult_le_compat_r; [apply bpow_ge_0|lra]). rewrite <- bpow_plus in C.
  assert (D : bp (20 + -1072) <= bp 270) by (apply bpow_le; lia).
  assert (E : n * bp 250 <= bp 20 * bp 250) by (apply Rmult_le_compat_r; [apply bpow_ge_0|lra]). rewrite <- bpow_plus in E. change (20 + 250)%Z with 270%Z in E.
  assert (G : 8 * bp 270 <= bp 300) by (change 8 with (bp 3); rewrite <- bpow_plus; apply bpow_le; lia). pose proof (bpow_ge_0 radix2 270).
  replace (fval (fcov cs i j)) with (exact_cov mv cs i j + (fval (fcov cs i j) - exact_cov mv cs i j)) by ring. eapply Rle_trans; [apply Rabs_triang|]. lra.
Qed.

Lemma cov_norm_ok cs : modest cs -> fin (fnorm sum (fcov cs)) /\ Rabs (fval (fnorm sum (fcov cs)) - uncertainty cs) <= norm_error cs.
Proof.
  intros Hc. destruct (norm_ok (fcov cs)) as [F H]; [intros i j Hi Hj; apply modest_cov; auto; lia|]. split; [exact F|].
  pose proof (frobenius_near (fun i j => fval (fcov cs i j)) (exact_cov (exact_mean cs) cs) (cov_error cs)) as N.
  specialize (N (fun i j Hi Hj => proj2 (report_ok cs i j (proj1 Hc) ltac:(lia) ltac:(lia)))). fold (uncertainty cs) in N. unfold norm_error.
  set (c := frobenius (fun i j => fval (fcov cs i j))) in *. set (D := cov_error cs 0 0 + cov_error cs 1 0 + cov_error cs 0 1 + cov_error cs 1 1) in *.
  pose proof uro_pos as Pu. assert (Hu : uro <= / 1000000) by (unfold uro; apply Rle_trans with (bp (-20)); [apply bpow_le; lia|simpl; lra]).
  pose proof (Rabs_pos (c - uncertainty cs)) as D0. change (bp (-53)) with uro.
  assert (uro * c <= uro * (uncertainty cs + D)) by (apply Rmult_le_compat_l; [lra|]; apply Rabs_le_inv in N; lra).
  assert (uro * D <= / 1000000 * D) by (apply Rmult_le_compat_r; lra).
  replace (fval (fnorm sum (fcov cs)) - uncertainty cs) with ((fval (fnorm sum (fcov cs)) - c) + (c - uncertainty cs)) by ring. eapply Rle_trans; [apply Rabs_triang|]. lra.
Qed.

Lemma viable_ok r_lim cov_lim r cs : modest cs -> fin r_lim -> fin cov_lim -> fin r ->
  (fviable sum r_lim cov_lim r cs = true -> fval r_lim <= fval r /\ uncertainty cs <= fval cov_lim + norm_error cs) /\
  (fviable sum r_lim cov_lim r cs = false -> fval r < fval r_lim \/ fval cov_lim - norm_error cs < uncertainty cs).
Proof.
  intros Hc Fl Fc Fr. destruct (cov_norm_ok cs Hc) as [Fz Hz]. apply Rabs_le_inv in Hz. unfold fviable.
  pose proof (f_lt r r_lim Fr Fl) as E1. change (nlt floatN r r_lim) with (PrimFloat.ltb r r_lim) in E1. rewrite E1.
  pose proof (f_lt cov_lim _ Fc Fz) as E2. change (nlt floatN cov_lim (fnorm sum (fcov cs))) with (PrimFloat.ltb cov_lim (fnorm sum (fcov cs))) in E2. rewrite E2.
  destruct (Rlt_bool_spec (fval r) (fval r_lim)); [split; [discriminate|auto]|].
  destruct (Rlt_bool_spec (fval cov_lim) (fval (fnorm sum (fcov cs)))); (split; intros X; [try discriminate|try discriminate]).
  - right. lra.
  - split; lra.
Qed.
End Norm.
