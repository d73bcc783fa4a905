(** The prediction in doubles: the theorems put together, and the covariances on
    which it fails. *)
From Coq Require Import List Arith Lia Bool Reals ZArith Lra Psatz.
From Flocq Require Import Core IEEE754.BinarySingleNaN.
From Coq Require Import Floats.
From Verif Require Import Scalar FloatBase ClusterFloat KalmanFloat KalmanFloatSpec KalmanFloatProofs KalmanFloatErr KalmanFloatWitness
  PredictFloat PredictFloatSpec PredictFloatProofs PredictFloatMain.
Import ListNotations.
Local Open Scope R_scope.
Local Notation bp := (bpow radix2).

Lemma double_prediction sum q dt P : (forall l, fsums l (sum l)) -> fin q -> fin dt -> usual (val q) -> usual (val dt) ->
  finite4 P -> symmetric4 P -> definite4 P -> (forall i j, (i < 4)%nat -> (j < 4)%nat -> medium0 (val (P i j))) ->
  (forall i j, (i < 4)%nat -> (j < 4)%nat -> fin (fpredP sum q dt P i j) /\
     Rabs (val (fpredP sum q dt P i j) - spread (val q) (val dt) P i j) <= bp (-50) * bulk (val q) (val dt) P i j) /\
  (forall i j, (i < 4)%nat -> (j < 4)%nat -> ~ (i < 2 /\ j < 2)%nat -> val (fpredP sum q dt P i j) = val (fpredP sum q dt P j i)) /\
  (separate4 P -> symmetric4 (fpredP sum q dt P)) /\
  (roomy (val q) (val dt) P -> definite4 (fpredP sum q dt P) /\ definite4 (lower (fpredP sum q dt P))).
Proof.
  intros Hs Fq Ft Uq Ut FP SP DP MP. assert (It : is dt (val dt)) by (split; auto). assert (Iq : is q (val q)) by (split; auto). split; [|split; [|split]].
  - intros i j Li Lj. exact (cell_close sum Hs dt _ It Ut q _ Iq Uq P FP MP i j Li Lj).
  - intros i j Li Lj N. exact (cell_sym sum Hs dt _ It Ut q _ Iq Uq P FP MP SP i j Li Lj N).
  - exact (cell_sym_apart sum Hs dt _ It Ut q _ Iq Uq P FP MP SP).
  - exact (pred_definite sum Hs dt _ It Ut q _ Iq Uq P FP MP SP DP).
Qed.

Lemma double_drift sum dt x : (forall l, fsums l (sum l)) -> fin dt -> usual (val dt) ->
  (forall i, (i < 4)%nat -> fin (x i) /\ Rabs (val (x i)) <= bp 200) -> forall i, (i < 4)%nat ->
  fin (fpredx sum dt x i) /\ Rabs (val (fpredx sum dt x i) - drift (val dt) x i) <= bp (-51) * reach (val dt) x i + bp (-1074) /\
  ((2 <= i)%nat -> val (fpredx sum dt x i) = val (x i)).
Proof.
  intros Hs Ft Ut Hx i Li. assert (It : is dt (val dt)) by (split; auto). set (t := val dt) in *.
  pose proof (rowv_is sum Hs dt t It Ut i x (fun k => (fF dt i k * x k)%float) (fun k => val (x k)) Li) as H.
  specialize (H ltac:(intros l Ll; destruct (Hx l Ll) as [A B]; split; [split; auto|]; eapply Rle_trans; [exact B|apply bp_le; lia]) ltac:(intros; left; reflexivity)).
  destruct H as [F V]. split; [exact F|]. change (sum _) with (fpredx sum dt x i) in V. rewrite V. unfold rowv. pose proof (usual_pos _ Ut) as Pt. destruct (Nat.ltb_spec i 2) as [Hi|Hi].
  - split; [|intros; lia].
    assert (ED : drift t x i = val (x i) + t * val (x (i + 2)%nat)).
    { unfold drift, sum4, moves. destruct i as [|[|i]]; try lia; cbn; ring. }
    assert (ER : reach t x i = Rabs (val (x i)) + t * Rabs (val (x (i + 2)%nat))).
    { unfold reach, sum4, moves. rewrite !Rabs_mult. destruct i as [|[|i]]; try lia; cbn [Nat.eqb Nat.add]; rewrite ?Rabs_R0, ?Rabs_R1, ?(Rabs_pos_eq t) by exact Pt; ring. }
    rewrite ED, ER. set (a := val (x i)). set (b := val (x (i + 2)%nat)).
    destruct (plus_rel a (rnd (t * b)) (rnd_val _) (rnd_rnd _)) as (d & -> & Hd). destruct (abs_err (t * b)) as (e & f & -> & He & Hf).
    replace ((a + (t * b * (1 + e) + f)) * (1 + d) - (a + t * b)) with (a * d + t * b * (e + d + e * d) + f * (1 + d)) by ring.
    pose proof u_pos as U. pose proof u_small as V1.
    assert (T1 : Rabs (1 + d) <= 2). { eapply Rle_trans; [apply Rabs_triang|]. rewrite Rabs_R1. lra. }
    assert (T2 : Rabs (e + d + e * d) <= 4 * bp (-53)).
    { eapply Rle_trans; [apply Rabs_triang|]. rewrite Rabs_mult. pose proof (Rabs_triang e d). pose proof (Rabs_pos e). pose proof (Rabs_pos d). nra. }
    change (bp (-51)) with (bp (2 + -53)). rewrite bpow_plus. change (bp 2) with 4. change (bp (-1074)) with (bp (1 + -1075)). rewrite (bpow_plus radix2 1). change (bp 1) with 2.
    eapply Rle_trans; [apply Rabs_triang|]. eapply Rle_trans; [apply Rplus_le_compat_r, Rabs_triang|]. rewrite !Rabs_mult, (Rabs_pos_eq t) by exact Pt.
    pose proof (Rabs_pos a). pose proof (Rabs_pos b). assert (0 <= t * Rabs b) by (apply Rmult_le_pos; auto). pose proof (Rabs_pos f).
    assert (Rabs a * Rabs d <= Rabs a * (4 * bp (-53))) by (apply Rmult_le_compat_l; lra).
    assert (t * Rabs b * Rabs (e + d + e * d) <= t * Rabs b * (4 * bp (-53))) by (apply Rmult_le_compat_l; lra).
    assert (Rabs f * Rabs (1 + d) <= bp (-1075) * 2) by (apply Rmult_le_compat; auto; apply Rabs_pos). lra.
  - split; [|reflexivity].
    assert (ED : drift t x i = val (x i)).
    { unfold drift, sum4, moves. destruct i as [|[|[|[|i]]]]; try lia; cbn; ring. }
    rewrite ED. replace (val (x i) - val (x i)) with 0 by ring. rewrite Rabs_R0. pose proof (bp_pos (-51)). pose proof (bp_pos (-1074)).
    assert (0 <= reach t x i). { unfold reach, sum4. pose proof (fun k => Rabs_pos (moves t i k * val (x k))) as G. pose proof (G 0%nat). pose proof (G 1%nat). pose proof (G 2%nat). pose proof (G 3%nat). lra. }
    assert (0 <= bp (-51) * reach t x i) by (apply Rmult_le_pos; lra). lra.
Qed.

(** The order of the sums does not matter. *)
Lemma any_order_pred sum q dt P : (forall l, fsums l (sum l)) -> fin q -> fin dt -> usual (val q) -> usual (val dt) ->
  finite4 P -> (forall i j, (i < 4)%nat -> (j < 4)%nat -> medium0 (val (P i j))) ->
  forall i j, (i < 4)%nat -> (j < 4)%nat -> val (fpredP sum q dt P i j) = val (fpredP plain q dt P i j).
Proof.
  intros Hs Fq Ft Uq Ut FP MP i j Li Lj. assert (It : is dt (val dt)) by (split; auto). assert (Iq : is q (val q)) by (split; auto).
  rewrite (cell_val sum Hs dt _ It Ut q _ Iq Uq P FP MP i j Li Lj), (cell_val plain plain_ok dt _ It Ut q _ Iq Uq P FP MP i j Li Lj). reflexivity.
Qed.

(** Negative variance: position variance just above 31.2, velocity variance 10.8,
    covariance -18.36, the time step 1.7 and the noise 2^-60. *)
Definition wt : float := 0x1.b333333333333p+0.
Definition wv : float := 0x1.599999999999ap+3.
Definition wc : float := -0x1.25c28f5c28f5cp+4.
Definition wp : float := 0x1.f3645a1cac082p+4.
Ltac flit := split; [apply fin_SF; reflexivity|rewrite val_SF; cbv -[IZR Rmult Rplus Rinv Rdiv]; lra].
Lemma iwt : is wt (IZR 0x1b333333333333 / IZR (2 ^ 52)). Proof. flit. Qed.
Lemma iwv : is wv (IZR 0x1599999999999a / IZR (2 ^ 49)). Proof. flit. Qed.
Lemma iwc : is wc (- IZR 0x125c28f5c28f5c / IZR (2 ^ 48)). Proof. flit. Qed.
Lemma iwp : is wp (IZR 0x1f3645a1cac082 / IZR (2 ^ 48)). Proof. flit. Qed.

Lemma within x : 1 <= x <= 1000 -> medium x.
Proof.
  intros H. assert (bp (-200) <= bp 0) by (apply bp_le; lia). assert (bp 10 <= bp 200) by (apply bp_le; lia).
  change (bp 0) with 1 in *. change (bp 10) with 1024 in *. split; lra.
Qed.
Lemma usual_mid x : / 100 <= x <= 1000 -> usual x.
Proof.
  intros H. right. assert (bp (-60) <= bp (-7)) by (apply bp_le; lia). assert (bp 10 <= bp 60) by (apply bp_le; lia).
  change (bp (-7)) with (/ 128) in *. change (bp 10) with 1024 in *. split; lra.
Qed.
Lemma usual_tiny : usual (val 0x1p-60).
Proof. rewrite (proj2 vtiny). right. split; apply bp_le; lia. Qed.

Lemma neg_axes : finite4 (axes wp wc wv) /\ symmetric4 (axes wp wc wv) /\ definite4 (axes wp wc wv) /\ separate4 (axes wp wc wv) /\
  (forall i j, (i < 4)%nat -> (j < 4)%nat -> medium0 (val (axes wp wc wv i j))).
Proof.
  assert (Mp : medium (val wp)) by (rewrite (proj2 iwp); apply within; lra). assert (Mv : medium (val wv)) by (rewrite (proj2 iwv); apply within; lra).
  assert (Mc : medium0 (val wc)).
  { right. rewrite (proj2 iwc). apply within. rewrite <- Rabs_Ropp, Rabs_pos_eq; lra. }
  assert (M1 : medium (val 1)) by (rewrite (proj2 v1); apply within; lra).
  assert (G : val wc * val wc < val wp * val wv) by (rewrite (proj2 iwc), (proj2 iwp), (proj2 iwv); lra).
  destruct (axes_ok wp wc wv 1 (conj (proj1 iwp) (conj (proj1 iwc) (conj (proj1 iwv) (proj1 v1)))) Mp Mv M1 Mc G) as (A1 & A2 & A3 & _ & A5 & _ & _ & _ & A9). auto.
Qed.
Lemma negative_prediction : exists q dt P, fin q /\ fin dt /\ usual (val q) /\ usual (val dt) /\ finite4 P /\ symmetric4 P /\ definite4 P /\
  (forall i j, (i < 4)%nat -> (j < 4)%nat -> medium0 (val (P i j))) /\
  forall sum, (forall l, fsums l (sum l)) -> val (fpredP sum q dt P 0%nat 0%nat) < 0.
Proof.
  destruct neg_axes as (A1 & A2 & A3 & _ & A5). assert (Ut : usual (val wt)) by (rewrite (proj2 iwt); apply usual_mid; lra).
  exists 0x1p-60%float, wt, (axes wp wc wv). repeat (split; [first [assumption|exact (proj1 vtiny)|exact (proj1 iwt)|exact usual_tiny]|]).
  intros sum Hs. rewrite (any_order_pred sum _ _ _ Hs (proj1 vtiny) (proj1 iwt) usual_tiny Ut A1 A5) by lia.
  rewrite val_SF. let e := eval vm_compute in (Prim2SF (fpredP plain 0x1p-60 wt (axes wp wc wv) 0%nat 0%nat)) in
    change (Prim2SF (fpredP plain 0x1p-60 wt (axes wp wc wv) 0%nat 0%nat)) with e.
  unfold SF2R. apply F2R_lt_0. cbn. lia.
Qed.

(** No symmetry: variances 100, some correlation between the axes, the time step
    0.1 and the noise 1. *)
Definition tilted : fmat := fun i j =>
  match i, j with
  | 0%nat, 1%nat | 1%nat, 0%nat | 0%nat, 3%nat | 3%nat, 0%nat => (-9)%float
  | 1%nat, 2%nat | 2%nat, 1%nat => 8%float
  | 2%nat, 3%nat | 3%nat, 2%nat => 3%float
  | _, _ => if (i =? j)%nat then 100%float else 0%float
  end.
Definition tenth : float := 0x1.999999999999ap-4.
Lemma itenth : is tenth (IZR 0x1999999999999a / IZR (2 ^ 56)). Proof. flit. Qed.
Lemma im9 : is (-9)%float (-9). Proof. flit. Qed.
Lemma i8 : is 8%float 8. Proof. flit. Qed.
Lemma i100 : is 100%float 100. Proof. flit. Qed.
Definition tiltedv (i j : nat) : R :=
  match i, j with
  | 0%nat, 1%nat | 1%nat, 0%nat | 0%nat, 3%nat | 3%nat, 0%nat => -9
  | 1%nat, 2%nat | 2%nat, 1%nat => 8
  | 2%nat, 3%nat | 3%nat, 2%nat => 3
  | _, _ => if (i =? j)%nat then 100 else 0
  end.
Lemma tilted_is i j : (i < 4)%nat -> (j < 4)%nat -> is (tilted i j) (tiltedv i j).
Proof.
  intros Li Lj. destruct i as [|[|[|[|i]]]], j as [|[|[|[|j]]]]; try lia; first [exact im9|exact i8|exact is3|exact i100|exact is_0].
Qed.
Lemma tilted_ok : finite4 tilted /\ symmetric4 tilted /\ definite4 tilted /\ (forall i j, (i < 4)%nat -> (j < 4)%nat -> medium0 (val (tilted i j))).
Proof.
  split; [|split; [|split]].
  - intros i j Li Lj. apply (tilted_is i j Li Lj).
  - intros i j Li Lj. rewrite (proj2 (tilted_is i j Li Lj)), (proj2 (tilted_is j i Lj Li)).
    destruct i as [|[|[|[|i]]]], j as [|[|[|[|j]]]]; try lia; reflexivity.
  - intros v Hv. unfold qf4. rewrite !(fun i j Li Lj => proj2 (tilted_is i j Li Lj)) by lia. unfold tiltedv; cbn [Nat.eqb].
    set (a := v 0%nat) in *. set (b := v 1%nat) in *. set (c := v 2%nat) in *. set (d := v 3%nat) in *.
    assert (S : 0 < a * a + b * b + c * c + d * d).
    { pose proof (Rle_0_sqr a). pose proof (Rle_0_sqr b). pose proof (Rle_0_sqr c). pose proof (Rle_0_sqr d). unfold Rsqr in *.
      destruct Hv as [H'|[H'|[H'|H']]]; apply Rsqr_pos_lt in H'; unfold Rsqr in H'; lra. }
    pose proof (Rle_0_sqr (a - b)). pose proof (Rle_0_sqr (b + c)). pose proof (Rle_0_sqr (a - d)). pose proof (Rle_0_sqr (c + d)). unfold Rsqr in *.
    pose proof (Rle_0_sqr a). pose proof (Rle_0_sqr b). pose proof (Rle_0_sqr c). pose proof (Rle_0_sqr d). unfold Rsqr in *. lra.
  - intros i j Li Lj. rewrite (proj2 (tilted_is i j Li Lj)).
    assert (M9 : medium0 (-9)) by (right; rewrite <- Rabs_Ropp, Rabs_pos_eq by lra; apply within; lra).
    assert (M : forall x, 1 <= x <= 1000 -> medium0 x) by (intros x Hx; right; rewrite Rabs_pos_eq by lra; apply within; lra).
    destruct i as [|[|[|[|i]]]], j as [|[|[|[|j]]]]; try lia; cbn; first [exact M9|left; reflexivity|apply M; lra].
Qed.
Lemma usual_tenth : usual (val tenth). Proof. rewrite (proj2 itenth). apply usual_mid. lra. Qed.
Lemma usual_1 : usual (val 1). Proof. rewrite (proj2 v1). apply usual_mid. lra. Qed.
Lemma asymmetric_prediction : exists q dt P, fin q /\ fin dt /\ usual (val q) /\ usual (val dt) /\ finite4 P /\ symmetric4 P /\ definite4 P /\
  (forall i j, (i < 4)%nat -> (j < 4)%nat -> medium0 (val (P i j))) /\
  forall sum, (forall l, fsums l (sum l)) -> val (fpredP sum q dt P 1%nat 0%nat) < val (fpredP sum q dt P 0%nat 1%nat).
Proof.
  destruct tilted_ok as (A1 & A2 & A3 & A5). exists 1%float, tenth, tilted.
  repeat (split; [first [assumption|exact (proj1 v1)|exact (proj1 itenth)|exact usual_1|exact usual_tenth]|]).
  intros sum Hs. rewrite !(any_order_pred sum _ _ _ Hs (proj1 v1) (proj1 itenth) usual_1 usual_tenth A1 A5) by lia.
  rewrite !val_SF. let e := eval vm_compute in (Prim2SF (fpredP plain 1 tenth tilted 1%nat 0%nat)) in
    change (Prim2SF (fpredP plain 1 tenth tilted 1%nat 0%nat)) with e.
  let e := eval vm_compute in (Prim2SF (fpredP plain 1 tenth tilted 0%nat 1%nat)) in
    change (Prim2SF (fpredP plain 1 tenth tilted 0%nat 1%nat)) with e.
  cbv -[IZR Rmult Rplus Rinv Rlt]. lra.
Qed.

(** The same covariance has room enough. *)
Lemma tilted_roomy : roomy (val 1) (val tenth) tilted.
Proof.
  intros v Hv. unfold roomy, alone, spread, sum4. rewrite (proj2 v1), !(fun i j Li Lj => proj2 (tilted_is i j Li Lj)) by lia.
  assert (Ht : / 100 <= val tenth <= 102 / 1000) by (rewrite (proj2 itenth); lra). set (t := val tenth) in *.
  unfold moves, stir, tiltedv; cbn [Nat.eqb Nat.add].
  set (a := v 0%nat) in *. set (b := v 1%nat) in *. set (c := v 2%nat) in *. set (d := v 3%nat) in *.
  assert (S : 0 < a * a + b * b + c * c + d * d).
  { pose proof (Rle_0_sqr a). pose proof (Rle_0_sqr b). pose proof (Rle_0_sqr c). pose proof (Rle_0_sqr d). unfold Rsqr in *.
    destruct Hv as [H'|[H'|[H'|H']]]; apply Rsqr_pos_lt in H'; unfold Rsqr in H'; lra. }
  pose proof (Rle_0_sqr a) as Sa. pose proof (Rle_0_sqr b) as Sb. pose proof (Rle_0_sqr c) as Sc. pose proof (Rle_0_sqr d) as Sd. unfold Rsqr in *.
  assert (Tt : 0 <= t * t <= 2 / 100) by nra. assert (T3 : 0 <= t ^ 3 <= / 100) by (simpl; nra).
  match goal with |- ?l < ?r => set (L := l); set (R := r) end.
  assert (EL : L = bp (-47) * ((100 + t * t * 100 + t ^ 3 / 3) * (a * a) + (100 + t * t * 100 + t ^ 3 / 3) * (b * b) + (100 + t) * (c * c) + (100 + t) * (d * d))) by (unfold L; ring).
  set (e := t * a + c). set (f := t * b + d).
  assert (ER : R = 100 * (a * a + b * b + e * e + f * f) + 2 * (- 9 * (a * b) + 8 * (b * e) - 9 * (a * f) + 3 * (e * f)) +
    t * ((c + t * a / 2) * (c + t * a / 2) + t * t * (a * a) / 12) + t * ((d + t * b / 2) * (d + t * b / 2) + t * t * (b * b) / 12)).
  { unfold R, e, f. field. }
  assert (Ee : c * c / 2 - t * t * (a * a) <= e * e) by (unfold e; pose proof (Rle_0_sqr (2 * (t * a) + c)); unfold Rsqr in *; lra).
  assert (Ef : d * d / 2 - t * t * (b * b) <= f * f) by (unfold f; pose proof (Rle_0_sqr (2 * (t * b) + d)); unfold Rsqr in *; lra).
  assert (N1 : 0 <= t * ((c + t * a / 2) * (c + t * a / 2) + t * t * (a * a) / 12)).
  { apply Rmult_le_pos; [lra|]. pose proof (Rle_0_sqr (c + t * a / 2)). unfold Rsqr in *. assert (0 <= t * t * (a * a)) by (apply Rmult_le_pos; lra). lra. }
  assert (N2 : 0 <= t * ((d + t * b / 2) * (d + t * b / 2) + t * t * (b * b) / 12)).
  { apply Rmult_le_pos; [lra|]. pose proof (Rle_0_sqr (d + t * b / 2)). unfold Rsqr in *. assert (0 <= t * t * (b * b)) by (apply Rmult_le_pos; lra). lra. }
  pose proof (Rle_0_sqr (a - b)). pose proof (Rle_0_sqr (b + e)). pose proof (Rle_0_sqr (a - f)). pose proof (Rle_0_sqr (e + f)).
  pose proof (Rle_0_sqr e). pose proof (Rle_0_sqr f). unfold Rsqr in *.
  assert (RB : 80 * (a * a + b * b + e * e + f * f) <= R) by (rewrite ER; lra).
  assert (Ta : t * t * (a * a) <= 2 / 100 * (a * a)) by (apply Rmult_le_compat_r; lra). assert (Tb : t * t * (b * b) <= 2 / 100 * (b * b)) by (apply Rmult_le_compat_r; lra).
  assert (RB2 : 30 * (a * a + b * b + c * c + d * d) <= R) by lra.
  assert (LB : L <= bp (-47) * (200 * (a * a + b * b + c * c + d * d))).
  { rewrite EL. apply Rmult_le_compat_l; [apply Rlt_le, bp_pos|].
    assert ((100 + t * t * 100 + t ^ 3 / 3) * (a * a) <= 200 * (a * a)) by (apply Rmult_le_compat_r; lra).
    assert ((100 + t * t * 100 + t ^ 3 / 3) * (b * b) <= 200 * (b * b)) by (apply Rmult_le_compat_r; lra).
    assert ((100 + t) * (c * c) <= 200 * (c * c)) by (apply Rmult_le_compat_r; lra). assert ((100 + t) * (d * d) <= 200 * (d * d)) by (apply Rmult_le_compat_r; lra). lra. }
  assert (B : bp (-47) <= / 128) by (change (/ 128) with (bp (-7)); apply bp_le; lia). nra.
Qed.
