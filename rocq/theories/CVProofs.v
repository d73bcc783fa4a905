From Coq Require Import List Arith Reals Lia Lra.
Import ListNotations.
From Verif Require Import Scalar Metric CV CVSpec.
Local Open Scope R_scope.

Ltac four i := destruct i as [|[|[|[|i]]]]; try lia.
Ltac calc := cbn [gw gx gP linear_update]; unfold mulv, mulm, trm, addm, cv_F, cv_Q, rows, sum4; cbn [nth]; field; auto.

Lemma step_step q a b g : same_gauss (linear_update (cv_F b) (cv_Q q b) (linear_update (cv_F a) (cv_Q q a) g))
  (linear_update (cv_F (a + b)) (cv_Q q (a + b)) g).
Proof.
  split; [reflexivity|]. split.
  - intros i Hi. four i; calc.
  - intros i j Hi Hj. four i; four j; calc.
Qed.

Lemma step_zero q g : same_gauss (linear_update (cv_F 0) (cv_Q q 0) g) g.
Proof.
  split; [reflexivity|]. split.
  - intros i Hi. four i; calc.
  - intros i j Hi Hj. four i; four j; calc.
Qed.

Lemma pow_add x a b : 0 <= x -> 0 <= a -> 0 <= b ->
  exists u v, std_pow (Fin x) a = Fin u /\ std_pow (Fin x) b = Fin v /\ std_pow (Fin x) (a + b) = Fin (u * v).
Proof.
  intros Hx Ha Hb. unfold std_pow.
  destruct (Reqb_spec a 0) as [->|Ea]; destruct (Reqb_spec b 0) as [->|Eb].
  - rewrite Rplus_0_l. destruct (Reqb_spec 0 0); [|lra]. exists 1, 1. rewrite Rmult_1_r. auto.
  - rewrite Rplus_0_l. destruct (Reqb_spec b 0); [lra|].
    destruct (Reqb_spec x 0).
    + destruct (Rltb_spec 0 b); [|lra]. exists 1, 0. rewrite Rmult_0_r. auto.
    + destruct (Rltb_spec x 0); [lra|]. exists 1, (Rpower x b). rewrite Rmult_1_l. auto.
  - rewrite Rplus_0_r. destruct (Reqb_spec a 0); [lra|].
    destruct (Reqb_spec x 0).
    + destruct (Rltb_spec 0 a); [|lra]. exists 0, 1. rewrite Rmult_0_l. auto.
    + destruct (Rltb_spec x 0); [lra|]. exists (Rpower x a), 1. rewrite Rmult_1_r. auto.
  - destruct (Reqb_spec (a + b) 0); [lra|].
    destruct (Reqb_spec x 0).
    + destruct (Rltb_spec 0 a); [|lra]. destruct (Rltb_spec 0 b); [|lra].
      destruct (Rltb_spec 0 (a + b)); [|lra]. exists 0, 0. rewrite Rmult_0_l. auto.
    + destruct (Rltb_spec x 0); [lra|]. exists (Rpower x a), (Rpower x b).
      rewrite Rpower_plus. auto.
Qed.

(** No order of the times is needed where the base is positive. *)
Lemma pow_add_pos x a b : 0 < x ->
  exists u v, std_pow (Fin x) a = Fin u /\ std_pow (Fin x) b = Fin v /\ std_pow (Fin x) (a + b) = Fin (u * v).
Proof.
  intros Hx. unfold std_pow.
  assert (E : forall y, (if Reqb y 0 then Fin 1 else if Reqb x 0 then if Rltb 0 y then Fin 0 else PInf
     else if Rltb x 0 then NaN else Fin (Rpower x y)) = Fin (Rpower x y)).
  { intros y. destruct (Reqb_spec y 0) as [->|]; [rewrite Rpower_O by auto; auto|].
    destruct (Reqb_spec x 0); [lra|]. destruct (Rltb_spec x 0); [lra|auto]. }
  rewrite !E. exists (Rpower x a), (Rpower x b). rewrite Rpower_plus. auto.
Qed.

Lemma cv_split pS q tscale t0 t1 t2 r pdf :
  0 <= pS -> tscale <> 0 ->
  (0 < pS \/ (0 <= (t1 - t0) / tscale /\ 0 <= (t2 - t1) / tscale)) ->
  same_target (cv pS q tscale t2 t1 (cv pS q tscale t1 t0 (mkT (Fin r) pdf)))
              (cv pS q tscale t2 t0 (mkT (Fin r) pdf)).
Proof.
  intros Hp Ht Hord. unfold cv. cbn [t_r t_pdf].
  set (a := (t1 - t0) / tscale) in *. set (b := (t2 - t1) / tscale) in *.
  replace ((t2 - t0) / tscale) with (a + b) by (unfold a, b; field; auto).
  split; cbn [t_r t_pdf].
  - assert (X : exists u v, std_pow (Fin pS) a = Fin u /\ std_pow (Fin pS) b = Fin v /\ std_pow (Fin pS) (a + b) = Fin (u * v)).
    { destruct Hord as [H|[H1 H2]]; [apply pow_add_pos; auto|apply pow_add; auto]. }
    destruct X as (u & v & -> & -> & ->). cbn. f_equal. ring.
  - rewrite map_map. induction pdf as [|g pdf IH]; cbn [map]; constructor; auto. apply step_step.
Qed.

Lemma cv_idle pS q tscale t0 r pdf :
  same_target (cv pS q tscale t0 t0 (mkT (Fin r) pdf)) (mkT (Fin r) pdf).
Proof.
  unfold cv. cbn [t_r t_pdf]. replace ((t0 - t0) / tscale) with 0 by (unfold Rdiv; ring).
  split; cbn [t_r t_pdf].
  - unfold std_pow. destruct (Reqb_spec 0 0); [|lra]. cbn. f_equal. ring.
  - induction pdf as [|g pdf IH]; cbn [map]; constructor; auto. apply step_zero.
Qed.

(** * The process noise *)
Lemma cv_Q_form q dT v : form (cv_Q q dT) v =
  q * dT * ((dT * v 0%nat / 2 + v 2%nat) * (dT * v 0%nat / 2 + v 2%nat) + dT * v 0%nat * (dT * v 0%nat) / 12
            + (dT * v 1%nat / 2 + v 3%nat) * (dT * v 1%nat / 2 + v 3%nat) + dT * v 1%nat * (dT * v 1%nat) / 12).
Proof. unfold form, cv_Q, rows. cbn [nth]. field. Qed.

Lemma cv_Q_psd q dT : psd (cv_Q q dT) <-> 0 <= q * dT.
Proof.
  split.
  - intros [_ H]. specialize (H (fun i => if Nat.eqb i 2 then 1 else 0)).
    rewrite cv_Q_form in H. cbn [Nat.eqb] in H.
    replace (q * dT * _) with (q * dT) in H by field. exact H.
  - intros H. split.
    + intros i j Hi Hj. four i; four j; unfold cv_Q, rows; cbn [nth]; ring.
    + intros v. rewrite cv_Q_form. apply Rmult_le_pos; auto.
      pose proof (Rle_0_sqr (dT * v 0%nat / 2 + v 2%nat)). pose proof (Rle_0_sqr (dT * v 1%nat / 2 + v 3%nat)).
      pose proof (Rle_0_sqr (dT * v 0%nat)). pose proof (Rle_0_sqr (dT * v 1%nat)). unfold Rsqr in *. lra.
Qed.

Lemma linear_psd F Q g : psd Q -> psd (gP g) -> psd (gP (linear_update F Q g)).
Proof.
  intros [Qs Qf] [Ps Pf]. cbn [gP linear_update]. split.
  - intros i j Hi Hj. unfold addm. rewrite (Qs i j Hi Hj). f_equal.
    unfold mulm, trm, sum4.
    rewrite (Ps 1 0)%nat, (Ps 2 0)%nat, (Ps 3 0)%nat, (Ps 2 1)%nat, (Ps 3 1)%nat, (Ps 3 2)%nat by lia. ring.
  - intros v.
    replace (form (addm (mulm (mulm F (gP g)) (trm F)) Q) v)
      with (form (gP g) (mulv (trm F) v) + form Q v).
    + specialize (Pf (mulv (trm F) v)). specialize (Qf v). lra.
    + unfold form, addm, mulm, mulv, trm, sum4. ring.
Qed.

Lemma cv_dev pS q tscale time last t : 0 <= q -> 0 <= (time - last) / tscale -> dev_ok t ->
  dev_ok (cv pS q tscale time last t).
Proof.
  intros Hq Hd H. unfold dev_ok, cv in *. cbn [t_pdf]. induction H as [|g l Hg Hl IH]; cbn [map]; constructor; auto.
  apply linear_psd; auto. apply cv_Q_psd. apply Rmult_le_pos; auto.
Qed.

Lemma nm_dev pS Q t : psd Q -> dev_ok t -> dev_ok (nm pS Q t).
Proof.
  intros HQ H. unfold dev_ok, nm in *. cbn [t_pdf]. induction H as [|g l Hg Hl IH]; cbn [map]; constructor; auto.
  apply linear_psd; auto.
Qed.

(** Backwards in time: a covariance that is no covariance. *)
Definition g_back : gauss := mkG 1 (fun _ => 0) (fun i j => if Nat.eqb i j then 1 else 0).

Lemma back_psd : psd (gP g_back).
Proof.
  split.
  - intros i j Hi Hj. cbn. rewrite Nat.eqb_sym. auto.
  - intros v. unfold form. cbn.
    pose proof (Rle_0_sqr (v 0%nat)). pose proof (Rle_0_sqr (v 1%nat)). pose proof (Rle_0_sqr (v 2%nat)).
    pose proof (Rle_0_sqr (v 3%nat)). unfold Rsqr in *. lra.
Qed.

Lemma back_bad : ~ dev_ok (cv 1 1 1 0 2 (mkT (Fin 1) [g_back])).
Proof.
  unfold dev_ok, cv. cbn [t_pdf map]. intros H. inversion H as [|x l Hx _]; subst. destruct Hx as [_ Hx].
  specialize (Hx (fun i => if Nat.eqb i 2 then 1 else 0)).
  unfold form, linear_update, addm, mulm, trm, sum4, cv_F, cv_Q, rows in Hx. cbn in Hx. lra.
Qed.

(** ** What the models compute *)
Lemma two (a : nat) : (a < 2)%nat -> a = 0%nat \/ a = 1%nat.
Proof. lia. Qed.

Lemma cv_moved q dT g : moved dT q g (linear_update (cv_F dT) (cv_Q q dT) g).
Proof.
  split; [reflexivity|]. split.
  - intros a Ha. destruct (two a Ha) as [-> | ->]; unfold linear_update, mulv, cv_F, rows, sum4; cbn; split; ring.
  - intros a b Ha Hb. destruct (two a Ha) as [-> | ->], (two b Hb) as [-> | ->];
      unfold linear_update, addm, mulm, trm, cv_F, cv_Q, rows, sum4; cbn; repeat split; ring.
Qed.

Lemma four (a : nat) : (a < 4)%nat -> a = 0%nat \/ a = 1%nat \/ a = 2%nat \/ a = 3%nat.
Proof. lia. Qed.
Lemma nm_stayed Q g : stayed Q g (linear_update nm_F Q g).
Proof.
  split; [reflexivity|]. split.
  - intros i Hi. destruct (four i Hi) as [-> |[-> |[-> | ->]]]; unfold linear_update, mulv, nm_F, sum4; cbn; ring.
  - intros i j Hi Hj. destruct (four i Hi) as [-> |[-> |[-> | ->]]], (four j Hj) as [-> |[-> |[-> | ->]]];
      unfold linear_update, addm, mulm, trm, nm_F, sum4; cbn; ring.
Qed.
Lemma cv_computes pS q tscale time last r pdf : 0 < pS ->
  let dT := (time - last) / tscale in
  let t := cv pS q tscale time last (mkT (Fin r) pdf) in
  t_r t = Fin (r * Rpower pS dT) /\ Forall2 (moved dT q) pdf (t_pdf t).
Proof.
  intros Hp dT t. split.
  - unfold t, cv. cbn [t_r]. fold dT. clearbody dT. unfold std_pow. destruct (Reqb_spec dT 0) as [->|]; [rewrite Rpower_O by auto; reflexivity|].
    destruct (Reqb_spec pS 0); [lra|]. destruct (Rltb_spec pS 0); [lra|]. reflexivity.
  - unfold t, cv. cbn [t_pdf]. fold dT. clearbody dT. induction pdf as [|g l IH]; constructor; auto. apply cv_moved.
Qed.
Lemma nm_computes pS Q r pdf :
  t_r (nm pS Q (mkT (Fin r) pdf)) = Fin (r * pS) /\ Forall2 (stayed Q) pdf (t_pdf (nm pS Q (mkT (Fin r) pdf))).
Proof.
  split; [reflexivity|]. unfold nm. cbn [t_pdf]. induction pdf as [|g l IH]; constructor; auto. apply nm_stayed.
Qed.
Lemma predict_moved x dT a : (a < 2)%nat ->
  cv_predict x dT a = x a + dT * x (a + 2)%nat /\ cv_predict x dT (a + 2)%nat = x (a + 2)%nat.
Proof.
  intros Ha. destruct (two a Ha) as [-> | ->]; unfold cv_predict, mulv, cv_F, rows, sum4; cbn; split; ring.
Qed.
