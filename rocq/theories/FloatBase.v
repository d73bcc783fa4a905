(** IEEE doubles (Coq's primitive floats) as real numbers, by Flocq's theorems. *)
From Coq Require Import ZArith Reals Bool Lra Lia.
From Flocq Require Import Core BinarySingleNaN.
From Flocq Require Import IEEE754.PrimFloat.
From Coq Require Import Floats.
From Verif Require Import Scalar.
Local Open Scope R_scope.

Definition val (x : float) : R := B2R (Prim2B x).
Definition fin (x : float) : Prop := BinarySingleNaN.is_finite (Prim2B x) = true.
(** Rounding to the nearest double, ties to even, without overflow. *)
Notation fexp64 := (SpecFloat.fexp prec emax).
Definition rnd (x : R) : R := round radix2 fexp64 ZnearestE x.

#[local] Instance valid64 : Valid_exp fexp64 := fexp_correct prec emax Hprec.

Lemma rnd_le x y : x <= y -> rnd x <= rnd y.
Proof. apply round_le; auto with typeclass_instances. Qed.
Lemma rnd_0 : rnd 0 = 0.
Proof. apply round_0. auto with typeclass_instances. Qed.
Lemma rnd_pos x : 0 <= x -> 0 <= rnd x.
Proof. intros H. rewrite <- rnd_0. apply rnd_le, H. Qed.
Lemma val_format x : generic_format radix2 fexp64 (val x).
Proof. apply generic_format_B2R. Qed.
Lemma rnd_val x : rnd (val x) = val x.
Proof. apply round_generic; [auto with typeclass_instances|apply val_format]. Qed.
Lemma rnd_opp_val x : rnd (- val x) = - val x.
Proof. apply round_generic; [auto with typeclass_instances|apply generic_format_opp, val_format]. Qed.
Lemma bpow_format k : (-1074 <= k)%Z -> generic_format radix2 fexp64 (bpow radix2 k).
Proof. intros H. apply generic_format_bpow. unfold SpecFloat.fexp, SpecFloat.emin, prec, emax. lia. Qed.
Lemma rnd_abs x k : (-1074 <= k)%Z -> Rabs x <= bpow radix2 k -> Rabs (rnd x) <= bpow radix2 k.
Proof. intros Hk H. apply abs_round_le_generic; auto with typeclass_instances. apply bpow_format, Hk. Qed.
Lemma rnd_lt_emax x k : (-1074 <= k < 1024)%Z -> Rabs x <= bpow radix2 k -> Rlt_bool (Rabs (rnd x)) (bpow radix2 emax) = true.
Proof.
  intros Hk H. apply Rlt_bool_true. eapply Rle_lt_trans; [apply (rnd_abs x k); auto; lia|]. apply bpow_lt. unfold emax. lia.
Qed.

Section Ops.
Variables (x y : float) (k : Z).
Hypothesis Hk : (-1074 <= k < 1024)%Z.

Lemma f_add : fin x -> fin y -> Rabs (val x + val y) <= bpow radix2 k -> fin (x + y)%float /\ val (x + y)%float = rnd (val x + val y).
Proof.
  intros Fx Fy H. unfold fin, val in *. rewrite add_equiv. pose proof (Bplus_correct prec emax Hprec Hmax mode_NE _ _ Fx Fy) as C.
  cbn [round_mode] in C. fold (rnd (B2R (Prim2B x) + B2R (Prim2B y))) in C. rewrite (rnd_lt_emax _ k Hk H) in C. tauto.
Qed.
Lemma f_sub : fin x -> fin y -> Rabs (val x - val y) <= bpow radix2 k -> fin (x - y)%float /\ val (x - y)%float = rnd (val x - val y).
Proof.
  intros Fx Fy H. unfold fin, val in *. rewrite sub_equiv. pose proof (Bminus_correct prec emax Hprec Hmax mode_NE _ _ Fx Fy) as C.
  cbn [round_mode] in C. fold (rnd (B2R (Prim2B x) - B2R (Prim2B y))) in C. rewrite (rnd_lt_emax _ k Hk H) in C. tauto.
Qed.
Lemma f_mul : fin x -> fin y -> Rabs (val x * val y) <= bpow radix2 k -> fin (x * y)%float /\ val (x * y)%float = rnd (val x * val y).
Proof.
  intros Fx Fy H. unfold fin, val in *. rewrite mul_equiv. pose proof (Bmult_correct prec emax Hprec Hmax mode_NE (Prim2B x) (Prim2B y)) as C.
  cbn [round_mode] in C. fold (rnd (B2R (Prim2B x) * B2R (Prim2B y))) in C. rewrite (rnd_lt_emax _ k Hk H) in C.
  rewrite Fx, Fy in C. tauto.
Qed.
End Ops.

Lemma f_sqrt x : fin x -> 0 <= val x -> fin (PrimFloat.sqrt x) /\ val (PrimFloat.sqrt x) = rnd (R_sqrt.sqrt (val x)).
Proof.
  unfold fin, val. intros Fx H. rewrite sqrt_equiv. destruct (Bsqrt_correct prec emax Hprec Hmax mode_NE (Prim2B x)) as (E & F & _).
  split; [|exact E]. rewrite F. destruct (Prim2B x) as [s|s| |s m e B]; try discriminate; auto. destruct s; auto. exfalso.
  cbn [B2R] in H. assert (F2R (Float radix2 (cond_Zopp true (Z.pos m)) e) < 0) by (apply F2R_lt_0; reflexivity). lra.
Qed.

Lemma f_lt x y : fin x -> fin y -> nlt floatN x y = Rlt_bool (val x) (val y).
Proof. intros Fx Fy. change (nlt floatN x y) with (PrimFloat.ltb x y). rewrite ltb_equiv. apply Bltb_correct; auto. Qed.
Lemma f_le x y : fin x -> fin y -> nle floatN x y = Rle_bool (val x) (val y).
Proof. intros Fx Fy. change (nle floatN x y) with (PrimFloat.leb x y). rewrite leb_equiv. apply Bleb_correct; auto. Qed.

(** Values of literals. *)
Lemma val_SF x : val x = SF2R radix2 (Prim2SF x).
Proof. unfold val. rewrite <- B2SF_Prim2B. symmetry. apply SF2R_B2SF. Qed.
Lemma fin_SF x : is_finite_SF (Prim2SF x) = true -> fin x.
Proof. unfold fin. rewrite <- B2SF_Prim2B, is_finite_SF_B2SF. auto. Qed.
Lemma fin_SF_iff x : fin x <-> is_finite_SF (Prim2SF x) = true.
Proof. unfold fin. rewrite <- B2SF_Prim2B, is_finite_SF_B2SF. tauto. Qed.

(** Comparisons with a double are false for NaN, so bounds imply finiteness. *)
Lemma between_fin a x b : fin a -> fin b -> PrimFloat.leb a x = true -> PrimFloat.leb x b = true -> fin x /\ val a <= val x <= val b.
Proof.
  intros Fa Fb Ha Hb.
  assert (Fx : fin x).
  { unfold fin in *. rewrite leb_equiv in Ha, Hb. unfold Bleb in *.
    destruct (Prim2B x) as [s|s| |s m e B]; [reflexivity| | |reflexivity]; exfalso; destruct (Prim2B a) as [sa|sa| |sa ma ea Ba];
      try discriminate Fa; destruct (Prim2B b) as [sb|sb| |sb mb eb Bb]; try discriminate Fb; try destruct s; try discriminate Ha;
      try discriminate Hb; try destruct sa; try destruct sb; discriminate. }
  split; auto. pose proof (f_le a x Fa Fx) as H1. pose proof (f_le x b Fx Fb) as H2. cbn [nle floatN] in H1, H2. rewrite Ha in H1. rewrite Hb in H2.
  symmetry in H1, H2. revert H1 H2. case Rle_bool_spec; intros; try discriminate. revert H2. case Rle_bool_spec; intros; try discriminate. lra.
Qed.
