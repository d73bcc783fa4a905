(** The spatial index over IEEE doubles: the proofs of RTreeProofs apply to
    coordinates of absolute value at most 2^25. *)
From Coq Require Import ZArith Reals List Arith Bool Lra Lia Permutation.
From Flocq Require Import Core BinarySingleNaN.
From Coq Require Import Floats.
Import ListNotations.
From Verif Require Import Res Scalar RTree RTreeSpec RTreeSplit RTreeProofs FloatBase.
Local Open Scope R_scope.

(** Doubles between -2^25 and 2^25; not NaN. *)
Definition bounded (x : float) : Prop :=
  PrimFloat.leb (-33554432)%float x = true /\ PrimFloat.leb x 33554432%float = true.
(** CalcRectVolume of RTree.h:1176-1184 in doubles. *)
Definition volF : rect float -> float := spherical floatN 0.5%float 0x1.921fb8p+1%float PrimFloat.sqrt.

Ltac literal := match goal with |- context [Prim2SF ?x] => let v := eval vm_compute in (Prim2SF x) in change (Prim2SF x) with v end;
  unfold SF2R, cond_Zopp, F2R; cbn [Fnum Fexp Z.opp]; unfold bpow;
  repeat match goal with |- context [Z.pow_pos ?a ?b] => let v := eval vm_compute in (Z.pow_pos a b) in change (Z.pow_pos a b) with v end; try lra.
Lemma val_B : val 33554432%float = 33554432.
Proof. rewrite val_SF. literal. Qed.
Lemma val_mB : val (-33554432)%float = -33554432.
Proof. rewrite val_SF. literal. Qed.
Lemma val_half : val 0.5%float = / 2.
Proof. rewrite val_SF. literal. Qed.
Lemma val_unit : 3 <= val 0x1.921fb8p+1%float <= 4.
Proof. rewrite val_SF. literal. Qed.
Lemma val_0 : val 0%float = 0.
Proof. rewrite val_SF. vm_compute Prim2SF. reflexivity. Qed.
Lemma val_1 : val 1%float = 1.
Proof. rewrite val_SF. literal. Qed.
Lemma fin_half : fin 0.5%float. Proof. apply fin_SF. reflexivity. Qed.
Lemma fin_unit : fin 0x1.921fb8p+1%float. Proof. apply fin_SF. reflexivity. Qed.
Lemma fin_0 : fin 0%float. Proof. apply fin_SF. reflexivity. Qed.
Lemma fin_1 : fin 1%float. Proof. apply fin_SF. reflexivity. Qed.

Lemma bounded_val x : bounded x -> fin x /\ -33554432 <= val x <= 33554432.
Proof.
  intros (H1 & H2). rewrite <- val_B, <- val_mB. apply between_fin; auto; apply fin_SF; reflexivity.
Qed.

Lemma lt_val x y : fin x -> fin y -> nlt floatN x y = true <-> val x < val y.
Proof. intros Fx Fy. rewrite f_lt by auto. case Rlt_bool_spec; intros; split; intros; auto; try discriminate; lra. Qed.
Lemma le_val x y : fin x -> fin y -> le floatN x y <-> val x <= val y.
Proof. intros Fx Fy. unfold le. rewrite f_lt by auto. case Rlt_bool_spec; intros; split; intros; auto; try discriminate; lra. Qed.
Lemma nle_val x y : fin x -> fin y -> nle floatN x y = true <-> val x <= val y.
Proof. intros Fx Fy. rewrite f_le by auto. case Rle_bool_spec; intros; split; intros; auto; try discriminate; lra. Qed.

(** The order of the comparison is the order of the values. *)
Lemma le_bounded x y : bounded x -> bounded y -> le floatN x y <-> val x <= val y.
Proof. intros Hx Hy. apply le_val; apply bounded_val; auto. Qed.

Lemma lt_asymF x y : bounded x -> bounded y -> nlt floatN x y = true -> nlt floatN y x = false.
Proof.
  intros Hx Hy H. apply bounded_val in Hx, Hy. apply lt_val in H; try tauto. apply (le_val x y); try tauto. lra.
Qed.
Lemma le_transF x y z : bounded x -> bounded y -> bounded z -> le floatN x y -> le floatN y z -> le floatN x z.
Proof. intros Hx Hy Hz. rewrite !le_bounded by auto. lra. Qed.

(** ** The volume *)
(** Every operation rounds. *)
Definition half_extent (a b : R) : R := rnd (rnd (b - a) * / 2).
Definition vol_rounded (u : R) (x0 y0 x1 y1 : R) : R :=
  let radius := rnd (R_sqrt.sqrt (rnd (rnd (half_extent x0 x1 * half_extent x0 x1) + rnd (half_extent y0 y1 * half_extent y0 y1)))) in
  rnd (rnd (radius * radius) * u).
Definition unitF : R := val 0x1.921fb8p+1%float.

Lemma half_extent_pos a b : a <= b -> 0 <= half_extent a b.
Proof. intros H. apply rnd_pos. apply Rmult_le_pos; [apply rnd_pos; lra|lra]. Qed.
Lemma half_extent_mono a b c d : c <= a -> a <= b -> b <= d -> half_extent a b <= half_extent c d.
Proof. intros. apply rnd_le. apply Rmult_le_compat_r; [lra|]. apply rnd_le. lra. Qed.
Lemma sq_le a b : 0 <= a <= b -> a * a <= b * b.
Proof. intros H. apply Rmult_le_compat; lra. Qed.
Lemma vol_rounded_pos u x0 y0 x1 y1 : 0 <= u -> 0 <= vol_rounded u x0 y0 x1 y1.
Proof. intros Hu. apply rnd_pos. apply Rmult_le_pos; auto. apply rnd_pos. apply Rle_0_sqr. Qed.
Lemma vol_rounded_mono u x0 y0 x1 y1 u0 v0 u1 v1 : 0 <= u -> x0 <= u0 -> u0 <= u1 -> u1 <= x1 -> y0 <= v0 -> v0 <= v1 -> v1 <= y1 ->
  vol_rounded u u0 v0 u1 v1 <= vol_rounded u x0 y0 x1 y1.
Proof.
  intros Hu ? ? ? ? ? ?. apply rnd_le. apply Rmult_le_compat_r; auto. apply rnd_le. apply sq_le. split; [apply rnd_pos, sqrt_pos|].
  apply rnd_le, sqrt_le_1_alt, rnd_le. apply Rplus_le_compat; apply rnd_le, sq_le; (split; [apply half_extent_pos; auto|apply half_extent_mono; auto]).
Qed.

Lemma goodF_val r : good floatN bounded r ->
  (fin (min0 r) /\ fin (min1 r) /\ fin (max0 r) /\ fin (max1 r)) /\
  -33554432 <= val (min0 r) /\ val (min0 r) <= val (max0 r) /\ val (max0 r) <= 33554432 /\
  -33554432 <= val (min1 r) /\ val (min1 r) <= val (max1 r) /\ val (max1 r) <= 33554432.
Proof.
  intros ((A & B & C & D) & H1 & H2). apply le_bounded in H1; auto. apply le_bounded in H2; auto. apply bounded_val in A, B, C, D. tauto.
Qed.

Definition two (k : Z) : R := bpow radix2 k.
Ltac two := intros; unfold two, bpow in *;
  repeat match goal with
  | |- context [Z.pow_pos ?a ?b] => let v := eval vm_compute in (Z.pow_pos a b) in change (Z.pow_pos a b) with v
  | H : context [Z.pow_pos ?a ?b] |- _ => let v := eval vm_compute in (Z.pow_pos a b) in change (Z.pow_pos a b) with v in H
  end; repeat split; lra.
Lemma rnd_range x k : (-1074 <= k)%Z -> 0 <= x <= two k -> 0 <= rnd x <= two k.
Proof.
  intros Hk H. split; [apply rnd_pos; lra|]. pose proof (rnd_abs x k Hk) as A. rewrite Rabs_pos_eq in A by lra. specialize (A (proj2 H)).
  pose proof (Rle_abs (rnd x)). unfold two. lra.
Qed.
Lemma abs_range x k : 0 <= x <= two k -> Rabs x <= bpow radix2 k.
Proof. intros H. rewrite Rabs_pos_eq by lra. apply H. Qed.

Lemma half_f a b : fin a -> fin b -> -33554432 <= val a -> val a <= val b -> val b <= 33554432 ->
  fin ((b - a) * 0.5)%float /\ val ((b - a) * 0.5)%float = half_extent (val a) (val b) /\ 0 <= half_extent (val a) (val b) <= two 25.
Proof.
  intros Fa Fb H1 H2 H3. assert (R1 : 0 <= val b - val a <= two 26) by two.
  destruct (f_sub b a 26 ltac:(lia) Fb Fa (abs_range _ _ R1)) as (F1 & E1).
  pose proof (rnd_range _ 26 ltac:(lia) R1) as R2. rewrite <- E1 in R2.
  assert (R3 : 0 <= val (b - a)%float * val 0.5%float <= two 25).
  { rewrite val_half. revert R2. two. }
  destruct (f_mul _ _ 25 ltac:(lia) F1 fin_half (abs_range _ _ R3)) as (F2 & E2).
  split; auto. rewrite E2. unfold half_extent. rewrite E1, val_half in *. split; auto. apply rnd_range; [lia|auto].
Qed.

Lemma vol_val r : good floatN bounded r ->
  fin (volF r) /\ val (volF r) = vol_rounded unitF (val (min0 r)) (val (min1 r)) (val (max0 r)) (val (max1 r)).
Proof.
  intros G. destruct (goodF_val r G) as ((F0 & F1 & F2 & F3) & A1 & A2 & A3 & B1 & B2 & B3).
  destruct (half_f (min0 r) (max0 r) F0 F2 A1 A2 A3) as (Fh & Eh & Rh).
  destruct (half_f (min1 r) (max1 r) F1 F3 B1 B2 B3) as (Fk & Ek & Rk).
  unfold volF, spherical. cbn [nsub nmul nadd n0 floatN]. unfold vol_rounded.
  set (h := ((max0 r - min0 r) * 0.5)%float) in *. set (k := ((max1 r - min1 r) * 0.5)%float) in *.
  set (H := half_extent (val (min0 r)) (val (max0 r))) in *. set (K := half_extent (val (min1 r)) (val (max1 r))) in *.
  assert (S : forall x, 0 <= x <= two 25 -> 0 <= x * x <= two 50).
  { intros x Hx. split; [apply Rle_0_sqr|]. apply Rle_trans with (two 25 * two 25); [apply sq_le; auto|]. two. }
  destruct (f_mul h h 50 ltac:(lia) Fh Fh) as (Fhh & Ehh); [rewrite Eh; apply abs_range; auto|].
  destruct (f_mul k k 50 ltac:(lia) Fk Fk) as (Fkk & Ekk); [rewrite Ek; apply abs_range; auto|].
  rewrite Eh in Ehh. rewrite Ek in Ekk.
  pose proof (rnd_range _ 50 ltac:(lia) (S H Rh)) as Rhh. pose proof (rnd_range _ 50 ltac:(lia) (S K Rk)) as Rkk.
  destruct (f_add 0 (h * h) 50 ltac:(lia) fin_0 Fhh) as (Fs & Es); [rewrite val_0, Rplus_0_l, Ehh; apply abs_range; auto|].
  rewrite val_0, Rplus_0_l, rnd_val in Es.
  assert (Rq : 0 <= rnd (H * H) + rnd (K * K) <= two 51) by (revert Rhh Rkk; two).
  destruct (f_add (0 + h * h) (k * k) 51 ltac:(lia) Fs Fkk) as (Fq & Eq); [rewrite Es, Ehh, Ekk; apply abs_range; auto|].
  rewrite Es, Ehh, Ekk in Eq.
  pose proof (rnd_range _ 51 ltac:(lia) Rq) as Rq'. rewrite <- Eq in Rq'.
  destruct (f_sqrt _ Fq (proj1 Rq')) as (Fr & Er).
  assert (Rr : 0 <= R_sqrt.sqrt (val (0 + h * h + k * k)%float) <= two 26).
  { split; [apply sqrt_pos|]. rewrite <- (sqrt_square (two 26)) by two. apply sqrt_le_1_alt. revert Rq'. two. }
  pose proof (rnd_range _ 26 ltac:(lia) Rr) as Rr'.
  set (rad := PrimFloat.sqrt (0 + h * h + k * k)) in *.
  assert (Rd : 0 <= val rad * val rad <= two 52).
  { rewrite Er. split; [apply Rle_0_sqr|]. apply Rle_trans with (two 26 * two 26); [apply sq_le; auto|]. two. }
  destruct (f_mul rad rad 52 ltac:(lia) Fr Fr (abs_range _ _ Rd)) as (Fd & Ed).
  pose proof (rnd_range _ 52 ltac:(lia) Rd) as Rd'. rewrite <- Ed in Rd'.
  assert (Rv : 0 <= val (rad * rad)%float * val 0x1.921fb8p+1%float <= two 54).
  { pose proof val_unit as U. split; [apply Rmult_le_pos; lra|]. apply Rle_trans with (two 52 * 4); [apply Rmult_le_compat; lra|]. two. }
  destruct (f_mul _ _ 54 ltac:(lia) Fd fin_unit (abs_range _ _ Rv)) as (Fv & Ev).
  split; auto. rewrite Ev. unfold unitF. rewrite Ed, Er, Eq. reflexivity.
Qed.

Definition everything : rect float := (mkRect (-33554432) (-33554432) 33554432 33554432)%float.
Lemma everything_good : good floatN bounded everything.
Proof. repeat split; reflexivity. Qed.
Lemma everything_vol : val (volF everything) <= two 53 - 1.
Proof.
  assert (E : volF everything = 7074238485757954%float) by (vm_compute; reflexivity).
  rewrite E, val_SF. literal. two.
Qed.

Lemma unitF_pos : 0 <= unitF.
Proof. unfold unitF. pose proof val_unit. lra. Qed.
Lemma vol_contains c r : good floatN bounded c -> good floatN bounded r -> contains (le floatN) c r -> val (volF r) <= val (volF c).
Proof.
  intros Gc Gr (H1 & H2 & H3 & H4).
  assert (Bc : fine bounded c) by apply Gc. assert (Br : fine bounded r) by apply Gr.
  destruct Bc as (? & ? & ? & ?), Br as (? & ? & ? & ?). apply le_bounded in H1; auto. apply le_bounded in H2; auto. apply le_bounded in H3; auto. apply le_bounded in H4; auto.
  rewrite (proj2 (vol_val c Gc)), (proj2 (vol_val r Gr)). destruct (goodF_val r Gr) as (_ & _ & ? & _ & _ & ? & _).
  apply vol_rounded_mono; auto using unitF_pos.
Qed.
Lemma vol_range r : good floatN bounded r -> fin (volF r) /\ 0 <= val (volF r) <= two 53 - 1.
Proof.
  intros G. split; [apply vol_val; auto|]. split.
  - rewrite (proj2 (vol_val r G)). apply vol_rounded_pos, unitF_pos.
  - eapply Rle_trans; [|apply everything_vol]. apply vol_contains; auto using everything_good.
    pose proof (goodF_val r G) as (_ & A1 & A2 & A3 & A4 & A5 & A6).
    assert (Br : fine bounded r) by apply G. destruct Br as (? & ? & ? & ?).
    assert (bounded (-33554432)%float /\ bounded 33554432%float) by (repeat split; reflexivity).
    repeat split; apply le_bounded; try tauto; cbn [min0 min1 max0 max1 everything]; rewrite ?val_B, ?val_mB; lra.
Qed.

(** Subtracting one from minus a volume is not lost in rounding. *)
Lemma ulp_zero : Ulp.ulp radix2 fexp64 0 = bpow radix2 (-1074).
Proof. exact (ulp_FLT_0 radix2 (-1074) 53 (prec_gt_0_ := eq_refl)). Qed.
Lemma ulp_small x : 0 <= x < two 53 -> Ulp.ulp radix2 fexp64 x <= 1.
Proof.
  intros H. replace 1 with (bpow radix2 0) by reflexivity.
  destruct (Req_dec x 0) as [->|Hx].
  - rewrite ulp_zero. apply bpow_le. lia.
  - rewrite ulp_neq_0 by auto. apply bpow_le. unfold cexp.
    assert (mag radix2 x <= 53)%Z. { apply mag_le_bpow; auto. rewrite Rabs_pos_eq by lra. apply H. }
    unfold SpecFloat.fexp, SpecFloat.emin, prec, emax. lia.
Qed.
Lemma minus_one x : fin x -> 0 <= val x <= two 53 - 1 ->
  fin (0 - x - 1)%float /\ val (0 - x - 1)%float < - val x.
Proof.
  intros Fx Hx. destruct (f_sub 0 x 53 ltac:(lia) fin_0 Fx) as (F1 & E1).
  { rewrite val_0, Rminus_0_l, Rabs_Ropp, Rabs_pos_eq by lra. unfold two in Hx. lra. }
  rewrite val_0, Rminus_0_l, rnd_opp_val in E1.
  destruct (f_sub (0 - x) 1 53 ltac:(lia) F1 fin_1) as (F2 & E2).
  { rewrite E1, val_1. rewrite <- Rabs_Ropp, Rabs_pos_eq by lra. unfold two in Hx. lra. }
  split; auto. rewrite E2, E1, val_1. replace (- val x - 1) with (- (val x + 1)) by ring. unfold rnd. rewrite round_NE_opp.
  apply Ropp_lt_contravar. fold (rnd (val x + 1)).
  assert (U : Ulp.ulp radix2 fexp64 (val x) <= 1) by (apply ulp_small; lra).
  assert (P : 0 < Ulp.ulp radix2 fexp64 (val x)).
  { destruct (Req_dec (val x) 0) as [->|]; [rewrite ulp_zero; apply bpow_gt_0|rewrite ulp_neq_0 by auto; apply bpow_gt_0]. }
  assert (S : Ulp.succ radix2 fexp64 (val x) = val x + Ulp.ulp radix2 fexp64 (val x)) by (apply succ_eq_pos; lra).
  assert (G : rnd (Ulp.succ radix2 fexp64 (val x)) = Ulp.succ radix2 fexp64 (val x)).
  { apply round_generic; auto with typeclass_instances. apply generic_format_succ; [exact (fexp_correct prec emax eq_refl)|apply val_format]. }
  apply Rlt_le_trans with (rnd (Ulp.succ radix2 fexp64 (val x))); [rewrite G, S; lra|]. apply rnd_le. lra.
Qed.

Lemma growth_range b c : good floatN bounded b -> good floatN bounded c ->
  fin (volF (combine_rect floatN b c) - volF c)%float /\ 0 <= val (volF (combine_rect floatN b c) - volF c)%float <= two 53.
Proof.
  intros Gb Gc. assert (G : good floatN bounded (combine_rect floatN b c)) by (apply combine_good; auto using lt_asymF; apply le_transF).
  destruct (vol_range _ Gc) as (Fc & Rc). destruct (vol_range _ G) as (Fv & Rv).
  assert (M : val (volF c) <= val (volF (combine_rect floatN b c))).
  { apply vol_contains; auto. apply (combine_r floatN bounded lt_asymF); auto. }
  assert (R : 0 <= val (volF (combine_rect floatN b c)) - val (volF c) <= two 53) by lra.
  destruct (f_sub _ _ 53 ltac:(lia) Fv Fc (abs_range _ _ R)) as (F & E). split; auto. rewrite E. apply rnd_range; [lia|auto].
Qed.

Lemma n1_F : n1 floatN = 1%float.
Proof. reflexivity. Qed.

Lemma diff_okF b c0 c1 : good floatN bounded b -> good floatN bounded c0 -> good floatN bounded c1 ->
  let g0 := nsub floatN (volF (combine_rect floatN b c0)) (volF c0) in
  let g1 := nsub floatN (volF (combine_rect floatN b c1)) (volF c1) in
  let d := nsub floatN g1 g0 in
  if nle floatN (n0 floatN) d then nlt floatN (nsub floatN (n0 floatN) (n1 floatN)) d = true
  else nlt floatN (nsub floatN (n0 floatN) (n1 floatN)) (nsub floatN (n0 floatN) d) = true.
Proof.
  intros Hb H0 H1 g0 g1 d. destruct (growth_range b c0 Hb H0) as (F0 & R0). destruct (growth_range b c1 Hb H1) as (F1 & R1).
  change (volF (combine_rect floatN b c0) - volF c0)%float with g0 in F0, R0.
  change (volF (combine_rect floatN b c1) - volF c1)%float with g1 in F1, R1.
  assert (A : Rabs (val g1 - val g0) <= bpow radix2 53) by (apply Rabs_le; unfold two in *; lra).
  destruct (f_sub g1 g0 53 ltac:(lia) F1 F0 A) as (Fd & Ed). change (g1 - g0)%float with d in Fd, Ed.
  pose proof (rnd_abs _ 53 ltac:(lia) A) as Ad. rewrite <- Ed in Ad.
  rewrite n1_F. change (nsub floatN (n0 floatN) 1%float) with (-1)%float. change (n0 floatN) with 0%float.
  assert (Fm : fin (-1)%float) by (apply fin_SF; reflexivity).
  assert (Em : val (-1)%float = -1) by (rewrite val_SF; literal).
  destruct (nle floatN 0%float d) eqn:L.
  - apply nle_val in L; auto using fin_0. rewrite val_0 in L. apply lt_val; auto. lra.
  - assert (N : val d < 0). { apply Rnot_le_lt. intros H. rewrite <- val_0 in H. apply nle_val in H; auto using fin_0. congruence. }
    destruct (f_sub 0 d 53 ltac:(lia) fin_0 Fd) as (Fn & En); [rewrite val_0, Rminus_0_l, Rabs_Ropp; auto|].
    rewrite val_0, Rminus_0_l, rnd_opp_val in En. apply (lt_val (-1)%float (0 - d)%float); auto. lra.
Qed.

Lemma seed_okF a b c : good floatN bounded a -> good floatN bounded b -> good floatN bounded c ->
  contains (le floatN) c a -> contains (le floatN) c b ->
  nlt floatN (nsub floatN (nsub floatN (n0 floatN) (volF c)) (n1 floatN))
        (nsub floatN (nsub floatN (volF (combine_rect floatN a b)) (volF a)) (volF b)) = true.
Proof.
  intros Ga Gb Gc Ha Hb. rewrite n1_F. change (n0 floatN) with 0%float. cbn [nsub floatN].
  destruct (vol_range _ Ga) as (Fa & Ra). destruct (vol_range _ Gb) as (Fb & Rb). destruct (vol_range _ Gc) as (Fc & Rc).
  assert (G : good floatN bounded (combine_rect floatN a b)) by (apply combine_good; auto using lt_asymF; apply le_transF).
  destruct (vol_range _ G) as (Fv & Rv).
  assert (M : val (volF a) <= val (volF (combine_rect floatN a b))).
  { apply vol_contains; auto. apply (combine_l floatN bounded lt_asymF); auto. }
  assert (M' : val (volF b) <= val (volF c)) by (apply vol_contains; auto).
  assert (R : 0 <= val (volF (combine_rect floatN a b)) - val (volF a) <= two 53) by lra.
  destruct (f_sub _ _ 53 ltac:(lia) Fv Fa (abs_range _ _ R)) as (Fg & Eg). pose proof (rnd_range _ 53 ltac:(lia) R) as Rg. rewrite <- Eg in Rg.
  set (g := (volF (combine_rect floatN a b) - volF a)%float) in *.
  destruct (f_sub g (volF b) 53 ltac:(lia) Fg Fb) as (Fw & Ew); [apply Rabs_le; unfold two in *; lra|].
  destruct (minus_one _ Fc Rc) as (Fm & Lm). apply lt_val; auto. eapply Rlt_le_trans; [exact Lm|].
  apply Rle_trans with (- val (volF b)); [lra|]. rewrite Ew, <- rnd_opp_val. apply rnd_le. lra.
Qed.

(** ** The index *)
Section Index.
Context {D : Type} (deq : D -> D -> bool).
Hypothesis deq_spec : forall a b, deq a b = true <-> a = b.
Notation leF := (le floatN).
Notation goodF := (good floatN bounded).
Notation fineF := (fine bounded).

Lemma run_F ops : Forall (op_good goodF fineF) ops ->
  exists root, run floatN deq volF empty ops = Ok root /\ balanced leF goodF root /\ history leF ops (entries root).
Proof. apply (run_spec floatN deq volF bounded lt_asymF le_transF diff_okF seed_okF deq_spec). Qed.

Lemma search_F q (root : node float D) : fineF q -> balanced leF goodF root ->
  exists l, search floatN q root = Ok l /\ selects leF q (entries root) l.
Proof.
  intros Hq Hb. eexists. split; [apply (search_spec floatN bounded lt_asymF le_transF q root Hq Hb)|].
  exists (filter (fun e => overlap floatN q (fst e)) (entries root)), (filter (fun e => negb (overlap floatN q (fst e))) (entries root)).
  split; [|split; [reflexivity|split]].
  - induction (entries root) as [|e l IH]; simpl; auto. destruct (overlap floatN q (fst e)); simpl; [constructor; auto|].
    rewrite IH at 1. apply Permutation_middle.
  - apply Forall_forall. intros e He. apply filter_In in He. apply overlap_touches. tauto.
  - apply Forall_forall. intros e He Ht. apply filter_In in He. apply overlap_touches in Ht. rewrite Ht in He. destruct He; discriminate.
Qed.

Lemma remove_F r d root : fineF r -> balanced leF goodF root ->
  exists root', remove floatN deq volF r d root = Ok root' /\ balanced leF goodF root' /\
    ((exists r0, Permutation (entries root) ((r0, d) :: entries root')) \/
     (root' = root /\ forall r0, In (r0, d) (entries root) -> ~ touches leF r r0)).
Proof.
  intros Hr Hb. pose proof (remove_spec floatN deq volF bounded lt_asymF le_transF diff_okF seed_okF deq_spec r d root Hr Hb) as Hw.
  destruct (remove _ _ _ _ _ _) as [root'| |]; cbn [wp] in Hw; [exists root'; tauto|contradiction|contradiction].
Qed.

Lemma split_F (bs : list (branch float D)) b : length bs = 8%nat -> Forall (fun b => goodF (fst b)) (b :: bs) ->
  exists x y, split_node floatN volF bs b = Ok (x, y) /\ Permutation (x ++ y) (bs ++ [b]) /\
     Peano.le 4 (length x) /\ Peano.le 4 (length y).
Proof.
  intros Hl Hg. rewrite Forall_forall in Hg.
  pose proof (split_spec floatN volF bounded lt_asymF le_transF diff_okF seed_okF bs b) as Hw.
  specialize (Hw (fun x Hx => Hg x (or_intror Hx)) (Hg b (or_introl eq_refl)) Hl).
  destruct (split_node _ _ _ _) as [[x y]| |]; cbn [wp fst snd] in Hw; [exists x, y; split; auto; split; [tauto|lia]|contradiction|contradiction].
Qed.

Lemma entries_goodF (root : node float D) : balanced leF goodF root -> Forall (fun e => goodF (fst e)) (entries root).
Proof.
  intros (H & _). apply (bb_all_good floatN bounded) in H. unfold entries. apply Forall_forall. intros e He.
  rewrite Forall_forall in H. apply H. apply in_map. exact He.
Qed.
End Index.
