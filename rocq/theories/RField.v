(** The real numbers of the standard library as an ordered field of mathcomp, so
    that theorems over every ordered field apply to them. *)
From Coq Require Import Reals Lra ClassicalEpsilon FunctionalExtensionality.
From mathcomp Require Import all_ssreflect ssralg ssrnum.
Set Implicit Arguments. Unset Strict Implicit. Unset Printing Implicit Defensive.
Import GRing.Theory Num.Theory Order.Theory.

Definition req (x y : R) : bool := if Req_EM_T x y then true else false.
Lemma reqP : Equality.axiom req.
Proof. by move=> x y; rewrite /req; case: Req_EM_T => H; constructor. Qed.
Canonical R_eqMixin := EqMixin reqP.
Canonical R_eqType := Eval hnf in EqType R R_eqMixin.

Definition rfind (P : pred R) (n : nat) : option R :=
  let x := epsilon (inhabits R0) (fun x => P x = true) in if P x then Some x else None.
Lemma rfind_some P n x : rfind P n = Some x -> P x.
Proof. by rewrite /rfind; case E: (P _) => // - [<-]. Qed.
Lemma rfind_ex (P : pred R) : (exists x, P x) -> exists n, rfind P n.
Proof.
move=> ex; exists 0%N; rewrite /rfind.
by have -> : P (epsilon (inhabits R0) (fun x => P x = true)) by exact: (epsilon_spec (inhabits R0) (fun x => P x = true) ex).
Qed.
Lemma rfind_ext (P Q : pred R) : P =1 Q -> rfind P =1 rfind Q.
Proof. by move=> E n; rewrite (functional_extensionality P Q E). Qed.
Definition R_choiceMixin := @Choice.Mixin R rfind rfind_some rfind_ex rfind_ext.
Canonical R_choiceType := Eval hnf in ChoiceType R R_choiceMixin.

Lemma raddA : associative Rplus. Proof. by move=> *; rewrite Rplus_assoc. Qed.
Definition R_zmodMixin := ZmodMixin raddA Rplus_comm Rplus_0_l Rplus_opp_l.
Canonical R_zmodType := Eval hnf in ZmodType R R_zmodMixin.

Lemma rmulA : associative Rmult. Proof. by move=> *; rewrite Rmult_assoc. Qed.
Lemma rmulDl : left_distributive Rmult Rplus. Proof. by move=> *; rewrite Rmult_plus_distr_r. Qed.
Lemma r1_neq0 : R1 != R0. Proof. by apply/eqP; exact: R1_neq_R0. Qed.
Definition R_comRingMixin := ComRingMixin rmulA Rmult_comm Rmult_1_l rmulDl r1_neq0.
Canonical R_Ring := Eval hnf in RingType R R_comRingMixin.
Canonical R_comRing := Eval hnf in ComRingType R Rmult_comm.

Definition rinv (x : R) : R := if x == R0 then R0 else Rinv x.
Lemma rmulV : GRing.Field.axiom rinv.
Proof.
by move=> x; rewrite /rinv; case: (eqVneq x R0) => [->|/eqP ne _]; rewrite ?eqxx //; exact: Rinv_l.
Qed.
Lemma rinv0 : rinv R0 = R0. Proof. by rewrite /rinv eqxx. Qed.
Definition R_unitMixin := FieldUnitMixin rmulV rinv0.
Canonical R_unitRing := Eval hnf in UnitRingType R R_unitMixin.
Canonical R_comUnitRing := Eval hnf in [comUnitRingType of R].
Fact R_field_axiom : GRing.Field.mixin_of R_unitRing. Proof. exact. Qed.
Canonical R_idomainType := Eval hnf in IdomainType R (FieldIdomainMixin R_field_axiom).
Canonical R_fieldType := FieldType R R_field_axiom.

Definition rle (x y : R) : bool := if Rle_dec x y then true else false.
Definition rlt (x y : R) : bool := if Rlt_dec x y then true else false.
Lemma rleP x y : reflect (Rle x y) (rle x y).
Proof. by rewrite /rle; case: Rle_dec => H; constructor. Qed.
Lemma rltP x y : reflect (Rlt x y) (rlt x y).
Proof. by rewrite /rlt; case: Rlt_dec => H; constructor. Qed.

Fact rle_add x y : rle R0 x -> rle R0 y -> rle R0 (Rplus x y).
Proof. by move=> /rleP Hx /rleP Hy; apply/rleP; lra. Qed.
Fact rle_mul x y : rle R0 x -> rle R0 y -> rle R0 (Rmult x y).
Proof. by move=> /rleP Hx /rleP Hy; apply/rleP; apply: Rmult_le_pos. Qed.
Fact rle_anti x : rle R0 x -> rle x R0 -> x = R0.
Proof. by move=> /rleP Hx /rleP Hy; lra. Qed.
Fact rle_sub x y : rle R0 (Rplus y (Ropp x)) = rle x y.
Proof. by apply/rleP/rleP; lra. Qed.
Fact rle_total x : rle R0 x || rle x R0.
Proof. by case: (Rle_or_lt R0 x) => H; apply/orP; [left|right]; apply/rleP; lra. Qed.
Fact rnormN x : Rabs (Ropp x) = Rabs x. Proof. exact: Rabs_Ropp. Qed.
Fact rnorm_ge0 x : rle R0 x -> Rabs x = x.
Proof. by move/rleP => H; apply: Rabs_pos_eq. Qed.
Fact rlt_def x y : rlt x y = (y != x) && rle x y.
Proof.
apply/rltP/andP => [H|[/eqP ne /rleP le]]; last by lra.
by split; [apply/eqP; lra | apply/rleP; lra].
Qed.
Definition R_leMixin : realLeMixin R_idomainType :=
  RealLeMixin rle_add rle_mul rle_anti rle_sub rle_total rnormN rnorm_ge0 rlt_def.
Fact R_total : total rle.
Proof. by move=> x y; case: (Rle_or_lt x y) => H; apply/orP; [left|right]; apply/rleP; lra. Qed.
Canonical R_porderType := POrderType ring_display R R_leMixin.
Canonical R_latticeType := LatticeType R R_leMixin.
Canonical R_distrLatticeType := DistrLatticeType R R_leMixin.
Canonical R_orderType := OrderType R R_total.
Canonical R_numDomainType := NumDomainType R R_leMixin.
Canonical R_normedZmodType := NormedZmodType R R R_leMixin.
Canonical R_numFieldType := [numFieldType of R].
Canonical R_realDomainType := [realDomainType of R].
Canonical R_realFieldType := [realFieldType of R].
