(** IEEE doubles as extended reals with rounding. *)
From Coq Require Import ZArith Reals Bool Lra Lia.
From Flocq Require Import Core BinarySingleNaN.
From Flocq Require Import IEEE754.PrimFloat.
From Coq Require Import Floats.
From Verif Require Import Scalar FloatBase.
Local Open Scope R_scope.

(** The value of a double. *)
Definition proj (x : float) : ext R :=
  match Prim2B x with
  | B754_nan => NaN
  | B754_infinity false => PInf
  | B754_infinity true => NInf
  | b => Fin (B2R b)
  end.

(** A real result rounded to the nearest double. *)
Definition rfin (r : R) : ext R :=
  if Rlt_bool (Rabs (rnd r)) (bpow radix2 emax) then Fin (rnd r) else if Rlt_bool r 0 then NInf else PInf.
Definition rnd_add (x y : ext R) : ext R :=
  match x, y with Fin a, Fin b => rfin (a + b) | _, _ => ext_add ringR x y end.
Definition rnd_sub (x y : ext R) : ext R :=
  match x, y with Fin a, Fin b => rfin (a - b) | _, _ => ext_sub ringR x y end.

(** Extended reals with rounded sums and differences (products are not used). *)
Definition roundN : Num (ext R) :=
  {| n0 := n0 extR; ninf := ninf extR; nadd := rnd_add; nsub := rnd_sub; nmul := nmul extR;
     nlt := nlt extR; nle := nle extR; neq := neq extR; nisinf := nisinf extR; nofnat := nofnat extR |}.

Lemma proj_fin x : fin x -> proj x = Fin (val x).
Proof. unfold fin, val, proj. destruct (Prim2B x) as [s|[]| |s m e B]; try discriminate; auto. Qed.
Lemma proj_Fin x r : proj x = Fin r -> fin x /\ val x = r.
Proof.
  unfold fin, val, proj. destruct (Prim2B x) as [s|[]| |s m e B]; try discriminate; intros H; inversion H; auto.
Qed.
Lemma proj_Fin_format x r : proj x = Fin r -> generic_format radix2 fexp64 r.
Proof. intros H. apply proj_Fin in H. destruct H as [_ <-]. apply val_format. Qed.

Lemma sign_le (b : binary_float prec emax) : (Bsign b = true -> B2R b <= 0) /\ (Bsign b = false -> 0 <= B2R b).
Proof.
  destruct b as [s|s| |s m e H]; simpl; split; intros E; try lra; subst; try discriminate.
  - apply F2R_le_0. simpl. lia.
  - apply F2R_ge_0. simpl. lia.
Qed.

Lemma rnd_overflow r : Rlt_bool (Rabs (rnd r)) (bpow radix2 emax) = false -> r <> 0.
Proof.
  intros H E. subst r. rewrite rnd_0, Rabs_R0 in H. rewrite Rlt_bool_true in H; [discriminate|]. apply bpow_gt_0.
Qed.

Lemma overflow_NE s : binary_overflow prec emax mode_NE s = S754_infinity s.
Proof. reflexivity. Qed.

(** An overflowing result. *)
Lemma over_case (z : binary_float prec emax) s : B2SF z = S754_infinity s ->
  z = B754_infinity s.
Proof. destruct z; simpl; intros H; inversion H; auto. Qed.

Lemma proj_add x y : rnd_add (proj x) (proj y) = proj (x + y)%float.
Proof.
  unfold proj at 3. rewrite add_equiv.
  destruct (Prim2B x) as [sx|sx| |sx mx ex Hx] eqn:Ex, (Prim2B y) as [sy|sy| |sy my ey Hy] eqn:Ey;
    unfold proj; rewrite Ex, Ey; try (destruct sx; try destruct sy; reflexivity); try (destruct sy; reflexivity); try reflexivity.
  all: cbn [rnd_add]; unfold rfin;
    match goal with |- context [Bplus mode_NE ?a ?b] =>
      pose proof (Bplus_correct prec emax Hprec Hmax mode_NE a b eq_refl eq_refl) as C; cbn [round_mode] in C;
      fold (rnd (B2R a + B2R b)) in C; destruct (Rlt_bool (Rabs (rnd (B2R a + B2R b))) (bpow radix2 emax)) eqn:E;
      [destruct C as (C1 & C2 & _); rewrite <- C1; destruct (Bplus mode_NE a b) as [?|[]| |? ? ? ?]; try discriminate; reflexivity|
       destruct C as (C1 & C2); rewrite overflow_NE in C1; apply over_case in C1; rewrite C1; apply rnd_overflow in E;
       pose proof (sign_le a) as [S1 S2]; pose proof (sign_le b) as [S3 S4]; rewrite C2 in S1, S2 |- *;
       destruct (Bsign b); [rewrite Rlt_bool_true; [reflexivity|]|rewrite Rlt_bool_false; [reflexivity|]];
       try specialize (S1 eq_refl); try specialize (S2 eq_refl); try specialize (S3 eq_refl); try specialize (S4 eq_refl); lra]
    end.
Qed.

Lemma proj_sub x y : rnd_sub (proj x) (proj y) = proj (x - y)%float.
Proof.
  unfold proj at 3. rewrite sub_equiv.
  destruct (Prim2B x) as [sx|sx| |sx mx ex Hx] eqn:Ex, (Prim2B y) as [sy|sy| |sy my ey Hy] eqn:Ey;
    unfold proj; rewrite Ex, Ey; try (destruct sx; try destruct sy; reflexivity); try (destruct sy; reflexivity); try reflexivity.
  all: cbn [rnd_sub]; unfold rfin;
    match goal with |- context [Bminus mode_NE ?a ?b] =>
      pose proof (Bminus_correct prec emax Hprec Hmax mode_NE a b eq_refl eq_refl) as C; cbn [round_mode] in C;
      fold (rnd (B2R a - B2R b)) in C; destruct (Rlt_bool (Rabs (rnd (B2R a - B2R b))) (bpow radix2 emax)) eqn:E;
      [destruct C as (C1 & C2 & _); rewrite <- C1; destruct (Bminus mode_NE a b) as [?|[]| |? ? ? ?]; try discriminate; reflexivity|
       destruct C as (C1 & C2); rewrite overflow_NE in C1; apply over_case in C1; rewrite C1; apply rnd_overflow in E;
       pose proof (sign_le a) as [S1 S2]; pose proof (sign_le b) as [S3 S4]; rewrite C2 in S1, S2 |- *;
       destruct (Bsign b); simpl negb in *; [rewrite Rlt_bool_false; [reflexivity|]|rewrite Rlt_bool_true; [reflexivity|]];
       try specialize (S1 eq_refl); try specialize (S2 eq_refl); try specialize (S3 eq_refl); try specialize (S4 eq_refl); lra]
    end.
Qed.

Lemma Rltb_bool x y : Rltb x y = Rlt_bool x y.
Proof. destruct (Rltb_spec x y); [rewrite Rlt_bool_true|rewrite Rlt_bool_false]; auto. lra. Qed.
Lemma Reqb_bool x y : Reqb x y = Req_bool x y.
Proof. destruct (Reqb_spec x y); [rewrite Req_bool_true|rewrite Req_bool_false]; auto. Qed.
Lemma Rle_bool_or x y : Rle_bool x y = Rlt_bool x y || Req_bool x y.
Proof. case Rle_bool_spec; case Rlt_bool_spec; case Req_bool_spec; intros; auto; lra. Qed.

Ltac cmp corr :=
  match goal with |- context [Prim2B ?x] => destruct (Prim2B x) as [?sx|?sx| |?sx ?mx ?ex ?Hx] end;
  match goal with |- context [Prim2B ?y] => destruct (Prim2B y) as [?sy|?sy| |?sy ?my ?ey ?Hy] | _ => idtac end;
  try reflexivity; try (repeat match goal with s : bool |- _ => destruct s end; reflexivity);
  cbn [nlt nle neq roundN extR ext_num ext_lt ext_eq ext_le rlt req ringR]; unfold ext_le; cbn [ext_lt ext_eq rlt req ringR];
  rewrite ?Rltb_bool, ?Reqb_bool, <- ?Rle_bool_or; symmetry; apply corr; reflexivity.

Lemma proj_lt x y : nlt roundN (proj x) (proj y) = nlt floatN x y.
Proof. change (nlt floatN x y) with (PrimFloat.ltb x y). rewrite ltb_equiv. unfold proj. cmp (Bltb_correct prec emax). Qed.
Lemma proj_le x y : nle roundN (proj x) (proj y) = nle floatN x y.
Proof. change (nle floatN x y) with (PrimFloat.leb x y). rewrite leb_equiv. unfold proj. cmp (Bleb_correct prec emax). Qed.
Lemma proj_eq x y : neq roundN (proj x) (proj y) = neq floatN x y.
Proof. change (neq floatN x y) with (PrimFloat.eqb x y). rewrite eqb_equiv. unfold proj. cmp (Beqb_correct prec emax). Qed.
Lemma proj_isinf x : nisinf roundN (proj x) = nisinf floatN x.
Proof.
  change (nisinf floatN x) with (is_infinity x). rewrite is_infinity_equiv. unfold proj.
  destruct (Prim2B x) as [?|[]| |? ? ? ?]; reflexivity.
Qed.
Lemma proj_0 : n0 roundN = proj 0%float.
Proof. rewrite (proj_fin 0%float) by (apply fin_SF; reflexivity). rewrite val_SF. reflexivity. Qed.
Lemma proj_inf : ninf roundN = proj infinity.
Proof. unfold proj. rewrite infinity_equiv, Prim2B_B2Prim. reflexivity. Qed.
