(** Positive definite covariances over whole histories. *)
From Coq Require Import Reals List Lra.
From mathcomp Require Import all_ssreflect ssralg ssrnum zmodp matrix mxalgebra.
From Verif Require Import Scalar RTree RTreeSpec GM GMSpec TrackerSpec TrackerOps TrackerOpsSpec StepSpec CompSpec Kalman KalmanSpec KalmanProofs KalmanMain RField KalmanWitness GaussOps CovSpec.
Set Implicit Arguments. Unset Strict Implicit. Unset Printing Implicit Defensive.
Import GRing.Theory Num.Theory Order.Theory.
Local Open Scope ring_scope.

Section Blocks.
Variable F : realFieldType.

Lemma qf_block n (A B C D : 'M[F]_n) (u v : 'cV[F]_n) :
  qf (block_mx A B C D) (col_mx u v) = qf A u + bf u B v + bf v C u + qf D v.
Proof.
rewrite !qf_bf /bf tr_col_mx mul_row_block mul_row_col !mulmxDl !mxE.
rewrite !addrA; congr (_ + _); exact: addrAC.
Qed.

Lemma pd_conj n (A : 'M[F]_n) (G G' : 'M[F]_n) : G' *m G = 1%:M -> pd A -> pd (G *m A *m G^T).
Proof.
move=> E [As Ap]; split.
  by have [] := @psd_conj F n n A G (pd_psd (conj As Ap)).
move=> v v0; rewrite qf_conj; apply: Ap; apply: contra_neq v0 => Z.
have : G'^T *m (G^T *m v) = 0 by rewrite Z mulmx0.
by rewrite mulmxA -trmx_mul (mulmx1C E) trmx1 mul1mx.
Qed.

Lemma pd_addr n (A B : 'M[F]_n) : pd A -> psd B -> pd (A + B).
Proof. by move=> HA HB; rewrite addrC; apply: psd_pd. Qed.

Lemma pd_diag n (A D : 'M[F]_n) : pd A -> pd D -> pd (block_mx A 0 0 D).
Proof.
move=> [As Ap] [Ds Dp]; split.
  apply/symP; rewrite tr_block_mx !trmx0.
  by move/symP: As => ->; move/symP: Ds => ->.
move=> v; rewrite -(vsubmxK v); move: (usubmx v) (dsubmx v) => u w v0.
rewrite qf_block /bf !mulmx0 !mul0mx !mxE !addr0.
have [Z|u0] := eqVneq u 0; last first.
  apply: ltr_paddr; last exact: Ap.
  by have [->|w0] := eqVneq w 0; [rewrite qf0 | apply/ltW/Dp].
have w0 : w != 0 by apply: contra_neq v0 => Zw; rewrite Z Zw col_mx0.
by rewrite Z qf0 add0r; apply: Dp.
Qed.

(** The upper left block. *)
Lemma pd_upper n (A : 'M[F]_(n + n)) : pd A -> pd (ulsubmx A).
Proof.
move=> [As Ap]; split=> [i j|v v0]; first by rewrite !mxE As.
have := Ap (col_mx v 0); rewrite -[X in qf X _]submxK qf_block /bf !trmx0 !mulmx0 !mul0mx qf0 !mxE !addr0; apply.
by apply: contra_neq v0 => Z; rewrite -(col_mxKu v (0 : 'cV[F]_n)) Z linear0.
Qed.
End Blocks.

Lemma cvF_inv dT : cvF (- dT) *m cvF dT = 1%:M.
Proof.
rewrite /cvF mulmx_block !mul1mx !mulmx1 !mul0mx !mulmx0 !addr0 !add0r -raddfD /= subrr raddf0.
by rewrite -scalar_mx_block.
Qed.

Lemma qf_scalar n (a : R) (v : 'cV[R]_n) : @qf RF n a%:M v = a * @qf RF n 1%:M v.
Proof. by rewrite !qfE mul_mx_scalar -scalemxAl mulmx1 mxE. Qed.

Lemma cvQ_psd q dT : Rle 0 q -> Rle 0 dT -> @psd RF _ (cvQ q dT).
Proof.
move=> Hq Hd; split.
  apply/symP; rewrite /cvQ linearZ /= tr_block_mx !tr_scalar_mx //.
move=> v; rewrite -(vsubmxK v); move: (usubmx v) (dsubmx v) => u w.
rewrite /cvQ; set dT2 := Rdiv _ (IZR 2); set dT3 := Rdiv _ (IZR 3).
rewrite qfE -scalemxAr -scalemxAl mxE -qfE qf_block.
rewrite [qf dT3%:M u]qf_scalar [qf dT%:M w]qf_scalar.
have E a (x y : 'cV[R]_2) : @bf RF 2 2 x a%:M y = a * (x^T *m y) 0 0.
  by rewrite /bf mul_mx_scalar -scalemxAl mxE.
rewrite !E !qfE !mulmx1 -[w^T *m u]trmxK trmx_mul trmxK [(_^T) 0 0 in X in _ + X + _]mxE.
apply: mulr_ge0; first exact/rleP.
rewrite !mxE !big_ord_recl !big_ord0 !mxE !addr0.
set a0 := u _ _; set a1 := u _ _; set b0 := w _ _; set b1 := w _ _.
apply/rleP; rewrite /GRing.add /GRing.mul /=.
have K x y : Rle 0 (Rplus (Rplus (Rmult dT3 (Rmult x x)) (Rmult 2 (Rmult dT2 (Rmult x y)))) (Rmult dT (Rmult y y))).
  rewrite /dT2 /dT3.
  have -> : Rplus (Rplus (Rmult (Rdiv (Rmult (Rmult dT dT) dT) 3) (Rmult x x)) (Rmult 2 (Rmult (Rdiv (Rmult dT dT) 2) (Rmult x y)))) (Rmult dT (Rmult y y))
     = Rmult dT (Rplus (Rmult (Rplus y (Rdiv (Rmult dT x) 2)) (Rplus y (Rdiv (Rmult dT x) 2))) (Rdiv (Rmult (Rmult dT x) (Rmult dT x)) 12)) by field.
  apply: Rmult_le_pos => //.
  have := Rle_0_sqr (Rplus y (Rdiv (Rmult dT x) 2)); have := Rle_0_sqr (Rmult dT x); rewrite /Rsqr; lra.
have L (x0 x1 y0 y1 : R) : Rle 0 (Rplus (Rplus (Rplus (Rmult dT3 (Rplus (Rmult x0 x0) (Rmult x1 x1))) (Rmult dT2 (Rplus (Rmult x0 y0) (Rmult x1 y1))))
    (Rmult dT2 (Rplus (Rmult x0 y0) (Rmult x1 y1)))) (Rmult dT (Rplus (Rmult y0 y0) (Rmult y1 y1)))).
  by have := K x0 y0; have := K x1 y1; clearbody dT2 dT3; lra.
exact: L.
Qed.

Lemma fold_left_lin (A : Type) (f : A -> R) l a : fold_left (fun s g => Rplus s (f g)) l a = a + \sum_(g <- l) f g.
Proof.
elim: l a => [|x l IH] a /=; first by rewrite big_nil addr0.
by rewrite IH big_cons addrA.
Qed.

Definition spread (m : 'cV[R]_(2 + 2)) (g : gauss) : 'M[R]_(2 + 2) := gP g + (gx g - m) *m (gx g - m)^T.
Definition mixmean (c : list (R * gauss)) : 'cV[R]_(2 + 2) := \col_i GM.mean (fun g => gx g i 0) c.

Lemma mixcovE c : mixcov c = \sum_(g <- c) fst g *: spread (mixmean c) (snd g).
Proof.
apply/matrixP => i j; rewrite summxE !mxE /covij /GM.cov fold_left_lin add0r; apply: eq_bigr => g _.
by rewrite !mxE big_ord1 !mxE.
Qed.

Lemma qfZ n (a : R) (A : 'M[R]_n) v : @qf RF n (a *: A) v = a * @qf RF n A v.
Proof. by rewrite !qfE -scalemxAr -scalemxAl mxE. Qed.

Lemma spread_pd m g : @pd RF _ (gP g) -> @pd RF _ (spread m g).
Proof.
move=> H; apply: pd_addr => //.
have -> : (gx g - m) *m (gx g - m)^T = (gx g - m) *m 1%:M *m (gx g - m)^T by rewrite mulmx1.
by apply: psd_conj; apply: pd_psd; exact: one_pd.
Qed.

Lemma sym_sum m (c : list (R * gauss)) : (forall g, In g c -> @pd RF _ (gP (snd g))) ->
  (\sum_(g <- c) fst g *: spread m (snd g))^T = \sum_(g <- c) fst g *: spread m (snd g).
Proof.
elim: c => [|g c IH] H; first by rewrite !big_nil trmx0.
rewrite !big_cons linearD /= linearZ /= IH; last by move=> x Hx; apply: H; right.
congr (_ *: _ + _); apply/symP; apply: (proj1 (spread_pd m _)); apply: H; by left.
Qed.

Lemma mix_qf m v (c : list (R * gauss)) : (forall g, In g c -> @pd RF _ (gP (snd g))) -> nonneg c -> v != 0 ->
  Rle 0 (@qf RF _ (\sum_(g <- c) fst g *: spread m (snd g)) v) /\
  (Rlt 0 (total c) -> Rlt 0 (@qf RF _ (\sum_(g <- c) fst g *: spread m (snd g)) v)).
Proof.
move=> + + v0; elim: c => [|g c IH] H N.
  by rewrite big_nil qfE mulmx0 mul0mx mxE /=; split; [right | move/Rlt_irrefl].
have [H1 H2] : Rle 0 (@qf RF _ (\sum_(g <- c) fst g *: spread m (snd g)) v) /\
  (Rlt 0 (total c) -> Rlt 0 (@qf RF _ (\sum_(g <- c) fst g *: spread m (snd g)) v)).
  by apply: IH => [x Hx|x Hx]; [apply: H; right | apply: N; right].
have Ng : Rle 0 (fst g) by apply: N; left.
have /rltP Hg : 0 < @qf RF _ (spread m (snd g)) v by apply: (proj2 (spread_pd m _)) => //; apply: H; left.
rewrite big_cons qfD qfZ; move: H1 H2 Hg; set A := qf _ v; set B := qf _ v => H1 H2 Hg.
have H3 : Rle 0 (Rmult (fst g) B) by apply: Rmult_le_pos => //; left.
split; first exact: Rplus_le_le_0_compat.
move=> /= Ht; case: (Rle_lt_or_eq_dec _ _ Ng) => Hw.
  by apply: Rplus_lt_le_0_compat => //; apply: Rmult_lt_0_compat.
by apply: Rplus_le_lt_0_compat => //; apply: H2; move: Ht; rewrite -Hw Rplus_0_l.
Qed.

Lemma mixture_pd c : nonneg c -> Rlt 0 (total c) -> (forall g, In g c -> @pd RF _ (gP (snd g))) -> @pd RF _ (mixcov c).
Proof.
move=> N Ht H; rewrite mixcovE; split; first by apply/symP; apply: sym_sum.
by move=> v v0; apply/rltP; apply: (proj2 (mix_qf _ H N v0)).
Qed.

(** The filter steps. *)
Section Steps.
Variable BB : Type.
Variables ll2ne ne2ll : point -> point -> point.
Variable gbox : gauss -> aabb.
Variable bof : list (R * gauss) -> BB.
Variable bll : point -> BB -> BB.
Variables rlo rhi : rep -> point.
Notation op := (gauss_ops ll2ne ne2ll gbox bof bll rlo rhi).

Lemma gauss_preserved : preserved good_model good_report op good_gauss.
Proof.
split=> //=.
- move=> [pS q|pS Q] dT g /= Hm Hd Hg.
    apply: pd_addr; last exact: cvQ_psd.
    exact: (pd_conj (cvF_inv dT) Hg).
  rewrite /good_gauss /= ; apply: pd_addr => //; apply: (@pd_conj RF _ _ 1%:M 1%:M) => //; exact: mulmx1.
- by move=> z g [Hz _] Hg; exact: (@post_pd RF Rtrigo_def.exp R_sqrt.sqrt Rtrigo1.PI 4 2 obs (as_gaussian g) (as_report z) Hg Hz).
- by move=> z [H1 H2]; apply: pd_diag.
Qed.

Lemma gauss_sound : sound_ops op.
Proof.
split; [|split].
- move=> z g; apply: Rmult_le_pos; [left; exact: exp_pos | exact: sqrt_pos].
- move=> z; exact: cond_pos.
- by move=> z; repeat split; eexists.
Qed.
End Steps.
