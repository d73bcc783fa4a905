From mathcomp Require Import all_ssreflect ssralg ssrnum zmodp matrix mxalgebra.
Set Implicit Arguments. Unset Strict Implicit. Unset Printing Implicit Defensive.
From Verif Require Import Kalman KalmanSpec.
Import GRing.Theory Num.Theory Order.Theory.
Local Open Scope ring_scope.

Section Forms.
Variable F : realFieldType.

Lemma qfE n (A : 'M[F]_n) v : qf A v = (v^T *m A *m v) 0 0.
Proof.
rewrite /qf mxE exchange_big /=; apply: eq_bigr => j _.
by rewrite mxE mulr_suml; apply: eq_bigr => i _; rewrite !mxE.
Qed.

Lemma symP n (A : 'M[F]_n) : (forall i j, A i j = A j i) <-> A^T = A.
Proof.
split=> [H|H i j]; first by apply/matrixP => i j; rewrite mxE.
by rewrite -[in LHS]H mxE.
Qed.

Lemma qfD n (A B : 'M[F]_n) v : qf (A + B) v = qf A v + qf B v.
Proof. by rewrite !qfE mulmxDr mulmxDl mxE. Qed.

Lemma qf_conj n m (A : 'M[F]_n) (G : 'M[F]_(m, n)) v : qf (G *m A *m G^T) v = qf A (G^T *m v).
Proof. by rewrite !qfE trmx_mul trmxK !mulmxA. Qed.

Lemma qf0 n (A : 'M[F]_n) : qf A 0 = 0.
Proof. by rewrite qfE mulmx0 mxE. Qed.

Lemma pd_psd n (A : 'M[F]_n) : pd A -> psd A.
Proof.
case=> Hs Hp; split=> // v; case: (eqVneq v 0) => [->|/Hp /ltW //]; by rewrite qf0.
Qed.

Lemma pd_unit n (A : 'M[F]_n) : pd A -> A \in unitmx.
Proof.
case=> /symP Hs Hp; rewrite unitmxE unitfE; apply/negP => /det0P [u u0 uA].
have : u^T != 0 by apply: contraNneq u0 => E; rewrite -[u]trmxK E trmx0.
by move/Hp; rewrite qfE trmxK uA mul0mx mxE ltxx.
Qed.

Lemma psd_addl n (A B : 'M[F]_n) : psd A -> psd B -> psd (A + B).
Proof.
move=> [Ha Pa] [Hb Pb]; split=> [i j|v]; first by rewrite !mxE Ha Hb.
by rewrite qfD addr_ge0.
Qed.

Lemma psd_pd n (A B : 'M[F]_n) : psd A -> pd B -> pd (A + B).
Proof.
move=> [Ha Pa] [Hb Pb]; split=> [i j|v v0]; first by rewrite !mxE Ha Hb.
by rewrite qfD ltr_paddl // Pb.
Qed.

Lemma psd_conj n m (A : 'M[F]_n) (G : 'M[F]_(m, n)) : psd A -> psd (G *m A *m G^T).
Proof.
move=> [/symP Ha Pa]; split=> [|v]; last by rewrite qf_conj.
by apply/symP; rewrite !trmx_mul trmxK Ha mulmxA.
Qed.

Lemma inv_sym n (A : 'M[F]_n) : A^T = A -> (invmx A)^T = invmx A.
Proof. by move=> E; rewrite trmx_inv E. Qed.

Lemma pd_inv n (A : 'M[F]_n) : pd A -> pd (invmx A).
Proof.
move=> HA; have U := pd_unit HA; case: HA => /symP Hs Hp.
have Hi := inv_sym Hs.
split=> [|v v0]; first by apply/symP.
have -> : qf (invmx A) v = qf A (invmx A *m v).
  by rewrite !qfE trmx_mul Hi -!mulmxA (mulmxA A) mulmxV // mul1mx.
apply: Hp; apply: contraNneq v0 => E.
by rewrite -(mul1mx v) -(mulmxV U) -mulmxA E mulmx0.
Qed.

(** The determinant of a positive definite matrix is positive. *)
Lemma pd_det n (A : 'M[F]_n) : pd A -> 0 < \det A.
Proof.
elim: n A => [|n IH] A; first by rewrite det_mx00 ltr01.
move=> HA; have [/symP Hs Hp] := HA.
pose A' : 'M[F]_(1 + n) := A.
have As : A'^T = A' by exact: Hs.
have HpA (v : 'cV[F]_(1 + n)) : v != 0 -> 0 < qf A' v by exact: Hp.
pose a := ulsubmx A'; pose b := dlsubmx A'; pose d := drsubmx A'.
have Eur : ursubmx A' = b^T by rewrite /b trmx_dlsub As.
have EA : A' = block_mx a b^T b d by rewrite -Eur submxK.
have a0 : 0 < a 0 0.
  have v0 : (col_mx (1%:M : 'M[F]_1) (0 : 'cV[F]_n) : 'cV[F]_(1 + n)) != 0.
    apply/negP => /eqP/matrixP/(_ (lshift n 0) 0); rewrite col_mxEu !mxE /=.
    by apply/eqP; exact: oner_neq0.
  have := HpA _ v0; rewrite qfE EA tr_col_mx trmx1 trmx0.
  by rewrite mul_row_block mul_row_col !mul1mx !mul0mx !addr0 mulmx1 mulmx0 addr0.
have Ea : a = (a 0 0)%:M by rewrite [LHS]mx11_scalar.
have Ua : a \in unitmx by rewrite Ea unitmxE ?det_scalar1 ?unitfE ?gt_eqF.
pose s := d - b *m invmx a *m b^T.
have Ef : A' = block_mx 1%:M 0 (b *m invmx a) 1%:M *m block_mx a b^T 0 s.
  rewrite mulmx_block !mul1mx !mul0mx !addr0 -[b *m _ *m a]mulmxA mulVmx // mulmx1.
  by rewrite /s addrC subrK EA.
have -> : \det A = \det A' by [].
rewrite Ef det_mulmx det_lblock det_ublock !det1 !mul1r.
have -> : \det a = a 0 0 by rewrite {1}Ea det_scalar1.
apply: mulr_gt0 => //; apply: IH.
have Hai : (invmx a)^T = invmx a by apply: inv_sym; rewrite Ea tr_scalar_mx.
have Hd : d^T = d by rewrite /d trmx_drsub As.
split.
  by apply/symP; rewrite /s linearB /= Hd !trmx_mul trmxK Hai mulmxA.
move=> v v0.
pose u : 'cV[F]_(1 + n) := col_mx (- (invmx a *m b^T *m v)) v.
have u0 : u != 0.
  apply: contraNneq v0 => E; rewrite -(col_mxKd (- (invmx a *m b^T *m v)) v) -/u E.
  by rewrite linear0.
have -> : qf s v = qf A' u; last by exact: HpA.
rewrite !qfE EA /u tr_col_mx mul_row_block mul_row_col.
set t := invmx a *m b^T *m v.
have Et : t^T = v^T *m b *m invmx a by rewrite /t !trmx_mul trmxK Hai mulmxA.
have -> : (- t)^T = - (v^T *m b *m invmx a) by rewrite -Et; exact: linearN.
rewrite !mulNmx.
have -> : v^T *m b *m invmx a *m a = v^T *m b by rewrite -mulmxA mulVmx // mulmx1.
rewrite addNr mul0mx add0r; congr (fun_of_matrix _ 0 0).
by congr (_ *m v); rewrite /s mulmxBr addrC !mulmxA.
Qed.
End Forms.
