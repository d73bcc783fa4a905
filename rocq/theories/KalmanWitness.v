(** A correlated prior on two states and a measurement of the first. *)
From mathcomp Require Import all_ssreflect ssralg ssrnum zmodp matrix mxalgebra.
Set Implicit Arguments. Unset Strict Implicit. Unset Printing Implicit Defensive.
From Verif Require Import Kalman KalmanSpec KalmanProofs KalmanMain.
Import GRing.Theory Num.Theory Order.Theory.
Local Open Scope ring_scope.

Section Witness.
Variable F : realFieldType.

(** Covariance ((2, 1), (1, 2)). *)
Definition g0 : gaussian F 2 :=
  Gaussian (\col_i (i%:R)) (\matrix_(i, j) (if i == j then 2%:R else 1)) 2%:R^-1.
Definition z0 : report F 1 := Report (const_mx 3%:R) 1%:M 2%:R.
Definition H0 : 'M[F]_(1, 2) := delta_mx 0 0.

Lemma mxD k l (A B : 'M[F]_(k, l)) i j : (A + B) i j = A i j + B i j.
Proof. by rewrite !mxE. Qed.

Lemma one_pd n : pd (1%:M : 'M[F]_n).
Proof.
split=> [i j|v v0]; first by rewrite !mxE eq_sym.
rewrite qfE mulmx1 mxE.
have E i : v^T 0 i * v i 0 = v i 0 ^+ 2 by rewrite mxE expr2.
rewrite (eq_bigr _ (fun i _ => E i)) lt_def; apply/andP; split; last first.
  by apply: sumr_ge0 => i _; exact: sqr_ge0.
apply: contraNneq v0 => S0; apply/eqP/matrixP => i j; rewrite mxE ord1.
have /eqP : v i 0 ^+ 2 = 0 by apply: (psumr_eq0P _ S0) => // k _; exact: sqr_ge0.
by rewrite sqrf_eq0 => /eqP.
Qed.

Lemma g0_pd : pd (cov g0).
Proof.
have -> : cov g0 = const_mx 1 *m 1%:M *m (const_mx 1 : 'M[F]_(2, 1))^T + 1%:M.
  apply/matrixP => i j; rewrite mulmx1 !mxE big_ord1 !mxE mulr1.
  by case: eqP => _; rewrite ?addr0.
by apply: psd_pd; [apply: psd_conj; apply: pd_psd; exact: one_pd | exact: one_pd].
Qed.

Lemma z0_pd : pd (rcov z0). Proof. exact: one_pd. Qed.

Lemma g0_innovation : innovation H0 g0 z0 = (3%:R)%:M.
Proof.
apply/matrixP => i j; rewrite !ord1 /innovation !mxE !big_ord_recl big_ord0 !mxE.
rewrite !big_ord_recl !big_ord0 !mxE /=.
by rewrite !(mulr0, mul0r, mulr1, mul1r, addr0, add0r) -(natrD F 2 1).
Qed.

Lemma g0_gain i j : gain H0 g0 z0 i j = (if i == 0 then 2%:R else 1) / 3%:R.
Proof.
rewrite /gain g0_innovation invmx_scalar mul_mx_scalar mxE mulrC; congr (_ / _).
rewrite mxE !big_ord_recl big_ord0 !mxE !ord1 /=.
by rewrite !(mulr0, mulr1, addr0).
Qed.

Variables expf sqrtf : F -> F.
Variables pi pD : F.

(** The variance of the measured state drops from 2 to 2/3; the measured mean moves
    from 0 to 2 and the other from 1 to 2. *)
Lemma g0_corrected : let g' := correct expf sqrtf pi H0 pD z0 g0 in
  cov g' 0 0 = 2%:R / 3%:R /\ mean g' 0 0 = 2%:R /\ mean g' 1 0 = 2%:R.
Proof.
have n3 : (3%:R : F) != 0 by rewrite pnatr_eq0.
have Em : (rmean z0 - H0 *m mean g0) 0 0 = 3%:R.
  rewrite mxB !mxE !big_ord_recl big_ord0 !mxE /=.
  by rewrite !(mulr0, mul0r, addr0) subr0.
have Eg (i : 'I_2) : (gain H0 g0 z0 *m (rmean z0 - H0 *m mean g0)) i 0 = (if i == 0 then 2%:R else 1).
  by rewrite mxE big_ord1 g0_gain Em divfK.
have Ec : (gain H0 g0 z0 *m H0 *m cov g0) 0 0 = 2%:R / 3%:R * 2%:R.
  rewrite mxE !big_ord_recl big_ord0 !mxE !big_ord1 !g0_gain !mxE /=.
  by rewrite !(mulr0, mul0r, mulr1, addr0).
split; first rewrite mxB Ec mxE eqxx; last first.
  split; rewrite /correct; cbn [mean]; rewrite mxD Eg mxE /=; first by rewrite add0r.
  by rewrite -(natrD F 1 1).
apply: (mulIf n3); rewrite divfK // mulrBl mulrAC divfK // -!natrM.
by rewrite -natrB.
Qed.
End Witness.
