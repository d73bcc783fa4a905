From mathcomp Require Import all_ssreflect ssralg ssrnum zmodp matrix mxalgebra.
Set Implicit Arguments. Unset Strict Implicit. Unset Printing Implicit Defensive.
From Verif Require Import Kalman KalmanSpec KalmanProofs.
Import GRing.Theory Num.Theory Order.Theory.
Local Open Scope ring_scope.

Section Step.
Variable F : realFieldType.
Variables expf sqrtf : F -> F.
Variable pi : F.

Definition bf k l (u : 'cV[F]_k) (A : 'M[F]_(k, l)) (v : 'cV[F]_l) : F := (u^T *m A *m v) 0 0.

Lemma qf_bf k (A : 'M[F]_k) v : qf A v = bf v A v.
Proof. by rewrite qfE. Qed.

Lemma mxB k l (A B : 'M[F]_(k, l)) i j : (A - B) i j = A i j - B i j.
Proof. by rewrite !mxE. Qed.

Lemma bfBl k l (u v : 'cV[F]_k) (A : 'M[F]_(k, l)) w : bf (u - v) A w = bf u A w - bf v A w.
Proof.
rewrite /bf; have -> : (u - v)^T = u^T - v^T by rewrite linearB.
by rewrite !mulmxBl mxB.
Qed.

Lemma bfBr k l (u : 'cV[F]_k) (A : 'M[F]_(k, l)) v w : bf u A (v - w) = bf u A v - bf u A w.
Proof. by rewrite /bf mulmxBr mxB. Qed.

Lemma bfD k l (u : 'cV[F]_k) (A B : 'M[F]_(k, l)) v : bf u (A + B) v = bf u A v + bf u B v.
Proof. by rewrite /bf mulmxDr mulmxDl mxE. Qed.

Lemma bf_tr k l (u : 'cV[F]_k) (A : 'M[F]_(k, l)) v : bf u A v = bf v A^T u.
Proof. by rewrite /bf -[in LHS](trmxK (u^T *m A *m v)) [in LHS]mxE !trmx_mul trmxK mulmxA. Qed.

Lemma bf_mull k l r (B : 'M[F]_(k, r)) u (A : 'M[F]_(k, l)) v : bf (B *m u) A v = bf u (B^T *m A) v.
Proof. by rewrite /bf trmx_mul !mulmxA. Qed.

Lemma bf_mulr k l r (B : 'M[F]_(l, r)) u (A : 'M[F]_(k, l)) v : bf u A (B *m v) = bf u (A *m B) v.
Proof. by rewrite /bf !mulmxA. Qed.

Lemma qfB k (A : 'M[F]_k) u v : A^T = A -> qf A (u - v) = qf A u - bf u A v *+ 2 + qf A v.
Proof.
move=> As; rewrite !qf_bf bfBl !bfBr (bf_tr v A u) As mulr2n !opprD opprK.
by rewrite !addrA.
Qed.

Lemma linear_psd n (A Q : 'M[F]_n) (g : gaussian F n) :
  psd (cov g) -> psd Q -> psd (cov (linear_update A Q g)).
Proof. by move=> HP HQ; apply: psd_addl => //; apply: psd_conj. Qed.

Section Correct.
Variables (n m : nat) (H : 'M[F]_(m, n)) (g : gaussian F n) (z : report F m).
Let P := cov g.
Let R := rcov z.
Let S := innovation H g z.
Let K := gain H g z.

Section Psd.
Hypothesis HP : psd P.
Hypothesis HR : pd R.

Lemma innovation_pd : pd S.
Proof. by apply: psd_pd => //; apply: psd_conj. Qed.

Let US : S \in unitmx := pd_unit innovation_pd.

Let Psym : P^T = P.
Proof. by apply/symP; case: HP. Qed.
Let Rsym : R^T = R.
Proof. by apply/symP; case: HR. Qed.
Let Ssym : S^T = S.
Proof. by apply/symP; case: innovation_pd. Qed.
Let Sisym : (invmx S)^T = invmx S.
Proof. exact: inv_sym. Qed.

Lemma gain_S : K *m S = P *m H^T.
Proof. by rewrite /K /gain -/S -/P -mulmxA mulVmx // mulmx1. Qed.

Lemma gain_tr : K^T = invmx S *m H *m P.
Proof. by rewrite /K /gain -/S -/P !trmx_mul trmxK Sisym Psym mulmxA. Qed.

Lemma reduction : K *m H *m P = (P *m H^T) *m invmx S *m (P *m H^T)^T.
Proof. by rewrite trmx_mul trmxK Psym /K /gain -/S -/P !mulmxA. Qed.

(** The Joseph form. *)
Lemma joseph : P - K *m H *m P = (1%:M - K *m H) *m P *m (1%:M - K *m H)^T + K *m R *m K^T.
Proof.
have E : K *m H *m P *m (K *m H)^T + K *m R *m K^T = P *m (K *m H)^T.
  rewrite trmx_mul !mulmxA -!mulmxDl -gain_S /S /innovation -/P -/R.
  by rewrite mulmxDr !mulmxA.
have -> : (1%:M - K *m H) *m P *m (1%:M - K *m H)^T = P - K *m H *m P - (P *m (K *m H)^T - K *m H *m P *m (K *m H)^T).
  have -> : (1%:M - K *m H)^T = 1%:M - (K *m H)^T by rewrite linearB /= trmx1.
  by rewrite mulmxBr mulmx1 mulmxBl mul1mx mulmxBl.
by rewrite -E [X in _ - X + _]addrAC subrr add0r subrK.
Qed.

Lemma correct_unit : S \in unitmx.
Proof. exact: US. Qed.

Lemma correct_psd pD : psd (cov (correct expf sqrtf pi H pD z g)).
Proof.
rewrite /correct /= -/K -/P joseph; apply: psd_addl; apply: psd_conj => //.
exact: pd_psd.
Qed.

Lemma correct_shrinks pD : psd (P - cov (correct expf sqrtf pi H pD z g)).
Proof.
rewrite /correct /= -/K -/P opprB addrC subrK reduction.
by apply: psd_conj; apply: pd_psd; apply: pd_inv; exact: innovation_pd.
Qed.
End Psd.

Section Pd.
Hypothesis HP : pd P.
Hypothesis HR : pd R.

Let US : S \in unitmx := pd_unit (innovation_pd (pd_psd HP) HR).
Let UP : P \in unitmx := pd_unit HP.
Let UR : R \in unitmx := pd_unit HR.
Let Psym : P^T = P.
Proof. by apply/symP; case: HP. Qed.
Let Ssym : S^T = S.
Proof. by apply/symP; case: (innovation_pd (pd_psd HP) HR). Qed.

(** The information matrix of the posterior. *)
Definition info : 'M[F]_n := invmx P + H^T *m invmx R *m H.
Let P' := P - K *m H *m P.

Lemma KS : K *m S = P *m H^T.
Proof. exact: gain_S (pd_psd HP) HR. Qed.

Lemma KHPH : K *m H *m P *m H^T = P *m H^T - K *m R.
Proof. by rewrite -KS /S /innovation -/P -/R mulmxDr !mulmxA addrK. Qed.

(** The gain in terms of the posterior covariance. *)
Lemma gain_post : P' *m (H^T *m invmx R) = K.
Proof.
rewrite /P' mulmxBl !mulmxA KHPH mulmxBl -[K *m R *m _]mulmxA mulmxV // mulmx1.
by rewrite opprB addrC subrK.
Qed.

Lemma post_info : P' *m info = 1%:M.
Proof.
rewrite /info mulmxDr (mulmxA P' (H^T *m invmx R)) gain_post.
rewrite /P' mulmxBl mulmxV // -(mulmxA (K *m H)) mulmxV // mulmx1.
by rewrite subrK.
Qed.

Lemma info_post : info *m P' = 1%:M.
Proof. exact: mulmx1C post_info. Qed.

Lemma info_pd : pd info.
Proof.
rewrite /info addrC; apply: psd_pd; last exact: pd_inv.
have -> : H^T *m invmx R *m H = H^T *m invmx R *m (H^T)^T by rewrite trmxK.
by apply: psd_conj; apply: pd_psd; apply: pd_inv.
Qed.

Lemma inv_post : invmx P' = info.
Proof.
have U := (mulmx1_unit post_info).1.
by rewrite -[LHS]mulmx1 -post_info mulmxA mulVmx // mul1mx.
Qed.

Lemma post_pd pD : pd (cov (correct expf sqrtf pi H pD z g)).
Proof.
rewrite /correct /= -/K -/P -/P'.
have U := (mulmx1_unit post_info).1.
rewrite -(invmxK P') inv_post; apply: pd_inv; exact: info_pd.
Qed.

Lemma info_gain : info *m K = H^T *m invmx R.
Proof. by rewrite -gain_post mulmxA info_post mul1mx. Qed.

Let dz := rmean z - H *m mean g.
Let x' := mean g + K *m dz.

(** Sum of the squared Mahalanobis distances of a state to the prior and of its
    image to the measurement. *)
Definition mahalanobis (y : 'cV[F]_n) : F :=
  qf (invmx P) (y - mean g) + qf (invmx R) (rmean z - H *m y).

Let Isym : info^T = info.
Proof. by apply/symP; case: info_pd. Qed.
Let Risym : (invmx R)^T = invmx R.
Proof. by apply: inv_sym; apply/symP; case: HR. Qed.
Let Pisym : (invmx P)^T = invmx P.
Proof. exact: inv_sym. Qed.

Lemma split_Rinv : invmx R = K^T *m (H^T *m invmx R) + invmx S.
Proof.
rewrite (gain_tr (pd_psd HP) HR) -/S -/P.
have {2}-> : invmx S = invmx S *m R *m invmx R by rewrite -mulmxA mulmxV // mulmx1.
have -> : invmx S *m H *m P *m (H^T *m invmx R) + invmx S *m R *m invmx R
   = invmx S *m S *m invmx R.
  by rewrite {4}/S /innovation -/P -/R mulmxDr mulmxDl !mulmxA.
by rewrite mulVmx // mul1mx.
Qed.

Lemma square y : mahalanobis y = qf info (y - x') + qf (invmx S) dz.
Proof.
pose u := y - mean g.
have -> : y - x' = u - K *m dz by rewrite /x' /u opprD addrA.
have Ez : rmean z - H *m y = dz - H *m u.
  by rewrite /dz /u mulmxBr opprB addrA subrK.
rewrite /mahalanobis -/u Ez.
rewrite (qfB _ _ Isym) (qfB _ _ Risym).
have -> : qf info u = qf (invmx P) u + qf (invmx R) (H *m u).
  by rewrite /info qfD !qf_bf bf_mull bf_mulr.
have -> : bf u info (K *m dz) = bf dz (invmx R) (H *m u).
  by rewrite bf_mulr info_gain bf_mulr bf_tr trmx_mul trmxK Risym.
have -> : qf (invmx R) dz = qf info (K *m dz) + qf (invmx S) dz.
  by rewrite {1}split_Rinv qfD; congr (_ + _); rewrite !qf_bf bf_mulr info_gain bf_mull.
set a := qf (invmx P) u; set b := qf (invmx R) (H *m u); set c := bf _ _ _ *+ 2.
set d := qf info _; set e := qf (invmx S) dz.
rewrite -!addrA; congr (_ + _).
by rewrite [LHS]addrA [RHS]addrA [RHS]addrC (addrC b).
Qed.

Lemma post_minimum y : mahalanobis x' <= mahalanobis y.
Proof.
rewrite !square subrr qf0 add0r ler_addr.
by have [_ ->] := pd_psd info_pd.
Qed.

Lemma post_minimum_unique y : y != x' -> mahalanobis x' < mahalanobis y.
Proof.
move=> ne; rewrite !square subrr qf0 add0r ltr_addr.
by have [_ ->] := info_pd; rewrite // subr_eq0.
Qed.

Lemma normal_equations : invmx P *m (x' - mean g) = H^T *m invmx R *m (rmean z - H *m x').
Proof.
have -> : x' - mean g = K *m dz by rewrite /x' addrC addKr.
have -> : rmean z - H *m x' = dz - H *m K *m dz.
  by rewrite /x' mulmxDr opprD addrA mulmxA.
rewrite [RHS]mulmxBr; apply/eqP; rewrite eq_sym subr_eq; apply/eqP.
have E : info *m K *m dz = H^T *m invmx R *m dz by rewrite info_gain.
by rewrite -E /info !mulmxDl !mulmxA.
Qed.

(** Determinants, from two factorisations of one block matrix. *)
Lemma det_rule : \det S * \det (invmx P) = \det R * \det info.
Proof.
pose M : 'M[F]_(n + m) := block_mx (invmx P) (- H^T) H R.
have E1 : M = block_mx (invmx P) 0 H 1%:M *m block_mx 1%:M (- (P *m H^T)) 0 S.
  rewrite mulmx_block !mulmx1 !mul0mx !mulmx0 !addr0 mulmxN mulmxA mulVmx // !mul1mx.
  by rewrite mulmxN /S /innovation -/P -/R -mulmxA addrA addNr add0r.
have E2 : M = block_mx info (- H^T) 0 R *m block_mx 1%:M 0 (invmx R *m H) 1%:M.
  rewrite mulmx_block !mulmx1 !mul0mx !mulmx0 !add0r (mulmxA R) mulmxV // mul1mx.
  by rewrite mulNmx mulmxA /info addrK.
have := E1; rewrite E2 => /(congr1 (@determinant F (n + m))).
rewrite !det_mulmx !det_lblock !det_ublock !det1 !mulr1 !mul1r => E.
by rewrite mulrC -E mulrC.
Qed.
Section Bayes.
Hypothesis expD : forall a b, expf (a + b) = expf a * expf b.
Hypothesis sqrtM : forall a b, 0 <= a -> 0 <= b -> sqrtf (a * b) = sqrtf a * sqrtf b.
Hypothesis pi0 : 0 < pi.

Lemma two_normals k l (x : 'cV[F]_k) W y (x2 : 'cV[F]_l) W2 y2 : pd W -> pd W2 ->
  normal expf sqrtf pi x W y * normal expf sqrtf pi x2 W2 y2
  = expf (- ((qf W (y - x) + qf W2 (y2 - x2)) / 2%:R))
    * sqrtf (\det W * \det W2 / ((2%:R * pi) ^+ k * (2%:R * pi) ^+ l)).
Proof.
move=> HW HW2; rewrite /normal mulrACA -expD -sqrtM.
- by congr (expf _ * sqrtf _); [rewrite -opprD -mulrDl | rewrite mulrACA invfM].
- by rewrite divr_ge0 ?exprn_ge0 ?mulr_ge0 ?ler0n ?(ltW (pd_det HW)) ?(ltW pi0).
- by rewrite divr_ge0 ?exprn_ge0 ?mulr_ge0 ?ler0n ?(ltW (pd_det HW2)) ?(ltW pi0).
Qed.

Lemma likelihood_normal :
  likelihood expf sqrtf pi dz (invmx S) = normal expf sqrtf pi (H *m mean g) (invmx S) (rmean z).
Proof. by rewrite /likelihood /normal -qfE mulNr. Qed.

Lemma det_inv_rule : \det info * \det (invmx S) = \det (invmx P) * \det (invmx R).
Proof.
have dS : \det S != 0 by rewrite -unitfE -unitmxE.
have dR : \det R != 0 by rewrite -unitfE -unitmxE.
rewrite (det_inv S) (det_inv R); apply: (mulIf dS); apply: (mulIf dR).
by rewrite divfK // [RHS]mulrAC divfK // [LHS]mulrC -det_rule mulrC.
Qed.

Lemma rearrange (w p k a b c d : F) :
  a * b = c * d -> w * (p * b / k) * a = w * c * (p * d) / k.
Proof.
move=> E; have -> : w * (p * b / k) * a = w * p / k * (a * b).
  by rewrite !mulrA -!mulrA; do 2!congr (_ * _); rewrite mulrCA (mulrC b).
rewrite E -!mulrA; congr (_ * _); rewrite [RHS]mulrCA; congr (_ * _).
by rewrite [LHS]mulrC mulrA.
Qed.

Lemma bayes pD y : let g' := correct expf sqrtf pi H pD z g in
  weight g' * normal expf sqrtf pi (mean g') (invmx (cov g')) y
  = weight g * normal expf sqrtf pi (mean g) (invmx P) y
    * (pD * normal expf sqrtf pi (H *m y) (invmx R) (rmean z)) / kappa z.
Proof.
rewrite /= -/K -/P -/dz -/S -/P' -/x' inv_post likelihood_normal.
have E : normal expf sqrtf pi x' info y * normal expf sqrtf pi (H *m mean g) (invmx S) (rmean z)
  = normal expf sqrtf pi (mean g) (invmx P) y * normal expf sqrtf pi (H *m y) (invmx R) (rmean z).
  rewrite !two_normals ?det_inv_rule; try (exact: info_pd || exact: pd_inv).
    by congr (expf (- (_ / _)) * _); rewrite -square.
  exact: pd_inv (innovation_pd (pd_psd HP) HR).
exact: rearrange.
Qed.
End Bayes.
End Pd.
End Correct.
End Step.

Section Life.
Variable F : realFieldType.
Variables expf sqrtf : F -> F.
Variable pi : F.

(** Noise allowed in a step. *)
Definition sound_step n (s : step F n) : Prop :=
  match s with Predict _ Q => psd Q | Correct _ _ _ z => pd (rcov z) end.

Lemma life_psd n (ss : seq (step F n)) (g : gaussian F n) :
  psd (cov g) -> (forall k, (k < size ss)%N -> sound_step (nth (Predict 0 0) ss k)) ->
  psd (cov (life expf sqrtf pi g ss)).
Proof.
elim: ss g => [|s ss IH] g Hg Hs //=; apply: IH => [|k Hk]; last exact: (Hs k.+1).
have := Hs 0%N erefl; case: s {Hs} => [A Q|m H pD z] /= Hn; first exact: linear_psd.
exact: correct_psd.
Qed.

Lemma inverseE n (A B : 'M[F]_n) : inverse A B -> B = invmx A.
Proof.
move=> [E1 E2]; have [U _] := mulmx1_unit E1.
by rewrite -[LHS]mul1mx -(mulVmx U) -mulmxA E1 mulmx1.
Qed.

Lemma inverse_inv n (A : 'M[F]_n) : A \in unitmx -> inverse A (invmx A).
Proof. by move=> U; split; rewrite (mulmxV, mulVmx). Qed.
End Life.
