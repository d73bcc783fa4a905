From Coq Require Import Reals Lra.
From mathcomp Require Import all_ssreflect ssralg ssrnum zmodp matrix mxalgebra.
Set Implicit Arguments. Unset Strict Implicit. Unset Printing Implicit Defensive.
From Verif Require Import Kalman KalmanSpec KalmanProofs KalmanMain RField.
Import GRing.Theory Num.Theory Order.Theory.
Local Open Scope ring_scope.

Lemma correction (F : realFieldType) (expf sqrtf : F -> F) (pi : F) n m
  (H : 'M[F]_(m, n)) (pD : F) (z : report F m) (g : gaussian F n) :
  psd (cov g) -> pd (rcov z) ->
  let g' := correct expf sqrtf pi H pD z g in
  pd (innovation H g z) /\ inverse (innovation H g z) (invmx (innovation H g z)) /\
  psd (cov g') /\ psd (cov g - cov g').
Proof.
move=> HP HR /=; split; first exact: innovation_pd.
split; first by apply: inverse_inv; apply: correct_unit.
by split; [exact: (correct_psd expf sqrtf pi H HP HR pD) | exact: (correct_shrinks expf sqrtf pi H HP HR pD)].
Qed.

Lemma posterior (F : realFieldType) (expf sqrtf : F -> F) (pi : F) n m
  (H : 'M[F]_(m, n)) (pD : F) (z : report F m) (g : gaussian F n) (W : 'M[F]_n) (V : 'M[F]_m) :
  pd (cov g) -> pd (rcov z) -> inverse (cov g) W -> inverse (rcov z) V ->
  let g' := correct expf sqrtf pi H pD z g in
  let D := distance (mean g) W H (rmean z) V in
  inverse (cov g') (W + H^T *m V *m H) /\
  W *m (mean g' - mean g) = H^T *m V *m (rmean z - H *m mean g') /\
  forall y, y != mean g' -> D (mean g') < D y.
Proof.
move=> HP HR /inverseE -> /inverseE -> /=; split.
  by split; [exact: post_info | exact: info_post].
by split; [exact: normal_equations | exact: post_minimum_unique].
Qed.

Lemma bayes_real n m (H : 'M[R]_(m, n)) (pD : R) (z : report R_realFieldType m)
  (g : gaussian R_realFieldType n) (W U : 'M[R]_n) (V : 'M[R]_m) (y : 'cV[R]_n) :
  let g' := correct Rtrigo_def.exp R_sqrt.sqrt Rtrigo1.PI H pD z g in
  let normal := normal Rtrigo_def.exp R_sqrt.sqrt Rtrigo1.PI in
  pd (cov g) -> pd (rcov z) -> inverse (cov g) W -> inverse (rcov z) V -> inverse (cov g') U ->
  weight g' * normal n (mean g') U y
  = weight g * normal n (mean g) W y * (pD * normal m (H *m y) V (rmean z)) / kappa z.
Proof.
move=> g' no HP HR /inverseE -> /inverseE -> /inverseE ->; apply: bayes => //.
- exact: exp_plus.
- by move=> a b /rleP Ha /rleP Hb; apply: sqrt_mult.
- by apply/rltP; exact: PI_RGT_0.
Qed.
