(** C44, C45: the Kalman filter step of a Gaussian component. *)
From Coq Require Import Reals.
From mathcomp Require Import all_ssreflect ssralg ssrnum zmodp matrix mxalgebra rat.
Set Implicit Arguments. Unset Strict Implicit. Unset Printing Implicit Defensive.
From Verif Require Import Kalman KalmanSpec KalmanProofs KalmanMain KalmanReal RField KalmanWitness.
Import GRing.Theory Num.Theory Order.Theory.
Local Open Scope ring_scope.

(** Prediction. *)
Theorem C44_prediction (F : realFieldType) n (A Q : 'M[F]_n) (g : gaussian F n) :
  psd (cov g) -> psd Q -> psd (cov (linear_update A Q g)).
Proof. exact: linear_psd. Qed.
Print Assumptions C44_prediction.

Example C44_prediction_example :
  psd (cov (g0 [realFieldType of rat])) /\ psd (1%:M : 'M[rat]_2) /\
  cov (g0 [realFieldType of rat]) 0 1 = 1.
Proof. by split; [exact/pd_psd/g0_pd | split; [exact/pd_psd/one_pd | rewrite mxE]]. Qed.

(** Correction: the inverted matrix is positive definite, so it has the inverse the
    program computes; the new covariance is positive semi-definite and below the
    old one. *)
Theorem C44_correction (F : realFieldType) (expf sqrtf : F -> F) (pi : F) n m
  (H : 'M[F]_(m, n)) (pD : F) (z : report F m) (g : gaussian F n) :
  psd (cov g) -> pd (rcov z) ->
  let g' := correct expf sqrtf pi H pD z g in
  pd (innovation H g z) /\ inverse (innovation H g z) (invmx (innovation H g z)) /\
  psd (cov g') /\ psd (cov g - cov g').
Proof. exact: correction. Qed.
Print Assumptions C44_correction.

(** The variance of the measured state drops from 2 to 2/3. *)
Example C44_correction_example (F : realFieldType) expf sqrtf pi :
  psd (cov (g0 F)) /\ pd (rcov (z0 F)) /\ cov (g0 F) 0 0 = 2%:R /\
  cov (correct expf sqrtf pi (H0 F) 1 (z0 F) (g0 F)) 0 0 = 2%:R / 3%:R.
Proof.
split; first exact/pd_psd/g0_pd.
by split; [exact: z0_pd | split; [rewrite mxE | have [] := g0_corrected expf sqrtf pi 1]].
Qed.

(** Any sequence of predictions and corrections. *)
Theorem C44_every_life (F : realFieldType) (expf sqrtf : F -> F) (pi : F) n
  (ss : seq (step F n)) (g : gaussian F n) :
  psd (cov g) ->
  (forall k, (k < size ss)%N ->
     match nth (Predict 0 0) ss k with Predict _ Q => psd Q | Correct _ _ _ z => pd (rcov z) end) ->
  psd (cov (life expf sqrtf pi g ss)).
Proof. exact: life_psd. Qed.
Print Assumptions C44_every_life.

Example C44_every_life_example (F : realFieldType) :
  let ss := [:: Predict 1%:M 1%:M; Correct (H0 F) 1 (z0 F); Predict (const_mx 1) 1%:M] in
  psd (cov (g0 F)) /\
  forall k, (k < size ss)%N ->
    match nth (Predict 0 0) ss k with Predict _ Q => psd Q | Correct _ _ _ z => pd (rcov z) end.
Proof.
split; first exact/pd_psd/g0_pd.
by case=> [|[|[|k]]] //= _; [exact/pd_psd/one_pd | exact: z0_pd | exact/pd_psd/one_pd].
Qed.

(** The corrected covariance is the inverse of the summed information matrices, the
    corrected mean satisfies the normal equations and is the only minimum of the
    summed Mahalanobis distances. *)
Theorem C45_posterior (F : realFieldType) (expf sqrtf : F -> F) (pi : F) n m
  (H : 'M[F]_(m, n)) (pD : F) (z : report F m) (g : gaussian F n) (W : 'M[F]_n) (V : 'M[F]_m) :
  pd (cov g) -> pd (rcov z) -> inverse (cov g) W -> inverse (rcov z) V ->
  let g' := correct expf sqrtf pi H pD z g in
  let D := distance (mean g) W H (rmean z) V in
  inverse (cov g') (W + H^T *m V *m H) /\
  W *m (mean g' - mean g) = H^T *m V *m (rmean z - H *m mean g') /\
  forall y, y != mean g' -> D (mean g') < D y.
Proof. exact: posterior. Qed.
Print Assumptions C45_posterior.

Example C45_posterior_example (F : realFieldType) expf sqrtf pi :
  pd (cov (g0 F)) /\ pd (rcov (z0 F)) /\ inverse (cov (g0 F)) (invmx (cov (g0 F))) /\
  inverse (rcov (z0 F)) 1%:M /\
  mean (correct expf sqrtf pi (H0 F) 1 (z0 F) (g0 F)) = const_mx 2%:R.
Proof.
split; first exact: g0_pd.
split; first exact: z0_pd.
split; first by apply: inverse_inv; apply: pd_unit; exact: g0_pd.
split; first by split; rewrite mulmx1.
have [_ [E0 E1]] := g0_corrected expf sqrtf pi 1.
apply/matrixP => i j; rewrite [RHS]mxE ord1.
by case: (unliftP 0 i) => [k ->|->]; rewrite // ord1 -E1; congr (mean _ _ _); exact: val_inj.
Qed.

(** Over the real numbers: the weighted density of the corrected component is prior
    times detection probability times measurement likelihood over clutter density,
    at every state. *)
Theorem C45_bayes n m (H : 'M[R]_(m, n)) (pD : R) (z : report R_realFieldType m)
  (g : gaussian R_realFieldType n) (W U : 'M[R]_n) (V : 'M[R]_m) (y : 'cV[R]_n) :
  let g' := correct Rtrigo_def.exp R_sqrt.sqrt Rtrigo1.PI H pD z g in
  let normal := normal Rtrigo_def.exp R_sqrt.sqrt Rtrigo1.PI in
  pd (cov g) -> pd (rcov z) -> inverse (cov g) W -> inverse (rcov z) V -> inverse (cov g') U ->
  weight g' * normal n (mean g') U y
  = weight g * normal n (mean g) W y * (pD * normal m (H *m y) V (rmean z)) / kappa z.
Proof. exact: bayes_real. Qed.
Print Assumptions C45_bayes.

Example C45_bayes_example :
  let F := R_realFieldType in
  let P' := cov (correct Rtrigo_def.exp R_sqrt.sqrt Rtrigo1.PI (H0 F) 1 (z0 F) (g0 F)) in
  pd (cov (g0 F)) /\ pd (rcov (z0 F)) /\ inverse (cov (g0 F)) (invmx (cov (g0 F))) /\
  inverse (rcov (z0 F)) 1%:M /\ inverse P' (invmx P').
Proof.
have HP := @g0_pd R_realFieldType; have HR := @z0_pd R_realFieldType.
split; first exact: HP.
split; first exact: HR.
split; first by apply: inverse_inv; apply: pd_unit; exact: HP.
split; first by split; rewrite mulmx1.
by apply: inverse_inv; apply: pd_unit; exact: post_pd.
Qed.
