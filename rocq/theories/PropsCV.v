(** Properties C46 and C67: the constant velocity model. *)
From Coq Require Import List Arith Reals Lia Lra.
Import ListNotations.
From Verif Require Import Scalar Metric CV CVSpec CVProofs.
Local Open Scope R_scope.

(** C46.  Predicting from t0 to t1 and on to t2 is predicting from t0 to t2.  The
    times may come in any order unless the survival probability is 0. *)
Theorem C46_split_prediction : forall pS q tscale t0 t1 t2 r pdf,
  0 <= pS -> tscale <> 0 ->
  (0 < pS \/ (0 <= (t1 - t0) / tscale /\ 0 <= (t2 - t1) / tscale)) ->
  same_target (cv pS q tscale t2 t1 (cv pS q tscale t1 t0 (mkT (Fin r) pdf)))
              (cv pS q tscale t2 t0 (mkT (Fin r) pdf)).
Proof. exact cv_split. Qed.
Print Assumptions C46_split_prediction.

Theorem C46_zero_interval : forall pS q tscale t0 r pdf,
  same_target (cv pS q tscale t0 t0 (mkT (Fin r) pdf)) (mkT (Fin r) pdf).
Proof. exact cv_idle. Qed.
Print Assumptions C46_zero_interval.

Example C46_case : 0 <= 9/10 /\ 2 <> 0 /\ (0 < 9/10 \/ (0 <= (3 - 1) / 2 /\ 0 <= (4 - 3) / 2)) /\
  gx (linear_update (cv_F 1) (cv_Q 1 1) (mkG 1 (fun i => INR i) (fun i j => if Nat.eqb i j then 1 else 0))) 0%nat = 2.
Proof.
  split; [lra|]. split; [lra|]. split; [left; lra|].
  unfold linear_update, mulv, cv_F, rows, sum4. cbn. lra.
Qed.

(** C67.  The process noise is a covariance matrix exactly if q and the interval
    do not have opposite signs, ... *)
Theorem C67_process_noise : forall q dT, psd (cv_Q q dT) <-> 0 <= q * dT.
Proof. exact cv_Q_psd. Qed.
Print Assumptions C67_process_noise.

(** ... and a prediction forwards in time keeps every covariance one. *)
Theorem C67_forward_prediction_partial : forall pS q tscale time last t,
  0 <= q -> 0 <= (time - last) / tscale -> dev_ok t -> dev_ok (cv pS q tscale time last t).
Proof. exact cv_dev. Qed.
Print Assumptions C67_forward_prediction_partial.

Theorem C67_constant_model : forall pS Q t, psd Q -> dev_ok t -> dev_ok (nm pS Q t).
Proof. exact nm_dev. Qed.
Print Assumptions C67_constant_model.

Example C67_case : 0 <= 1 /\ 0 <= (3 - 1) / 2 /\ dev_ok (mkT (Fin 1) [g_back]) /\ psd (cv_Q 1 2).
Proof.
  split; [lra|]. split; [lra|]. split; [constructor; [exact back_psd|constructor]|]. apply cv_Q_psd. lra.
Qed.

(** For arbitrary times it is false: nothing stops a prediction from time 2 to
    time 0, which makes the variance of the velocity negative. *)
Theorem C67_any_times_refuted :
  dev_ok (mkT (Fin 1) [g_back]) /\ ~ dev_ok (cv 1 1 1 0 2 (mkT (Fin 1) [g_back])).
Proof. split; [constructor; [exact back_psd|constructor]|exact back_bad]. Qed.
Print Assumptions C67_any_times_refuted.

(** C87.  What the two motion models compute. *)
Theorem C87_constant_velocity : forall pS q tscale time last r pdf, 0 < pS ->
  let dT := (time - last) / tscale in
  let t := cv pS q tscale time last (mkT (Fin r) pdf) in
  t_r t = Fin (r * Rpower pS dT) /\ Forall2 (moved dT q) pdf (t_pdf t).
Proof. exact cv_computes. Qed.
Print Assumptions C87_constant_velocity.

Theorem C87_constant_noise : forall pS Q r pdf,
  t_r (nm pS Q (mkT (Fin r) pdf)) = Fin (r * pS) /\ Forall2 (stayed Q) pdf (t_pdf (nm pS Q (mkT (Fin r) pdf))).
Proof. exact nm_computes. Qed.
Print Assumptions C87_constant_noise.

Theorem C87_predicted_mean : forall x dT a, (a < 2)%nat ->
  cv_predict x dT a = x a + dT * x (a + 2)%nat /\ cv_predict x dT (a + 2)%nat = x (a + 2)%nat.
Proof. exact predict_moved. Qed.
Print Assumptions C87_predicted_mean.

Example C87_case :
  let g := mkG 1 (fun i => INR i) (fun i j => if Nat.eqb i j then 1 else 0) in
  let t := cv (1/2) 3 2 4 0 (mkT (Fin (8/10)) [g]) in
  t_r t = Fin (8/10 * Rpower (1/2) ((4 - 0) / 2)) /\
  exists g', t_pdf t = [g'] /\ gx g' 0%nat = 4 /\ gP g' 0%nat 0%nat = 13 /\ gP g' 0%nat 2%nat = 8.
Proof.
  intros g t. destruct (cv_computes (1/2) 3 2 4 0 (8/10) [g] ltac:(lra)) as [H1 H2]. split; [exact H1|].
  eexists. split; [reflexivity|].
  unfold linear_update, addm, mulm, mulv, trm, cv_F, cv_Q, rows, sum4; cbn. repeat split; lra.
Qed.
