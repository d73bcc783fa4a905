(** C95, C96: the correction of a Gaussian in IEEE doubles. *)
From Coq Require Import List Reals ZArith Arith.
From Flocq Require Import Core.
From Coq Require Import Floats.
From Verif Require Import FloatBase ClusterFloat KalmanFloat KalmanFloatSpec KalmanFloatWitness PredictFloatWitness KalmanCorrSpec KalmanCorrMain.
Local Open Scope R_scope.

(** The full statement is
      forall sum P V, (forall l, fsums l (sum l)) -> finite4 P -> symmetric4 P -> definite4 P -> definite2 V ->
        symmetric4 (fcov sum P V) /\ definite4 (fcov sum P V)
    It fails, in whatever order sums are added up: one covariance becomes negative
    on the diagonal, another, of ordinary numbers, is no longer symmetric. *)
Theorem C95_double_covariance_refuted :
  (exists P V, finite4 P /\ symmetric4 P /\ definite4 P /\ definite2 V /\
     forall sum, (forall l, fsums l (sum l)) -> val (fcov sum P V 0%nat 0%nat) < 0) /\
  (exists P V, finite4 P /\ symmetric4 P /\ definite4 P /\ definite2 V /\
     forall sum, (forall l, fsums l (sum l)) -> val (fcov sum P V 0%nat 2%nat) < val (fcov sum P V 2%nat 0%nat)).
Proof. exact (conj negative asymmetric). Qed.
Print Assumptions C95_double_covariance_refuted.

(** What holds when the axes are uncorrelated and nothing is tiny or huge: every
    coefficient is within 2^-49 of the exact one, relative to the coefficient before
    the correction; and the result is positive definite, read whole or from its
    lower half, when what the report leaves of the variance is above 2^-45.
    Missing: symmetry (refuted), correlated axes, and nearly exact reports
    (refuted). *)
Theorem C95_double_covariance_partial : forall sum P V,
  (forall l, fsums l (sum l)) -> finite4 P -> symmetric4 P -> definite4 P -> definite2 V ->
  separate4 P -> separate2 V -> (forall i, (i < 4)%nat -> medium (val (P i i))) -> (forall i, (i < 2)%nat -> medium (val (V i i))) ->
  (forall i j, (i < 4)%nat -> (j < 4)%nat -> medium0 (val (P i j))) ->
  (finite4 (fcov sum P V) /\ separate4 (fcov sum P V) /\
   (forall D, inverts2 P V D -> forall i j, (i < 4)%nat -> (j < 4)%nat ->
      Rabs (val (fcov sum P V i j) - (val (P i j) - kshrink P D i j)) <= bpow radix2 (-49) * Rabs (val (P i j)))) /\
  (clear P V 0 -> clear P V 1 -> definite4 (fcov sum P V) /\ definite4 (lower (fcov sum P V))).
Proof. exact double_covariance. Qed.
Print Assumptions C95_double_covariance_partial.

(** Position variance 3, velocity variance 20, covariance 1; a report of variance 2. *)
Example corrected_in_doubles : forall sum, (forall l, fsums l (sum l)) ->
  definite4 (fcov sum (axes 3 1 20) (noise 2)) /\ definite4 (lower (fcov sum (axes 3 1 20) (noise 2))).
Proof.
  intros sum Hs. destruct ordinary as ((A1 & A2 & A3 & A4 & A5 & A6 & A7 & A8 & A9) & C0 & C1 & _).
  destruct (C95_double_covariance_partial sum _ _ Hs A1 A2 A3 A4 A5 A6 A7 A8 A9) as [_ H]. exact (H C0 C1).
Qed.

Theorem C96_double_mean : forall sum x P z V,
  (forall l, fsums l (sum l)) -> finite4 P -> symmetric4 P -> definite4 P -> definite2 V ->
  separate4 P -> separate2 V -> (forall i, (i < 4)%nat -> medium (val (P i i))) -> (forall i, (i < 2)%nat -> medium (val (V i i))) ->
  (forall i j, (i < 4)%nat -> (j < 4)%nat -> medium0 (val (P i j))) ->
  (forall i, (i < 4)%nat -> fin (x i) /\ Rabs (val (x i)) <= bpow radix2 200) ->
  (forall i, (i < 2)%nat -> fin (z i) /\ Rabs (val (z i)) <= bpow radix2 200) ->
  forall D, inverts2 P V D -> forall i, (i < 4)%nat -> fin (fmean sum x P z V i) /\
    Rabs (val (fmean sum x P z V i) - (val (x i) + kmove x P z D i)) <=
      bpow radix2 (-53) * Rabs (val (x i)) + bpow radix2 (-49) * Rabs (kmove x P z D i) + bpow radix2 (-1074).
Proof. exact double_mean. Qed.
Print Assumptions C96_double_mean.

(** The same target at 3, 0 with velocity 1, 20; a report at 31, 5. *)
Example moved_in_doubles : forall sum, (forall l, fsums l (sum l)) -> forall i, (i < 4)%nat ->
  fin (fmean sum (fun i => nth i (3 :: 0 :: 1 :: 20 :: nil)%float 0%float) (axes 3 1 20) (fun i => nth i (31 :: 5 :: nil)%float 0%float) (noise 2) i).
Proof.
  intros sum Hs i Hi. destruct ordinary as ((A1 & A2 & A3 & A4 & A5 & A6 & A7 & A8 & A9) & _ & _ & HD).
  refine (proj1 (C96_double_mean sum _ _ _ _ Hs A1 A2 A3 A4 A5 A6 A7 A8 A9 _ _ _ HD i Hi)).
  - exact moved_state.
  - exact moved_report.
Qed.

(** With correlated axes.  1 - rho^2 of the innovation is at least 1 / K: every
    coefficient is within 2^-46 K^2 of the exact one, relative to the deviations of
    its row and column; and the result is positive definite, read whole or from its
    lower half, when the exact one is so by more than 2^-44 K^2 of the variances.
    Missing: symmetry and nearly exact reports (both refuted). *)
Theorem C95_double_covariance_correlated_partial : forall sum P V K,
  (forall l, fsums l (sum l)) -> finite4 P -> symmetric4 P -> definite4 P -> definite2 V ->
  (forall i j, (i < 4)%nat -> (j < 4)%nat -> mid0 (val (P i j))) -> (forall i j, (i < 2)%nat -> (j < 2)%nat -> mid0 (val (V i j))) ->
  1 <= K <= 1000000000 -> untied K P V -> forall D, inverts2 P V D ->
  (forall i j, (i < 4)%nat -> (j < 4)%nat -> fin (fcov sum P V i j) /\
     Rabs (val (fcov sum P V i j) - (val (P i j) - kshrink P D i j)) <= bpow radix2 (-46) * (K * K) * (sdev P i * sdev P j)) /\
  (spare K P D -> definite4 (fcov sum P V) /\ definite4 (lower (fcov sum P V))).
Proof. exact correlated_covariance. Qed.
Print Assumptions C95_double_covariance_correlated_partial.

(** Variances 100 with correlated axes; a report of variances 2 and covariance 1. *)
Example corrected_slanted : forall sum, (forall l, fsums l (sum l)) ->
  definite4 (fcov sum tilted slant) /\ definite4 (lower (fcov sum tilted slant)).
Proof.
  intros sum Hs. destruct tilted_ok as (A1 & A2 & A3 & _). destruct slant_ok as (B1 & B2 & B3 & B4 & B5 & B6).
  assert (HK : 1 <= 2 <= 1000000000) by (split; apply IZR_le; discriminate).
  exact (proj2 (C95_double_covariance_correlated_partial sum tilted slant 2 Hs A1 A2 A3 B1 B2 B3 HK B4 _ B5) B6).
Qed.

Theorem C96_double_mean_correlated : forall sum x P z V K,
  (forall l, fsums l (sum l)) -> finite4 P -> symmetric4 P -> definite4 P -> definite2 V ->
  (forall i j, (i < 4)%nat -> (j < 4)%nat -> mid0 (val (P i j))) -> (forall i j, (i < 2)%nat -> (j < 2)%nat -> mid0 (val (V i j))) ->
  1 <= K <= 1000000000 -> untied K P V ->
  (forall i, (i < 4)%nat -> fin (x i) /\ Rabs (val (x i)) <= bpow radix2 200) -> (forall i, (i < 2)%nat -> fin (z i) /\ Rabs (val (z i)) <= bpow radix2 200) ->
  (forall i, (i < 2)%nat -> mid0 (val (z i) - val (x i))) ->
  forall D, inverts2 P V D -> forall i, (i < 4)%nat -> fin (fmean sum x P z V i) /\
    Rabs (val (fmean sum x P z V i) - (val (x i) + kmove x P z D i)) <=
      bpow radix2 (-53) * Rabs (val (x i)) + bpow radix2 (-47) * (K * K) *
        (sdev P i * (Rabs (val (z 0%nat) - val (x 0%nat)) / R_sqrt.sqrt (sprd P V 0 0) + Rabs (val (z 1%nat) - val (x 1%nat)) / R_sqrt.sqrt (sprd P V 1 1))).
Proof. exact correlated_mean. Qed.
Print Assumptions C96_double_mean_correlated.

Example moved_slanted : forall sum, (forall l, fsums l (sum l)) -> forall i, (i < 4)%nat ->
  fin (fmean sum (fun i => nth i (3 :: 0 :: 1 :: 20 :: nil)%float 0%float) tilted (fun i => nth i (31 :: 5 :: nil)%float 0%float) slant i).
Proof.
  intros sum Hs i Hi. destruct tilted_ok as (A1 & A2 & A3 & _). destruct slant_ok as (B1 & B2 & B3 & B4 & B5 & _).
  assert (HK : 1 <= 2 <= 1000000000) by (split; apply IZR_le; discriminate).
  exact (proj1 (C96_double_mean_correlated sum _ tilted _ slant 2 Hs A1 A2 A3 B1 B2 B3 HK B4 moved_state moved_report slant_innovation _ B5 i Hi)).
Qed.
