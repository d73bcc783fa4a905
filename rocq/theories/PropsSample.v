(** Samples of a Gaussian. *)
From Coq Require Import Reals List.
From mathcomp Require Import all_ssreflect ssralg ssrnum zmodp matrix.
From Verif Require Import Scalar Cf GM Box View RField KalmanSpec CovSpec Sample SampleSpec SampleProofs SampleWitness.
Set Implicit Arguments. Unset Strict Implicit. Unset Printing Implicit Defensive.
Local Open Scope ring_scope.
Delimit Scope R_scope with re.

(** *** C93: the samples of a Gaussian are independent numbers of mean 0 and
    variance 1, mapped by a root of the covariance and moved to the mean: their
    mean and covariance are those of the Gaussian, whatever eigenvectors the solver
    returns, and different samples are not correlated. *)
Theorem C93_samples_of_a_gaussian : forall W (X : expectation W) n (mean : 'cV[R]_n) (P V : 'M[R]_n) d gen k0 cols,
  white X gen (k0 + cols * n) -> @psd RF _ P -> eigen P V d ->
  let S w := nrand mean V d (fun k => gen k w) k0 cols in
  (exists A : 'M[R]_n, A *m A^T = P /\ forall w (i : 'I_cols), col i (S w) = mean + A *m group n gen k0 i w) /\
  (forall k i, expected X (fun w => S w k i) (mean k 0)) /\
  (forall k l i j, expected X (fun w => (S w k i - mean k 0) * (S w l j - mean l 0)) (if i == j then P k l else 0)).
Proof. exact: samples. Qed.
Print Assumptions C93_samples_of_a_gaussian.

(** *** C94: the share of the samples that lie in a box is an unbiased estimate of
    the probability of the box under the Gaussian; its variance is p (1 - p) / N
    (N = 1000 in the code).  The detection probability is estimated likewise. *)
Theorem C94_overlap_estimates : forall W (X : expectation W) (mean : 'cV[R]_(2 + 2)) (P V : 'M[R]_(2 + 2)) d gen k0 N,
  (0 < N)%N -> @psd RF _ P -> eigen P V d ->
  exists A : 'M[R]_(2 + 2), A *m A^T = P /\
  forall b p, independent X gen k0 N (fun z => b_within b (pos2 (mean + A *m z))) p ->
  let o w := drawn_overlap b mean V d (fun k => gen k w) k0 N in
  expected X o p /\
  expected X (fun w => (o w - p) * (o w - p)) (p * (1 - p) / INR N)%re /\
  forall pD0 fov orig, b = nebbox orig fov ->
    expected X (fun w => drawn_pD pD0 fov orig mean V d (fun k => gen k w) k0 N) (pD0 * p)%re.
Proof. exact: overlaps. Qed.
Print Assumptions C94_overlap_estimates.

(** A thousand samples of the unit Gaussian drawn with fair coins, and a box that
    a sample hits with probability 1/2. *)
Example coin_samples : white (coin_space 1000) flips (0 + 1000 * (2 + 2)) /\ @psd RF _ (1%:M : 'M[R]_(2 + 2)) /\
  eigen (1%:M : 'M[R]_(2 + 2)) 1%:M (const_mx 1) /\
  independent (coin_space 1000) flips 0 1000
    (fun z => b_within front (pos2 (0 + (1%:M : 'M[R]_(2 + 2)) *m z))) (1 / 2)%re.
Proof.
split; first by rewrite add0n; exact: flips_white.
split; first exact: unit_psd.
split; first exact: unit_eigen.
rewrite -front_half; exact: flips_independent.
Qed.
