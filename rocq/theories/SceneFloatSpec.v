(** What is asked of the update of a cluster in doubles from means and covariances.
    Independent of the model but for the records of a report, a component and a target. *)
From Coq Require Import List Reals ZArith Arith.
From Flocq Require Import Core.
From Coq Require Import Floats.
From Verif Require Import Scalar FloatBase Cluster KalmanFloat GMFloatSpec MixFloat MixFloatSpec SceneFloat.
Local Open Scope R_scope.

(** An existence probability, 0 or not extremely small; at most 2^20 weights that add up
    to 1 up to rounding; a number of samples (of 1000) for every component; components
    that are [regular] with every report. *)
Definition scene_ok (K : R) (reports : list freport) (g : gtarget) : Prop :=
  (upto 1 (gt_r g) /\ (val (gt_r g) = 0 \/ bpow radix2 (-900) <= val (gt_r g))) /\
  ((forall c, In c (gt_c g) -> upto 1 (fst c)) /\ (Z.of_nat (length (gt_c g)) <= 2 ^ 20)%Z /\
   Rabs (exact_sum (map fst (gt_c g)) - 1) <= (4 * INR (length (gt_c g)) + 4) * bpow radix2 (-53)) /\
  (length (gt_in g) = length (gt_c g) /\ forall k, In k (gt_in g) -> (k <= 1000)%nat) /\
  (length (gt_rep g) = length reports /\
   forall ks, In ks (gt_rep g) -> length ks = length (gt_c g) /\ forall k, In k ks -> (k <= 1000)%nat) /\
  (forall c z, In c (gt_c g) -> In z reports -> regular K (fr_z z) (fr_V z) (fst (snd c)) (snd (snd c))).

(** The density of a report under the mixture of a target with [ks] samples in view,
    relative to clutter. *)
Definition relative_density (pD : float) (z : freport) (cs : list (float * (fvec * fmat))) (ks : list nat) : R :=
  sum_of (fun ck => let '((w, (x, P)), k) := ck in joint_weight pD (fr_kappa z) (fr_z z) (fr_V z) (mkFC w x P k)) (combine cs ks).

(** The exact numbers of a target: existence, densities of the reports, and the
    probability of being missed. *)
Definition described (pD : float) (reports : list freport) (g : gtarget) : target_in :=
  mkTin (val (gt_r g))
    (map (fun zk => relative_density pD (fst zk) (gt_c g) (snd zk)) (combine reports (gt_rep g)))
    (1 - detected (val pD) (combine (map val (map fst (gt_c g))) (gt_in g))).

(** Error of the logarithms of all factors of a hypothesis. *)
Definition scene_slack (K : R) (gs : list gtarget) : R :=
  sum_of (fun g => tol (length (gt_c g)) + bpow radix2 (-35) * (K * K)) gs.
