(** What is asked of the correction of a cluster in doubles, from means and covariances
    to means and covariances.  Independent of the model but for the records of a report,
    a component and a target. *)
From Coq Require Import List Reals ZArith Arith.
From Flocq Require Import Core.
From Coq Require Import Floats.
Import ListNotations.
From Verif Require Import FloatBase Cluster ClusterSpec KalmanFloat GMFloatSpec MixFloat MixFloatSpec SceneFloat SceneFloatSpec LossSpec JoinFloatSpec.
Local Open Scope R_scope.

(** Bayes' mixture for a report: the components moved as the exact correction does, up
    to rounding, each with its exact share of the density. *)
Definition bayes_mixture (K : R) (pD : float) (z : freport) (cs : list (float * (fvec * fmat))) (ks : list nat) (p : list (R * (fvec * fmat))) : Prop :=
  Forall2 (fun ck r => let '((w, (x, P)), k) := ck in let c := mkFC w x P k in
      fst r = joint_weight pD (fr_kappa z) (fr_z z) (fr_V z) c / relative_density pD z cs ks /\
      near_update K (fr_z z) (fr_V z) c (fst (snd r)) (snd (snd r)))
    (combine cs ks) p.

(** The mixtures [ps] for each report and [cs] for none, with the probabilities [m]. *)
Fixpoint blend_from (phi : fvec * fmat -> R) (m : nat -> R) (j : nat) (ps : list (list (R * (fvec * fmat)))) : R :=
  match ps with [] => 0 | p :: ps => m j * prob phi p + blend_from phi m (S j) ps end.
Definition blend (phi : fvec * fmat -> R) (m : nat -> R) (ps : list (list (R * (fvec * fmat)))) (cs : list (float * (fvec * fmat))) : R :=
  blend_from phi m 0 (ps ++ [reals cs]).

(** A target [g] after the correction, with association probabilities [m]: existence
    probability [r] and mixture [c].  [e] is the error of the association. *)
Definition updated (K : R) (cw : R) (pD : float) (reports : list freport) (e : R) (m : nat -> R) (g : gtarget) (r : float) (c : list (float * (fvec * fmat))) : Prop :=
  let N1 := INR (length reports + 1) in
  let n := INR (length (gt_c g)) in
  fin r /\ Rabs (val r - sum_over m (seq 0 (length reports + 1))) <= bpow radix2 (-18) + 4 * e /\
  ((val r = 0 /\ c = gt_c g) \/
   (999999 / 1000000000000 <= val r /\
    ((c = [] /\ val r <= 12 / 1000000000 * (n * N1 + 1) + 2 * N1 * (bpow radix2 (-20) + 4 * e)) \/
     (mixture_ready c /\ kept cw c /\
      exists ps lost, Forall2 (fun zk p => bayes_mixture K pD (fst zk) (gt_c g) (snd zk) p) (combine reports (gt_rep g)) ps /\
        0 <= lost < 1 /\
        (length c = 200%nat \/ lost <= (n * N1 - INR (length c)) * (cw * (1 + bpow radix2 (-40)) + bpow radix2 (-1000))) /\
        forall phi, (forall g, 0 <= phi g <= 1) ->
          Rabs (prob phi (reals c) - blend phi m ps (gt_c g) / blend (fun _ => 1) m ps (gt_c g)) <=
            lost + (4 * INR (length c) + 10) * bpow radix2 (-53) + 4 * N1 * (bpow radix2 (-20) + 6 * e) / val r)))).
