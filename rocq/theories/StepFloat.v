(** Model of Cluster_::correct (include/cluster.hpp:63-128) in IEEE double arithmetic
    up to the new existence probabilities and mixtures of the targets: the association
    of SceneFloat.v, the mixtures that Target_::match leaves in pdfs
    (include/target.hpp:123-130, include/gm.hpp:92-104) and Target_::correct
    (include/target.hpp:161-170) with GM::join (JoinFloat.v).

    Targets are in the local frame of the cluster; the transformations at both ends
    (cluster.hpp:56, 136) and the tree are left out.  The call of pdf_init2
    for new targets (target.hpp:128) returns at once (sensors.hpp:80). *)
From Coq Require Import List Arith Bool Floats.
Import ListNotations.
From Verif Require Import Res Cluster KalmanFloat ClusterFloat GMFloat LikFloat MixFloat SceneFloat JoinFloat.

(** cluster.hpp:111-113: one target after the other. *)
Fixpoint each {A B} (f : A -> res B) (l : list A) : res (list B) :=
  match l with
  | [] => Ok []
  | x :: l => y <- f x;; ys <- each f l;; Ok (y :: ys)
  end.

Section Step.
Variable sum : list float -> float.
Variables (expf : float -> float) (powf : float -> float -> float).
Variable reports : list freport.
(** A component: weight, mean, covariance. *)
Definition gcomp : Type := float * (fvec * fmat).
Variable sortf : list gcomp -> list gcomp.
Variable cw_lim : float.

(** Target_::pdfs after match: a copy corrected by each report, and the mixture as it
    was (missed leaves the components alone, gm.hpp:106-113). *)
Definition fpdfs (pD : float) (g : gtarget) : list (list gcomp) :=
  map (fun zk => fst (fmix_correct sum expf powf pD (fr_kappa (fst zk)) (fr_z (fst zk)) (fr_V (fst zk)) (at_report g (snd zk))))
    (combine reports (gt_rep g)) ++ [gt_c g].

(** Existence probabilities and mixtures after the correction, with the association. *)
Definition fstep logf (pD : float) pick fsum w_lim nhyp_max (fuel : nat) (gs : list gtarget) : res (fcorrected * list (float * list gcomp)) :=
  out <- fupdate sum expf powf reports logf pD pick fsum w_lim nhyp_max fuel gs;;
  match fc_n out with
  | O => Ok (out, map (fun g => (gt_r g, gt_c g)) gs)
  | _ =>
      ts <- each (fun ig => ftarget_correct sortf cw_lim fsum (row_of (length reports) (fst ig) (fc_R out)) (gt_c (snd ig)) (fpdfs pD (snd ig)))
              (combine (seq 0 (length gs)) gs);;
      Ok (out, ts)
  end.
End Step.
