(** Model of the update of a cluster in IEEE double arithmetic from means and
    covariances: Target_::match (include/target.hpp:111-141) with GM::correct
    (include/gm.hpp:92-104), and include/cluster.hpp:63-128.

    The targets are in the local frame of the cluster.  The numbers of samples in view
    are random and inputs, drawn anew for every report and for the missed detection;
    std::exp is the same function in the likelihood (report.hpp:35) and in the
    weight of a hypothesis (include/cluster.hpp:92).  Targets seen for the first time
    (pdf_init2 at include/target.hpp:128, which is empty, include/sensors.hpp) are no
    special case. *)
From Coq Require Import List Arith Bool Floats.
Import ListNotations.
From Verif Require Import Res Murty KalmanFloat ClusterFloat GMFloat LikFloat MixFloat.

(** GaussianReport_, report.hpp:12-20: mean, covariance and kappa. *)
Record freport := mkFR { fr_z : fvec; fr_V : fmat; fr_kappa : float }.
(** Target_, target.hpp:51-60: existence probability and components (weight, mean,
    covariance), with the samples in view of each component when the target is taken as
    missed and for each report. *)
Record gtarget := mkGT {
  gt_r : float;
  gt_c : list (float * (fvec * fmat));
  gt_in : list nat;
  gt_rep : list (list nat) }.

(** The copy of the mixture made for a report, target.hpp:124. *)
Definition at_report (g : gtarget) (ks : list nat) : list fcomp :=
  map (fun ck => mkFC (fst (fst ck)) (fst (snd (fst ck))) (snd (snd (fst ck))) (snd ck)) (combine (gt_c g) ks).

Section Scene.
Variable sum : list float -> float.
Variables (expf : float -> float) (powf : float -> float -> float).
Variable reports : list freport.

(** target.hpp:126-130: what GMFloat.v takes as given, computed. *)
Definition of_target (g : gtarget) : ftarget :=
  mkFT (gt_r g) (map fst (gt_c g)) (gt_in g)
    (map (fun zk => map (fseen sum expf powf (fr_z (fst zk)) (fr_V (fst zk))) (at_report g (snd zk))) (combine reports (gt_rep g))).

(** cluster.hpp:63-128 for a cluster with targets. *)
Definition fupdate logf (pD : float) pick fsum w_lim nhyp_max (fuel : nat) (gs : list gtarget) : res fcorrected :=
  fcluster logf pD (map fr_kappa reports) expf pick fsum w_lim nhyp_max fuel (map of_target gs).
End Scene.
