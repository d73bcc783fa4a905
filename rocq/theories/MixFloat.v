(** Model of GM::correct in IEEE double arithmetic, with the likelihoods, means and
    covariances computed: include/gm.hpp (normalize 44-55, clear 87-90, correct 92-104),
    include/gaussian.hpp (correct 30-42), include/report.hpp (likelihood 33-37).

    The number of samples of a component in view (overlap, gaussian.hpp:122-134) is
    random and an input.  The components are corrected in parallel (gm.hpp:96); each
    writes only itself, so the order does not matter. *)
From Coq Require Import List Arith Bool Floats.
Import ListNotations.
From Verif Require Import KalmanFloat GMFloat LikFloat.

(** A component (Gaussian_, gaussian.hpp:13-20) and its samples in view. *)
Record fcomp := mkFC { fc_w : float; fc_x : fvec; fc_P : fmat; fc_k : nat }.

Section Mixture.
Variable sum : list float -> float.
Variables (expf : float -> float) (powf : float -> float -> float).
(** sensors.hpp:26; report.hpp:18-20 *)
Variables (pD kappa : float) (z : fvec) (R : fmat).

(** gaussian.hpp:32-37: samples in view and likelihood of a component. *)
Definition fseen (c : fcomp) : nat * float := (fc_k c, flikelihood sum expf powf (fc_x c) (fc_P c) z R).
(** gaussian.hpp:38-39: mean and covariance of a component. *)
Definition fmoved (c : fcomp) : fvec * fmat := (fmean sum (fc_x c) (fc_P c) z R, fcov sum (fc_P c) R).
(** gm.hpp:92-104: components and eta; [fst] is empty after [clear]. *)
Definition fmix_correct (cs : list fcomp) : list (float * (fvec * fmat)) * float :=
  let ws := fgm_correct pD kappa (map fseen cs) (map fc_w cs) in
  (combine (fst ws) (map fmoved cs), snd ws).
End Mixture.
