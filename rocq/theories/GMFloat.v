(** Model of the weights of a mixture and of Target_::match and predict in IEEE
    double arithmetic: include/gm.hpp (normalize 44-55, correct 92-104, missed
    106-113, sample_pos 218-227), include/gaussian.hpp (the weight in correct 37,
    overlap 122-134), include/sensors.hpp (pD 43-46), include/target.hpp (match
    111-141, predict 172-181, false_target 183-189), include/cluster.hpp 64-75.

    A mixture is the list of its weights.  Means and covariances enter through the
    numbers of samples in the field of view (random) and the likelihoods of the
    reports (the result of GaussianReport_::likelihood), which are inputs.
    [std::log] is the parameter [logf]. *)
From Coq Require Import List Arith ZArith.
Import ListNotations.
From Coq Require Import Floats.
From Verif Require Import Res Scalar Lap Murty Cluster ClusterFloat.
Local Open Scope nat_scope.

(** gm.hpp:45-46. *)
Definition fwsum (ws : list float) : float := fold_left PrimFloat.add ws 0%float.

(** GM::normalize and clear, gm.hpp:44-55, 87-90: weights and eta. *)
Definition fnormalize (ws : list float) : list float * float :=
  let eta := fwsum ws in
  if PrimFloat.ltb 1e-8 eta then (map (fun w => (w / eta)%float) ws, eta) else ([], 0%float).

(** Gaussian_::overlap, gaussian.hpp:122-134: [k] of 1000 samples are inside. *)
Definition foverlap (k : nat) : float := (nofnat floatN k / 1000)%float.
(** PositionSensor::pD, sensors.hpp:43-46. *)
Definition fpD (pD : float) (k : nat) : float := (pD * foverlap k)%float.

(** Gaussian_::correct's weight, gaussian.hpp:37: samples in view and likelihood. *)
Definition fcorrect_w (pD kappa : float) (w : float) (kl : nat * float) : float :=
  (w * (fpD pD (fst kl) * snd kl / kappa))%float.

(** GM::correct, gm.hpp:92-104: one pair for each component. *)
Definition fgm_correct (pD kappa : float) (kls : list (nat * float)) (ws : list float) : list float * float :=
  fnormalize (map (fun wkl => fcorrect_w pD kappa (fst wkl) (snd wkl)) (combine ws kls)).

(** GM::missed, gm.hpp:106-113. *)
Definition fmissed (pD : float) (ks : list nat) (ws : list float) : float :=
  (1 - fold_left (fun eta wk => eta + fst wk * fpD pD (snd wk)) (combine ws ks) 0)%float.

(** The conversion of a double to [unsigned]: truncation, undefined when the
    result does not fit (32 bits). *)
Definition to_unsigned (x : float) : res nat :=
  match Prim2SF x with
  | S754_zero _ => Ok 0
  | S754_finite s m e =>
      let t := (if e <? 0 then Z.pos m / 2 ^ (- e) else Z.pos m * 2 ^ e)%Z in
      if s then (if (t =? 0)%Z then Ok 0 else UB)
      else if (t <? 4294967296)%Z then Ok (Z.to_nat t) else UB
  | _ => UB
  end.

(** GM::sample_pos, gm.hpp:218-227: for every column of the result the component
    that wrote it; writing behind the last column is undefined. *)
Definition fsample_cols (cols : nat) (ws : list float) : res (list (option nat)) :=
  '(cs, _) <- fold_left (fun acc iw =>
      '(out, col) <- acc;;
      n <- to_unsigned (snd iw * nofnat floatN cols)%float;;
      if cols <? col + n then UB
      else Ok (firstn col out ++ repeat (Some (fst iw)) n ++ skipn (col + n) out, col + n))
    (combine (seq 0 (length ws)) ws) (Ok (repeat None cols, 0));;
  Ok cs.

(** Target_::predict, target.hpp:172-181; [s] is the factor applied by the motion
    model (models.hpp:43, 70), which keeps the weights. *)
Definition fpredict (s r : float) (ws : list float) : float * list float :=
  let '(ws, eta) := fnormalize ws in ((r * s) * eta, ws)%float.

(** What a cluster update sees of a target: existence probability, weights, samples
    in view when it is taken as missed, and for each report the samples in view and
    the likelihood of each component. *)
Record ftarget := mkFT {
  ft_r : float;
  ft_w : list float;
  ft_in : list nat;
  ft_rep : list (list (nat * float)) }.

Section Match.
Variable logf : float -> float.
(** PositionSensor::pD_, sensors.hpp:26. *)
Variable pD : float.
(** GaussianReport_::kappa of each report, report.hpp:19. *)
Variable kappas : list float.

(** target.hpp:126-130. *)
Definition fcost_rep (t : ftarget) (kk : list (nat * float) * float) : float :=
  (- logf (ft_r t * snd (fgm_correct pD (snd kk) (fst kk) (ft_w t))))%float.
(** target.hpp:140. *)
Definition fcost_miss (t : ftarget) : float := (- logf (ft_r t * fmissed pD (ft_in t) (ft_w t)))%float.
(** false_target, target.hpp:183-189. *)
Definition ffalse_target (r : float) : float := if PrimFloat.ltb r 1 then (- logf (1 - r))%float else 30000%float.

(** cluster.hpp:64-74, see [Cluster.cost_row], [Cluster.cost_of]. *)
Definition fcost_row (M i : nat) (t : ftarget) : list float :=
  map (fcost_rep t) (combine (ft_rep t) kappas)
  ++ map (fun k => if k =? i then fcost_miss t else 30000%float) (seq 0 M)
  ++ map (fun k => if k =? i then ffalse_target (ft_r t) else 30000%float) (seq 0 M).
Definition fcost_of (ts : list ftarget) : matrix float :=
  mkMat (length ts) (length kappas + 2 * length ts) RowMajor
    (flat_map (fun it => fcost_row (length ts) (fst it) (snd it)) (combine (seq 0 (length ts)) ts)).

(** cluster.hpp:63-128 for a cluster with targets. *)
Definition fcluster expf pick fsum w_lim nhyp_max (fuel : nat) (ts : list ftarget) : res fcorrected :=
  fcorrect expf pick fsum w_lim nhyp_max fuel (length kappas) (fcost_of ts) (map ft_r ts).
End Match.
