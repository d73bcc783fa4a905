(** Model of GM::mean and GM::cov (include/gm.hpp:229-250) in IEEE double arithmetic, as
    the tracker reports them (include/lmb.hpp:180-193).

    Eigen evaluates the expressions coefficient by coefficient; the outer product
    [d * d.transpose()] has a single product per coefficient.  No fused operations. *)
From Coq Require Import List Floats.
Import ListNotations.
From Verif Require Import KalmanFloat.

(** GM::mean, gm.hpp:229-236: coefficient [i]. *)
Definition fmean (cs : list (float * (fvec * fmat))) : fvec := fun i =>
  fold_left (fun res c => (res + fst c * fst (snd c) i)%float) cs 0%float.
(** GM::cov(x), gm.hpp:238-246: coefficient [i], [j]. *)
Definition fcov_about (m : fvec) (cs : list (float * (fvec * fmat))) : fmat := fun i j =>
  fold_left (fun res c => let d k := (fst (snd c) k - m k)%float in
    (res + fst c * (snd (snd c) i j + d i * d j))%float) cs 0%float.
(** GM::cov(), gm.hpp:248-250. *)
Definition fcov (cs : list (float * (fvec * fmat))) : fmat := fcov_about (fmean cs) cs.
