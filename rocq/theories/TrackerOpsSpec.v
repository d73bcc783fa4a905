(** Specification of histories of a tracker whose densities are Gaussian
    mixtures. *)
From Coq Require Import List Arith NArith Bool Reals.
Import ListNotations.
From Verif Require Import Res Scalar RTree RTreeSpec Murty MurtyMain Cluster ClusterSpec GM GMSpec Tracker TrackerSpec TrackerOps.
Local Open Scope nat_scope.

Section Spec.
Context {G BB Rep : Type}.
Notation pdf := (pdf (G := G) (BB := BB)).
Notation call := (call (P := pdf) (Rep := Rep)).

(** Likelihoods are not negative, clutter densities are positive, reports have
    real boxes. *)
Definition sound_ops (op : ops G BB Rep) : Prop :=
  (forall z g, (0 <= lik op z g)%R) /\ (forall z, (0 < r_kappa op z)%R) /\ (forall z, real_corners (r_box op z)).

Definition survival_prob (m : model) : R := match m with CV pS _ => pS | NM pS _ => pS end.

Definition sound_sensor (s : sensor (BB := BB)) : Prop :=
  real_corners (sn_fov s) /\ (0 <= sn_lambdaB s)%R /\ (0 <= sn_pD s <= 1)%R /\ forall id j i, Peano.le (sn_hits s id j i) 1000.

(** The calls of the program: predictions forward in time with a survival
    probability, corrections by a sensor with a scan of at most [n] reports. *)
Inductive request (op : ops G BB Rep) (pm : params) expf pick sortf (n : nat) : call -> Prop :=
| ask_predict m time last : (0 <= survival_prob m <= 1)%R -> (last <= time)%R ->
    request op pm expf pick sortf n (predict_op op pm m time last)
| ask_correct s fuel scan time bb : sound_sensor s -> Peano.le (length scan) n ->
    request op pm expf pick sortf n (correct_op op pm expf pick sortf bb s fuel scan time).

(** A density: a mixture of at most 200 components with non-negative weights of
    sum 1. *)
Definition density (c : list (comp (G := G))) : Prop :=
  nonneg c /\ total c = 1%R /\ Peano.le (length c) 200.

(** The same, or without any component. *)
Definition weak_density (c : list (comp (G := G))) : Prop := nonneg c /\ (c = [] \/ total c = 1%R).
End Spec.
