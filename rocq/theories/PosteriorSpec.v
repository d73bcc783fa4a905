(** The exact posterior of the multi-target model within one cluster, in terms of
    what happened to each target.  Independent of the cost matrix and of the
    ranking. *)
From Coq Require Import List Arith Bool Reals.
Import ListNotations.
From Verif Require Import Cluster ClusterSpec.
Local Open Scope nat_scope.

(** What happened to a target: it does not exist, it exists and was missed, or it
    caused report [j]. *)
Inductive fate := Absent | Missed | Seen (j : nat).
Definition fate_eqb (f g : fate) : bool :=
  match f, g with
  | Absent, Absent | Missed, Missed => true
  | Seen j, Seen k => j =? k
  | _, _ => false
  end.

(** [t_r] is the probability that the target exists, [t_miss] that it is missed;
    [t_lik] are the likelihoods of the reports divided by the density of clutter. *)
Definition fate_weight (t : target_in) (f : fate) : R :=
  match f with
  | Absent => (1 - t_r t)%R
  | Missed => (t_r t * t_miss t)%R
  | Seen j => (t_r t * nth j (t_lik t) 0)%R
  end.

(** One fate per target, no report caused by two targets. *)
Definition joint (N M : nat) (q : list fate) : Prop :=
  length q = M /\ (forall j, In (Seen j) q -> j < N) /\
  forall i k j, i < M -> k < M -> nth i q Absent = Seen j -> nth k q Absent = Seen j -> i = k.
Definition joint_weight (ts : list target_in) (q : list fate) : R :=
  prod_over (fun i => fate_weight (nth i ts no_target) (nth i q Absent)) (seq 0 (length ts)).

(** The probability of an event, [all] being the joint fates. *)
Definition posterior (ts : list target_in) (all : list (list fate)) (A : list fate -> bool) : R :=
  (sum_over (fun q => if A q then joint_weight ts q else 0%R) all / sum_over (joint_weight ts) all)%R.

(** Target [i] caused report [j]; it was missed; it exists; some target caused
    report [j]. *)
Definition caused (i j : nat) (q : list fate) : bool := fate_eqb (nth i q Absent) (Seen j).
Definition missed (i : nat) (q : list fate) : bool := fate_eqb (nth i q Absent) Missed.
Definition alive (i : nat) (q : list fate) : bool := negb (fate_eqb (nth i q Absent) Absent).
Definition taken (j : nat) (q : list fate) : bool := existsb (fate_eqb (Seen j)) q.
