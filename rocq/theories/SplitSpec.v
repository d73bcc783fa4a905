(** A scene and one of its clusters.  The targets and the reports of the cluster
    are numbered first: targets [tc] and reports below [Nc]; the others are [tr]
    and the reports from [Nc] on. *)
From Coq Require Import List Arith Bool Reals.
Import ListNotations.
From Verif Require Import Cluster ClusterSpec PosteriorSpec.
Local Open Scope nat_scope.

(** A target as the cluster sees it: only the reports of the cluster. *)
Definition near (Nc : nat) (t : target_in) : target_in := mkTin (t_r t) (firstn Nc (t_lik t)) (t_miss t).

Definition within (Nc : nat) (f : fate) : bool := match f with Seen j => j <? Nc | _ => true end.
Definition beyond (Nc : nat) (f : fate) : bool := match f with Seen j => negb (j <? Nc) | _ => true end.
(** A target of the cluster caused a report of another cluster, or the other way
    round.  [m] is the number of targets of the cluster. *)
Definition crosses (Nc m : nat) (q : list fate) : bool :=
  negb (forallb (within Nc) (firstn m q) && forallb (beyond Nc) (skipn m q)).
