(** Specification of the association step: joint hypotheses and their weights,
    in terms of the inputs only. *)
From Coq Require Import List Arith Bool Reals.
Import ListNotations.
From Verif Require Import Cluster.
Local Open Scope nat_scope.

(** Sum of [f] over a list. *)
Fixpoint sum_over {A} (f : A -> R) (l : list A) : R :=
  match l with [] => 0%R | x :: l => (f x + sum_over f l)%R end.
Fixpoint prod_over {A} (f : A -> R) (l : list A) : R :=
  match l with [] => 1%R | x :: l => (f x * prod_over f l)%R end.

Definition no_target : target_in := mkTin 0 [] 0.

(** A target with existence probability in [0,1] and non-negative likelihoods
    for the [N] reports. *)
Definition valid_target (N : nat) (t : target_in) : Prop :=
  (0 <= t_r t <= 1)%R /\ length (t_lik t) = N /\ (forall l, In l (t_lik t) -> (0 <= l)%R) /\ (0 <= t_miss t)%R.

(** The code's number for "impossible": exp (-30000). *)
Definition tiny : R := exp (- 30000)%R.

(** The factor of target [i] of [M] for choice [j]: a report, missed ([N + i]),
    absent ([N + M + i]), or a meaningless choice. *)
Definition choice_weight (N M i : nat) (t : target_in) (j : nat) : R :=
  if j <? N then (t_r t * nth j (t_lik t) 0)%R
  else if j =? N + i then (t_r t * t_miss t)%R
  else if j =? N + M + i then (if Req_EM_T (t_r t) 1 then tiny else (1 - t_r t)%R)
  else tiny.

Definition weight (N : nat) (ts : list target_in) (s : list nat) : R :=
  prod_over (fun i => choice_weight N (length ts) i (nth i ts no_target) (nth i s 0)) (seq 0 (length ts)).

(** A joint hypothesis: one choice per target, all different, of positive weight. *)
Definition hypothesis (N : nat) (ts : list target_in) (s : list nat) : Prop :=
  length s = length ts /\ NoDup s /\ (forall j, In j s -> j < N + 2 * length ts) /\ (0 < weight N ts s)%R.

(** [s] says that target [i] caused report [j] ([j < N]) or was missed ([j = N]). *)
Definition says (N i j : nat) (s : list nat) : bool :=
  if j <? N then nth i s 0 =? j else nth i s 0 =? N + i.

(** A most likely hypothesis. *)
Definition most_likely (N : nat) (ts : list target_in) (s : list nat) : Prop :=
  hypothesis N ts s /\ forall s', hypothesis N ts s' -> (weight N ts s' <= weight N ts s)%R.

(** An exponential function that may underflow to 0, but not for the most likely
    hypotheses. *)
Definition no_underflow (expf : R -> R) (N : nat) (ts : list target_in) : Prop :=
  (forall x, (0 <= expf x)%R) /\ forall s, most_likely N ts s -> (0 < expf (ln (weight N ts s)))%R.

(** The probability that target [i] caused report [j] (or was missed), given the
    hypotheses [ds] with weights [w]. *)
Definition marginal (N : nat) (w : list nat -> R) (ds : list (list nat)) (i j : nat) : R :=
  (sum_over (fun s => if says N i j s then w s else 0%R) ds / sum_over w ds)%R.
