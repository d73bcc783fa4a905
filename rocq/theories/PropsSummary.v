(** Property C88: the summaries returned by get_targets.

    [get_summaries grow xs] builds the vector for the targets [xs] with a vector that grows
    from size [n] to capacity [grow n]; [read_r m o] reads the member [r] of summary [o] in
    memory [m].  [same x o]: the values stored in [o] are those of the target [x]. *)
From Coq Require Import List Arith Lia.
Import ListNotations.
From Verif Require Import Res Summary SummaryProofs.

(** The values stored are right.  The member [r] of the summaries before some index [k] is
    a reference to memory that was freed; [k] is positive as soon as there are more targets
    than the first allocation holds. *)
Theorem C88_summaries_partial : forall (S W : Type) (grow : nat -> nat) (xs : list (source S W)),
  (forall n, n < grow n) ->
  exists v m l k, get_summaries grow xs = Ok (v, m) /\ contents m (v_block v) = Ok l /\ Forall2 same xs l /\
    (0 < k <-> grow 0 < length xs) /\ (xs <> [] -> k < length xs) /\
    forall i x o, nth_error xs i = Some x -> nth_error l i = Some o ->
      read_r m o = if i <? k then UB else Ok (so_r x).
Proof.
  intros S W grow xs Hg. destruct (summaries_result grow Hg xs) as (v & m & l & H1 & H2 & H3 & H4).
  exists v, m, l, (last_k grow (length xs)).
  exact (conj H1 (conj H2 (conj H3 (conj (last_k_pos grow Hg (length xs)) (conj (last_k_lt grow xs) H4))))).
Qed.
Print Assumptions C88_summaries_partial.

(** False of the code: with libstdc++'s doubling, reading [r] is undefined for the
    summaries before the largest power of two below the number of targets; that is for
    at least half of them if there are two or more. *)
Theorem C88_r_readable_refuted : forall (S W : Type) (xs : list (source S W)),
  2 <= length xs ->
  exists v m l, get_summaries doubling xs = Ok (v, m) /\ contents m (v_block v) = Ok l /\ Forall2 same xs l /\
    forall i o, nth_error l i = Some o -> (read_r m o = UB <-> exists p, 2 ^ p < length xs /\ i < 2 ^ p).
Proof. exact refuted_doubling. Qed.
Print Assumptions C88_r_readable_refuted.

(** In Python the attribute r is bound to the stored weight, and right. *)
Theorem C88_python_attribute : forall (S W : Type) (grow : nat -> nat) (xs : list (source S W)),
  (forall n, n < grow n) ->
  exists v m l m', get_summaries grow xs = Ok (v, m) /\ to_list v m = Ok (l, m') /\
    map py_r l = map so_r xs /\ map ob_s l = map so_s xs /\ map ob_id l = map so_id xs /\ map ob_cid l = map so_cid xs.
Proof. exact python_values. Qed.
Print Assumptions C88_python_attribute.

(** Three targets: the first two summaries have a dangling [r]. *)
Example C88_case :
  exists v m l, get_summaries doubling [mkSrc tt 9 1 1; mkSrc tt 5 2 1; mkSrc tt 7 3 2] = Ok (v, m) /\
    contents m (v_block v) = Ok l /\ map ob_w l = [9; 5; 7] /\ map (read_r m) l = [UB; UB; Ok 7].
Proof. eexists _, _, _. split; [reflexivity|]. split; [reflexivity|]. split; reflexivity. Qed.
