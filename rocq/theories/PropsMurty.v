(** Properties C15-C18: Murty's ranking of assignments (include/murty.hpp), in
    exact arithmetic with infinities ([extR]).

    A run constructs a Murty object for the matrix [C] and draws [k] times;
    [Some (cost, solution)] is a successful draw, [None] is "false".  [pick] is
    the unspecified choice of std::priority_queue among equals ([valid_pick]). *)
From Coq Require Import List Arith Reals Lra Lia.
Import ListNotations.
From Verif Require Import Res Scalar Lap LapSpec Murty MurtyMain.
Local Open Scope nat_scope.

(** C15.  A later draw never costs less. *)
Theorem C15_costs_non_decreasing : forall C pick fuel k outs,
  cost_matrix C -> m_rows C <= 30 -> m_ord C = RowMajor ->
  0 < m_rows C -> 0 < m_cols C -> valid_pick pick ->
  murty_run extR pick fuel k C = Ok outs ->
  forall i j ci cj si sj, i < j ->
    nth_error outs i = Some (Some (ci, si)) -> nth_error outs j = Some (Some (cj, sj)) ->
    exists x y, ci = Fin x /\ cj = Fin y /\ (x <= y)%R.
Proof. intros C pick fuel k outs HC Hr Ho Hr0 Hc0 Hp Hrun. exact (run_costs C HC Hr Ho Hr0 Hc0 pick Hp fuel k outs Hrun). Qed.
Print Assumptions C15_costs_non_decreasing.

(** C16.  Each draw is an assignment of all rows to distinct columns without
    infinite entries, with its cost in the caller's matrix. *)
Theorem C16_true_cost : forall C pick fuel k outs,
  cost_matrix C -> m_rows C <= 30 -> m_ord C = RowMajor ->
  0 < m_rows C -> 0 < m_cols C -> valid_pick pick ->
  murty_run extR pick fuel k C = Ok outs ->
  forall cst sol, In (Some (cst, sol)) outs ->
    exists s, sol = map Some s /\ feasible C s /\ cst = Fin (total C s).
Proof. intros C pick fuel k outs HC Hr Ho Hr0 Hc0 Hp Hrun. exact (run_true_cost C HC Hr Ho Hr0 Hc0 pick Hp fuel k outs Hrun). Qed.
Print Assumptions C16_true_cost.

(** C17.  No solution twice; once "false", always "false"; and only after every
    assignment was drawn; which happens after at most [cols ^ rows] draws. *)
Theorem C17_each_once : forall C pick fuel k outs,
  cost_matrix C -> m_rows C <= 30 -> m_ord C = RowMajor ->
  0 < m_rows C -> 0 < m_cols C -> valid_pick pick ->
  murty_run extR pick fuel k C = Ok outs ->
  length outs = k /\
  (forall i j ci cj s,
     nth_error outs i = Some (Some (ci, s)) -> nth_error outs j = Some (Some (cj, s)) -> i = j) /\
  (forall i j, i <= j -> j < k -> nth_error outs i = Some None -> nth_error outs j = Some None) /\
  (forall s, In None outs -> feasible C s -> In (Some (Fin (total C s), map Some s)) outs) /\
  (m_cols C ^ m_rows C < k -> In None outs).
Proof.
  intros C pick fuel k outs HC Hr Ho Hr0 Hc0 Hp Hrun.
  exact (conj (run_length C HC Hr Ho Hr0 Hc0 pick Hp fuel k outs Hrun)
        (conj (run_distinct C HC Hr Ho Hr0 Hc0 pick Hp fuel k outs Hrun)
        (conj (run_none_stays C HC Hr Ho Hr0 Hc0 pick Hp fuel k outs Hrun)
        (conj (run_complete C HC Hr Ho Hr0 Hc0 pick Hp fuel k outs Hrun)
              (run_ends C HC Hr Ho Hr0 Hc0 pick Hp fuel k outs Hrun))))).
Qed.
Print Assumptions C17_each_once.

(** Runs are free of undefined behaviour and end. *)
Theorem C17_draws_return : forall C pick k,
  cost_matrix C -> m_rows C <= 30 -> m_ord C = RowMajor ->
  0 < m_rows C -> 0 < m_cols C -> valid_pick pick ->
  (forall fuel, murty_run extR pick fuel k C <> UB) /\
  exists fuel0 outs, forall fuel, fuel0 <= fuel -> murty_run extR pick fuel k C = Ok outs.
Proof. exact run_returns. Qed.
Print Assumptions C17_draws_return.

(** C18.  Every assignment not drawn costs at least as much as every drawn one. *)
Theorem C18_k_best : forall C pick fuel k outs,
  cost_matrix C -> m_rows C <= 30 -> m_ord C = RowMajor ->
  0 < m_rows C -> 0 < m_cols C -> valid_pick pick ->
  murty_run extR pick fuel k C = Ok outs ->
  forall cst sol s, In (Some (cst, sol)) outs -> feasible C s ->
    (forall c', ~ In (Some (c', map Some s)) outs) ->
    exists x, cst = Fin x /\ (x <= total C s)%R.
Proof. intros C pick fuel k outs HC Hr Ho Hr0 Hc0 Hp Hrun. exact (run_k_best C HC Hr Ho Hr0 Hc0 pick Hp fuel k outs Hrun). Qed.
Print Assumptions C18_k_best.

(** The hypotheses are met by a 2 x 3 matrix with a negative and an infinite
    entry and the queue that takes the first best element ... *)
Definition exR : matrix (ext R) := mkMat 2 3 RowMajor
  [Fin 7%R; Fin 3%R; Fin 2%R; Fin (-3)%R; PInf; Fin 1%R].

Example murty_hypotheses_met :
  cost_matrix exR /\ m_rows exR <= 30 /\ m_ord exR = RowMajor /\ 0 < m_rows exR /\ 0 < m_cols exR /\
  valid_pick (first_top extR) /\
  (exists fuel outs, murty_run extR (first_top extR) fuel 10 exR = Ok outs) /\
  feasible exR [1; 0] /\ total exR [1; 0] = 0%R.
Proof.
  assert (HC : cost_matrix exR).
  { split; [reflexivity|]. intros x Hx. simpl in Hx.
    repeat (destruct Hx as [<-|Hx]; [first [right; reflexivity|left; eexists; reflexivity]|]). destruct Hx. }
  split; [exact HC|]. split; [simpl; lia|]. split; [reflexivity|]. split; [simpl; lia|]. split; [simpl; lia|].
  split; [exact first_top_valid|]. split.
  { destruct (run_returns exR (first_top extR) 10) as [_ (f & o & H)]; auto; try (simpl; lia).
    - exact first_top_valid.
    - exists f, o. apply H. auto. }
  split.
  - split.
    + split; [reflexivity|]. split; [repeat constructor; simpl; lia|].
      simpl. intros j Hj. repeat (destruct Hj as [<-|Hj]; [lia|]). destruct Hj.
    + intros i Hi. simpl in Hi. destruct i as [|[|i]]; try lia; eexists; reflexivity.
  - unfold total. simpl. lra.
Qed.

(** ... on which the model (run over the integers) gives: *)
Example murty_run_ex :
  murty_run extZ (first_top extZ) 100 6 (mkMat 2 3 RowMajor [Fin 7; Fin 3; Fin 2; Fin (-3); PInf; Fin 1]%Z)
  = Ok [Some (Fin (-1)%Z, [Some 2; Some 0]); Some (Fin 0%Z, [Some 1; Some 0]);
        Some (Fin 4%Z, [Some 1; Some 2]); Some (Fin 8%Z, [Some 0; Some 2]); None; None].
Proof. vm_compute. reflexivity. Qed.

(** An empty matrix is excluded: Eigen's minCoeff is undefined on it. *)
Theorem C17_empty_matrix_undefined : forall C pick fuel k,
  m_data C = [] -> murty_run extR pick fuel k C = UB.
Proof. exact run_empty. Qed.
Print Assumptions C17_empty_matrix_undefined.
