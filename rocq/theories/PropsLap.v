(** Properties C10-C14: the assignment solver [lap] (include/rlapjv.h), in
    exact arithmetic with infinities ([extR]). *)
From Coq Require Import List Arith ZArith Reals Lra Lia.
Import ListNotations.
From Verif Require Import Res Scalar Lap LapSpec LapBase LapScan LapMain.
Open Scope R_scope.

(** C10.  Whenever [lap] returns, it reports success exactly when some
    assignment of all rows to distinct columns with finite costs exists.
    ([C13] shows that it does return.)  [simd]: compiled with AVX2 or not. *)
Theorem C10_feasibility_decided : forall simd C fuel r,
  cost_matrix C -> (m_rows C <= 30)%nat -> m_ord C = RowMajor ->
  lap_build extR simd fuel C = Ok r ->
  (l_ok r = true <-> exists s, feasible C s).
Proof. intros simd C fuel r HC Hr Ho. exact (lap_decides C HC Hr Ho simd fuel r). Qed.
Print Assumptions C10_feasibility_decided.

(** C11.  On success the returned columns form an optimal assignment. *)
Theorem C11_assignment_optimal : forall simd C fuel r,
  cost_matrix C -> (m_rows C <= 30)%nat -> m_ord C = RowMajor ->
  lap_build extR simd fuel C = Ok r -> l_ok r = true ->
  exists s, l_rowsol r = map Some s /\ optimal C s.
Proof. intros simd C fuel r HC Hr Ho. exact (lap_is_optimal C HC Hr Ho simd fuel r). Qed.
Print Assumptions C11_assignment_optimal.

(** C12.  The dual variables.  [nsub] and [nle] are the subtraction and
    comparison of the extended reals, so a column at price -inf has reduced
    cost +inf for all other rows. *)
Theorem C12_duals_certify : forall simd C fuel r s,
  cost_matrix C -> (m_rows C <= 30)%nat -> m_ord C = RowMajor ->
  lap_build extR simd fuel C = Ok r -> l_ok r = true -> l_rowsol r = map Some s ->
  length (l_u r) = m_rows C /\ length (l_v r) = m_cols C /\
  (forall j, (j < m_cols C)%nat ->
     nth j (l_v r) NaN = NInf \/ exists x, nth j (l_v r) NaN = Fin x /\ x <= 0) /\
  (forall j, (j < m_cols C)%nat -> ~ In j s -> nth j (l_v r) NaN = Fin 0) /\
  (forall i, (i < m_rows C)%nat ->
     (exists x, nth i (l_u r) NaN = Fin x /\
        nsub extR (nsub extR (entry NaN C i (nth i s 0%nat)) (nth (nth i s 0%nat) (l_v r) NaN))
             (Fin x) = Fin 0 /\
        forall j, (j < m_cols C)%nat ->
          nle extR (Fin 0)
              (nsub extR (nsub extR (entry NaN C i j) (nth j (l_v r) NaN)) (Fin x)) = true)
     \/ (nth i (l_u r) NaN = PInf /\
         forall s', feasible C s' -> nth i s' 0%nat = nth i s 0%nat)).
Proof. intros simd C fuel r s HC Hr Ho. exact (lap_dual_certificate C HC Hr Ho simd fuel r s). Qed.
Print Assumptions C12_duals_certify.

(** C13.  No fuel leads to an access outside an array, and with enough fuel the
    solver returns (always the same result). *)
Theorem C13_memory_safe : forall simd C fuel,
  cost_matrix C -> (m_rows C <= 30)%nat -> m_ord C = RowMajor ->
  lap_build extR simd fuel C <> UB.
Proof. intros simd C fuel HC Hr Ho. exact (lap_safe C HC Hr Ho simd fuel). Qed.
Print Assumptions C13_memory_safe.

Theorem C13_terminates : forall simd C,
  cost_matrix C -> (m_rows C <= 30)%nat -> m_ord C = RowMajor ->
  exists fuel0 r, forall fuel, (fuel0 <= fuel)%nat -> lap_build extR simd fuel C = Ok r.
Proof. intros simd C HC Hr Ho. exact (lap_total C HC Hr Ho simd). Qed.
Print Assumptions C13_terminates.

(** The solver used in the models of the rest of the program ([lap]) is the one
    compiled without AVX2.  Below 100000 columns there is no difference. *)
Theorem C13_builds_agree : forall T (N : Num T) fuel C,
  (Z.of_nat (m_cols C) < 100000)%Z ->
  lap_build N true fuel C = lap N fuel C.
Proof. intros T N fuel C. exact (builds_agree N fuel C). Qed.
Print Assumptions C13_builds_agree.

(** C74.  Both row scans return the smallest and the second smallest reduced
    cost; they may differ in the columns when costs are equal. *)
Theorem C74_row_scans : forall rows dim C v i,
  length C = (rows * dim)%nat -> (forall x, In x C -> is_fin x \/ x = PInf) ->
  length v = dim ->
  (forall j, (j < dim)%nat -> nth j v NaN = NInf \/ exists x, nth j v NaN = Fin x /\ x <= 0) ->
  (i < rows)%nat ->
  (exists j, (j < dim)%nat /\ exists x, reduced dim C v i j = Fin x) ->
  exists umin usubmin,
    (exists j1 j2, find_umins_plain extR dim i C v = Ok (umin, usubmin, Some j1, j2) /\
       two_smallest dim (reduced dim C v i) umin usubmin j1 j2) /\
    (exists j1 j2, find_umins_avx2 extR dim i C v = Ok (umin, usubmin, Some j1, j2) /\
       two_smallest dim (reduced dim C v i) umin usubmin j1 j2).
Proof. intros rows dim C v i H1 H2 H3 H4 Hi. exact (scans rows dim C (conj H1 H2) v i (conj H3 H4) Hi). Qed.
Print Assumptions C74_row_scans.

(** A row of eleven columns: two blocks of four lanes and three single columns.
    Equal costs at columns 1 and 5: the scans choose differently.  A row without
    a finite cost gives the vector build no column at all. *)
Definition scan_row : list (ext Z) :=
  [Fin 9; Fin 2; PInf; Fin 8; Fin 7; Fin 2; Fin 5; PInf; Fin 6; Fin 3; Fin 4]%Z.
Example scan_run :
  find_umins_plain extZ 11 0 scan_row (repeat (Fin 0%Z) 11) = Ok (Fin 2%Z, Fin 2%Z, Some 1%nat, Some 5%nat) /\
  find_umins_avx2 extZ 11 0 scan_row (repeat (Fin 0%Z) 11) = Ok (Fin 2%Z, Fin 2%Z, Some 5%nat, Some 1%nat) /\
  find_umins_avx2 extZ 5 0 (repeat PInf 5) (repeat (Fin 0%Z) 5) = Ok (PInf, PInf, None, None) /\
  find_umins_plain extZ 5 0 (repeat PInf 5) (repeat (Fin 0%Z) 5) = Ok (PInf, PInf, Some 0%nat, None).
Proof. vm_compute. repeat split. Qed.

Example scan_hypotheses_met :
  let C := [Fin 9; Fin 2; PInf; Fin 8; Fin 7; Fin 2] in
  length C = (1 * 6)%nat /\ (forall x, In x C -> is_fin x \/ x = PInf) /\
  (exists j, (j < 6)%nat /\ exists x, reduced 6 C (repeat (Fin 0) 6) 0 j = Fin x).
Proof.
  split; [reflexivity|]. split.
  - intros x Hx. simpl in Hx.
    repeat (destruct Hx as [<-|Hx]; [first [right; reflexivity|left; eexists; reflexivity]|]). destruct Hx.
  - exists 0%nat. split; [lia|]. eexists. reflexivity.
Qed.

(** A 3 x 4 matrix with infinite entries meets all hypotheses, has a feasible
    assignment, and the model finds the optimum (run over the integers). *)
Definition exR : matrix (ext R) := mkMat 3 4 RowMajor
  [Fin 7; PInf; Fin 2; PInf;
   Fin 3; PInf; Fin (-4); Fin 9;
   PInf; PInf; Fin 1; PInf].
Definition exZ : matrix (ext Z) := mkMat 3 4 RowMajor
  [Fin 7; PInf; Fin 2; PInf;
   Fin 3; PInf; Fin (-4); Fin 9;
   PInf; PInf; Fin 1; PInf]%Z.

Example lap_hypotheses_met :
  cost_matrix exR /\ (m_rows exR <= 30)%nat /\ m_ord exR = RowMajor /\
  feasible exR [0; 3; 2]%nat.
Proof.
  split; [|split; [simpl; lia|split; [reflexivity|]]].
  - split; [reflexivity|]. intros x Hx. simpl in Hx.
    repeat (destruct Hx as [<-|Hx]; [first [right; reflexivity|left; eexists; reflexivity]|]). destruct Hx.
  - split.
    + split; [reflexivity|]. split.
      * repeat constructor; simpl; lia.
      * simpl. intros j Hj. repeat (destruct Hj as [<-|Hj]; [lia|]). destruct Hj.
    + intros i Hi. simpl in Hi. destruct i as [|[|[|i]]]; try lia; eexists; reflexivity.
Qed.

Example lap_run : exists u v,
  lap extZ 100 exZ = Ok (mkLap true [Some 0; Some 3; Some 2]%nat u v).
Proof. eexists _, _. vm_compute. reflexivity. Qed.

(** An infeasible matrix: two rows compete for one column. *)
Example lap_run_infeasible :
  lap extZ 100 (mkMat 2 3 RowMajor [PInf; Fin 1; PInf; PInf; Fin 5; PInf])%Z
  = Ok (mkLap false [Some 0; Some 0]%nat [Fin 0; Fin 0]%Z [Fin 0; Fin 0; Fin 0]%Z).
Proof. vm_compute. reflexivity. Qed.

(** C14 is false of the code: with 31 rows the [int] that enumerates the subsets
    of the rows overflows whenever an assignment exists, and such matrices
    exist. *)
Theorem C14_any_number_of_rows_refuted :
  (forall simd C fuel s, cost_matrix C -> m_rows C = 31%nat -> feasible C s ->
     lap_build extR simd fuel C = UB) /\
  exists C s, cost_matrix C /\ m_rows C = 31%nat /\ feasible C s.
Proof.
  split; [intros simd C fuel s HC H31 Hf; exact (lap_31 simd C fuel s HC H31 Hf)|].
  exists (mkMat 31 31 RowMajor (repeat (Fin 0) (31 * 31))), (seq 0 31).
  assert (E : forall k, (k < 31 * 31)%nat -> nth k (repeat (Fin 0) (31 * 31)) NaN = Fin 0).
  { intros k Hk. rewrite nth_indep with (d' := Fin 0) by (rewrite repeat_length; auto).
    apply nth_repeat. }
  split; [|split; [reflexivity|]].
  - split; [apply repeat_length|]. intros x Hx. apply repeat_spec in Hx. subst. left. eexists; reflexivity.
  - split.
    + split; [apply seq_length|]. split; [apply seq_NoDup|]. intros j Hj. apply in_seq in Hj. simpl. lia.
    + intros i Hi. cbn [m_rows] in Hi. rewrite seq_nth by auto.
      exists 0. unfold entry. cbn [m_ord m_cols m_rows m_data]. apply E. lia.
Qed.
Print Assumptions C14_any_number_of_rows_refuted.
