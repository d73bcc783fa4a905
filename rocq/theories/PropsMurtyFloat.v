(** Properties C82 and C83: Murty's ranking (include/murty.hpp) in IEEE double
    arithmetic.

    A run constructs a Murty object for the matrix [C] and draws [k] times.
    [bounded_matrix a C]: each entry is +infinity, or finite and of absolute value
    at most 2^a.  [pick] is the element on top of the queue; the theorems hold
    for whatever element of a non-empty queue it is.  [feasible_double C s]: [s] assigns
    all rows to distinct columns without an infinite entry; [total (pm proj C) s] is its
    exact total. *)
From Coq Require Import List Arith ZArith Reals Lra Lia.
Import ListNotations.
From Flocq Require Import Core BinarySingleNaN.
From Coq Require Import Floats.
From Verif Require Import Res Scalar Lap LapSpec FloatBase FloatExt LapHom LapFloatMain Murty MurtyFloatMain.
Local Open Scope nat_scope.

(** C82.  No access outside an array; all draws return. *)
Theorem C82_double_draws_return : forall C a pick k,
  (-900 <= a <= 299)%Z -> bounded_matrix a C ->
  m_rows C <= 30 -> (Z.of_nat (m_cols C) < 100000)%Z -> m_ord C = RowMajor -> 0 < m_rows C -> 0 < m_cols C ->
  (forall tick q, q <> [] -> pick tick q < length q) ->
  (forall fuel, murty_run floatN pick fuel k C <> UB) /\
  exists fuel0 outs, forall fuel, fuel0 <= fuel -> murty_run floatN pick fuel k C = Ok outs.
Proof. intros C a pick k Ha HC Hr Hc Ho Hr0 Hc0 Hp. exact (drun_returns C a Ha HC Hr Hc Ho Hr0 Hc0 pick Hp k). Qed.
Print Assumptions C82_double_draws_return.

(** Each draw is an assignment without infinite entries, and the cost reported is the
    total cost up to 2^(a-42). *)
Theorem C82_double_cost_close : forall C a pick fuel k outs,
  (-900 <= a <= 299)%Z -> bounded_matrix a C ->
  m_rows C <= 30 -> (Z.of_nat (m_cols C) < 100000)%Z -> m_ord C = RowMajor -> 0 < m_rows C -> 0 < m_cols C ->
  (forall tick q, q <> [] -> pick tick q < length q) ->
  murty_run floatN pick fuel k C = Ok outs ->
  forall cst sol, In (Some (cst, sol)) outs ->
    exists s, sol = map Some s /\ feasible_double C s /\ fin cst /\
      (Rabs (FloatBase.val cst - total (pm proj C) s) <= bpow radix2 (a - 42))%R.
Proof.
  intros C a pick fuel k outs Ha HC Hr Hc Ho Hr0 Hc0 Hp Hrun.
  exact (drun_cost C a Ha HC Hr Hc Ho Hr0 Hc0 pick Hp fuel k outs Hrun).
Qed.
Print Assumptions C82_double_cost_close.

(** No solution twice; once "false", always "false"; and only after every
    assignment was drawn; which happens after at most [cols ^ rows] draws. *)
Theorem C82_double_each_once : forall C a pick fuel k outs,
  (-900 <= a <= 299)%Z -> bounded_matrix a C ->
  m_rows C <= 30 -> (Z.of_nat (m_cols C) < 100000)%Z -> m_ord C = RowMajor -> 0 < m_rows C -> 0 < m_cols C ->
  (forall tick q, q <> [] -> pick tick q < length q) ->
  murty_run floatN pick fuel k C = Ok outs ->
  length outs = k /\
  (forall i j ci cj s,
     nth_error outs i = Some (Some (ci, s)) -> nth_error outs j = Some (Some (cj, s)) -> i = j) /\
  (forall i j, i <= j -> j < k -> nth_error outs i = Some None -> nth_error outs j = Some None) /\
  (forall s, In None outs -> feasible_double C s -> exists cst, In (Some (cst, map Some s)) outs) /\
  (m_cols C ^ m_rows C < k -> In None outs).
Proof.
  intros C a pick fuel k outs Ha HC Hr Hc Ho Hr0 Hc0 Hp Hrun.
  exact (conj (drun_length C a Ha HC Hr Hc Ho Hr0 Hc0 pick Hp fuel k outs Hrun)
        (conj (drun_distinct C a Ha HC Hr Hc Ho Hr0 Hc0 pick Hp fuel k outs Hrun)
        (conj (drun_none_stays C a Ha HC Hr Hc Ho Hr0 Hc0 pick Hp fuel k outs Hrun)
        (conj (drun_complete C a Ha HC Hr Hc Ho Hr0 Hc0 pick Hp fuel k outs Hrun)
              (drun_ends C a Ha HC Hr Hc Ho Hr0 Hc0 pick Hp fuel k outs Hrun))))).
Qed.
Print Assumptions C82_double_each_once.

(** A 2 x 3 matrix with fractions, a negative and an infinite entry. *)
Definition exF : matrix float := mkMat 2 3 RowMajor [0.7; 0.3; 0.2; (-0.3); infinity; 0.1]%float.
Lemma first_top_in tick (q : list (mstate (T := float))) : q <> [] -> first_top floatN tick q < length q.
Proof.
  intros Hq. unfold first_top.
  destruct (filter _ (seq 0 (length q))) as [|k l] eqn:E.
  - destruct q; [congruence|simpl; lia].
  - assert (H : In k (k :: l)) by (simpl; auto). rewrite <- E in H. apply filter_In in H. destruct H as [H _].
    apply in_seq in H. lia.
Qed.
Example double_ranking_hypotheses_met :
  (-900 <= 0 <= 299)%Z /\ bounded_matrix 0 exF /\ m_rows exF <= 30 /\ (Z.of_nat (m_cols exF) < 100000)%Z /\
  m_ord exF = RowMajor /\ 0 < m_rows exF /\ 0 < m_cols exF /\
  (forall tick q, q <> [] -> first_top floatN tick q < length q).
Proof.
  split; [lia|]. split; [|split; [simpl; lia|split; [reflexivity|split; [reflexivity|split; [simpl; lia|split; [simpl; lia|exact first_top_in]]]]]].
  split; [reflexivity|]. intros x Hx.
  assert (B : forall y, PrimFloat.leb (-1) y = true -> PrimFloat.leb y 1 = true -> fin y /\ (Rabs (FloatBase.val y) <= bpow radix2 0)%R).
  { intros y H1 H2. destruct (between_fin (-1) y 1) as [F V]; auto; try (apply fin_SF; reflexivity). split; auto.
    assert (V1 : FloatBase.val 1 = 1%R).
    { rewrite val_SF. change (Prim2SF 1) with (S754_finite false 4503599627370496 (-52)). unfold SF2R, F2R, cond_Zopp, Fnum, Fexp.
      replace (IZR 4503599627370496) with (bpow radix2 52) by reflexivity. rewrite <- bpow_plus. reflexivity. }
    assert (V2 : FloatBase.val (-1) = (-1)%R).
    { replace (-1)%R with (- FloatBase.val 1)%R by lra. rewrite !val_SF.
      change (Prim2SF 1) with (S754_finite false 4503599627370496 (-52)).
      change (Prim2SF (-1)) with (S754_finite true 4503599627370496 (-52)). unfold SF2R, F2R, cond_Zopp, Fnum, Fexp.
      change (- Z.pos 4503599627370496)%Z with (- (4503599627370496))%Z. rewrite opp_IZR. ring. }
    rewrite V1, V2 in V. simpl bpow. apply Rabs_le. lra. }
  simpl in Hx. repeat (destruct Hx as [<-|Hx]; [first [right; reflexivity|left; apply B; reflexivity]|]). destruct Hx.
Qed.
Example double_ranking_run :
  murty_run floatN (first_top floatN) 100 6 exF =
  Ok [Some (-0.09999999999999998, [Some 2; Some 0]%nat); Some (0, [Some 1; Some 0]%nat);
      Some (0.4, [Some 1; Some 2]%nat); Some (0.7999999999999999, [Some 0; Some 2]%nat); None; None]%float.
Proof. vm_compute. reflexivity. Qed.

(** C83 is false of the code: in doubles a later draw may cost less.  Costs
    5, 2^55; 2, 2^55: the solver returns 5 + 2^55 first, rounded to 2^55 + 8, and
    then 2 + 2^55, rounded to 2^55. *)
Theorem C83_double_costs_non_decreasing_refuted :
  exists C outs c0 c1 s0 s1,
    m_rows C <= 30 /\ (Z.of_nat (m_cols C) < 100000)%Z /\ m_ord C = RowMajor /\ 0 < m_rows C /\ 0 < m_cols C /\
    double_matrix C /\
    murty_run floatN (first_top floatN) 100 3 C = Ok outs /\
    nth_error outs 0 = Some (Some (c0, s0)) /\ nth_error outs 1 = Some (Some (c1, s1)) /\
    PrimFloat.ltb c1 c0 = true.
Proof.
  exists (mkMat 2 2 RowMajor [5; 0x1p+55; 2; 0x1p+55]%float). eexists _, _, _, _, _.
  split; [simpl; lia|]. split; [reflexivity|]. split; [reflexivity|]. split; [simpl; lia|]. split; [simpl; lia|].
  split.
  { split; [reflexivity|]. intros x Hx. simpl in Hx.
    repeat (destruct Hx as [<-|Hx]; [left; split; reflexivity|]). destruct Hx. }
  split; [vm_compute; reflexivity|]. split; [reflexivity|]. split; reflexivity.
Qed.
Print Assumptions C83_double_costs_non_decreasing_refuted.

(** What holds of C83.  [top_pick pick]: as std::priority_queue guarantees, no element of
    a queue whose costs are finite comes before the one on top.  If all finite costs
    are integers times 2^q, of absolute value at most 2^a, with 32 m 2^(a+1-q) below 2^53 for
    the m columns, the costs reported are exact, each draw costs no more than any assignment not
    drawn before it, and the costs reported do not decrease. *)
Theorem C83_double_grid_costs_ranked_partial : forall C a q pick fuel k outs,
  (-900 <= a <= 299)%Z -> bounded_matrix a C ->
  m_rows C <= 30 -> (Z.of_nat (m_cols C) < 100000)%Z -> m_ord C = RowMajor -> 0 < m_rows C -> 0 < m_cols C ->
  (forall tick q, q <> [] -> pick tick q < length q) -> top_pick pick ->
  (-1074 <= q <= 247)%Z -> (q <= a)%Z -> (32 * Z.of_nat (m_cols C) * 2 ^ (a + 1 - q) < 2 ^ 53)%Z ->
  (forall x, In x (m_data C) -> x = infinity \/ exists z, proj x = Fin (IZR z * bpow radix2 q)%R) ->
  murty_run floatN pick fuel k C = Ok outs ->
  (forall i cst sol, nth_error outs i = Some (Some (cst, sol)) ->
    exists s, sol = map Some s /\ feasible_double C s /\ fin cst /\ FloatBase.val cst = total (pm proj C) s /\
      forall s', feasible_double C s' ->
        (forall j cj, j < i -> nth_error outs j <> Some (Some (cj, map Some s'))) ->
        (total (pm proj C) s <= total (pm proj C) s')%R) /\
  (forall i j ci cj si sj, i <= j -> nth_error outs i = Some (Some (ci, si)) -> nth_error outs j = Some (Some (cj, sj)) ->
    PrimFloat.leb ci cj = true).
Proof.
  intros C a q pick fuel k outs Ha HC Hr Hc Ho Hr0 Hc0 Hp Ht Hq Hqa Hk Hz Hrun. split.
  - intros i cst sol Hi.
    destruct (drun_grid C a Ha HC Hr Hc Ho Hr0 Hc0 pick Hp fuel k outs Hrun q Hq Hqa Hk Hz i cst sol Hi) as (s & H1 & H2 & H3 & H4 & H5).
    exists s. exact (conj H1 (conj H2 (conj H3 (conj H4 (H5 Ht))))).
  - intros i j ci cj si sj.
    exact (drun_grid_sorted C a Ha HC Hr Hc Ho Hr0 Hc0 pick Hp fuel k outs Hrun q Hq Hqa Hk Hz i j ci cj si sj Ht).
Qed.
Print Assumptions C83_double_grid_costs_ranked_partial.

(** For any costs of absolute value at most 2^a, each draw of n rows and m columns
    costs at most n (n+1)^n m 2^(a-40) more than any assignment not drawn before it.
    Missing: a bound that does not grow exponentially with the number of rows. *)
Theorem C83_double_near_ranked_partial : forall C a pick fuel k outs i cst s s',
  (-900 <= a <= 299)%Z -> bounded_matrix a C ->
  m_rows C <= 30 -> (Z.of_nat (m_cols C) < 100000)%Z -> m_ord C = RowMajor -> 0 < m_rows C -> 0 < m_cols C ->
  (forall tick q, q <> [] -> pick tick q < length q) -> top_pick pick ->
  murty_run floatN pick fuel k C = Ok outs ->
  nth_error outs i = Some (Some (cst, map Some s)) -> feasible_double C s' ->
  (forall j cj, j < i -> nth_error outs j <> Some (Some (cj, map Some s'))) ->
  (total (pm proj C) s <= total (pm proj C) s' +
     INR (m_rows C) * (INR (m_rows C) + 1) ^ m_rows C * INR (m_cols C) * bpow radix2 (a - 40))%R.
Proof.
  intros C a pick fuel k outs i cst s s' Ha HC Hr Hc Ho Hr0 Hc0 Hp Ht Hrun.
  exact (drun_near C a Ha HC Hr Hc Ho Hr0 Hc0 pick Hp fuel k outs Hrun i cst s s' Ht).
Qed.
Print Assumptions C83_double_near_ranked_partial.

(** Quarters, one of them negative and one cell forbidden. *)
Definition exQ : matrix float := mkMat 2 3 RowMajor [0.75; (-0.5); 2.5; 1; infinity; 0.5]%float.
Lemma exQ_entries x : In x (m_data exQ) -> x = infinity \/
  exists z, (Z.abs z <= 16)%Z /\ proj x = Fin (IZR z * bpow radix2 (-2))%R.
Proof.
  assert (V : forall x, is_finite_SF (Prim2SF x) = true -> proj x = Fin (SF2R radix2 (Prim2SF x))).
  { intros y H. rewrite proj_fin by (apply fin_SF; auto). rewrite val_SF. reflexivity. }
  assert (W : forall x z s m e, Prim2SF x = S754_finite s m e -> (-52 <= e + 2 <= 0)%Z -> cond_Zopp s (Z.pos m) = (z * 2 ^ (- (e + 2)))%Z ->
    proj x = Fin (IZR z * bpow radix2 (-2))%R).
  { intros y z s m e H He Hz. rewrite V by (rewrite H; reflexivity). rewrite H. unfold SF2R, F2R, Fnum, Fexp. f_equal.
    rewrite Hz, mult_IZR, Rmult_assoc. f_equal. rewrite (IZR_Zpower radix2) by lia. rewrite <- bpow_plus. f_equal. lia. }
  simpl. intros Hx.
  repeat (destruct Hx as [<-|Hx]; [first [left; reflexivity|right]|]); [..|destruct Hx].
  all: [> exists 3%Z|exists (-2)%Z|exists 10%Z|exists 4%Z|exists 2%Z]; (split; [lia|eapply W; [vm_compute; reflexivity|lia|reflexivity]]).
Qed.
Example grid_ranking_hypotheses_met :
  bounded_matrix 2 exQ /\ m_rows exQ <= 30 /\ (Z.of_nat (m_cols exQ) < 100000)%Z /\ m_ord exQ = RowMajor /\
  (forall tick q, q <> [] -> first_top floatN tick q < length q) /\ top_pick (first_top floatN) /\
  (32 * Z.of_nat (m_cols exQ) * 2 ^ (2 + 1 - -2) < 2 ^ 53)%Z /\
  (forall x, In x (m_data exQ) -> x = infinity \/ exists z, proj x = Fin (IZR z * bpow radix2 (-2))%R) /\
  murty_run floatN (first_top floatN) 100 5 exQ =
  Ok [Some (0, [Some 1; Some 2]%nat); Some (0.5, [Some 1; Some 0]%nat); Some (1.25, [Some 0; Some 2]%nat);
      Some (3.5, [Some 2; Some 0]%nat); None]%float.
Proof.
  split; [|split; [simpl; lia|split; [reflexivity|split; [reflexivity|split; [exact first_top_in|split; [exact first_top_ftop|split; [reflexivity|split]]]]]]].
  - split; [reflexivity|]. intros x Hx. destruct (exQ_entries x Hx) as [?|(z & Hz & E)]; auto. left.
    apply proj_Fin in E. destruct E as [F ->]. split; auto.
    rewrite Rabs_mult, (Rabs_pos_eq (bpow radix2 (-2))) by apply bpow_ge_0. rewrite <- abs_IZR.
    change (bpow radix2 (-2)) with (/ 4)%R. change (bpow radix2 2) with 4%R. apply IZR_le in Hz. lra.
  - intros x Hx. destruct (exQ_entries x Hx) as [?|(z & Hz & E)]; auto. right. eauto.
  - vm_compute. reflexivity.
Qed.
