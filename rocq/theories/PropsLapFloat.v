(** Properties C79-C81: the assignment solver [lap] (include/rlapjv.h) in IEEE
    double arithmetic, and its running time. *)
From Coq Require Import List Arith ZArith Reals Lra Lia.
Import ListNotations.
From Flocq Require Import Core BinarySingleNaN.
From Coq Require Import Floats.
From Verif Require Import Res Scalar Lap LapSpec FloatBase FloatExt LapHom LapFloatMain LapErrMain LapSlow.
Local Open Scope R_scope.

(** C79.  The solver in doubles, entries +inf or of absolute value at most
    2^300.  No fuel leads to an access outside an array. *)
Theorem C79_double_memory_safe : forall simd C fuel,
  double_matrix C -> (m_rows C <= 30)%nat -> (Z.of_nat (m_cols C) < 100000)%Z -> m_ord C = RowMajor ->
  lap_build floatN simd fuel C <> UB.
Proof. intros simd C fuel HC Hr Hc Ho. exact (double_safe C HC Hr Hc Ho simd fuel). Qed.
Print Assumptions C79_double_memory_safe.

Theorem C79_double_terminates : forall simd C,
  double_matrix C -> (m_rows C <= 30)%nat -> (Z.of_nat (m_cols C) < 100000)%Z -> m_ord C = RowMajor ->
  exists fuel0 r, forall fuel, (fuel0 <= fuel)%nat -> lap_build floatN simd fuel C = Ok r.
Proof. intros simd C HC Hr Hc Ho. exact (double_total C HC Hr Hc Ho simd). Qed.
Print Assumptions C79_double_terminates.

Theorem C79_double_feasibility_decided : forall simd C fuel r,
  double_matrix C -> (m_rows C <= 30)%nat -> (Z.of_nat (m_cols C) < 100000)%Z -> m_ord C = RowMajor ->
  lap_build floatN simd fuel C = Ok r ->
  (l_ok r = true <-> exists s, feasible_double C s).
Proof. intros simd C fuel r HC Hr Hc Ho. exact (double_decides C HC Hr Hc Ho simd fuel r). Qed.
Print Assumptions C79_double_feasibility_decided.

Theorem C79_double_assignment_feasible : forall simd C fuel r,
  double_matrix C -> (m_rows C <= 30)%nat -> (Z.of_nat (m_cols C) < 100000)%Z -> m_ord C = RowMajor ->
  lap_build floatN simd fuel C = Ok r -> l_ok r = true ->
  exists s, l_rowsol r = map Some s /\ feasible_double C s.
Proof. intros simd C fuel r HC Hr Hc Ho. exact (double_assigns C HC Hr Hc Ho simd fuel r). Qed.
Print Assumptions C79_double_assignment_feasible.

(** A 3 x 4 matrix with fractions, a huge and infinite entries. *)
Definition exD : matrix float := mkMat 3 4 RowMajor
  [0.7; infinity; 0.2; infinity;
   0.3; infinity; (-1e80); 0.9;
   infinity; infinity; 0.1; infinity]%float.
Example double_hypotheses_met :
  double_matrix exD /\ (m_rows exD <= 30)%nat /\ (Z.of_nat (m_cols exD) < 100000)%Z /\ m_ord exD = RowMajor /\
  feasible_double exD [0; 3; 2]%nat.
Proof.
  split; [|split; [simpl; lia|split; [reflexivity|split; [reflexivity|]]]].
  - split; [reflexivity|]. intros x Hx. simpl in Hx.
    repeat (destruct Hx as [<-|Hx]; [first [right; reflexivity|left; split; reflexivity]|]). destruct Hx.
  - split.
    + split; [reflexivity|]. split.
      * repeat constructor; simpl; lia.
      * simpl. intros j Hj. repeat (destruct Hj as [<-|Hj]; [lia|]). destruct Hj.
    + intros i Hi. simpl in Hi. destruct i as [|[|[|i]]]; try lia; reflexivity.
Qed.
Example double_run : exists u v,
  lap_build floatN true 100 exD = Ok (mkLap true [Some 0; Some 3; Some 2]%nat u v).
Proof. eexists _, _. vm_compute. reflexivity. Qed.

(** C80 is false of the code: in doubles the assignment returned need not have
    the least total cost.  Costs 1, 2^54; -2^54, 2: the solver returns 1 + 2,
    but 2^54 - 2^54 is cheaper. *)
Definition roundD : matrix float := mkMat 2 2 RowMajor [1; 0x1p+54; (-0x1p+54); 2]%float.
Lemma val_roundD : map proj (m_data roundD) = [Fin 1; Fin 18014398509481984; Fin (-18014398509481984); Fin 2].
Proof.
  simpl map.
  assert (V : forall x, is_finite_SF (Prim2SF x) = true -> proj x = Fin (SF2R radix2 (Prim2SF x))).
  { intros x H. rewrite proj_fin by (apply fin_SF; auto). rewrite val_SF. reflexivity. }
  rewrite !V by reflexivity.
  change (Prim2SF 1) with (S754_finite false 4503599627370496 (-52)).
  change (Prim2SF 2) with (S754_finite false 4503599627370496 (-51)).
  change (Prim2SF 0x1p+54) with (S754_finite false 4503599627370496 2).
  change (Prim2SF (-0x1p+54)) with (S754_finite true 4503599627370496 2).
  assert (P : forall e, @F2R radix2 (Float radix2 4503599627370496 e) = bpow radix2 (52 + e)) by (intros; rewrite bpow_plus; reflexivity).
  assert (Q : @F2R radix2 (Float radix2 (-4503599627370496) 2) = - bpow radix2 (52 + 2)) by (rewrite <- P, <- F2R_Zopp; reflexivity).
  unfold SF2R, cond_Zopp. change (- (4503599627370496))%Z with (-4503599627370496)%Z. rewrite Q, !P. reflexivity.
Qed.
Theorem C80_double_assignment_optimal_refuted :
  exists C r s s', double_matrix C /\ (m_rows C <= 30)%nat /\ (Z.of_nat (m_cols C) < 100000)%Z /\ m_ord C = RowMajor /\
    (forall simd, lap_build floatN simd 100 C = Ok r) /\ l_ok r = true /\ l_rowsol r = map Some s /\
    feasible_double C s' /\ total (pm proj C) s' = 0 /\ total (pm proj C) s = 3.
Proof.
  assert (E : pm proj roundD = mkMat 2 2 RowMajor [Fin 1; Fin 18014398509481984; Fin (-18014398509481984); Fin 2])
    by (unfold pm; rewrite val_roundD; reflexivity).
  exists roundD. eexists. exists [0; 1]%nat, [1; 0]%nat.
  split; [|split; [simpl; lia|split; [reflexivity|split; [reflexivity|split; [|split; [|split; [|split; [|split]]]]]]]].
  - split; [reflexivity|]. intros x Hx. simpl in Hx.
    repeat (destruct Hx as [<-|Hx]; [left; split; reflexivity|]). destruct Hx.
  - intros [|]; vm_compute; reflexivity.
  - reflexivity.
  - reflexivity.
  - split; [split; [reflexivity|split]|].
    + repeat constructor; simpl; lia.
    + simpl. intros j Hj. repeat (destruct Hj as [<-|Hj]; [lia|]). destruct Hj.
    + intros i Hi. simpl in Hi. destruct i as [|[|i]]; try lia; reflexivity.
  - rewrite E. unfold total, entry. simpl. lra.
  - rewrite E. unfold total, entry. simpl. lra.
Qed.
Print Assumptions C80_double_assignment_optimal_refuted.

(** What holds of C80.  If all finite costs are integers times one power of two,
    small enough for 32 m times a cost to be below 2^53 such units, the
    assignment returned has the least total cost. *)
Theorem C80_double_grid_costs_optimal_partial : forall simd C fuel r K q,
  double_matrix C -> (m_rows C <= 30)%nat -> (Z.of_nat (m_cols C) < 100000)%Z -> m_ord C = RowMajor ->
  (-1074 <= q <= 247)%Z -> (32 * Z.of_nat (m_cols C) * K < 2 ^ 53)%Z ->
  (forall x, In x (m_data C) -> x = infinity \/
     exists z, (Z.abs z <= K)%Z /\ proj x = Fin (IZR z * bpow radix2 q)) ->
  lap_build floatN simd fuel C = Ok r -> l_ok r = true ->
  exists s, l_rowsol r = map Some s /\ optimal (pm proj C) s.
Proof. intros simd C fuel r K q HC Hr Hc Ho. exact (double_exact C HC Hr Hc Ho K q simd fuel r). Qed.
Print Assumptions C80_double_grid_costs_optimal_partial.

(** For any costs of absolute value at most B its total is within
    36 n (n+1)^n m B 2^-47 of the least.  Missing: a bound that does not grow
    exponentially with the number of rows. *)
Theorem C80_double_near_optimal_partial : forall simd C fuel r B,
  double_matrix C -> (m_rows C <= 30)%nat -> (Z.of_nat (m_cols C) < 100000)%Z -> m_ord C = RowMajor ->
  bpow radix2 (-900) <= B <= bpow radix2 300 ->
  (forall x, In x (m_data C) -> x = infinity \/ exists y, proj x = Fin y /\ Rabs y <= B) ->
  lap_build floatN simd fuel C = Ok r -> l_ok r = true ->
  exists s, l_rowsol r = map Some s /\ feasible_double C s /\
    forall s', feasible_double C s' -> total (pm proj C) s <= total (pm proj C) s' +
      36 * INR (m_rows C) * (INR (m_rows C) + 1) ^ m_rows C * INR (m_cols C) * B * bpow radix2 (-47).
Proof. intros simd C fuel r B HC Hr Hc Ho. exact (double_near C HC Hr Hc Ho B simd fuel r). Qed.
Print Assumptions C80_double_near_optimal_partial.

(** Quarters: rows 0 and 2 give up their cheapest columns, 2.5 + 1 + 4 < 0.75 + 7.25 + 0.25. *)
Definition quarterD : matrix float := mkMat 3 4 RowMajor
  [0.75; infinity; 2.5; infinity;
   1; 7.25; infinity; infinity;
   infinity; infinity; 0.25; 4]%float.
Lemma quarter_entries x : In x (m_data quarterD) -> x = infinity \/
  exists z, (Z.abs z <= 32)%Z /\ proj x = Fin (IZR z * bpow radix2 (-2)).
Proof.
  assert (V : forall x, is_finite_SF (Prim2SF x) = true -> proj x = Fin (SF2R radix2 (Prim2SF x))).
  { intros y H. rewrite proj_fin by (apply fin_SF; auto). rewrite val_SF. reflexivity. }
  assert (W : forall x z m e, Prim2SF x = S754_finite false m e -> (-52 <= e + 2 <= 0)%Z -> Z.pos m = (z * 2 ^ (- (e + 2)))%Z ->
    proj x = Fin (IZR z * bpow radix2 (-2))).
  { intros y z m e H He Hz. rewrite V by (rewrite H; reflexivity). rewrite H. unfold SF2R, cond_Zopp, F2R, Fnum, Fexp. f_equal.
    rewrite Hz, mult_IZR, Rmult_assoc. f_equal. rewrite (IZR_Zpower radix2) by lia. rewrite <- bpow_plus. f_equal. lia. }
  simpl. intros Hx.
  repeat (destruct Hx as [<-|Hx]; [first [left; reflexivity|right]|]); [..|destruct Hx].
  all: [> exists 3%Z|exists 10%Z|exists 4%Z|exists 29%Z|exists 1%Z|exists 16%Z]; (split; [lia|eapply W; [vm_compute; reflexivity|lia|reflexivity]]).
Qed.
Example quarter_hypotheses_met :
  double_matrix quarterD /\ (m_rows quarterD <= 30)%nat /\ (Z.of_nat (m_cols quarterD) < 100000)%Z /\ m_ord quarterD = RowMajor /\
  (32 * Z.of_nat (m_cols quarterD) * 32 < 2 ^ 53)%Z /\
  (forall x, In x (m_data quarterD) -> x = infinity \/ exists z, (Z.abs z <= 32)%Z /\ proj x = Fin (IZR z * bpow radix2 (-2))) /\
  (forall x, In x (m_data quarterD) -> x = infinity \/ exists y, proj x = Fin y /\ Rabs y <= 8) /\
  exists u v, lap_build floatN true 100 quarterD = Ok (mkLap true [Some 2; Some 0; Some 3]%nat u v).
Proof.
  split; [|split; [simpl; lia|split; [reflexivity|split; [reflexivity|split; [reflexivity|split; [exact quarter_entries|split]]]]]].
  - split; [reflexivity|]. intros x Hx. simpl in Hx.
    repeat (destruct Hx as [<-|Hx]; [first [right; reflexivity|left; split; reflexivity]|]). destruct Hx.
  - intros x Hx. destruct (quarter_entries x Hx) as [?|(z & Hz & E)]; auto. right. eexists. split; [exact E|].
    rewrite Rabs_mult, (Rabs_pos_eq (bpow radix2 (-2))) by apply bpow_ge_0. rewrite <- abs_IZR.
    change (bpow radix2 (-2)) with (/ 4). apply IZR_le in Hz. lra.
  - eexists _, _. vm_compute. reflexivity.
Qed.

(** C81 is false of the code: the number of rounds of the loop at
    rlapjv.h:308-353 has no bound in the size of the matrix. *)
Theorem C81_rounds_bounded_by_size_refuted :
  ~ exists bound : nat -> nat -> nat, forall simd C,
      cost_matrix C -> (m_rows C <= 30)%nat -> m_ord C = RowMajor -> (exists s, feasible C s) ->
      lap_build extR simd (bound (m_rows C) (m_cols C)) C <> OutOfFuel.
Proof.
  intros (bound & H). apply (H false (slow (2 * Z.of_nat (bound 3 3)%nat + 11)) (slow_cost _)); [simpl; lia|reflexivity| |].
  - exists [0; 1; 2]%nat. apply slow_feasible.
  - exact (slow_run false (bound 3 3)%nat).
Qed.
Print Assumptions C81_rounds_bounded_by_size_refuted.

(** The matrix: two cheap columns for three rows, costs 0 0 L / 0 1 L / 0 2 L. *)
Theorem C81_rounds_grow_with_costs_partial : forall simd rounds,
  let L := Fin (IZR (2 * Z.of_nat rounds + 11)) in
  lap_build extR simd rounds
    (mkMat 3 3 RowMajor [Fin 0; Fin 0; L; Fin 0; Fin 1; L; Fin 0; Fin 2; L]) = OutOfFuel.
Proof. intros simd rounds. exact (slow_run simd rounds). Qed.
Print Assumptions C81_rounds_grow_with_costs_partial.

(** L = 1000: a thousand rounds do not suffice, 2200 do. *)
Example slow_example : lap extZ 1000 (slowZ 1000) = OutOfFuel /\ exists r, lap extZ 2200 (slowZ 1000) = Ok r.
Proof. split; [vm_compute; reflexivity|eexists; vm_compute; reflexivity]. Qed.
