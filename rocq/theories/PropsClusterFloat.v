(** Properties C84 to C86: the association of a cluster (include/cluster.hpp,
    Target_::correct in include/target.hpp) in IEEE double arithmetic.

    [association_input N a C]: [C] is a cost matrix for 1 to 30 targets and [N] reports,
    with entries +infinity or of absolute value at most 2^a.  [pick] is the element on
    top of the queue of Murty's ranking.  [fsum l] is a sum of the list [l] in whatever
    order ([fsums l (fsum l)]).  [expf] is std::exp; [exp_nonneg]: never negative or NaN;
    [exp_accurate]: relative error at most 2^-40 between -700 and 700, between 0 and
    2^-800 below, at least 2^950 or infinite above.  [fc_n], [fc_w], [fc_R], [fc_r] and
    [fc_rB]: hypotheses used, their total weight, the association probabilities, the
    existence probabilities and the birth weights after the correction. *)
From Coq Require Import List Arith ZArith Reals Lra Lia.
Import ListNotations.
From Flocq Require Import Core BinarySingleNaN.
From Coq Require Import Floats.
From Verif Require Import Res Scalar Lap LapSpec FloatBase FloatExt LapHom LapFloatMain Murty MurtyFloatMain Cluster ClusterSpec.
From Verif Require Import ClusterFloat ClusterFloatClose ClusterFloatMain ClusterFloatRange ClusterFloatWitness.
Local Open Scope nat_scope.

(** C84.  The correction reads no array out of bounds and returns. *)
Theorem C84_double_correction_returns : forall expf pick fsum w_lim nhyp_max N a C rs,
  association_input N a C -> (forall tick q, q <> [] -> pick tick q < length q) ->
  (forall fuel, fcorrect expf pick fsum w_lim nhyp_max fuel N C rs <> UB) /\
  exists fuel0 out, forall fuel, fuel0 <= fuel -> fcorrect expf pick fsum w_lim nhyp_max fuel N C rs = Ok out.
Proof. intros expf pick fsum w_lim nhyp_max N a C rs Hin Hp. exact (fcorrect_returns expf pick fsum w_lim nhyp_max N a C rs Hin Hp). Qed.
Print Assumptions C84_double_correction_returns.

(** Existence probabilities are numbers, not negative, and exceed 1 at most by
    2^-50 for each hypothesis and report. *)
Theorem C84_double_existence_partial : forall expf pick fsum w_lim nhyp_max N a C rs fuel out,
  association_input N a C -> (forall tick q, q <> [] -> pick tick q < length q) ->
  exp_nonneg expf -> (forall l, fsums l (fsum l)) -> PrimFloat.leb nhyp_max 1048576 = true ->
  length rs = m_rows C -> (forall r, In r rs -> fin r /\ (0 <= FloatBase.val r <= 1)%R) ->
  fcorrect expf pick fsum w_lim nhyp_max fuel N C rs = Ok out ->
  length (fc_r out) = m_rows C /\ (Z.of_nat (fc_n out) <= 2 ^ 20)%Z /\
  forall i, i < m_rows C -> fin (nth i (fc_r out) nan) /\
    (0 <= FloatBase.val (nth i (fc_r out) nan) <= 1 + INR (fc_n out + N + 1) * bpow radix2 (-50))%R.
Proof.
  intros expf pick fsum w_lim nhyp_max N a C rs fuel out Hin Hp He Hs Hm Hl Hr Hrun.
  destruct (existence_bounds expf pick fsum w_lim nhyp_max N a C rs Hin Hp He Hs Hm fuel out Hrun Hl Hr) as (H1 & H2 & H3).
  exact (conj H2 (conj H1 H3)).
Qed.
Print Assumptions C84_double_existence_partial.

(** Birth weights are at most 1 and negative at most by 2^-50 for each hypothesis
    and target, unless the total weight is 0 or infinite (C86). *)
Theorem C84_double_birth_partial : forall expf pick fsum w_lim nhyp_max N a C rs fuel out,
  association_input N a C -> (forall tick q, q <> [] -> pick tick q < length q) ->
  exp_nonneg expf -> (forall l, fsums l (fsum l)) -> PrimFloat.leb nhyp_max 1048576 = true ->
  fcorrect expf pick fsum w_lim nhyp_max fuel N C rs = Ok out ->
  length (fc_rB out) = N /\
  forall j, j < N -> (fc_n out = 0 \/ (fin (fc_w out) /\ (0 < FloatBase.val (fc_w out))%R)) ->
    fin (nth j (fc_rB out) nan) /\
    (- (INR (fc_n out + m_rows C) * bpow radix2 (-50)) <= FloatBase.val (nth j (fc_rB out) nan) <= 1)%R.
Proof.
  intros expf pick fsum w_lim nhyp_max N a C rs fuel out Hin Hp He Hs Hm Hrun.
  exact (birth_bounds expf pick fsum w_lim nhyp_max N a C rs Hin Hp He Hs Hm fuel out Hrun).
Qed.
Print Assumptions C84_double_birth_partial.

(** False of the code: one target with r = 1 and eight equally likely reports.  The
    nine quotients add up to 1.0000000000000002.  Default parameters (w_lim 0.01,
    nhyp_max 100); any exponential with exp(0) = 1 and exp(-30000) = 0. *)
Theorem C84_double_existence_bounds_refuted : forall expf,
  expf (-0)%float = 1%float -> expf (-30000)%float = 0%float ->
  exists N C rs out,
    association_input N 15 C /\ length rs = m_rows C /\ (forall r, In r rs -> r = 1%float) /\
    fcorrect expf (first_top floatN) left_sum 0.01 100 50 N C rs = Ok out /\
    exists i, i < m_rows C /\ PrimFloat.ltb 1 (nth i (fc_r out) nan) = true.
Proof.
  intros expf H0 H1. destruct (nine_run expf H0 H1) as (out & Hrun & Hr & _).
  exists 8, nine, [1%float], out. split; [exact nine_input|]. split; [reflexivity|].
  split; [intros r [<-|[]]; reflexivity|]. split; [exact Hrun|]. exists 0. split; [simpl; lia|]. rewrite Hr. reflexivity.
Qed.
Print Assumptions C84_double_existence_bounds_refuted.

(** C85.  If the total weight is between 2^-600 and 2^900, the results are the marginals
    of the hypotheses [ds] used, weighted by exp of minus the exact total cost.  [ds] are
    different feasible assignments; all of them, or [nhyp_max] of them, or one of them
    has (nearly) a share below [w_lim]. *)
Theorem C85_double_marginals : forall expf pick fsum w_lim nhyp_max N a C rs fuel out,
  association_input N a C -> (a <= 15)%Z -> (forall tick q, q <> [] -> pick tick q < length q) ->
  exp_accurate expf -> (forall l, fsums l (fsum l)) -> PrimFloat.leb nhyp_max 1048576 = true ->
  fcorrect expf pick fsum w_lim nhyp_max fuel N C rs = Ok out ->
  fc_n out <> 0 -> fin (fc_w out) -> (bpow radix2 (-600) <= FloatBase.val (fc_w out) <= bpow radix2 900)%R ->
  let pr := fun s => exp (- total (pm proj C) s) in
  exists ds, length ds = fc_n out /\ NoDup ds /\ (forall s, In s ds -> feasible_double C s) /\
  ((forall s, feasible_double C s -> In s ds) \/ PrimFloat.leb nhyp_max (nofnat floatN (fc_n out)) = true \/
   exists s, In s ds /\ (fin w_lim -> pr s / sum_over pr ds <= FloatBase.val w_lim + bpow radix2 (-20))%R) /\
  (forall i j, i < m_rows C -> j <= N -> let x := nth (i * (N + 1) + j) (fc_R out) nan in
     fin x /\ (0 <= FloatBase.val x <= 1)%R /\
     (Rabs (FloatBase.val x - marginal N pr ds i j) <= bpow radix2 (-20))%R) /\
  (forall i, i < m_rows C -> let x := nth i (fc_r out) nan in
     fin x /\ (Rabs (FloatBase.val x - sum_over (marginal N pr ds i) (seq 0 (N + 1))) <= bpow radix2 (-18))%R) /\
  (forall j, j < N -> let x := nth j (fc_rB out) nan in
     fin x /\ (Rabs (FloatBase.val x - (1 - sum_over (fun i => marginal N pr ds i j) (seq 0 (m_rows C)))) <= bpow radix2 (-19))%R).
Proof.
  intros expf pick fsum w_lim nhyp_max N a C rs fuel out Hin Ha Hp He Hs Hm Hrun Hn Hf Hw pr.
  exact (marginals_double expf pick fsum w_lim nhyp_max N a C rs Hin Hp He Hm Ha fuel out Hrun Hs Hn Hf Hw).
Qed.
Print Assumptions C85_double_marginals.

(** C86.  False of the code: ten targets whose reports fit very well (total cost -720).
    exp overflows, and after the correction no target exists. *)
Theorem C86_double_targets_survive_refuted : forall expf fsum,
  exp_accurate expf -> expf 720%float = infinity -> (forall l, fsums l (fsum l)) ->
  exists N C rs out,
    association_input N 15 C /\ length rs = m_rows C /\ (forall r, In r rs -> r = 0.9%float) /\
    fcorrect expf (first_top floatN) fsum 0.01 100 60 N C rs = Ok out /\
    fc_n out <> 0 /\ forall i, i < m_rows C -> nth i (fc_r out) nan = 0%float.
Proof.
  intros expf fsum He H7 Hs. destruct (ten_run expf fsum (repeat 0.9%float 10) He H7 Hs) as (out & Hrun & Hn & _ & Hr).
  exists 10, ten, (repeat 0.9%float 10), out. split; [exact ten_input|]. split; [reflexivity|].
  split; [intros r Hi; exact (repeat_spec _ _ _ Hi)|]. split; [exact Hrun|]. split; [lia|exact Hr].
Qed.
Print Assumptions C86_double_targets_survive_refuted.

(** Whenever the total weight is not a positive number, every target is lost. *)
Theorem C86_double_all_lost : forall expf pick fsum w_lim nhyp_max N a C rs fuel out,
  association_input N a C -> (forall tick q, q <> [] -> pick tick q < length q) ->
  exp_nonneg expf -> (forall l, fsums l (fsum l)) ->
  fcorrect expf pick fsum w_lim nhyp_max fuel N C rs = Ok out ->
  fc_n out <> 0 -> ~ (fin (fc_w out) /\ (0 < FloatBase.val (fc_w out))%R) ->
  forall i, i < m_rows C -> nth i (fc_r out) nan = 0%float.
Proof.
  intros expf pick fsum w_lim nhyp_max N a C rs fuel out Hin Hp He Hs Hrun.
  exact (lost expf pick fsum w_lim nhyp_max N a C rs Hin Hp He Hs fuel out Hrun).
Qed.
Print Assumptions C86_double_all_lost.

(** The total weight is in the range of C85 if the hypotheses used cost at least -250
    and one of them costs at most 250.  (It is not proved that the least costly one is
    among them: with rounding Murty's ranking need not start with it, C80 and C83.) *)
Theorem C86_double_total_weight_partial : forall expf pick fsum w_lim nhyp_max N a C rs fuel out,
  association_input N a C -> (a <= 15)%Z -> (forall tick q, q <> [] -> pick tick q < length q) ->
  exp_accurate expf -> PrimFloat.leb nhyp_max 1048576 = true ->
  fcorrect expf pick fsum w_lim nhyp_max fuel N C rs = Ok out ->
  exists ds, length ds = fc_n out /\ NoDup ds /\ (forall s, In s ds -> feasible_double C s) /\
  ((forall s, feasible_double C s -> In s ds) \/ 0 < length ds) /\
  ((forall s, In s ds -> (-250 <= total (pm proj C) s)%R) ->
     fin (fc_w out) /\ (0 <= FloatBase.val (fc_w out) <= bpow radix2 900)%R) /\
  (fin (fc_w out) -> (exists s, In s ds /\ (total (pm proj C) s <= 250)%R) ->
     (bpow radix2 (-600) <= FloatBase.val (fc_w out))%R).
Proof.
  intros expf pick fsum w_lim nhyp_max N a C rs fuel out Hin Ha Hp He Hm Hrun.
  exact (total_weight_double expf pick fsum w_lim nhyp_max N a C rs Hin Hp He Hm Ha fuel out Hrun).
Qed.
Print Assumptions C86_double_total_weight_partial.

(** The hypotheses are met: an exponential that is the exact one rounded, sums from left
    to right, the first best element of the queue, the parameters' defaults. *)
Example double_association_hypotheses_met :
  association_input 8 15 nine /\ association_input 10 15 ten /\
  (forall tick q, q <> [] -> first_top floatN tick q < length q) /\
  (exp_accurate good_exp /\ good_exp (-0)%float = 1%float /\ good_exp (-30000)%float = 0%float /\
   good_exp 720%float = infinity) /\ exp_nonneg good_exp /\
  (forall l, fsums l (left_sum l)) /\ PrimFloat.leb 100 1048576 = true.
Proof.
  split; [exact nine_input|]. split; [exact ten_input|]. split; [exact first_in|]. split; [exact good_exp_ok|].
  split; [exact (accurate_nonneg _ (proj1 good_exp_ok))|]. split; [exact left_sum_ok|reflexivity].
Qed.
(** The run of C84's witness has a total weight of 9, within the range of C85. *)
Example double_association_run :
  exists out, fcorrect good_exp (first_top floatN) left_sum 0.01 100 50 8 nine [1%float] = Ok out /\
    fc_n out = 10 /\ fc_w out = 9%float.
Proof.
  destruct (nine_run good_exp (proj1 (proj2 good_exp_ok)) (proj1 (proj2 (proj2 good_exp_ok)))) as (out & H1 & _ & H2). exists out. auto.
Qed.
