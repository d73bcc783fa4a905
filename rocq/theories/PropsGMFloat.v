(** Properties C89 to C92: mixtures, prediction and the update of a cluster from
    mixtures to existence probabilities, in IEEE double arithmetic (include/gm.hpp,
    include/target.hpp, include/cluster.hpp).

    [upto B x]: the double [x] is a number between 0 and [B].  [exact_sum]: the sum of
    the values, not rounded.  [logf] and [expf] are std::log and std::exp, assumed to be
    accurate to 2^-40 ([log_accurate], [exp_accurate]).  [target_ok N t]: an existence
    probability, at most 2^20 weights as normalising leaves them, and for [N] reports
    likelihoods of at most 2^800. *)
From Coq Require Import List Arith ZArith Reals Lra Lia.
Import ListNotations.
From Flocq Require Import Core BinarySingleNaN.
From Coq Require Import Floats.
From Verif Require Import Res Scalar Lap LapSpec FloatBase FloatExt LapHom LapFloatMain Murty MurtyProofs MurtyFloatMain Cluster ClusterSpec.
From Verif Require Import ClusterFloat FloatSum ClusterFloatClose ClusterFloatMain ClusterFloatRange ClusterFloatWitness.
From Verif Require Import GMFloat GMFloatSpec GMFloatProofs GMFloatMatch GMFloatCost GMFloatBayes GMFloatWitness.
Local Open Scope R_scope.

(** C89.  Normalising: the weights become numbers between 0 and 1, each its share of the
    exact sum up to a relative error of (4 n + 4) 2^-53, and they add up to 1 as exactly. *)
Theorem C89_double_normalize : forall ws,
  (forall w, In w ws -> upto (bpow radix2 900) w) -> (Z.of_nat (length ws) <= 2 ^ 20)%Z ->
  PrimFloat.ltb 1e-8 (fwsum ws) = true ->
  let n := INR (length ws) in let '(ws', eta) := fnormalize ws in
  0 < exact_sum ws /\ fin eta /\ Rabs (FloatBase.val eta - exact_sum ws) <= 2 * n * bpow radix2 (-53) * exact_sum ws /\
  length ws' = length ws /\ (forall w, In w ws' -> upto 1 w) /\
  Rabs (exact_sum ws' - 1) <= (4 * n + 4) * bpow radix2 (-53) /\
  Forall2 (fun w w' => let share := FloatBase.val w / exact_sum ws in
    Rabs (FloatBase.val w' - share) <= (4 * n + 4) * bpow radix2 (-53) * share + bpow radix2 (-1075)) ws ws'.
Proof.
  intros ws Hw Hl Hb. pose proof (normalized ws (bpow radix2 900) (conj (bpow_ge_0 radix2 900) (Rle_refl _)) Hw Hl Hb) as (H1 & H2 & H3 & H4 & H5 & H6 & H7 & H8).
  destruct (fnormalize ws) as [ws' eta]. cbn [fst snd] in *. subst eta.
  exact (conj H1 (conj H3 (conj H4 (conj H5 (conj H6 (conj H8 H7)))))).
Qed.
Print Assumptions C89_double_normalize.

(** Sampling the normalised mixture into [cols] columns writes nothing behind the last
    column, and leaves at most one column for each component unset, all at the end.
    Each component writes its share of the columns: one column too few at most, up to
    rounding. *)
Theorem C89_double_sampling : forall ws cols,
  (forall w, In w ws -> upto (bpow radix2 900) w) -> (Z.of_nat (length ws) <= 2 ^ 20)%Z ->
  PrimFloat.ltb 1e-8 (fwsum ws) = true -> (Z.of_nat cols <= 2 ^ 29)%Z ->
  exists ns, length ns = length ws /\ (list_sum ns <= cols <= list_sum ns + length ws)%nat /\
  fsample_cols cols (fst (fnormalize ws)) =
    Ok (flat_map (fun i => repeat (Some (fst i)) (snd i)) (combine (seq 0 (length ws)) ns) ++ repeat None (cols - list_sum ns)) /\
  forall i, (i < length ws)%nat ->
    let share := FloatBase.val (nth i ws 0%float) / exact_sum ws * INR cols in
    let e := (4 * INR (length ws) + 6) * bpow radix2 (-53) * share + bpow radix2 (-40) in
    share - 1 - e < INR (nth i ns 0%nat) <= share + e.
Proof.
  intros ws cols Hw Hl Hb Hc. exact (sampled ws (bpow radix2 900) (conj (bpow_ge_0 radix2 900) (Rle_refl _)) Hw Hl Hb cols Hc).
Qed.
Print Assumptions C89_double_sampling.

(** Weights 1, 6, 3 and 3 in 1000 columns: 76, 461, 230 and 230, and three are left. *)
Example C89_example :
  (forall w, In w [1; 6; 3; 3]%float -> upto (bpow radix2 900) w) /\
  PrimFloat.ltb 1e-8 (fwsum [1; 6; 3; 3]%float) = true /\
  fsample_cols 1000 (fst (fnormalize [1; 6; 3; 3]%float)) =
    Ok (repeat (Some 0) 76 ++ repeat (Some 1) 461 ++ repeat (Some 2) 230 ++ repeat (Some 3) 230 ++ repeat None 3)%nat.
Proof.
  split; [exact ints_ok|split; vm_compute; reflexivity].
Qed.

(** C90.  False of the code: a target that certainly exists (r = 1) and certainly
    survives ends with an existence probability above 1. *)
Theorem C90_double_predict_refuted :
  exists ws, ws = fst (fnormalize [1; 6; 3; 3]%float) /\ PrimFloat.ltb 1 (fst (fpredict 1 1 ws)) = true.
Proof. exists four. split; [reflexivity|]. rewrite four_predict. reflexivity. Qed.
Print Assumptions C90_double_predict_refuted.

(** It stays a number that is not negative, and exceeds r by a factor of 1 + (6 n + 7)
    2^-53 at most, if the weights were normalised before ([r] may already exceed 1). *)
Theorem C90_double_predict_partial : forall ws s r,
  (forall w, In w ws -> upto 1 w) -> (Z.of_nat (length ws) <= 2 ^ 20)%Z ->
  Rabs (exact_sum ws - 1) <= (4 * INR (length ws) + 4) * bpow radix2 (-53) -> upto 2 r -> upto 1 s ->
  let r' := fst (fpredict s r ws) in
  fin r' /\ 0 <= FloatBase.val r' <= FloatBase.val r * (1 + (6 * INR (length ws) + 7) * bpow radix2 (-53)) + bpow radix2 (-1075).
Proof. intros ws s r Hw Hl Hs Hr Hs1. exact (predict_bound ws s r Hw Hl Hs Hr Hs1). Qed.
Print Assumptions C90_double_predict_partial.

Example C90_example : (forall w, In w [0.5; 0.25; 0.25]%float -> upto 1 w) /\ Rabs (exact_sum [0.5; 0.25; 0.25]%float - 1) <= (4 * INR 3 + 4) * bpow radix2 (-53) /\
  upto 2 0.9%float /\ upto 1 0.5%float /\ (fst (fpredict 0.5 0.9 [0.5; 0.25; 0.25]) = 0.45)%float.
Proof.
  assert (V : forall x, Prim2SF x = S754_finite false 4503599627370496 (-53) -> fin x /\ FloatBase.val x = / 2).
  { intros x E. split; [apply fin_SF; rewrite E; reflexivity|]. rewrite val_SF, E. unfold SF2R, F2R, cond_Zopp, Fnum, Fexp. simpl bpow. lra. }
  assert (V4 : fin 0.25%float /\ FloatBase.val 0.25%float = / 4).
  { split; [apply fin_SF; reflexivity|]. rewrite val_SF. change (Prim2SF 0.25) with (S754_finite false 4503599627370496 (-54)).
    unfold SF2R, F2R, cond_Zopp, Fnum, Fexp. simpl bpow. lra. }
  destruct (V 0.5%float eq_refl) as [F5 V5]. destruct V4 as [F4 V4].
  split; [intros w [<-|[<-|[<-|[]]]]; (split; [auto|lra])|]. split; [unfold exact_sum; cbn [map fold_right]; rewrite V5, V4; replace (/ 2 + (/ 4 + (/ 4 + 0)) - 1) with 0 by lra; rewrite Rabs_R0; simpl; lra|].
  split; [|split; [split; [auto|lra]|vm_compute; reflexivity]]. split; [apply fin_SF; reflexivity|]. rewrite val_SF.
  change (Prim2SF 0.9) with (S754_finite false 8106479329266893 (-53)). unfold SF2R, F2R, cond_Zopp, Fnum, Fexp. simpl bpow. lra.
Qed.

(** C91.  False of the code: with the default detection probability 1 and all samples in
    view the probability of being missed is negative, and the cost of being missed NaN. *)
Theorem C91_double_missed_refuted : forall logf, log_accurate logf ->
  exists ws ks, ws = fst (fnormalize [1; 6; 3; 3]%float) /\ Forall (fun k => k = 1000%nat) ks /\ length ks = length ws /\
    PrimFloat.ltb (fmissed 1 ks ws) 0 = true /\
    fcost_miss logf 1 (mkFT 0.5 ws ks []) = nan.
Proof. intros logf Hl. exists four, (repeat 1000%nat 4). exact (four_nan logf Hl). Qed.
Print Assumptions C91_double_missed_refuted.

(** The probability of being missed is correct to (5 n + 14) 2^-53, and negative at most
    by (9 n + 18) 2^-53. *)
Theorem C91_double_missed_partial : forall pD ks ws,
  upto 1 pD -> (forall w, In w ws -> upto 1 w) -> (forall k, In k ks -> (k <= 1000)%nat) ->
  (Z.of_nat (length ws) <= 2 ^ 20)%Z -> length ks = length ws ->
  Rabs (exact_sum ws - 1) <= (4 * INR (length ws) + 4) * bpow radix2 (-53) ->
  let x := fmissed pD ks ws in
  fin x /\ 1 - FloatBase.val pD - (9 * INR (length ws) + 18) * bpow radix2 (-53) <= FloatBase.val x <= 1 /\
  Rabs (FloatBase.val x - (1 - detected (FloatBase.val pD) (combine (map FloatBase.val ws) ks))) <= (5 * INR (length ws) + 14) * bpow radix2 (-53).
Proof. intros pD ks ws HpD Hw Hk Hl El Hs. exact (missed_bound pD ks ws HpD Hw Hk Hl El Hs). Qed.
Print Assumptions C91_double_missed_partial.

(** With a detection probability of at most 1 - 2^-20 no cost is NaN: the costs are as
    C84 to C86 require, and each is minus the logarithm of the exact factor to within
    (11 n + 60) 2^-32, or infinite where the factor is at most 1.01e-8. *)
Theorem C91_double_costs_partial : forall logf pD kappas ts,
  log_accurate logf -> upto (1 - bpow radix2 (-20)) pD ->
  Forall kappa_ok kappas -> Forall (target_ok (length kappas)) ts -> Forall settled ts ->
  (0 < length ts <= 30)%nat -> (Z.of_nat (length kappas) <= 90000)%Z ->
  let N := length kappas in let M := length ts in
  association_input N 15 (fcost_of logf pD kappas ts) /\
  forall i j, (i < M)%nat -> (j < N + 2 * M)%nat ->
  let x := entry nan (fcost_of logf pD kappas ts) i j in
  let t := nth i ts (mkFT 0 [] [] []) in
  let F := choice_weight N M i (exact_of pD kappas t) j in
  (x = infinity /\ 0 <= F <= 1.01e-8) \/ (fin x /\ 0 < F /\ Rabs (FloatBase.val x + ln F) <= tol (length (ft_w t))).
Proof.
  intros logf pD kappas ts Hlog HpD Hk Ht Hs HM HN N M. split; [exact (assoc_ok logf pD kappas ts Hlog HpD Hk Ht HM HN)|].
  intros i j Hi Hj. exact (choice_close logf pD kappas ts Hlog HpD Hk Ht Hs HM i j Hi Hj).
Qed.
Print Assumptions C91_double_costs_partial.

(** Two targets and a report; some logarithm is as assumed. *)
Example C91_example : exists logf, log_accurate logf /\ upto (1 - bpow radix2 (-20)) 0.5%float /\
  Forall kappa_ok [1%float] /\ Forall (target_ok (length [1%float])) pair /\ Forall settled pair /\
  fcost_of logf 0.5 [1%float] pair = pair_costs.
Proof.
  exists good_log. destruct good_log_ok as [H1 H2]. destruct pair_ok as (H3 & H4 & H5 & H6 & _).
  exact (conj H1 (conj H3 (conj H4 (conj H5 (conj H6 (pair_costs_ok good_log H2)))))).
Qed.

(** C92.  False of the code: three targets and a report, all inputs within 2^-52 of
    numbers for which the second target exists with probability 41/113 = 0.363.  The
    update returns 0.258.  Default parameters (detection probability 1, w_lim 0.01,
    nhyp_max 100); the logarithm and exponential correctly rounded where they are used. *)
Theorem C92_double_posterior_refuted : forall logf expf,
  log_accurate logf -> log_table logf -> exp_table expf ->
  exists ts exact out i,
    Forall2 (fun t x => let '(r, ws, ins, reps) := x in
      stands_for r (ft_r t) /\ Forall2 stands_for ws (ft_w t) /\ ft_in t = ins /\
      Forall2 (Forall2 (fun a b => fst b = fst a /\ stands_for (snd a) (snd b))) reps (ft_rep t)) ts exact /\
    fcluster logf 1 [1%float] expf (first_top floatN) left_sum 0.01 100 60 ts = Ok out /\
    Rabs (FloatBase.val (nth i (fc_r out) nan) -
          posterior 1 (map (fun x => let '(r, ws, ins, reps) := x in prior_of 1 [1] r ws ins reps) exact) i) >= / 10.
Proof. intros logf expf Hl Ht He. exact (three_wrong logf expf Hl Ht He). Qed.
Print Assumptions C92_double_posterior_refuted.

Example C92_functions : exists logf expf, log_accurate logf /\ log_table logf /\ exp_accurate expf /\ exp_table expf.
Proof. exists good_log, three_exp. destruct good_log_ok, three_exp_ok. auto. Qed.

(** With a detection probability of at most 1 - 2^-20: the results are the marginals of
    the hypotheses used, weighted by the exact product of the prior existence, detection
    and clutter-relative likelihood of every target, up to 2^-18 and the [slack] (44 n +
    240) 2^-32 for each target.  The hypotheses used are all whose factors exceed
    1.01e-8, or [nhyp_max], or one of them has (nearly) a share below [w_lim]. *)
Theorem C92_double_posterior_partial : forall logf pD kappas ts expf pick fsum w_lim nhyp_max fuel out,
  log_accurate logf -> upto (1 - bpow radix2 (-20)) pD ->
  Forall kappa_ok kappas -> Forall (target_ok (length kappas)) ts -> Forall settled ts ->
  (0 < length ts <= 30)%nat -> (Z.of_nat (length kappas) <= 90000)%Z ->
  (forall tick q, q <> [] -> (pick tick q < length q)%nat) ->
  exp_accurate expf -> (forall l, fsums l (fsum l)) -> PrimFloat.leb nhyp_max 1048576 = true ->
  fcluster logf pD kappas expf pick fsum w_lim nhyp_max fuel ts = Ok out ->
  slack ts <= / 4 -> fc_n out <> 0%nat -> fin (fc_w out) -> bpow radix2 (-600) <= FloatBase.val (fc_w out) <= bpow radix2 900 ->
  let N := length kappas in let M := length ts in let X := exact_targets pD kappas ts in let W := weight N X in
  exists ds, length ds = fc_n out /\ NoDup ds /\ (forall s, In s ds -> hypothesis N X s) /\
  ((forall s, hypothesis N X s ->
      (forall i, (i < M)%nat -> 1.01e-8 < choice_weight N M i (nth i X no_target) (nth i s 0%nat)) -> In s ds) \/
   PrimFloat.leb nhyp_max (nofnat floatN (fc_n out)) = true \/
   exists s, In s ds /\ (fin w_lim -> W s / sum_over W ds <= FloatBase.val w_lim + bpow radix2 (-20) + 4 * slack ts)) /\
  (forall i j, (i < M)%nat -> (j <= N)%nat -> let x := nth (i * (N + 1) + j) (fc_R out) nan in
     fin x /\ Rabs (FloatBase.val x - marginal N W ds i j) <= bpow radix2 (-20) + 4 * slack ts) /\
  (forall i, (i < M)%nat -> let x := nth i (fc_r out) nan in
     fin x /\ Rabs (FloatBase.val x - sum_over (marginal N W ds i) (seq 0 (N + 1))) <= bpow radix2 (-18) + 4 * slack ts) /\
  (forall j, (j < N)%nat -> let x := nth j (fc_rB out) nan in
     fin x /\ Rabs (FloatBase.val x - (1 - sum_over (fun i => marginal N W ds i j) (seq 0 M))) <= bpow radix2 (-19) + 4 * slack ts).
Proof.
  intros logf pD kappas ts expf pick fsum w_lim nhyp_max fuel out Hlog HpD Hk Ht Hs HM HN Hp He Hf Hm Hrun Hsl Hn Hw Hr.
  exact (bayes logf pD kappas ts Hlog HpD Hk Ht Hs HM HN expf pick fsum w_lim nhyp_max Hp He Hf Hm fuel out Hrun Hsl Hn Hw Hr).
Qed.
Print Assumptions C92_double_posterior_partial.

(** Two targets and a report. *)
Example C92_example : exists logf expf out,
  log_accurate logf /\ exp_accurate expf /\ upto (1 - bpow radix2 (-20)) 0.5%float /\
  Forall kappa_ok [1%float] /\ Forall (target_ok 1) pair /\ Forall settled pair /\ slack pair <= / 4 /\
  (forall tick q, q <> [] -> (first_top floatN tick q < length q)%nat) /\ (forall l, fsums l (left_sum l)) /\
  fcluster logf 0.5 [1%float] expf (first_top floatN) left_sum 0.01 100 60 pair = Ok out /\
  fc_n out = 9%nat /\ fc_w out = 0.9375%float /\ fc_r out = [0.46666666666666667; 0.46666666666666667]%float.
Proof.
  destruct good_log_ok as [H1 H2]. destruct three_exp_ok as [H3 H4]. destruct pair_ok as (H5 & H6 & H7 & H8 & H9).
  destruct (pair_run good_log three_exp H2 H4) as (out & R1 & R2 & R3 & R4).
  exists good_log, three_exp, out. repeat (split; [first [assumption|exact first_in|exact left_sum_ok]|]). exact R4.
Qed.
