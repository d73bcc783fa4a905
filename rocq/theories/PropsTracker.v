(** Properties of the tracker (C19, C25-C31, C33).

    [volR unit] is the index's CalcRectVolume for a positive unit sphere volume.
    Densities are values of any type with real bounding boxes.  The states are
    those reached from an empty tracker by any calls ([calls]), where sane calls
    ([sane_call]) query with real boxes and leave ids alone. *)
From Coq Require Import List Arith NArith Bool Reals Lra Lia Permutation Relations Sorted.
Import ListNotations.
From Verif Require Import Res Scalar LapBase RTree RTreeSpec RTreeInst CC CCSpec CCProofs Cluster Tracker TrackerSpec
  TrackerProofs TrackerPar TrackerCluster TrackerMain TrackerHist.
Local Open Scope nat_scope.

(** ** Example data: densities are positions on a line; a correction in which
    each report is new and gets weight 1. *)
Definition ex_box (x : R) : rect (ext R) := mkRect (Fin (x - 1)%R) (Fin 0%R) (Fin (x + 1)%R) (Fin 1%R).
Definition ex_cov (x : R) : ext R := Fin 1%R.
Definition ex_area : rect (ext R) := mkRect (Fin (-10)%R) (Fin 0%R) (Fin 10%R) (Fin 1%R).
Definition ex_correction (scan : list R) : correction (P := R) (Rep := R) :=
  mkCorrection scan ex_area (fun _ => true) ex_box (fun rs ts => Some (ts, map (fun r => (r, Fin 1%R)) rs)) (1 / 2)%R (fun r => r) 3%R.
Definition ex_calls : list (call (P := R) (Rep := R)) :=
  [Correct (ex_correction [0%R]); Predict (fun _ t => t); Correct (ex_correction [1%R; 5%R])].

Lemma ex_box_real x : real_box (ex_box x).
Proof. split; [repeat split; eexists; reflexivity|]. split; apply le_FF_iff; lra. Qed.
Lemma ex_sane_correction scan : sane_correction (ex_correction scan).
Proof.
  split; [repeat split; eexists; reflexivity|]. split.
  - intros r _. apply ex_box_real.
  - intros rs ts ts' rs' E. simpl in E. inversion E. rewrite map_length. auto.
Qed.
Lemma ex_sane : Forall sane_call ex_calls.
Proof. repeat (constructor; [first [apply ex_sane_correction | intros a t; reflexivity]|]). constructor. Qed.
Lemma ex_weighted scan : weighted (ex_correction scan).
Proof.
  intros rs ts ts' rs' E dx Hx. simpl in E. inversion E; subst. apply in_map_iff in Hx. destruct Hx as (r & <- & _).
  exists 1%R. split; auto. lra.
Qed.
Lemma ex_prob : Forall prob_call ex_calls.
Proof.
  assert (Hc : forall scan, prob_call (Correct (ex_correction scan))).
  { intros scan. split; [apply ex_weighted|]. split; [simpl; lra|]. intros rs ts ts' rs' E H. simpl in E. inversion E; subst. auto. }
  repeat (constructor; [first [apply Hc | intros a t; exact (fun H => H)]|]). constructor.
Qed.

Section Tracker.
Variables P Rep : Type.
Variable unit : R.
Hypothesis unit_pos : (0 < unit)%R.
Variable box : P -> rect (ext R).
Hypothesis box_real : forall p, real_box (box p).
Variable covnorm : P -> ext R.
Variables r_lim cov_lim rB_max : R.

Notation tracker := (tracker (P := P)).
Notation target := (target (P := P)).
Notation correction := (correction (P := P) (Rep := Rep)).
Notation call := (call (P := P) (Rep := Rep)).
Notation predict := (predict (volR unit) box covnorm r_lim cov_lim).
Notation correct_call := (correct_call (volR unit) box covnorm r_lim cov_lim rB_max).
Notation par_run := (par_run (volR unit) box covnorm r_lim cov_lim).
Notation calls := (calls (volR unit) box covnorm r_lim cov_lim rB_max).

Definition reached (st : tracker) : Prop :=
  exists cs : list call, Forall sane_call cs /\ calls new_tracker cs (Ok st).

Lemma reached_consistent st : reached st -> consistent box st.
Proof.
  intros (cs & Hs & H). exact (calls_ok unit unit_pos box box_real covnorm r_lim cov_lim rB_max _ _ _ H (consistent_new box) Hs).
Qed.

(** *** C25 *)
Theorem C25_clusters_partition : forall (st : tracker) rbox (all : list addr) (scan : list (report (Rep := Rep))),
  reached st -> NoDup all -> (forall a, In a all -> In a (targets st)) ->
  (forall r, In r scan -> real_corners (rbox (rp r))) ->
  exists st' scan' cls, make_clusters rbox all st scan = Ok (st', scan', cls) /\
    clustering box rbox all st scan st' scan' cls.
Proof.
  intros st rbox all scan Hr Hn Ha Hb.
  exact (make_clusters_ok box rbox st scan all (reached_consistent st Hr) Ha Hn Hb).
Qed.

(** *** C26 *)
Theorem C26_index_lists_live_targets : forall (cs : list call) o,
  Forall sane_call cs -> calls new_tracker cs o ->
  o <> UB /\ forall st, o = Ok st -> listed st /\ indexed box st /\ tree_ok st.
Proof.
  intros cs o Hs H. pose proof (calls_ok unit unit_pos box box_real covnorm r_lim cov_lim rB_max _ _ _ H (consistent_new box) Hs) as Hc.
  split; [intros ->; exact Hc|]. intros st ->. exact Hc.
Qed.

(** Every history has an execution. *)
Theorem C26_histories_run : forall cs : list call, Forall sane_call cs -> exists o, calls new_tracker cs o.
Proof. intros cs Hs. exact (calls_exist unit unit_pos box box_real covnorm r_lim cov_lim rB_max cs _ (consistent_new box) Hs). Qed.

(** *** C27 *)
Theorem C27_ids_unique : forall (st : tracker), reached st -> (next_id st <= 2 ^ 32)%N ->
  StronglySorted N.lt (ids st) /\ Forall (fun i => (i < next_id st)%N) (ids st).
Proof.
  intros st (cs & Hs & H) Hb.
  apply (calls_ids unit unit_pos box box_real covnorm r_lim cov_lim rB_max _ _ _ H (consistent_new box) Hs) with (st' := st); auto.
  split; constructor.
Qed.

Theorem C27_ids_never_reused : forall (st st' : tracker) (cs : list call), reached st ->
  Forall sane_call cs -> calls st cs (Ok st') -> (next_id st' <= 2 ^ 32)%N ->
  (next_id st <= next_id st')%N /\
  forall a t', In (a, t') (live st') -> (tg_id t' < next_id st)%N -> exists t, In (a, t) (live st) /\ tg_id t = tg_id t'.
Proof.
  intros st st' cs Hr Hs H Hb. pose proof (reached_consistent st Hr) as Hc.
  pose proof (next_id_mono unit unit_pos box box_real covnorm r_lim cov_lim rB_max _ _ _ H Hc Hs _ eq_refl) as Hm. split; auto.
  destruct (calls_ids unit unit_pos box box_real covnorm r_lim cov_lim rB_max _ _ _ H Hc Hs
    (C27_ids_unique st Hr ltac:(lia)) st' eq_refl Hb) as (_ & Hold).
  intros a t' Hin Hlt. specialize (Hold a (tg_id t')). unfold idpairs in Hold. rewrite !in_map_iff in Hold.
  destruct Hold as ((b & t) & E & Hx); auto. { exists (a, t'). auto. }
  cbn [fst snd] in E. inversion E; subst. exists t. auto.
Qed.

(** *** C28 *)
Theorem C28_predict_keeps_viable : forall f (st st' : tracker), reached st -> predict f st = Ok st' ->
  forall a t, In (a, t) (live st') -> fit covnorm r_lim cov_lim t.
Proof.
  intros f st st' Hr E. exact (predict_fit unit unit_pos box box_real covnorm r_lim cov_lim f st st' (reached_consistent st Hr) E).
Qed.

Theorem C28_correct_keeps_viable : forall (s : correction) (st st' : tracker), reached st -> sane_correction s ->
  correct_call s st (Ok st') ->
  exists old new, live st' = old ++ new /\
    next_id st' = (next_id st + N.of_nat (length new))%N /\
    (forall a t', In (a, t') old -> exists t, In (a, t) (live st) /\ tg_id t' = tg_id t /\
       (touched box s st a t -> fit covnorm r_lim cov_lim t') /\ (~ touched box s st a t -> t' = t)) /\
    (forall a t, In (a, t) (live st) -> ~ touched box s st a t -> In (a, t) old) /\
    map (fun x => tg_id (snd x)) new = map (fun i => ((next_id st + N.of_nat i) mod 2 ^ 32)%N) (seq 0 (length new)).
Proof.
  intros s st st' Hr Hs H.
  exact (correct_fit unit unit_pos box box_real covnorm r_lim cov_lim rB_max s st st' (reached_consistent st Hr) Hs H).
Qed.

(** *** C29 *)
Theorem C29_births_bounded : forall (s : correction) (st st' : tracker), (0 < r_lim)%R -> (0 <= s_lambdaB s)%R ->
  reached st -> sane_correction s -> weighted s -> correct_call s st (Ok st') ->
  exists old new ws rs, live st' = old ++ new /\
    next_id st' = (next_id st + N.of_nat (length new))%N /\
    (forall a t', In (a, t') old -> exists t, In (a, t) (live st) /\ tg_id t' = tg_id t) /\
    length ws = length (s_scan s) /\ (forall w, In w ws -> (0 <= w)%R) /\
    (forall w, In w ws -> exists rs ts ts' rs' d, s_update s rs ts = Some (ts', rs') /\ In (d, Fin w) rs') /\
    map (fun x => tg_r (snd x)) new = map Fin rs /\
    Permutation rs (birth_rs r_lim rB_max (s_lambdaB s) ws) /\
    (Rsum rs <= s_lambdaB s)%R /\
    (forall x, In x rs -> (x <= rB_max)%R /\ (x = rB_max \/ (r_lim <= x)%R)) /\
    ((Rsum ws < r_lim)%R -> new = []).
Proof.
  intros s st st' Hr Hl Hreach Hs Hw H.
  destruct (correct_births unit unit_pos box box_real covnorm r_lim cov_lim rB_max s st st' Hr (reached_consistent st Hreach) Hs Hw H)
    as (old & new & ws & rs & H1 & H2 & H3 & H4 & H5 & H6 & H7 & H8 & H9).
  exists old, new, ws, rs. split; [exact H1|]. split; [exact H2|]. split; [exact H3|]. split; [exact H4|]. split; [exact H5|].
  split; [exact H6|]. split; [exact H7|]. split; [exact H8|]. split; [|split].
  - rewrite (Rsum_perm _ _ H8). apply birth_rs_sum; auto.
  - intros x Hx. apply (birth_rs_bounds r_lim rB_max (s_lambdaB s) ws). eapply Permutation_in; eauto.
  - intros Hlt. unfold birth_rs in H8. destruct (Rle_dec r_lim (Rsum ws)); [exfalso; lra|]. apply Permutation_sym, Permutation_nil in H8.
    subst rs. destruct new; [auto|discriminate].
Qed.

(** *** C30 *)
Theorem C30_interleaving_irrelevant : forall (s : correction) (st st' st'' : tracker), reached st -> sane_correction s ->
  correct_call s st (Ok st') -> correct_call s st (Ok st'') ->
  exists old new' new'', live st' = old ++ new' /\ live st'' = old ++ new'' /\
    Permutation (map content new') (map content new'') /\ next_id st' = next_id st'' /\ ids st' = ids st''.
Proof.
  intros s st st' st'' Hr Hs H' H''.
  exact (correct_confluent unit unit_pos box box_real covnorm r_lim cov_lim rB_max s st st' st'' (reached_consistent st Hr) Hs H' H'').
Qed.

Theorem C30_interleaving_ends : forall (s : correction) (st st' : tracker), reached st -> sane_correction s ->
  correct_call s st (Ok st') -> ~ correct_call s st OutOfFuel /\ ~ correct_call s st UB.
Proof.
  intros s st st' Hr Hs H'. pose proof (reached_consistent st Hr) as Hc. split.
  - exact (correct_ends unit unit_pos box box_real covnorm r_lim cov_lim rB_max s st st' Hc Hs H').
  - intros H. exact (correct_ok unit unit_pos box box_real covnorm r_lim cov_lim rB_max s st UB Hc Hs H).
Qed.

(** The parallel phase itself: same heap, same targets, same reports. *)
Theorem C30_parallel_phase : forall (s : correction) (st : tracker) affected st1 scan cls cf cf',
  reached st -> sane_correction s -> NoDup affected -> (forall a, In a affected -> In a (targets st)) ->
  make_clusters (s_rbox s) affected st (start_scan s) = Ok (st1, scan, cls) ->
  par_run s cls (mkConf st1 scan (repeat 0 (length cls))) (Ok cf) ->
  par_run s cls (mkConf st1 scan (repeat 0 (length cls))) (Ok cf') ->
  (forall a, heap (c_st cf) a = heap (c_st cf') a) /\ live (c_st cf) = live (c_st cf') /\ c_scan cf = c_scan cf' /\
  Permutation (entries (tree (c_st cf))) (entries (tree (c_st cf'))).
Proof.
  intros s st affected st1 scan cls cf cf' Hr Hs Hn Ha E H H'. pose proof (reached_consistent st Hr) as Hc.
  destruct (plan_exists box s Hs st Hc affected Ha Hn) as (st1' & scan' & cls' & newt & newr & Hp).
  pose proof (p_make _ _ _ _ _ _ _ _ _ Hp) as E'. rewrite E in E'. inversion E'; subst st1' scan' cls'.
  pose proof (par_ok unit unit_pos box box_real covnorm r_lim cov_lim s st Hc affected _ _ _ _ _ Hp _ H) as Q.
  pose proof (par_ok unit unit_pos box box_real covnorm r_lim cov_lim s st Hc affected _ _ _ _ _ Hp _ H') as Q'.
  cbn beta iota in Q, Q'.
  destruct (phase2_unique box covnorm r_lim cov_lim s st _ _ _ _ _ _ _ _ _ _ _ _ Hp Hp Q Q') as (El & Es & _ & Eh).
  split; auto. split; auto. split; auto.
  destruct (q_ok _ _ _ _ _ _ _ _ _ _ _ _ _ Q) as (_ & Hi & _). destruct (q_ok _ _ _ _ _ _ _ _ _ _ _ _ _ Q') as (_ & Hi' & _).
  etransitivity; [exact Hi|]. rewrite El. symmetry. exact Hi'.
Qed.

(** *** C31 *)
Theorem C31_area_queries_exact : forall (st : tracker) q lim (S : Type) (summary : P -> S),
  reached st -> real_corners q -> (forall x, In x (live st) -> prob (tg_r (snd x))) ->
  exists sel rs, inside box q st sel /\ map (fun x => tg_r (snd x)) sel = map Fin rs /\
    enof_targets_in q st = Ok (Fin (Rsum rs)) /\
    nof_targets_in q lim st = Ok (length (filter (fun x => nle extR (Fin lim) (tg_r (snd x))) sel)) /\
    get_targets_in summary q st =
      Ok (map (fun x => (summary (tg_pdf (snd x)), tg_r (snd x), tg_id (snd x), tg_cid (snd x))) sel).
Proof.
  intros st q lim S summary Hr Hq Hp. pose proof (reached_consistent st Hr) as Hc.
  destruct (query_inside box st q Hc Hq) as (sel & E & Hi). pose proof (inside_holds box st q sel (proj1 Hc) Hi) as Hh.
  destruct (r_sum_sel st sel Hh) as (rs & E1 & E2). { intros x Hx. apply Hp, Hi, Hx. }
  exists sel, rs. split; auto. split; auto. unfold enof_targets_in, nof_targets_in, get_targets_in. rewrite E. cbn [bind].
  split; auto. split; [apply r_count_sel; auto|apply summaries_sel; auto].
Qed.

Theorem C31_all_targets_exact : forall (st : tracker) lim (S : Type) (summary : P -> S),
  reached st -> (forall x, In x (live st) -> prob (tg_r (snd x))) ->
  exists rs, map (fun x => tg_r (snd x)) (live st) = map Fin rs /\
    enof_targets st = Ok (Fin (Rsum rs)) /\
    nof_targets lim st = Ok (length (filter (fun x => nle extR (Fin lim) (tg_r (snd x))) (live st))) /\
    get_targets summary st =
      Ok (map (fun x => (summary (tg_pdf (snd x)), tg_r (snd x), tg_id (snd x), tg_cid (snd x))) (live st)).
Proof.
  intros st lim S summary Hr Hp. pose proof (reached_consistent st Hr) as Hc. pose proof (live_holds st (proj1 Hc)) as Hh.
  destruct (r_sum_sel st (live st) Hh Hp) as (rs & E1 & E2). exists rs. split; auto.
  unfold enof_targets, nof_targets, get_targets. rewrite <- (live_addrs st (proj1 Hc)).
  split; auto. split; [apply r_count_sel; auto|apply summaries_sel; auto].
Qed.

(** *** C19, for any prediction and association that keep probabilities *)
Theorem C19_history_bounds : forall (cs : list call) st, (0 < r_lim)%R -> (0 <= rB_max <= 1)%R ->
  Forall sane_call cs -> Forall prob_call cs -> calls new_tracker cs (Ok st) ->
  forall x, In x (live st) -> prob (tg_r (snd x)).
Proof.
  intros cs st Hr Hm Hs Hp H.
  apply (calls_prob unit unit_pos box box_real covnorm r_lim cov_lim rB_max _ _ _ Hr Hm H (consistent_new box) Hs Hp) with (st' := st); auto.
  intros x [].
Qed.
End Tracker.

Print Assumptions C25_clusters_partition.
Print Assumptions C26_index_lists_live_targets.
Print Assumptions C26_histories_run.
Print Assumptions C27_ids_unique.
Print Assumptions C27_ids_never_reused.
Print Assumptions C28_predict_keeps_viable.
Print Assumptions C28_correct_keeps_viable.
Print Assumptions C29_births_bounded.
Print Assumptions C30_interleaving_irrelevant.
Print Assumptions C30_interleaving_ends.
Print Assumptions C30_parallel_phase.
Print Assumptions C31_area_queries_exact.
Print Assumptions C31_all_targets_exact.
Print Assumptions C19_history_bounds.

(** ** The hypotheses are met: the example history runs and creates targets. *)
Lemma ex_done scan st o : consistent ex_box st ->
  correct_call (volR 3) ex_box ex_cov (5 / 100) 150 (8 / 10) (ex_correction scan) st o -> exists st', o = Ok st'.
Proof.
  intros Hc H. destruct o as [st'| |]; [eauto| |].
  - destruct (correct_ok 3 ltac:(lra) ex_box ex_box_real ex_cov _ _ _ _ st UB Hc (ex_sane_correction scan) H).
  - exfalso. destruct (in_view_plan ex_box (ex_correction scan) st Hc (ex_sane_correction scan))
      as (l & st1 & sc & cls & newt & newr & E & _ & _ & _ & Hp).
    inversion H as [|E'|l' o E' Hr Eo]; [congruence|]. subst o. assert (l' = l) by congruence. subst l'.
    pose proof (correct_rest_ok 3 ltac:(lra) ex_box ex_box_real ex_cov _ _ _ _ st Hc l _ _ _ _ _ Hp _ Hr) as X.
    cbn beta iota in X. destruct X as (c & _ & Ho). unfold outcome in Ho. simpl in Ho. discriminate.
Qed.

Lemma ex_correct scan st : consistent ex_box st -> exists st',
  correct_call (volR 3) ex_box ex_cov (5 / 100) 150 (8 / 10) (ex_correction scan) st (Ok st').
Proof.
  intros Hc. destruct (correct_exists 3 ltac:(lra) ex_box ex_box_real ex_cov (5 / 100) 150 (8 / 10) (ex_correction scan) st Hc
    (ex_sane_correction scan)) as (o & Ho). destruct (ex_done scan st o Hc Ho) as (st' & ->). eauto.
Qed.

(** The example history runs: a birth, a prediction, two more births. *)
Example ex_history : exists st, Forall sane_call ex_calls /\ Forall prob_call ex_calls /\
  calls (volR 3) ex_box ex_cov (5 / 100) 150 (8 / 10) new_tracker ex_calls (Ok st) /\ next_id st = 3%N.
Proof.
  assert (Hbirth : forall scan st st', consistent ex_box st ->
    correct_call (volR 3) ex_box ex_cov (5 / 100) 150 (8 / 10) (ex_correction scan) st (Ok st') ->
    length scan = 1 \/ length scan = 2 -> next_id st' = (next_id st + N.of_nat (length scan))%N).
  { intros scan st st' Hc H Hlen.
    destruct (correct_births 3 ltac:(lra) ex_box ex_box_real ex_cov (5 / 100) 150 (8 / 10) (ex_correction scan) st st' ltac:(lra) Hc
      (ex_sane_correction scan) (ex_weighted scan) H) as (old & new & ws & rs & _ & En & _ & Hl & _ & Hsrc & Er & Hp & _).
    rewrite En. f_equal. f_equal. rewrite <- (map_length (fun x => tg_r (snd x)) new), Er, map_length, (Permutation_length Hp).
    assert (Hws : ws = repeat 1%R (length scan)).
    { change (length (s_scan (ex_correction scan))) with (length scan) in Hl. rewrite <- Hl. clear - Hsrc.
      induction ws as [|w ws IH]; simpl; auto. f_equal; [|apply IH; intros; apply Hsrc; simpl; auto].
      destruct (Hsrc w ltac:(simpl; auto)) as (a & b & c & d & e & E & Hin). simpl in E. inversion E; subst.
      apply in_map_iff in Hin. destruct Hin as (r & Ex & _). congruence. }
    rewrite Hws. unfold birth_rs. destruct Hlen as [->| ->]; unfold Rsum; simpl.
    - destruct (Rle_dec (5 / 100) (1 + 0)); [|exfalso; lra]. destruct (Rle_dec (5 / 100) (1 * (1 / 2) / (1 + 0))); auto. exfalso; lra.
    - destruct (Rle_dec (5 / 100) (1 + (1 + 0))); [|exfalso; lra].
      destruct (Rle_dec (5 / 100) (1 * (1 / 2) / (1 + (1 + 0)))); auto. exfalso; lra. }
  pose proof (consistent_new ex_box) as H0.
  destruct (ex_correct [0%R] new_tracker H0) as (st1 & C1).
  assert (H1 : consistent ex_box st1) by exact (calls_ok 3 ltac:(lra) ex_box ex_box_real ex_cov _ _ _ _ _ _
    (cl_cons _ _ _ _ _ _ _ _ _ _ _ (cs_correct _ _ _ _ _ _ _ _ _ C1) (cl_nil _ _ _ _ _ _ _)) H0
    (Forall_cons _ (ex_sane_correction [0%R] : sane_call (Correct (ex_correction [0%R]))) (Forall_nil _))).
  destruct (predict_ok 3 ltac:(lra) ex_box ex_box_real ex_cov (5 / 100) 150 (fun _ t => t) st1 H1) as (st2 & C2 & H2 & N2 & _).
  destruct (ex_correct [1%R; 5%R] st2 H2) as (st3 & C3).
  exists st3. split; [apply ex_sane|]. split; [apply ex_prob|]. split.
  - eapply cl_cons; [apply cs_correct; exact C1|]. eapply cl_cons; [rewrite <- C2; apply cs_predict|].
    eapply cl_cons; [apply cs_correct; exact C3|]. apply cl_nil.
  - rewrite (Hbirth _ _ _ H2 C3 ltac:(simpl; auto)), N2, (Hbirth _ _ _ H0 C1 ltac:(simpl; auto)). reflexivity.
Qed.

(** *** C33: predict and correct from two threads.
    One possible interleaving: correct's get_targets (sensors.hpp:48-64) has
    collected the affected targets, then the other thread runs predict's
    critical section (lmb.hpp:58-90), then correct goes on (lmb.hpp:118-133).
    Nothing keeps the critical sections from this order: get_targets leaves the
    section before it returns, and cluster() is in no section at all. *)
Inductive predict_during_correct (f : addr -> target (P := R) -> target (P := R)) (s : correction (P := R) (Rep := R))
    (st : tracker (P := R)) : res (tracker (P := R)) -> Prop :=
| pdc affected st1 o :
    in_view s st = Ok affected ->
    predict (volR 3) ex_box ex_cov (5 / 100) 150 f st = Ok st1 ->
    correct_rest (volR 3) ex_box ex_cov (5 / 100) 150 (8 / 10) s affected st1 o ->
    predict_during_correct f s st o.

(** A prediction that gives up on every target (survival probability 0). *)
Definition ex_give_up (a : addr) (t : target (P := R)) : target (P := R) :=
  mkTarget (tg_id t) (Fin 0%R) (tg_pdf t) (tg_cid t) (tg_new t) (tg_t0 t).

Theorem C33_concurrent_calls_refuted :
  exists (st : tracker (P := R)) f (s : correction (P := R) (Rep := R)),
    reached R R 3 ex_box ex_cov (5 / 100) 150 (8 / 10) st /\ live st <> [] /\
    sane_call (Rep := R) (Predict f) /\ sane_correction s /\ prob_call (Rep := R) (Predict f) /\
    predict_during_correct f s st UB.
Proof.
  pose proof (consistent_new ex_box) as H0.
  destruct (ex_correct [0%R] new_tracker H0) as (st & C1).
  assert (Hs : Forall sane_call [Correct (ex_correction [0%R])]) by (constructor; [apply ex_sane_correction|constructor]).
  assert (C : calls (volR 3) ex_box ex_cov (5 / 100) 150 (8 / 10) new_tracker [Correct (ex_correction [0%R])] (Ok st)).
  { eapply cl_cons; [apply cs_correct; exact C1|apply cl_nil]. }
  assert (Hc : consistent ex_box st) by exact (calls_ok 3 ltac:(lra) ex_box ex_box_real ex_cov _ _ _ _ _ _ C H0 Hs).
  destruct (correct_births 3 ltac:(lra) ex_box ex_box_real ex_cov (5 / 100) 150 (8 / 10) (ex_correction [0%R]) new_tracker st ltac:(lra) H0
      (ex_sane_correction _) (ex_weighted _) C1) as (old & new & ws & rs & El & _ & Hold & Hl & _ & Hsrc & Er & Hp & _).
  assert (Hrs : length rs = 1).
  { destruct ws as [|w [|? ?]]; try discriminate. destruct (Hsrc w ltac:(simpl; auto)) as (x & b & c & d & e & E & Hin).
    simpl in E. inversion E; subst. apply in_map_iff in Hin. destruct Hin as (r & Ex & _). inversion Ex; subst.
    rewrite (Permutation_length Hp). unfold birth_rs, Rsum. simpl.
    destruct (Rle_dec (5 / 100) (1 + 0)); [|exfalso; lra].
    destruct (Rle_dec (5 / 100) (1 * (1 / 2) / (1 + 0))); auto. exfalso; lra. }
  destruct new as [|(a, t) [|? ?]]; apply (f_equal (@length _)) in Er as Ern; rewrite !map_length in Ern; simpl in Ern; try lia.
  assert (Hlive : In (a, t) (live st)) by (rewrite El; apply in_or_app; simpl; auto).
  destruct (predict_ok 3 ltac:(lra) ex_box ex_box_real ex_cov (5 / 100) 150 ex_give_up st Hc) as (st1 & E1 & _ & _ & Hh & _).
  assert (Hdead : forall b, heap st1 b = None).
  { intros b. rewrite Hh. destruct (heap st b) as [u|]; auto. unfold kept, viable. cbn [ex_give_up tg_r tg_pdf].
    replace (nlt extR (Fin 0%R) (Fin (5 / 100)%R)) with true; auto. symmetry. rewrite lt_FF. destruct (Rltb_spec 0 (5 / 100)); auto. exfalso; lra. }
  set (s := mkCorrection (Rep := R) [] (ex_box (tg_pdf t)) (fun _ => true) ex_box (fun rs ts => Some (ts, map (fun r => (r, Fin 1%R)) rs)) (1 / 2)%R (fun r => r) 3%R).
  assert (Hsc : sane_correction s).
  { split; [apply ex_box_real|]. split; [intros r []|]. exact (proj2 (proj2 (ex_sane_correction []))). }
  assert (Hat : heap st a = Some t) by (apply (proj1 (live_In st a t (proj1 Hc))); exact Hlive).
  destruct (in_view_ok ex_box s st Hc (proj1 Hsc)) as (l & Ev & _ & Hv).
  assert (Ha : In a l).
  { apply Hv. exists t. split; auto. split; auto. cbn [s s_fov]. unfold ex_box. repeat split; cbn; apply le_FF_iff; lra. }
  exists st, ex_give_up, s. split; [exists [Correct (ex_correction [0%R])]; auto|].
  split; [rewrite El; destruct old; discriminate|]. split; [intros b u; reflexivity|]. split; auto.
  split. { intros b u _. exists 0%R. split; auto. lra. }
  apply pdc with (affected := l) (st1 := st1); auto. apply cr_bad.
  unfold make_clusters, start_scan. cbn [s s_scan map map_res bind]. cbn. destruct l as [|b l]; [destruct Ha|].
  cbn. unfold set_cid, apply_to, deref. rewrite Hdead. reflexivity.
Qed.
Print Assumptions C33_concurrent_calls_refuted.
