(** Data races and deadlock (C33, C77, C78).

    [correct_body h found cls] and [threads] (Access.v) are the memory accesses
    of the calls, [h] any data.  [races x c]: two threads are about to access
    [x] at the same time, one of them to write. *)
From Coq Require Import List Arith NArith Bool Reals Lra Lia.
Import ListNotations.
From Verif Require Import Res Scalar LapBase RTree RTreeSpec RTreeInst Tracker TrackerSpec PropsTracker Race RaceProofs Access AccessProofs RaceMain.
Local Open Scope nat_scope.

(** The full claim of C77 for a correction with the clusters [cls]. *)
Definition race_free (h : shape) (found : list nat) (cls : list cluster) : Prop :=
  forall c', reachable (correct_body h found cls) c' -> forall x, ~ races x c'.

(** *** C77: no parallel iterations of a correction race on anything but the
    random number generator. *)
Theorem C77_parallel_loops_race_free_partial :
  forall (P Rep : Type) unit (box : P -> rect (ext R)) covnorm r_lim cov_lim rB_max (st : tracker (P := P)) rbox (all : list nat)
    (scan : list (report (Rep := Rep))), (0 < unit)%R -> (forall p, real_box (box p)) ->
  reached P Rep unit box covnorm r_lim cov_lim rB_max st -> NoDup all -> (forall a, In a all -> In a (targets st)) ->
  (forall r, In r scan -> real_corners (rbox (rp r))) ->
  exists st' scan' cls, make_clusters rbox all st scan = Ok (st', scan', cls) /\
    forall h found c' x, reachable (correct_body h found cls) c' -> races x c' -> x = Gen.
Proof.
  intros P Rep unit box covnorm r_lim cov_lim rB_max st rbox all scan Hu Hb Hr Hn Ha Hc.
  destruct (C25_clusters_partition P Rep unit Hu box Hb covnorm r_lim cov_lim rB_max st rbox all scan Hr Hn Ha Hc)
    as (st' & scan' & cls & E & Hk).
  exists st', scan', cls. split; [exact E|]. intros h found c' x. exact (only_gen_races box rbox all st scan st' scan' cls h found c' x Hk).
Qed.

(** Two clusters with targets race on the generator, in every correction. *)
Theorem C77_generator_races : forall h found cls c d a b,
  In c cls -> In d cls -> c <> d -> In a (cl_targets c) -> In b (cl_targets d) ->
  1 <= h_comps h a -> 1 <= h_comps h b -> 1 <= h_samples h -> 1 <= h_draws h ->
  exists c', reachable (correct_body h found cls) c' /\ races Gen c'.
Proof. intros h found cls c d a b. exact (gen_races h cls found c d a b). Qed.

(** The claim is false: a correction of a reached tracker that sees two targets
    races, whatever the data. *)
Theorem C77_parallel_loops_race_free_refuted :
  exists (st : tracker (P := R)) (s : correction (P := R) (Rep := R)) l st' scan' cls,
    reached R R 3 ex_box ex_cov (5 / 100) 150 (8 / 10) st /\ sane_correction s /\ in_view s st = Ok l /\
    make_clusters (s_rbox s) l st (start_scan s) = Ok (st', scan', cls) /\
    forall h found, (forall a, 1 <= h_comps h a) -> 1 <= h_samples h -> 1 <= h_draws h -> ~ race_free h found cls.
Proof.
  destruct two_targets as (st & fov & l & a & b & Hr & Hs & Ev & Hn & Ht & Ha & Hb & N).
  destruct (C25_clusters_partition R R 3 ltac:(lra) ex_box ex_box_real ex_cov (5 / 100) 150 (8 / 10) st ex_box l [] Hr Hn Ht ltac:(intros r []))
    as (st' & scan' & cls & E & Hk).
  exists st, (empty_correction fov), l, st', scan', cls. repeat (split; [assumption|]).
  intros h found Hc Hsm Hd F.
  destruct (two_clusters ex_box ex_box l st [] st' scan' cls a b Hk Ha Hb N) as (c & d & Ic & Id & Ncd & Ia & Ib).
  { intros j (r & t & X & _). destruct j; discriminate. }
  destruct (gen_races h cls found c d a b Ic Id Ncd Ia Ib (Hc a) (Hc b) Hsm Hd) as (c' & Hrc & Hx). exact (F c' Hrc Gen Hx).
Qed.

(** *** C78: calls from any number of threads neither block each other nor run
    forever. *)
Theorem C78_no_deadlock : forall ths, terminates (threads ths).
Proof. intros ths. exact (src_terminates _ 0 (src_threads ths)). Qed.

(** In particular every execution can be continued to the end of all calls. *)
Theorem C78_calls_complete : forall ths c, reachable (threads ths) c -> reachable c Done.
Proof. intros ths c. exact (completes _ 0 c (src_threads ths)). Qed.

(** *** C33: predictions and queries, without corrections, from any number of
    threads never race. *)
Theorem C33_predictions_and_queries_race_free_partial : forall ths,
  (forall calls hc, In calls ths -> In hc calls ->
    match snd hc with CallPredict ts => NoDup ts | CallCorrect _ _ => False | _ => True end) ->
  forall c', reachable (threads ths) c' -> forall x, ~ races x c'.
Proof.
  intros ths H c' Hr x. exact (no_races (fun _ => False) 0 _ (src_threads ths) (safe_threads_calm ths H) c' Hr x (fun F => F)).
Qed.

(** A query of the targets during a correction reads a density that the
    correction is writing. *)
Theorem C33_query_during_correction_races_refuted : forall h h' found cls area ts c a,
  In c cls -> In a (cl_targets c) -> In a ts -> 1 <= h_comps h a -> 1 <= h_comps h' a ->
  exists c', reachable (threads [[(h, CallCorrect found cls)]; [(h', CallSummaries area ts)]]) c' /\ races (TComp a 0) c'.
Proof. intros h h' found cls area ts c a. exact (query_races h h' found cls area ts c a). Qed.

Print Assumptions C77_parallel_loops_race_free_partial.
Print Assumptions C77_generator_races.
Print Assumptions C77_parallel_loops_race_free_refuted.
Print Assumptions C78_no_deadlock.
Print Assumptions C78_calls_complete.
Print Assumptions C33_predictions_and_queries_race_free_partial.
Print Assumptions C33_query_during_correction_races_refuted.

(** ** Examples *)
Definition ex_shape : shape := mkShape (fun _ => 2) 1000 4 (fun _ => [fun _ => 0; fun i => i]) (fun a => Nat.even a) (fun r => Some (10 + r)).
Definition ex_clusters : list cluster := [mkCluster 0 [0; 1] [4; 5]; mkCluster 1 [2] []; mkCluster 2 [] [7]].

(** The clusters of the example meet the hypotheses of the race on the
    generator: a correction of three targets in two clusters. *)
Example ex_generator_race : exists c', reachable (correct_body ex_shape [4; 7] ex_clusters) c' /\ races Gen c'.
Proof.
  apply (C77_generator_races ex_shape [4; 7] ex_clusters (mkCluster 0 [0; 1] [4; 5]) (mkCluster 2 [] [7]) 5 7);
    try (simpl; tauto); try discriminate; cbn [ex_shape h_comps h_samples h_draws]; try lia.
Qed.
Example ex_query_race : exists c', reachable (threads [[(ex_shape, CallCorrect [4; 7] ex_clusters)]; [(ex_shape, CallSummaries true [3; 7])]]) c' /\
  races (TComp 7 0) c'.
Proof.
  apply (C33_query_during_correction_races_refuted ex_shape ex_shape [4; 7] ex_clusters true [3; 7] (mkCluster 2 [] [7]) 7);
    try (simpl; tauto); cbn [ex_shape h_comps]; lia.
Qed.
(** Three threads of predictions and queries. *)
Definition ex_threads : list (list (shape * tcall)) :=
  [[(ex_shape, CallPredict [4; 5; 7]); (ex_shape, CallPhd [4; 7])]; [(ex_shape, CallSummaries false [4; 5; 7]); (ex_shape, CallDistance [4; 5; 7])];
   [(ex_shape, CallPredict [4; 7])]].
Example ex_threads_calm : forall calls hc, In calls ex_threads -> In hc calls ->
  match snd hc with CallPredict ts => NoDup ts | CallCorrect _ _ => False | _ => True end.
Proof.
  intros calls hc Hc Hh. cbn in Hc. repeat destruct Hc as [<-|Hc]; try tauto; cbn in Hh; repeat destruct Hh as [<-|Hh]; try tauto; cbn;
    repeat constructor; simpl; intuition discriminate.
Qed.
(** Without the lock around the index the same method finds the race: the
    theorems are not vacuous. *)
Example ex_unlocked_race : exists c', reachable (Par (wr Tree) (rd Tree)) c' /\ races Tree c'.
Proof. exists (Par (wr Tree) (rd Tree)). split; [apply reachable_refl|]. apply (ra_here Tree _ Done _ Done true false); auto; constructor. Qed.
(** Locks taken in opposite orders do deadlock. *)
Example ex_deadlock : ~ terminates (Par (Crit gil (Crit ttree (rd Tree))) (Crit ttree (Crit gil (rd Tree)))).
Proof.
  intros (Hp & _). destruct (Hp (Par (Held gil (Crit ttree (rd Tree))) (Held ttree (Crit gil (rd Tree))))) as (l & c & Hs & Hl).
  - exists 2. eapply rc_step with (l := Lock ttree); [eapply rc_step with (l := Lock gil); [apply rc_here|]|].
    + split; [repeat constructor|intros k E []].
    + split; [repeat constructor|]. intros k E [F|[]]. inversion E; subst. discriminate.
  - discriminate.
  - inversion Hs as [| | |? ? ? ? H1|? ? ? ? H1| | | |]; subst; inversion H1 as [| | | | | | |? ? ? ? H2|]; subst; inversion H2; subst;
      apply (Hl _ eq_refl); simpl; auto.
Qed.
