(** Corrections, births and histories of calls. *)
From Coq Require Import List Arith NArith Bool Reals Lra Lia Permutation Relations Sorted.
Import ListNotations.
From Verif Require Import Res Scalar LapBase RTree RTreeSpec RTreeInst CC CCSpec CCProofs Cluster Tracker TrackerSpec
  TrackerProofs TrackerPar TrackerCluster.
Local Open Scope nat_scope.

Section Main.
Context {P Rep : Type}.
Variable unit : R.
Hypothesis unit_pos : (0 < unit)%R.
Variable box : P -> rect (ext R).
Hypothesis box_real : forall p, real_box (box p).
Variable covnorm : P -> ext R.
Variables r_lim cov_lim rB_max : R.

Notation tracker := (tracker (P := P)).
Notation target := (target (P := P)).
Notation report := (report (Rep := Rep)).
Notation correction := (correction (P := P) (Rep := Rep)).
Notation vol := (volR unit).
Notation kept := (kept covnorm r_lim cov_lim).

(** ** New targets *)
Lemma live_app (st st' : tracker) (a : addr) (t : target) : targets st' = targets st ++ [a] ->
  heap st' a = Some t -> (forall b, In b (targets st) -> heap st' b = heap st b) -> live st' = live st ++ [(a, t)].
Proof.
  intros Et Ea Eb. unfold live. rewrite Et. etransitivity; [apply flat_map_app|]. f_equal.
  - rewrite !flat_map_concat_map. f_equal. apply map_ext_in. intros b Hb. rewrite Eb by auto. reflexivity.
  - cbn [flat_map]. rewrite Ea. reflexivity.
Qed.

Lemma new_target_ok a r p time cid (st : tracker) : consistent box st -> heap st a = None ->
  exists st', new_target vol box a r p time cid st = Ok st' /\ consistent box st' /\
    live st' = live st ++ [(a, mkTarget (next_id st mod 2 ^ 32)%N r p cid true time)] /\
    next_id st' = (next_id st + 1)%N /\ targets st' = targets st ++ [a] /\
    forall b, In b (targets st) -> heap st' b = heap st b.
Proof.
  intros ((Hn & Hl) & Hi & Hb) Ha. unfold new_target.
  destruct (insert_R unit unit_pos (D := addr) (box p) a (tree st) (box_real p) Hb) as (tr & E & Hb' & Hp).
  rewrite E. cbn [bind]. eexists. split; [reflexivity|].
  set (t := mkTarget _ _ _ _ _ _). set (st' := mkTracker _ _ _ _).
  assert (Hna : ~ In a (targets st)) by (intro H; apply Hl in H; contradiction).
  assert (Hold : forall b, In b (targets st) -> heap st' b = heap st b).
  { intros b Hb0. cbn [heap st']. unfold heap_upd. destruct (Nat.eqb_spec b a); [subst; contradiction|auto]. }
  assert (Hnew : heap st' a = Some t) by (cbn [heap st']; unfold heap_upd; rewrite Nat.eqb_refl; auto).
  assert (Hlive : live st' = live st ++ [(a, t)]) by (apply live_app; auto).
  split; [|split; auto]. split; [|split; auto].
  - split.
    + cbn [targets st']. apply NoDup_app_intro; auto; [repeat constructor; auto|]. intros x Hx [<-|[]]. auto.
    + intros b. cbn [heap targets st']. unfold heap_upd. rewrite in_app_iff. destruct (Nat.eqb_spec b a) as [->|Hne].
      * split; [intros; right; simpl; auto|discriminate].
      * rewrite Hl. split; auto. intros [H|[H|[]]]; auto. congruence.
  - unfold indexed. rewrite Hlive. etransitivity; [exact Hp|].
    etransitivity; [|apply Permutation_refl'; symmetry; apply map_app]. cbn [map].
    etransitivity; [|apply Permutation_cons_append]. constructor. exact Hi.
Qed.

Definition newborn (s : correction) (scan : list report) (rBsum : ext R) (j : nat) : list (ext R * P * nat * bool * R) :=
  match nth_error scan j with
  | Some r => match birth_r r_lim rB_max (s_lambdaB s) rBsum r with
              | Some x => [(x, s_init s (rp r), rp_cid r, true, s_time s)]
              | None => []
              end
  | None => []
  end.

Record grown (st st' : tracker) (new : list (addr * target)) : Prop := mkGrown {
  g_live : live st' = live st ++ new;
  g_ids : map (fun x => tg_id (snd x)) new =
          map (fun i => ((next_id st + N.of_nat i) mod 2 ^ 32)%N) (seq 0 (length new));
  g_next : next_id st' = (next_id st + N.of_nat (length new))%N;
  g_targets : targets st' = targets st ++ map fst new;
  g_old : forall b, In b (targets st) -> heap st' b = heap st b }.

Lemma grown_refl st : grown st st [].
Proof.
  split; cbn [map]; auto.
  - symmetry. apply app_nil_r.
  - simpl. lia.
  - symmetry. apply app_nil_r.
Qed.

Lemma grown_cons st st1 st2 x new : grown st st1 [x] -> grown st1 st2 new -> grown st st2 (x :: new).
Proof.
  intros [L1 I1 N1 T1 O1] [L2 I2 N2 T2 O2]. split.
  - rewrite L2, L1, <- app_assoc. reflexivity.
  - cbn [map length seq] in I1 |- *. f_equal; [congruence|].
    rewrite I2, <- seq_shift, map_map. apply map_ext. intros i. rewrite N1. cbn [length]. f_equal. lia.
  - rewrite N2, N1. cbn [length]. lia.
  - rewrite T2, T1, <- app_assoc. reflexivity.
  - intros b Hb. rewrite O2, O1; auto. rewrite T1. apply in_or_app; auto.
Qed.

Lemma births_ok s scan rBsum order st o : births vol box r_lim rB_max s scan rBsum order st o ->
  consistent box st -> (forall j, In j order -> j < length scan) ->
  exists st' new, o = Ok st' /\ consistent box st' /\ grown st st' new /\
    map content new = flat_map (newborn s scan rBsum) order.
Proof.
  assert (Step : forall j st1 o1, birth_step vol box r_lim rB_max s scan rBsum j st1 o1 -> consistent box st1 ->
    j < length scan -> exists st' new, o1 = Ok st' /\ consistent box st' /\ grown st1 st' new /\
      map content new = newborn s scan rBsum j /\ length new <= 1).
  { intros j st1 o1 Hb Hc Hj. unfold newborn. destruct Hb as [E|r E Er|r x a E Er Ha]; unfold get in E.
    - apply nth_error_Some in Hj. destruct (nth_error scan j); [discriminate|congruence].
    - destruct (nth_error scan j); [|discriminate]. inversion E; subst. rewrite Er.
      exists st1, []. split; auto. split; auto. split; [apply grown_refl|]. split; auto.
    - destruct (nth_error scan j); [|discriminate]. inversion E; subst. rewrite Er.
      destruct (new_target_ok a x (s_init s (rp r)) (s_time s) (rp_cid r) st1 Hc Ha) as (st' & En & Hc' & Hl & Hid & Ht & Ho).
      rewrite En. do 2 eexists. split; [reflexivity|]. split; auto. split; [|split].
      + split; [exact Hl| |cbn [length]; rewrite Hid; lia|exact Ht|exact Ho]. cbn [map seq length snd tg_id N.of_nat].
        rewrite N.add_0_r. reflexivity.
      + reflexivity.
      + auto. }
  induction 1 as [st|j js st st1 o Hb _ IH|j js st Hb|j js st Hb]; intros Hc Hlt.
  - exists st, []. split; auto. split; auto. split; [apply grown_refl|reflexivity].
  - destruct (Step _ _ _ Hb Hc (Hlt j ltac:(simpl; auto))) as (st1' & new1 & E & Hc1 & Hg1 & Ha1 & Hl1). inversion E; subst st1'.
    destruct (IH Hc1 ltac:(intros; apply Hlt; simpl; auto)) as (st2 & new2 & -> & Hc2 & Hg2 & Ha2).
    cbn [flat_map]. destruct new1 as [|x [|y l]]; [| |simpl in Hl1; lia].
    + exists st2, new2. split; auto. split; auto. split.
      * destruct Hg1 as [L1 I1 N1 T1 O1]. destruct Hg2 as [L2 I2 N2 T2 O2]. cbn [map length] in *. rewrite app_nil_r in L1, T1.
        rewrite N.add_0_r in N1. split; try congruence.
        -- rewrite I2, N1. reflexivity.
        -- intros b Hb0. rewrite O2, O1; auto. congruence.
      * rewrite <- Ha1. exact Ha2.
    + exists st2, (x :: new2). split; auto. split; auto. split; [eapply grown_cons; eauto|].
      rewrite <- Ha1, <- Ha2. reflexivity.
  - destruct (Step _ _ _ Hb Hc (Hlt j ltac:(simpl; auto))) as (? & ? & E & _). discriminate.
  - destruct (Step _ _ _ Hb Hc (Hlt j ltac:(simpl; auto))) as (? & ? & E & _). discriminate.
Qed.

(** Births can always be carried out: there is always a free address. *)
Lemma free_address (st : tracker) : listed st -> exists a, heap st a = None.
Proof.
  intros (_ & Hl). exists (S (list_max (targets st))). destruct (heap st (S (list_max (targets st)))) eqn:E; auto. exfalso.
  assert (H : In (S (list_max (targets st))) (targets st)) by (apply Hl; congruence).
  pose proof (proj1 (list_max_le (targets st) (list_max (targets st))) (Nat.le_refl _)) as Hm. rewrite Forall_forall in Hm.
  specialize (Hm _ H). lia.
Qed.

Lemma births_exist (s : correction) scan rBsum : forall order st, consistent box st -> (forall j, In j order -> j < length scan) ->
  exists o, births vol box r_lim rB_max s scan rBsum order st o.
Proof.
  induction order as [|j js IH]; intros st Hc Hlt; [eexists; constructor|].
  pose proof (Hlt j ltac:(simpl; auto)) as Hj. apply nth_error_Some in Hj.
  destruct (nth_error scan j) as [r|] eqn:E; [|congruence].
  assert (Eg : get scan j = Ok r) by (unfold get; rewrite E; auto).
  destruct (birth_r r_lim rB_max (s_lambdaB s) rBsum r) as [x|] eqn:Er.
  - destruct (free_address st (proj1 Hc)) as (a & Ha).
    destruct (new_target_ok a x (s_init s (rp r)) (s_time s) (rp_cid r) st Hc Ha) as (st' & En & Hc' & _).
    destruct (IH st' Hc' ltac:(intros; apply Hlt; simpl; auto)) as (o & Ho). exists o.
    apply b_cons with (st' := st'); auto. rewrite <- En. eapply bs_new; eauto.
  - destruct (IH st Hc ltac:(intros; apply Hlt; simpl; auto)) as (o & Ho). exists o.
    apply b_cons with (st' := st); auto. eapply bs_none; eauto.
Qed.

(** ** Targets in view *)
Lemma in_view_ok (s : correction) (st : tracker) : consistent box st -> real_corners (s_fov s) ->
  exists l, in_view s st = Ok l /\ NoDup l /\
    forall a, In a l <-> exists t, heap st a = Some t /\ meets (s_fov s) (box (tg_pdf t)) /\ s_sees s (tg_pdf t) = true.
Proof.
  intros Hc Hf. destruct (query_ok box st (s_fov s) Hc Hf) as (l & E & Hn & Hl). unfold in_view. rewrite E. cbn [bind].
  assert (Hts : forall l', (forall a, In a l' -> heap st a <> None) -> exists ts, map_res (deref st) l' = Ok ts /\
    map Some ts = map (heap st) l').
  { induction l' as [|a l' IH]; intros H'; [exists []; auto|]. cbn [map_res]. unfold deref at 1.
    pose proof (H' a ltac:(simpl; auto)) as Ha. destruct (heap st a) as [t|] eqn:Ea; [|congruence]. cbn [bind].
    destruct IH as (ts & Et & Em); [intros; apply H'; simpl; auto|]. rewrite Et. cbn [bind]. exists (t :: ts). split; auto.
    cbn [map]. rewrite Em, Ea. reflexivity. }
  destruct (Hts l) as (ts & Et & Em). { intros a Ha. apply Hl in Ha. destruct Ha as (t & Ea & _). congruence. }
  rewrite Et. cbn [bind]. eexists. split; [reflexivity|].
  assert (Hlen : length l = length ts).
  { rewrite <- (map_length (heap st)), <- Em, map_length. auto. }
  assert (Hcomb : forall a t, In (a, t) (combine l ts) <-> In a l /\ heap st a = Some t).
  { clear - Em. revert ts Em. induction l as [|b l IH]; intros [|t0 ts] Em a t; simpl in *; try discriminate; [tauto|].
    inversion Em as [[E1 E2]]. rewrite (IH ts E2). split.
    - intros [H|[H1 H2]]; [inversion H; subst; auto|auto].
    - intros [[->|H1] H2]; [left; congruence|auto]. }
  split.
  - clear - Hn Hlen. revert ts Hlen. induction Hn as [|x l Hx Hn IH]; intros [|t ts] Hlen; simpl in *; try discriminate; try constructor.
    destruct (s_sees s (tg_pdf t)); simpl; [|apply IH; lia]. constructor; [|apply IH; lia].
    intro H. apply in_map_iff in H. destruct H as ((b & u) & Eb & Hb). apply filter_In in Hb. destruct Hb as (Hb & _).
    apply in_combine_l in Hb. simpl in Eb. subst. contradiction.
  - intros a. rewrite in_map_iff. split.
    + intros ((b & t) & Eb & Hb). simpl in Eb. subst b. apply filter_In in Hb. destruct Hb as (Hb & Hs). apply Hcomb in Hb.
      destruct Hb as (Ha & Eh). exists t. split; auto. split; auto. apply Hl in Ha. destruct Ha as (t' & Et' & Hm). congruence.
    + intros (t & Eh & Hm & Hs). exists (a, t). split; auto. apply filter_In. split; auto. apply Hcomb. split; auto.
      apply Hl. eauto.
Qed.

(** ** Corrections *)
Definition clustered (cls : list cluster) (a : addr) : Prop := In a (concat (map cl_targets cls)).
Definition clusteredb (cls : list cluster) (a : addr) : bool := existsb (Nat.eqb a) (concat (map cl_targets cls)).

Section Rest.
Variable s : correction.
Hypothesis s_sane : sane_correction s.
Variable st : tracker.
Hypothesis st_ok : consistent box st.
Variable affected : list addr.
Hypothesis affected_live : forall a, In a affected -> In a (targets st).
Hypothesis affected_nodup : NoDup affected.

(** The state of affairs after clustering, and the values the clusters compute. *)
Record plan (st1 : tracker) (scan : list report) (cls : list cluster)
    (newt : nat -> option target) (newr : nat -> option (Rep * ext R)) : Prop := mkPlan {
  p_make : make_clusters (s_rbox s) affected st (start_scan s) = Ok (st1, scan, cls);
  p_clustering : clustering box (s_rbox s) affected st (start_scan s) st1 scan cls;
  p_ok : consistent box st1;
  p_len : length scan = length (s_scan s);
  p_live : forall a, clustered cls a -> In a (targets st1);
  p_scan : forall j, In j (concat (map cl_reports cls)) <-> j < length scan;
  p_newt : forall c, In c cls -> map newt (cl_targets c) = map Some (new_targets s st1 scan c);
  p_out : forall a, ~ clustered cls a -> newt a = heap st1 a;
  p_newr : forall c, In c cls -> map newr (cl_reports c) = map Some (new_reports s st1 scan c) }.

Lemma plan_exists : exists st1 scan cls newt newr, plan st1 scan cls newt newr.
Proof.
  destruct s_sane as (Hf & Hr & Hu).
  destruct (make_clusters_ok box (s_rbox s) st (start_scan s) affected st_ok affected_live affected_nodup)
    as (st1 & scan & cls & E & Hk).
  { intros r Hin. unfold start_scan in Hin. apply in_map_iff in Hin. destruct Hin as (r0 & <- & H0). apply Hr. auto. }
  destruct (k_state _ _ _ _ _ _ _ _ Hk) as (Kt & Kr & Kn).
  assert (Hls : listed st) by apply st_ok.
  assert (Hheap : forall a, option_map tg_pdf (heap st1 a) = option_map tg_pdf (heap st a)).
  { intros a. destruct (in_dec Nat.eq_dec a (concat (map cl_targets cls))) as [Hin|Hn].
    - pose proof Hin as Hin'. apply in_part in Hin. destruct Hin as (k & c & Hc & Ha). apply nth_error_In in Hc.
      destruct (heap st a) as [t|] eqn:Ea.
      + rewrite (k_cid _ _ _ _ _ _ _ _ Hk c a t Hc Ha Ea). reflexivity.
      + exfalso. apply (k_targets _ _ _ _ _ _ _ _ Hk) in Hin'. destruct Hin' as [H|(j & r & t & _ & H & _)].
        * apply affected_live in H. apply Hls in H. contradiction.
        * apply live_In in H; auto. congruence.
    - rewrite (k_other _ _ _ _ _ _ _ _ Hk a Hn). reflexivity. }
  assert (Hc1 : consistent box st1) by (apply (consistent_ext box st); auto).
  assert (Hlen : length scan = length (s_scan s)).
  { destruct (k_scan _ _ _ _ _ _ _ _ Hk) as (E1 & _). rewrite <- (map_length rp scan), E1, map_length. unfold start_scan.
    apply map_length. }
  assert (Hlive1 : forall a, clustered cls a -> In a (targets st1)).
  { intros a Ha. rewrite Kt. apply (k_targets _ _ _ _ _ _ _ _ Hk) in Ha. destruct Ha as [H|(j & r & t & _ & H & _)]; auto.
    apply live_In in H; auto. apply Hls. congruence. }
  assert (Hsc : forall j, In j (concat (map cl_reports cls)) <-> j < length scan).
  { intros j. rewrite (k_reports _ _ _ _ _ _ _ _ Hk j), Hlen. unfold start_scan. rewrite map_length. tauto. }
  destruct (values_exist box s s_sane st1 Hc1 scan cls (k_targets_once _ _ _ _ _ _ _ _ Hk) Hlive1
    (k_reports_once _ _ _ _ _ _ _ _ Hk) (fun j => proj1 (Hsc j))) as (newt & newr & V1 & V2 & V3).
  exists st1, scan, cls, newt, newr. split; auto.
Qed.

Section Plan.
Variables (st1 : tracker) (scan : list report) (cls : list cluster) (newt : nat -> option target)
  (newr : nat -> option (Rep * ext R)).
Hypothesis Hplan : plan st1 scan cls newt newr.

(** The target at [a] after the parallel phase. *)
Definition after (a : addr) (t : target) : option target := if clusteredb cls a then kept (newt a) else Some t.

(** The result of the parallel phase: state and scan. *)
Record phase2 (st2 : tracker) (scan2 : list report) : Prop := mkPhase2 {
  q_ok : consistent box st2;
  q_heap : forall a, heap st2 a = match heap st a with Some t => after a t | None => None end;
  q_targets : targets st2 = filter (fun a => match heap st2 a with Some _ => true | None => false end) (targets st);
  q_next : next_id st2 = next_id st;
  q_scan : forall j, nth_error scan2 j =
    match nth_error scan j with
    | None => None
    | Some r => match newr j with Some (d, x) => Some (mkReport d x (rp_cid r)) | None => Some r end
    end;
  q_done : forall c, In c cls -> outcome s st1 scan c <> None }.

Lemma unclustered_same a : ~ clustered cls a -> heap st1 a = heap st a.
Proof. intros H. apply (k_other _ _ _ _ _ _ _ _ (p_clustering _ _ _ _ _ Hplan)). exact H. Qed.

Lemma par_ok o : par_run vol box covnorm r_lim cov_lim s cls (mkConf st1 scan (repeat 0 (length cls))) o ->
  match o with
  | Ok cf => phase2 (c_st cf) (c_scan cf)
  | UB => False
  | OutOfFuel => exists c, In c cls /\ outcome s st1 scan c = None
  end.
Proof.
  intros Hr. destruct Hplan as [Em Hk Hc1 Hlen Hlive Hsc V1 V2 V3].
  pose proof (par_outcome unit unit_pos box box_real covnorm r_lim cov_lim s st1 Hc1 scan cls
    (k_targets_once _ _ _ _ _ _ _ _ Hk) Hlive (k_reports_once _ _ _ _ _ _ _ _ Hk) (fun j => proj1 (Hsc j))
    newt newr V1 V2 V3 _ _ Hr _ _ (inv_start box covnorm r_lim cov_lim s st1 Hc1 scan cls newt newr)) as H.
  destruct o as [cf| |]; auto. destruct H as (Hp & Hs & Hd).
  destruct (proj1 Hc1) as (Hn1 & Hl1). destruct (k_state _ _ _ _ _ _ _ _ Hk) as (Kt & Kr & Kn).
  assert (Hheap : forall a, heap (c_st cf) a = match heap st a with Some t => after a t | None => None end).
  { intros a. rewrite (ph_heap _ _ _ _ _ _ _ _ _ _ Hp a). unfold hs, ph_final, after, clusteredb.
    destruct (existsb (Nat.eqb a) (concat (map cl_targets cls))) eqn:E.
    - apply existsb_nat in E. pose proof (Hlive a E) as Ha. rewrite Kt in Ha. apply (proj1 st_ok) in Ha.
      destruct (heap st a); [reflexivity|congruence].
    - assert (Hna : ~ clustered cls a) by (intro H; apply existsb_nat in H; congruence).
      rewrite unclustered_same by auto. destruct (heap st a); auto. }
  split; auto.
  - eapply phased_end; eauto.
    + intros a _. unfold ph_final. destruct (existsb _ _); auto.
    + intros a Ha. unfold ph_final. destruct (existsb (Nat.eqb a) (concat (map cl_targets cls))) eqn:E; auto.
      apply existsb_nat in E. exfalso. apply Ha, Hlive. exact E.
  - rewrite (ph_targets _ _ _ _ _ _ _ _ _ _ Hp), Kt. apply filter_ext_in'. intros a _. unfold alive.
    rewrite <- (ph_heap _ _ _ _ _ _ _ _ _ _ Hp a). reflexivity.
  - rewrite (ph_id _ _ _ _ _ _ _ _ _ _ Hp). auto.
  - intros j. rewrite (Hs j). unfold report_at, pr_final. destruct (nth_error scan j) eqn:E; auto.
    assert (Hj : In j (concat (map cl_reports cls))) by (apply Hsc, nth_error_Some; congruence).
    apply existsb_nat in Hj. rewrite Hj. reflexivity.
Qed.

Lemma phase2_scan_length st2 scan2 : phase2 st2 scan2 -> length scan2 = length scan.
Proof.
  intros H. assert (E : forall j, nth_error scan2 j = None <-> nth_error scan j = None).
  { intros j. rewrite (q_scan _ _ H j). destruct (nth_error scan j); [|tauto].
    destruct (newr j) as [[? ?]|]; split; discriminate. }
  apply Nat.le_antisymm; apply nth_error_None, E, nth_error_None; auto.
Qed.

Lemma birth_ok st2 scan2 o : phase2 st2 scan2 -> birth vol box r_lim rB_max s cls scan2 st2 o ->
  exists st' new order, o = Ok st' /\ consistent box st' /\ grown st2 st' new /\
    Permutation order (concat (map cl_reports cls)) /\
    map content new = if nle extR (Fin r_lim) (rB_sum scan2) then flat_map (newborn s scan2 (rB_sum scan2)) order else [].
Proof.
  intros Hq Hb. destruct Hb as [E|order o E Hp Hb].
  - exists st2, [], (concat (map cl_reports cls)). rewrite E. split; auto. split; [apply (q_ok _ _ Hq)|]. split; [apply grown_refl|].
    split; auto.
  - destruct (births_ok _ _ _ _ _ _ Hb (q_ok _ _ Hq)) as (st' & new & -> & Hc & Hg & Ha).
    { intros j Hj. eapply Permutation_in in Hj; [|exact Hp]. rewrite (phase2_scan_length _ _ Hq).
      apply (p_scan _ _ _ _ _ Hplan). auto. }
    exists st', new, order. rewrite E. auto.
Qed.

(** The outcome of a correction after the targets in view are known. *)
Lemma correct_rest_ok o : correct_rest vol box covnorm r_lim cov_lim rB_max s affected st o ->
  match o with
  | UB => False
  | OutOfFuel => exists c, In c cls /\ outcome s st1 scan c = None
  | Ok st' => exists st2 scan2 new order, phase2 st2 scan2 /\ consistent box st' /\ grown st2 st' new /\
      Permutation order (concat (map cl_reports cls)) /\
      map content new = if nle extR (Fin r_lim) (rB_sum scan2) then flat_map (newborn s scan2 (rB_sum scan2)) order else []
  end.
Proof.
  intros H. pose proof (p_make _ _ _ _ _ Hplan) as Em.
  destruct H as [E|E|st1' scan' cls' E Hr|st1' scan' cls' E Hr|st1' scan' cls' cf o E Hr Hb]; rewrite E in Em;
    try discriminate; inversion Em; subst.
  - exact (par_ok _ Hr).
  - exact (par_ok _ Hr).
  - pose proof (par_ok _ Hr) as Hq. cbn beta iota in Hq.
    destruct (birth_ok _ _ _ Hq Hb) as (st' & new & order & -> & Hc & Hg & Hp & Ha).
    exists (c_st cf), (c_scan cf), new, order. auto.
Qed.

(** A correction can always be carried out. *)
Lemma correct_rest_exists : exists o, correct_rest vol box covnorm r_lim cov_lim rB_max s affected st o.
Proof.
  destruct Hplan as [Em Hk Hc1 Hlen Hlive Hsc V1 V2 V3].
  destruct (par_exists unit unit_pos box box_real covnorm r_lim cov_lim s st1 Hc1 scan cls
    (k_targets_once _ _ _ _ _ _ _ _ Hk) Hlive (k_reports_once _ _ _ _ _ _ _ _ Hk) (fun j => proj1 (Hsc j))
    newt newr V1 V2 V3 (3 * length cls) _ _ _ (inv_start box covnorm r_lim cov_lim s st1 Hc1 scan cls newt newr)
    ltac:(lia)) as (o & Ho).
  pose proof (par_ok _ Ho) as H. destruct o as [cf| |].
  - destruct (nle extR (Fin r_lim) (rB_sum (c_scan cf))) eqn:E.
    + destruct (births_exist s (c_scan cf) (rB_sum (c_scan cf)) (concat (map cl_reports cls)) (c_st cf) (q_ok _ _ H)) as (o & Hb).
      { intros j Hj. rewrite (phase2_scan_length _ _ H). apply Hsc. auto. }
      exists o. eapply cr_all; eauto. eapply birth_all; eauto.
    + exists (Ok (c_st cf)). eapply cr_all; eauto. apply birth_few. auto.
  - contradiction.
  - exists OutOfFuel. eapply cr_par_end; eauto.
Qed.

(** Each clustered target's old and new value, in its cluster's lists. *)
Lemma clustered_values a : clustered cls a -> exists c i t t', In c cls /\ nth_error (cl_targets c) i = Some a /\
  heap st a = Some t /\ newt a = Some t' /\
  nth_error (old_targets st1 c) i = Some (mkTarget (tg_id t) (tg_r t) (tg_pdf t) (cl_id c) (tg_new t) (tg_t0 t)) /\
  nth_error (new_targets s st1 scan c) i = Some t'.
Proof.
  intros Ha. destruct Hplan as [Em Hk Hc1 Hlen Hlive Hsc V1 V2 V3]. pose proof (Hlive a Ha) as Hin1.
  destruct (k_state _ _ _ _ _ _ _ _ Hk) as (Kt & Kr & Kn).
  apply in_part in Ha. destruct Ha as (k & c & Hc & Ha). apply nth_error_In in Hc.
  apply In_nth_error in Ha. destruct Ha as (i & Hi). pose proof (nth_error_In _ _ Hi) as Ha.
  rewrite Kt in Hin1. apply (proj1 st_ok) in Hin1. destruct (heap st a) as [t|] eqn:Et; [|congruence].
  pose proof (k_cid _ _ _ _ _ _ _ _ Hk c a t Hc Ha Et) as E1.
  assert (Hsub : map Some (old_targets st1 c) = map (heap st1) (cl_targets c)).
  { apply (sublive_length box st1 Hc1). intros b Hb. apply Hlive. apply in_concat. exists (cl_targets c). split; auto.
    apply in_map; auto. }
  assert (Eo : nth_error (map Some (old_targets st1 c)) i = Some (heap st1 a)).
  { rewrite Hsub. exact (map_nth_error (heap st1) i (cl_targets c) Hi). }
  assert (En : nth_error (map Some (new_targets s st1 scan c)) i = Some (newt a)).
  { rewrite <- (V1 c Hc). exact (map_nth_error newt i (cl_targets c) Hi). }
  rewrite nth_error_map in Eo, En. destruct (nth_error (new_targets s st1 scan c) i) as [t'|] eqn:E'; [|discriminate].
  destruct (nth_error (old_targets st1 c) i) as [t0|] eqn:E0; [|discriminate].
  simpl in En, Eo. inversion En. inversion Eo. exists c, i, t, t'. repeat (split; auto; try congruence).
Qed.

Lemma newt_id a t t' : clustered cls a -> heap st a = Some t -> newt a = Some t' -> tg_id t' = tg_id t.
Proof.
  intros Ha Et En. destruct (clustered_values a Ha) as (c & i & u & u' & Hc & Hi & Eu & Eu' & E0 & E').
  rewrite Et in Eu. rewrite En in Eu'. inversion Eu; inversion Eu'; subst u u'.
  unfold new_targets in E'. destruct (outcome s st1 scan c) as [[ts rs]|] eqn:Eo.
  - destruct s_sane as (_ & _ & Hu). destruct (Hu _ _ _ _ Eo) as (Hid & _).
    apply (f_equal (fun l => nth_error l i)) in Hid. rewrite !nth_error_map, E', E0 in Hid. simpl in Hid. congruence.
  - rewrite E0 in E'. inversion E'. reflexivity.
Qed.
End Plan.
End Rest.
End Main.
