(** Clustering of reports and targets. *)
From Coq Require Import List Arith NArith Bool Reals Lra Lia Permutation Relations Sorted.
Import ListNotations.
From Verif Require Import Res Scalar LapBase RTree RTreeSpec RTreeInst CC CCSpec CCProofs Cluster Tracker TrackerSpec
  TrackerProofs TrackerPar.
Local Open Scope nat_scope.

(** ** Sorting and set difference *)
Lemma sorted_insert_perm x l : Permutation (sorted_insert x l) (x :: l).
Proof.
  induction l as [|y l IH]; simpl; auto. destruct (x <=? y); auto. rewrite IH. apply perm_swap.
Qed.

Lemma sort_perm l : Permutation (sort l) l.
Proof. unfold sort. induction l as [|x l IH]; simpl; auto. rewrite sorted_insert_perm. constructor; auto. Qed.

Lemma sorted_insert_sorted x l : StronglySorted Peano.le l -> StronglySorted Peano.le (sorted_insert x l).
Proof.
  induction 1 as [|y l Hs IH Hf]; simpl; [repeat constructor|].
  destruct (Nat.leb_spec x y).
  - constructor; [constructor; auto|]. constructor; auto. eapply Forall_impl; [|exact Hf]. simpl. intros; lia.
  - constructor; auto. eapply Permutation_Forall; [symmetry; apply sorted_insert_perm|]. constructor; auto. lia.
Qed.

Lemma sort_sorted l : StronglySorted Peano.le (sort l).
Proof. unfold sort. induction l as [|x l IH]; simpl; [constructor|apply sorted_insert_sorted; auto]. Qed.

Lemma unique_In l a : In a (unique l) <-> In a l.
Proof.
  induction l as [|x l IH]; simpl; [tauto|]. destruct l as [|y l]; [simpl; tauto|].
  destruct (Nat.eqb_spec x y) as [->|Hne].
  - rewrite IH. simpl. tauto.
  - cbn [In]. rewrite IH. simpl. tauto.
Qed.

Lemma unique_sorted l : StronglySorted Peano.le l -> StronglySorted lt (unique l).
Proof.
  induction 1 as [|x l Hs IH Hf]; simpl; [constructor|]. destruct l as [|y l]; [repeat constructor|].
  destruct (Nat.eqb_spec x y) as [->|Hne]; auto.
  constructor; auto. apply Forall_forall. intros z Hz. rewrite unique_In in Hz.
  rewrite Forall_forall in Hf. pose proof (Hf y ltac:(simpl; auto)).
  inversion Hs as [|? ? _ Hf2]; subst. rewrite Forall_forall in Hf2.
  destruct Hz as [Hz|Hz]; [subst; lia|].
  specialize (Hf2 z Hz). lia.
Qed.

Lemma set_difference_In l1 : forall l2 a, StronglySorted lt l1 -> StronglySorted lt l2 ->
  (In a (set_difference l1 l2) <-> In a l1 /\ ~ In a l2).
Proof.
  induction l1 as [|x l1 IH]; intros l2 a H1 H2; [simpl; tauto|].
  inversion H1 as [|? ? Hs1 Hf1]; subst.
  induction H2 as [|y l2 Hs2 IH2 Hf2]; [simpl; tauto|].
  assert (Hs2' : StronglySorted lt (y :: l2)) by (constructor; auto).
  rewrite Forall_forall in Hf1, Hf2.
  change (set_difference (x :: l1) (y :: l2)) with
    (if x <? y then x :: set_difference l1 (y :: l2) else if y <? x then set_difference (x :: l1) l2 else set_difference l1 l2).
  destruct (Nat.ltb_spec x y); [|destruct (Nat.ltb_spec y x)].
  - cbn [In]. rewrite IH by auto. cbn [In]. split.
    + intros [<-|[Ha Hn]]; [|tauto]. split; auto. intros [<-|Hx]; [lia|]. specialize (Hf2 _ Hx). lia.
    + tauto.
  - rewrite IH2. cbn [In]. split; [|tauto]. intros [Ha Hn]. split; auto. intros [<-|Hx]; [|tauto].
    destruct Ha as [<-|Ha]; [lia|]. specialize (Hf1 _ Ha). lia.
  - assert (x = y) by lia. subst y. rewrite IH by auto. cbn [In]. split.
    + intros [Ha Hn]. split; auto. intros [<-|Hx]; [|tauto]. specialize (Hf1 _ Ha). lia.
    + intros [[<-|Ha] Hn]; tauto.
Qed.

Lemma set_difference_sorted l1 : forall l2, StronglySorted lt l1 -> StronglySorted lt l2 ->
  StronglySorted lt (set_difference l1 l2).
Proof.
  induction l1 as [|x l1 IH]; intros l2 H1 H2; [simpl; constructor|].
  inversion H1 as [|? ? Hs1 Hf1]; subst.
  induction H2 as [|y l2 Hs2 IH2 Hf2]; [simpl; auto|].
  assert (Hs2' : StronglySorted lt (y :: l2)) by (constructor; auto).
  change (set_difference (x :: l1) (y :: l2)) with
    (if x <? y then x :: set_difference l1 (y :: l2) else if y <? x then set_difference (x :: l1) l2 else set_difference l1 l2).
  destruct (x <? y); [|destruct (y <? x)]; auto.
  constructor; auto. apply Forall_forall. intros z Hz. apply set_difference_In in Hz; auto.
  rewrite Forall_forall in Hf1. apply Hf1. tauto.
Qed.

Lemma sorted_strict l : StronglySorted Peano.le l -> NoDup l -> StronglySorted lt l.
Proof.
  induction 1 as [|x l Hs IH Hf]; intros Hn; [constructor|]. inversion Hn; subst. constructor; auto.
  apply Forall_forall. intros y Hy. rewrite Forall_forall in Hf. specialize (Hf y Hy).
  destruct (Nat.eq_dec x y); [subst; contradiction|lia].
Qed.

Lemma sort_strict l : NoDup l -> StronglySorted lt (sort l).
Proof. intros H. apply sorted_strict; [apply sort_sorted|]. eapply Permutation_NoDup; [symmetry; apply sort_perm|auto]. Qed.

Lemma sorted_NoDup l : StronglySorted lt l -> NoDup l.
Proof.
  induction 1 as [|x l Hs IH Hf]; constructor; auto. intros Hx. rewrite Forall_forall in Hf. specialize (Hf x Hx). lia.
Qed.

Lemma clos_rt_ext {A} (r1 r2 : A -> A -> Prop) : (forall x y, r1 x y <-> r2 x y) ->
  forall x y, clos_refl_trans A r1 x y <-> clos_refl_trans A r2 x y.
Proof.
  intros H x y. split; induction 1; [apply rt_step; apply H; auto|apply rt_refl|eapply rt_trans; eauto
    |apply rt_step; apply H; auto|apply rt_refl|eapply rt_trans; eauto].
Qed.

Lemma NoDup_app_intro {A} (l1 l2 : list A) : NoDup l1 -> NoDup l2 -> (forall x, In x l1 -> In x l2 -> False) -> NoDup (l1 ++ l2).
Proof.
  intros H1 H2 H. induction H1 as [|x l1 Hx H1 IH]; simpl; auto. constructor.
  - intro Hin. apply in_app_or in Hin. destruct Hin; [contradiction|]. apply (H x); simpl; auto.
  - apply IH. intros y Hy. apply H. simpl; auto.
Qed.

Lemma nth_error_ext {A} (l1 : list A) : forall l2, (forall j, nth_error l1 j = nth_error l2 j) -> l1 = l2.
Proof.
  induction l1 as [|x l1 IH]; intros [|y l2] H; auto.
  - specialize (H 0). discriminate.
  - specialize (H 0). discriminate.
  - pose proof (H 0) as H0. simpl in H0. inversion H0; subst. f_equal. apply IH. intros j. apply (H (S j)).
Qed.

(** ** Consistency does not depend on the cluster ids *)
Section Clustering.
Context {P Rep : Type}.
Variable box : P -> rect (ext R).

Notation tracker := (tracker (P := P)).
Notation target := (target (P := P)).
Notation report := (report (Rep := Rep)).

Lemma consistent_ext (st st' : tracker) : consistent box st -> targets st' = targets st -> tree st' = tree st ->
  (forall a, option_map tg_pdf (heap st' a) = option_map tg_pdf (heap st a)) -> consistent box st'.
Proof.
  intros ((Hn & Hl) & Hi & Hb) Et Er Eh. split; [|split].
  - split; rewrite Et; auto. intros a. rewrite <- Hl. specialize (Eh a). destruct (heap st' a), (heap st a); simpl in *; intuition congruence.
  - unfold indexed, live in *. rewrite Er, Et, Hi. apply Permutation_refl'. clear - Eh.
    induction (targets st) as [|a T IH]; auto. cbn [flat_map].
    etransitivity; [apply map_app|]. etransitivity; [|symmetry; apply map_app]. f_equal; [|exact IH].
    specialize (Eh a). destruct (heap st' a), (heap st a); simpl in *; inversion Eh; congruence.
  - unfold tree_ok. rewrite Er. auto.
Qed.

Lemma live_In (st : tracker) a t : listed st -> (In (a, t) (live st) <-> heap st a = Some t).
Proof.
  intros (_ & Hl). unfold live. rewrite in_flat_map. split.
  - intros (b & Hb & Hx). destruct (heap st b) eqn:E; [|destruct Hx]. destruct Hx as [Hx|[]]. inversion Hx; subst. auto.
  - intros E. exists a. split; [apply Hl; congruence|]. rewrite E. simpl; auto.
Qed.

(** ** Queries *)
Lemma live_addrs (st : tracker) : listed st -> map fst (live st) = targets st.
Proof.
  intros (_ & Hl). unfold live. assert (H : forall T, (forall a, In a T -> heap st a <> None) ->
    map fst (flat_map (fun a => match heap st a with Some t => [(a, t)] | None => [] end) T) = T).
  { induction T as [|a T IH]; intros HT; auto. cbn [flat_map]. rewrite map_app, IH by (intros; apply HT; simpl; auto).
    specialize (HT a ltac:(simpl; auto)). destruct (heap st a); [reflexivity|congruence]. }
  apply H. intros a. apply Hl.
Qed.

Lemma query_ok (st : tracker) q : consistent box st -> real_corners q ->
  exists l, query q st = Ok l /\ NoDup l /\
    forall a, In a l <-> exists t, heap st a = Some t /\ meets q (box (tg_pdf t)).
Proof.
  intros (Hls & Hi & Hb) Hq. unfold query.
  destruct (search_R (D := addr) q (tree st) Hq Hb) as (l & E & (hit & miss & Hp & Hlp & Hh & Hm)).
  exists l. split; auto. unfold indexed in Hi.
  assert (Hent : forall r a, In (r, a) (entries (tree st)) <-> exists t, heap st a = Some t /\ r = box (tg_pdf t)).
  { intros r a. split.
    - intros H. eapply Permutation_in in H; [|exact Hi]. apply in_map_iff in H. destruct H as ((b & t) & Ex & Hx).
      simpl in Ex. inversion Ex; subst. apply live_In in Hx; auto. eauto.
    - intros (t & Et & ->). eapply Permutation_in; [symmetry; exact Hi|]. apply in_map_iff. exists (a, t). split; auto.
      apply live_In; auto. }
  split.
  - assert (Hnd : NoDup (map snd (entries (tree st)))).
    { eapply Permutation_NoDup; [symmetry; apply Permutation_map; exact Hi|]. rewrite map_map.
      rewrite (map_ext _ fst) by reflexivity. rewrite live_addrs by auto. apply Hls. }
    eapply Permutation_NoDup; [symmetry; exact Hlp|].
    eapply Permutation_NoDup in Hnd; [|apply Permutation_map; exact Hp]. rewrite map_app in Hnd.
    apply NoDup_app_inv in Hnd. tauto.
  - rewrite Forall_forall in Hh, Hm. intros a. split.
    + intros Ha. eapply Permutation_in in Ha; [|exact Hlp]. apply in_map_iff in Ha. destruct Ha as ((r & b) & Eb & Hx).
      simpl in Eb; subst b. assert (Hx' : In (r, a) (entries (tree st))).
      { eapply Permutation_in; [symmetry; exact Hp|]. apply in_or_app; auto. }
      apply Hent in Hx'. destruct Hx' as (t & Et & ->). exists t. split; auto. exact (Hh _ Hx).
    + intros (t & Et & Hmeet). assert (Hx' : In (box (tg_pdf t), a) (entries (tree st))) by (apply Hent; eauto).
      eapply Permutation_in in Hx'; [|exact Hp]. apply in_app_or in Hx'. destruct Hx' as [Hx|Hx].
      * eapply Permutation_in; [symmetry; exact Hlp|]. apply (in_map snd) in Hx. exact Hx.
      * exfalso. apply (Hm _ Hx). exact Hmeet.
Qed.

(** ** Match lists and components *)
Section Match.
Variable mt : list (list addr).

Lemma matching_reports_In a j : In j (matching_reports mt a) <-> In a (nth j mt []).
Proof.
  unfold matching_reports. rewrite in_flat_map. split.
  - intros (i & Hi & Hj). apply in_map_iff in Hj. destruct Hj as (b & <- & Hb). apply filter_In in Hb.
    destruct Hb as (Hb & E). apply Nat.eqb_eq in E. subst. auto.
  - intros Ha. exists j. split.
    + apply in_seq. destruct (Nat.lt_ge_cases j (length mt)); [lia|]. rewrite nth_overflow in Ha by auto. destruct Ha.
    + apply in_map_iff. exists a. split; auto. apply filter_In. rewrite Nat.eqb_refl. auto.
Qed.

Lemma cc_calls_linked i j : linked (cc_calls mt) i j <-> exists a, In a (nth i mt []) /\ In a (nth j mt []).
Proof.
  unfold linked, cc_calls. split.
  - intros (cs & Hin & Hj). apply in_flat_map in Hin. destruct Hin as (k & Hk & [H|H]); [discriminate|].
    apply in_map_iff in H. destruct H as (a & E & Ha). inversion E; subst. apply matching_reports_In in Hj. eauto.
  - intros (a & Hi & Hj). exists (matching_reports mt a). split; [|apply matching_reports_In; auto].
    apply in_flat_map. exists i. split.
    + apply in_seq. destruct (Nat.lt_ge_cases i (length mt)); [lia|]. rewrite nth_overflow in Hi by auto. destruct Hi.
    + right. apply in_map_iff. eauto.
Qed.

Lemma cc_calls_known i : known (cc_calls mt) i <-> i < length mt.
Proof.
  unfold known, cc_calls. split.
  - intros [H|[cs H]]; apply in_flat_map in H; destruct H as (k & Hk & H); apply in_seq in Hk.
    + destruct H as [H|H]; [inversion H; subst; lia|]. apply in_map_iff in H. destruct H as (? & H & _). discriminate.
    + destruct H as [H|H]; [discriminate|]. apply in_map_iff in H. destruct H as (? & H & _). inversion H; subst. lia.
  - intros H. left. apply in_flat_map. exists i. split; [apply in_seq; lia|simpl; auto].
Qed.

Lemma cc_calls_symmetric : symmetric_links (cc_calls mt).
Proof. intros i j H. apply cc_calls_linked in H. apply cc_calls_linked. destruct H as (a & H1 & H2). eauto. Qed.
End Match.

(** ** Writing cluster ids *)
Definition with_cid (k : nat) (t : target) : target :=
  mkTarget (tg_id t) (tg_r t) (tg_pdf t) k (tg_new t) (tg_t0 t).
Definition with_rcid (k : nat) (r : report) : report := mkReport (rp r) (rp_rB r) k.

Lemma set_cids k : forall (l : list addr) (st : tracker), (forall a, In a l -> heap st a <> None) ->
  exists st', for_each (set_cid k) l st = Ok st' /\
    targets st' = targets st /\ tree st' = tree st /\ next_id st' = next_id st /\
    forall a, heap st' a = if existsb (Nat.eqb a) l then option_map (with_cid k) (heap st a) else heap st a.
Proof.
  induction l as [|b l IH]; intros st Hl; cbn [for_each].
  - exists st. auto.
  - unfold set_cid at 1, apply_to, write, deref. destruct (heap st b) as [t|] eqn:E; [|destruct (Hl b ltac:(simpl; auto) E)].
    cbn [bind].
    destruct (IH (mkTracker (heap_upd (heap st) b (Some (with_cid k t))) (targets st) (tree st) (next_id st)))
      as (st' & E' & Et & Er & En & Eh).
    { intros a Ha. cbn [heap]. unfold heap_upd. destruct (Nat.eqb a b); [discriminate|]. apply Hl. simpl; auto. }
    exists st'. split; [exact E'|]. split; [exact Et|]. split; [exact Er|]. split; [exact En|].
    intros a. rewrite Eh. cbn [heap]. unfold heap_upd. cbn [existsb]. destruct (Nat.eqb_spec a b) as [->|Hne]; cbn [orb]; auto.
    rewrite E. destruct (existsb (Nat.eqb b) l); reflexivity.
Qed.

Lemma set_rcids k : forall (l : list nat) (scan : list report), (forall j, In j l -> j < length scan) ->
  exists scan', for_each (set_report_cid k) l scan = Ok scan' /\
    forall j, nth_error scan' j = if existsb (Nat.eqb j) l then option_map (with_rcid k) (nth_error scan j) else nth_error scan j.
Proof.
  induction l as [|b l IH]; intros scan Hl; cbn [for_each].
  - exists scan. auto.
  - unfold set_report_cid at 1, get. assert (Hb : b < length scan) by (apply Hl; simpl; auto).
    pose proof Hb as Hb'. apply nth_error_Some in Hb'. destruct (nth_error scan b) as [r|] eqn:E; [|congruence]. cbn [bind].
    unfold set. rewrite (proj2 (Nat.ltb_lt _ _) Hb). cbn [bind].
    destruct (IH (upd scan b (with_rcid k r))) as (scan' & E' & Eh).
    { intros j Hj. rewrite upd_length. apply Hl; simpl; auto. }
    exists scan'. split; [exact E'|]. intros j. rewrite Eh, nth_error_upd. cbn [existsb].
    destruct (Nat.eqb_spec j b) as [->|Hne]; cbn [orb]; auto. rewrite E. destruct (existsb (Nat.eqb b) l); reflexivity.
Qed.

(** The cluster holding an element. *)
Definition owner (f : cluster -> list nat) (cls : list cluster) (a : nat) : option cluster :=
  find (fun c => existsb (Nat.eqb a) (f c)) cls.

Lemma owner_app f cls c a : owner f (cls ++ [c]) a =
  match owner f cls a with Some c' => Some c' | None => if existsb (Nat.eqb a) (f c) then Some c else None end.
Proof. unfold owner. induction cls as [|c0 cls IH]; simpl; auto. destruct (existsb _ (f c0)); auto. Qed.

Lemma owner_none f cls a : owner f cls a = None <-> ~ In a (concat (map f cls)).
Proof.
  unfold owner. induction cls as [|c cls IH]; simpl; [tauto|]. destruct (existsb (Nat.eqb a) (f c)) eqn:E.
  - apply existsb_nat in E. split; [discriminate|]. intros H. exfalso. apply H. apply in_or_app; auto.
  - rewrite IH. split; intros H Hin.
    + apply in_app_or in Hin. destruct Hin as [Hin|Hin]; [|auto]. apply existsb_nat in Hin. congruence.
    + apply H. apply in_or_app; auto.
Qed.

Lemma owner_some f cls c a : NoDup (concat (map f cls)) -> In c cls -> In a (f c) -> owner f cls a = Some c.
Proof.
  unfold owner. induction cls as [|c0 cls IH]; intros Hn Hc Ha; [destruct Hc|]. simpl in *. apply NoDup_app_inv in Hn.
  destruct Hn as (H1 & H2 & H3). destruct (existsb (Nat.eqb a) (f c0)) eqn:E.
  - apply existsb_nat in E. destruct Hc as [->|Hc]; auto. exfalso. eapply H3; [exact E|]. apply in_concat. exists (f c).
    split; auto. apply in_map; auto.
  - destruct Hc as [->|Hc]; auto. apply existsb_nat in Ha. congruence.
Qed.

Section Run.
Variable rbox : Rep -> rect (ext R).
Variable st0 : tracker.
Variable scan0 : list report.
Variable all0 : list addr.
Hypothesis st0_ok : consistent box st0.
Hypothesis all0_live : forall a, In a all0 -> In a (targets st0).
Hypothesis all0_nodup : NoDup all0.
Hypothesis rbox_real : forall r, In r scan0 -> real_corners (rbox (rp r)).

Definition labelled (cls : list cluster) (st : tracker) : Prop :=
  targets st = targets st0 /\ tree st = tree st0 /\ next_id st = next_id st0 /\
  forall a, heap st a = match owner cl_targets cls a with
                        | Some c => option_map (with_cid (cl_id c)) (heap st0 a)
                        | None => heap st0 a
                        end.
Definition rlabelled (cls : list cluster) (scan : list report) : Prop :=
  forall j, nth_error scan j = match owner cl_reports cls j with
                               | Some c => option_map (with_rcid (cl_id c)) (nth_error scan0 j)
                               | None => nth_error scan0 j
                               end.

Lemma labelled_live cls st a : labelled cls st -> In a (targets st0) -> heap st a <> None.
Proof.
  intros (_ & _ & _ & Hh) Ha. destruct st0_ok as ((_ & Hl) & _). apply Hl in Ha. rewrite Hh.
  destruct (owner cl_targets cls a); auto. destruct (heap st0 a); simpl; congruence.
Qed.

Lemma rlabelled_length cls scan : rlabelled cls scan -> length scan = length scan0.
Proof.
  intros H. assert (E : forall j, nth_error scan j = None <-> nth_error scan0 j = None).
  { intros j. rewrite (H j). destruct (owner cl_reports cls j); [|tauto]. destruct (nth_error scan0 j); simpl; intuition congruence. }
  apply Nat.le_antisymm.
  - apply nth_error_None, E, nth_error_None. auto.
  - apply nth_error_None, E, nth_error_None. auto.
Qed.

Lemma match_lists : exists mt, map_res (fun r => query (rbox (rp r)) st0) scan0 = Ok mt /\ length mt = length scan0 /\
  (forall j, NoDup (nth j mt [])) /\ forall j a, In a (nth j mt []) <-> gated box rbox (map rp scan0) st0 j a.
Proof.
  destruct st0_ok as (Hls & _). unfold gated. clear all0_live all0_nodup. induction scan0 as [|r sc IH].
  - exists []. split; auto. split; auto. split; [intros [|j]; constructor|]. intros j a. split.
    + intros H. destruct j; destruct H.
    + intros (r & t & H & _). destruct j; discriminate.
  - destruct (query_ok st0 (rbox (rp r)) st0_ok (rbox_real r ltac:(simpl; auto))) as (l & E & Hn & Hl).
    destruct IH as (mt & Em & El & Hnd & Hmt); [intros; apply rbox_real; simpl; auto|].
    exists (l :: mt). cbn [map_res]. rewrite E. cbn [bind]. rewrite Em. cbn [bind]. split; auto. split; [simpl; lia|].
    split; [intros [|j]; simpl; auto|]. intros [|j] a; simpl.
    + rewrite Hl. split.
      * intros (t & Et & Hm). exists (rp r), t. split; auto. split; auto. apply live_In; auto.
      * intros (r' & t & Er & Hlive & Hm). inversion Er; subst. exists t. split; auto. apply live_In in Hlive; auto.
    + apply Hmt.
Qed.

Section Components.
Variable mt : list (list addr).
Hypothesis mt_length : length mt = length scan0.
Hypothesis mt_live : forall j a, In a (nth j mt []) -> In a (targets st0).

Definition hits (js : list nat) (a : addr) : Prop := exists j, In j js /\ In a (nth j mt []).

Record comp_inv (pre : list (list nat)) (st : tracker) (scan : list report) (all : list addr) (cls : list cluster) : Prop := mkCI {
  ci_reports : map cl_reports cls = pre;
  ci_ids : map cl_id cls = seq 0 (length cls);
  ci_targets : forall c a, In c cls -> (In a (cl_targets c) <-> hits (cl_reports c) a);
  ci_nodup : NoDup (concat (map cl_targets cls));
  ci_st : labelled cls st;
  ci_scan : rlabelled cls scan;
  ci_all : NoDup all /\ forall a, In a all <-> In a all0 /\ ~ hits (concat pre) a }.

Lemma comp_step pre comp st scan all cls : comp_inv pre st scan all cls ->
  (forall j, In j comp -> j < length scan0) -> (forall j, In j comp -> ~ In j (concat pre)) ->
  (forall a, hits comp a -> ~ hits (concat pre) a) ->
  exists st' scan' all' cls', component_cluster mt comp (st, scan, all, cls) = Ok (st', scan', all', cls') /\
    comp_inv (pre ++ [comp]) st' scan' all' cls'.
Proof.
  intros [Hr Hid Ht Hnd Hst Hscan (Hna & Hall)] Hlt Hnew Hdis. unfold component_cluster.
  rewrite (map_res_ok (get mt) (fun j => nth j mt [])).
  2:{ intros j Hj. unfold get. erewrite nth_error_nth'; [reflexivity|]. rewrite mt_length; auto. }
  cbn [bind].
  destruct (set_rcids (length cls) comp scan) as (scan' & Es & Hs').
  { intros j Hj. rewrite (rlabelled_length _ _ Hscan). auto. }
  rewrite Es. cbn [bind].
  set (cts := unique (sort (concat (map (fun j => nth j mt []) comp)))).
  assert (Hcts : forall a, In a cts <-> hits comp a).
  { intros a. unfold cts. rewrite unique_In. transitivity (In a (concat (map (fun j => nth j mt []) comp))).
    - split; apply Permutation_in; [|symmetry]; apply sort_perm.
    - rewrite in_concat. split.
      + intros (l & Hl & Ha). apply in_map_iff in Hl. destruct Hl as (j & <- & Hj). exists j; auto.
      + intros (j & Hj & Ha). exists (nth j mt []). split; auto. apply in_map_iff. eauto. }
  assert (Hsorted : StronglySorted lt cts) by (apply unique_sorted, sort_sorted).
  destruct (set_cids (length cls) cts st) as (st' & Est & Et & Er & En & Eh).
  { intros a Ha. eapply labelled_live; eauto. apply Hcts in Ha. destruct Ha as (j & _ & Ha). eauto. }
  rewrite Est. cbn [bind]. do 4 eexists. split; [reflexivity|].
  assert (Hold : forall a, In a cts -> ~ In a (concat (map cl_targets cls))).
  { intros a Ha Hin. apply Hcts in Ha. apply (Hdis a Ha). apply in_concat in Hin. destruct Hin as (l & Hl & Hal).
    apply in_map_iff in Hl. destruct Hl as (c & <- & Hc). apply Ht in Hal; auto. destruct Hal as (j & Hj & Hja).
    exists j. split; auto. apply in_concat. exists (cl_reports c). split; auto. rewrite <- Hr. apply in_map; auto. }
  split.
  - rewrite map_app, Hr. reflexivity.
  - rewrite map_app, Hid, app_length. simpl. rewrite Nat.add_1_r, seq_S. reflexivity.
  - intros c a Hc. apply in_app_or in Hc. destruct Hc as [Hc|[<-|[]]]; auto.
  - rewrite map_app, concat_app. simpl. rewrite app_nil_r. apply NoDup_app_intro; auto.
    + apply sorted_NoDup; auto.
    + intros a Ha Hb. eapply Hold; eauto.
  - destruct Hst as (S1 & S2 & S3 & S4). split; [congruence|]. split; [congruence|]. split; [congruence|].
    intros a. rewrite Eh, owner_app, S4. cbn [cl_targets cl_id].
    destruct (existsb (Nat.eqb a) cts) eqn:Ex.
    + apply existsb_nat in Ex. rewrite (proj2 (owner_none _ _ _) (Hold a Ex)). reflexivity.
    + destruct (owner cl_targets cls a); auto.
  - intros j. rewrite Hs', owner_app, (Hscan j). cbn [cl_reports cl_id].
    destruct (existsb (Nat.eqb j) comp) eqn:Ex.
    + apply existsb_nat in Ex. assert (On : owner cl_reports cls j = None).
      { apply owner_none. rewrite Hr. auto. }
      rewrite On. reflexivity.
    + destruct (owner cl_reports cls j); auto.
  - assert (Hss : StronglySorted lt (sort all)) by (apply sort_strict; auto).
    split; [apply sorted_NoDup; apply set_difference_sorted; auto|].
    intros a. rewrite set_difference_In by auto. rewrite Hcts. rewrite concat_app. simpl. rewrite app_nil_r.
    assert (Hsort : In a (sort all) <-> In a all) by (split; apply Permutation_in; [|symmetry]; apply sort_perm).
    rewrite Hsort, Hall. split.
    + intros [[Ha Hn] Hc]. split; auto. intros (j & Hj & Hja). apply in_app_or in Hj. destruct Hj; [apply Hn|apply Hc]; exists j; auto.
    + intros [Ha Hn]. split; [split; auto|]; intros (j & Hj & Hja); apply Hn; exists j; split; auto; apply in_or_app; auto.
Qed.

Lemma comp_loop : forall comps pre st scan all cls, comp_inv pre st scan all cls ->
  NoDup (concat (pre ++ comps)) -> (forall j, In j (concat (pre ++ comps)) -> j < length scan0) ->
  (forall c i j a, In c (pre ++ comps) -> In i c -> In a (nth i mt []) -> In a (nth j mt []) -> In j c) ->
  exists st' scan' all' cls', for_each (component_cluster mt) comps (st, scan, all, cls) = Ok (st', scan', all', cls') /\
    comp_inv (pre ++ comps) st' scan' all' cls'.
Proof.
  induction comps as [|comp comps IH]; intros pre st scan all cls Hci Hnd Hlt Hclosed; cbn [for_each].
  - rewrite app_nil_r. exists st, scan, all, cls. auto.
  - assert (Eapp : pre ++ comp :: comps = (pre ++ [comp]) ++ comps) by (rewrite <- app_assoc; reflexivity).
    assert (Hin : In comp (pre ++ comp :: comps)) by (apply in_or_app; simpl; auto).
    assert (Hd : forall j, In j comp -> ~ In j (concat pre)).
    { intros j Hj Hp. rewrite concat_app in Hnd. simpl in Hnd. apply NoDup_app_inv in Hnd. destruct Hnd as (_ & _ & Hnd).
      apply (Hnd j); auto. apply in_or_app; auto. }
    destruct (comp_step pre comp st scan all cls Hci) as (st1 & scan1 & all1 & cls1 & E1 & Hci1); auto.
    + intros j Hj. apply Hlt. apply in_concat. exists comp; auto.
    + intros a (i & Hi & Hia) (j & Hj & Hja). apply (Hd j); auto. eapply Hclosed; [exact Hin|exact Hi|exact Hia|exact Hja].
    + rewrite E1. cbn [bind]. rewrite Eapp in *. apply IH; auto.
Qed.

Record lone_inv (comps : list (list nat)) (pre : list addr) (st : tracker) (cls : list cluster) (cls1 : list cluster) : Prop := mkLI {
  li_cls : exists l, cls = cls1 ++ l /\ map cl_targets l = map (fun a => [a]) pre /\ Forall (fun c => cl_reports c = []) l;
  li_ids : map cl_id cls = seq 0 (length cls);
  li_nodup : NoDup (concat (map cl_targets cls));
  li_st : labelled cls st }.

Lemma lone_loop comps cls1 : forall rest_ pre st cls, lone_inv comps pre st cls cls1 ->
  NoDup rest_ -> (forall a, In a rest_ -> In a (targets st0) /\ ~ In a (concat (map cl_targets cls))) ->
  exists st' cls', for_each lone_cluster rest_ (st, cls) = Ok (st', cls') /\ lone_inv comps (pre ++ rest_) st' cls' cls1.
Proof.
  induction rest_ as [|a l IH]; intros pre st cls Hli Hn Hl; cbn [for_each].
  - rewrite app_nil_r. eauto.
  - destruct Hli as [(ex & E1 & E2 & E3) Hid Hnd Hst]. destruct (Hl a ltac:(simpl; auto)) as [Hlive Hnew].
    destruct (set_cids (length cls) [a] st) as (st' & Est & Et & Er & En & Eh).
    { intros b [<-|[]]. eapply labelled_live; eauto. }
    cbn [for_each] in Est. unfold lone_cluster at 1.
    destruct (set_cid (length cls) a st) as [st1| |] eqn:Es; cbn [bind] in Est; try discriminate. inversion Est; subst st1. clear Est.
    cbn [bind]. inversion Hn as [|? ? Ha Hn']; subst.
    replace (pre ++ a :: l) with ((pre ++ [a]) ++ l) by (rewrite <- app_assoc; reflexivity).
    apply IH; auto.
    + split.
      * exists (ex ++ [mkCluster (length (cls1 ++ ex)) [] [a]]). split; [rewrite app_assoc; auto|].
        split; [rewrite !map_app, E2; reflexivity|]. apply Forall_app. split; auto.
      * rewrite map_app, Hid, (app_length (cls1 ++ ex)). simpl. rewrite Nat.add_1_r, seq_S. reflexivity.
      * rewrite map_app, concat_app. apply NoDup_app_intro; auto.
        -- simpl. repeat constructor; auto.
        -- simpl. intros b Hb [<-|[]]. auto.
      * destruct Hst as (S1 & S2 & S3 & S4). split; [congruence|]. split; [congruence|]. split; [congruence|].
        intros b. rewrite Eh, owner_app, S4. cbn [cl_targets cl_id].
        destruct (existsb (Nat.eqb b) [a]) eqn:Ex.
        -- apply existsb_nat in Ex. destruct Ex as [<-|[]]. rewrite (proj2 (owner_none _ _ _) Hnew). reflexivity.
        -- destruct (owner cl_targets (cls1 ++ ex) b); auto.
    + intros b Hb. split; [apply Hl; simpl; auto|]. rewrite map_app, concat_app. intro Hin. apply in_app_or in Hin.
      destruct Hin as [Hin|Hin]; [revert Hin; apply Hl; simpl; auto|]. simpl in Hin. destruct Hin as [<-|[]]. contradiction.
Qed.
End Components.

Lemma make_clusters_ok : exists st scan cls,
  make_clusters rbox all0 st0 scan0 = Ok (st, scan, cls) /\ clustering box rbox all0 st0 scan0 st scan cls.
Proof.
  destruct match_lists as (mt & Em & Elen & Hnd & Hmt).
  assert (Hlive : forall j a, In a (nth j mt []) -> In a (targets st0)).
  { intros j a H. apply Hmt in H. destruct H as (r & t & _ & Hl & _). destruct st0_ok as (Hls & _).
    apply live_In in Hl; auto. apply Hls. congruence. }
  unfold make_clusters. rewrite Em. cbn [bind].
  destruct (components_partition_lemma (cc_calls mt) (cc_calls_symmetric mt)) as (comps & Ec & Cnd & Cin & Cne & Cchain).
  rewrite Ec. cbn [bind].
  assert (Hchain : forall i j, chain (cc_calls mt) i j <-> linked_reports box rbox (map rp scan0) st0 i j).
  { intros i j. unfold chain, linked_reports. apply clos_rt_ext. intros x y. rewrite cc_calls_linked. unfold share.
    split; intros (a & H1 & H2); exists a; split; apply Hmt; auto. }
  destruct (comp_loop mt Elen Hlive comps [] st0 scan0 all0 []) as (st1 & scan1 & all1 & cls1 & E1 & Hci).
  { split; simpl; auto.
    - intros c a [].
    - constructor.
    - repeat split; auto.
    - intros j. reflexivity.
    - split; auto. intros a. split; [|tauto]. intros Ha. split; auto. intros (j & [] & _). }
  { exact Cnd. }
  { intros j Hj. apply Cin in Hj. apply cc_calls_known in Hj. lia. }
  { intros c i j a Hc Hi Hia Hja. apply (Cchain c i j Hc Hi). apply rt_step. apply cc_calls_linked. eauto. }
  rewrite E1. cbn [bind]. destruct Hci as [Hr Hid Ht Hnt Hst Hscan (Hna & Hall)]. simpl in Hr, Hall.
  destruct (lone_loop comps cls1 all1 [] st1 cls1) as (st2 & cls2 & E2 & Hli); auto.
  { split; auto. exists []. rewrite app_nil_r. auto. }
  { intros a Ha. apply Hall in Ha. destruct Ha as [Ha Hn]. split; auto. intro Hin. apply in_part in Hin.
    destruct Hin as (k & c & Hk & Hac). apply nth_error_In in Hk. apply Ht in Hac; auto. apply Hn.
    destruct Hac as (j & Hj & Hja). exists j. split; auto. apply in_concat. exists (cl_reports c). split; auto.
    rewrite <- Hr. apply in_map; auto. }
  rewrite E2. cbn [bind]. exists st2, scan1, cls2. split; auto.
  destruct Hli as [(ex & X1 & X2 & X3) Hid2 Hnd2 Hst2]. simpl in X2.
  assert (Hrep : concat (map cl_reports cls2) = concat comps).
  { rewrite X1, map_app, concat_app, Hr. assert (E : concat (map cl_reports ex) = []).
    { clear - X3. induction X3 as [|c l Hc _ IH]; simpl; auto. rewrite Hc, IH. auto. }
    rewrite E, app_nil_r. auto. }
  assert (Hex : forall c, In c ex -> cl_reports c = [] /\ exists a, cl_targets c = [a] /\ In a all1).
  { intros c Hc. rewrite Forall_forall in X3. split; auto.
    assert (Hm : In (cl_targets c) (map (fun a => [a]) all1)) by (rewrite <- X2; apply in_map; auto).
    apply in_map_iff in Hm. destruct Hm as (a & <- & Ha). eauto. }
  assert (Hc1 : forall c, In c cls1 -> In (cl_reports c) comps) by (intros c Hc; rewrite <- Hr; apply in_map; auto).
  assert (Hgone : forall a, In a all1 -> forall j, ~ gated box rbox (map rp scan0) st0 j a).
  { intros a Ha j Hg. apply Hall in Ha. destruct Ha as [_ Ha]. apply Ha. apply Hmt in Hg. exists j. split; auto.
    apply Cin. apply cc_calls_known. destruct (Nat.lt_ge_cases j (length mt)); auto. rewrite nth_overflow in Hg by auto. destruct Hg. }
  constructor; auto.
  - rewrite Hrep. auto.
  - intros j. rewrite Hrep, Cin, cc_calls_known, Elen. tauto.
  - intros a. rewrite X1, map_app, concat_app, in_app_iff. split.
    + intros [Hin|Hin]; apply in_part in Hin; destruct Hin as (k & c & Hk & Hac); apply nth_error_In in Hk.
      * right. apply Ht in Hac; auto. destruct Hac as (j & Hj & Hja). exists j. apply Hmt; auto.
      * left. destruct (Hex c Hk) as (_ & b & Eb & Hb). rewrite Eb in Hac. destruct Hac as [<-|[]]. apply Hall in Hb. tauto.
    + intros Ha.
      assert (Hcase : hits mt (concat comps) a \/ ~ hits mt (concat comps) a).
      { destruct (existsb (fun j => existsb (Nat.eqb a) (nth j mt [])) (concat comps)) eqn:E.
        - left. apply existsb_exists in E. destruct E as (j & Hj & Hja). apply existsb_nat in Hja. exists j; auto.
        - right. intros (j & Hj & Hja). assert (existsb (fun j => existsb (Nat.eqb a) (nth j mt [])) (concat comps) = true); [|congruence].
          apply existsb_exists. exists j. split; auto. apply existsb_nat; auto. }
      destruct Hcase as [(j & Hj & Hja)|Hn].
      * left. rewrite <- Hr in Hj. apply in_part in Hj. destruct Hj as (k & c & Hk & Hjc). eapply part_in; [exact Hk|].
        apply nth_error_In in Hk. apply Ht; auto. exists j; auto.
      * right. assert (Ha1 : In a all1).
        { apply Hall. split; auto. destruct Ha as [Ha|(j & Hg)]; auto. exfalso. apply Hn. apply Hmt in Hg. exists j. split; auto.
          apply Cin. apply cc_calls_known. destruct (Nat.lt_ge_cases j (length mt)); auto. rewrite nth_overflow in Hg by auto. destruct Hg. }
        rewrite X2. apply in_concat. exists [a]. split; [apply in_map_iff; eauto|simpl; auto].
  - intros c i j Hc Hi. rewrite X1 in Hc. apply in_app_or in Hc. destruct Hc as [Hc|Hc].
    + rewrite (Cchain _ i j (Hc1 c Hc) Hi). apply Hchain.
    + destruct (Hex c Hc) as (E & _). rewrite E in Hi. destruct Hi.
  - intros c a Hc Hne. rewrite X1 in Hc. apply in_app_or in Hc. destruct Hc as [Hc|Hc].
    + rewrite (Ht c a Hc). unfold hits. split; intros (j & Hj & H); exists j; split; auto; apply Hmt; auto.
    + destruct (Hex c Hc) as (E & _). contradiction.
  - intros c Hc He. rewrite X1 in Hc. apply in_app_or in Hc. destruct Hc as [Hc|Hc].
    + exfalso. apply (Cne (cl_reports c)); auto.
    + destruct (Hex c Hc) as (_ & a & Ea & Ha). exists a. split; auto.
  - destruct Hst2 as (S1 & S2 & S3 & _). auto.
  - intros c a t Hc Ha E. destruct Hst2 as (_ & _ & _ & S4). rewrite S4, (owner_some _ _ c a Hnd2 Hc Ha), E. reflexivity.
  - intros a Ha. destruct Hst2 as (_ & _ & _ & S4). rewrite S4, (proj2 (owner_none _ _ _) Ha). reflexivity.
  - assert (Hsame : forall (A : Type) (f : report -> A), (forall k r, f (with_rcid k r) = f r) -> map f scan1 = map f scan0).
    { intros A f Hf. apply nth_error_ext. intros j. rewrite !nth_error_map, (Hscan j).
      destruct (owner cl_reports cls1 j), (nth_error scan0 j); simpl; auto. rewrite Hf. auto. }
    split; apply Hsame; auto.
  - intros c j r Hc Hj E. rewrite X1 in Hc. apply in_app_or in Hc. destruct Hc as [Hc|Hc].
    + rewrite (Hscan j) in E. rewrite (owner_some cl_reports cls1 c j) in E; auto.
      * destruct (nth_error scan0 j); simpl in E; inversion E; reflexivity.
      * rewrite Hr. auto.
    + destruct (Hex c Hc) as (En & _). rewrite En in Hj. destruct Hj.
Qed.
End Run.
End Clustering.
