(** What evaluation calls do to the tracker's state. *)
From Coq Require Import List Arith NArith ZArith Bool Reals Lra Lia Permutation.
Import ListNotations.
From Verif Require Import Res Scalar LapBase RTree RTreeSpec RTreeProofs RTreeInst CC Cluster Tracker TrackerSpec TrackerProofs TrackerCluster TrackerMain
  TrackerHist TrackerOps Metric Eval EvalSpec EvalProofs.
Local Open Scope nat_scope.

Section Main.
Context {P Rep : Type}.
Variable pos : P -> point.
Variable mean : P -> list R.
Variable local : point -> P -> P.
Variable global : P -> P.
Variable ne : point -> list R -> list R.
Notation target := (target (P := P)).
Notation tracker := (tracker (P := P)).
Notation reframe := (reframe local global).
Notation pos_phd := (pos_phd local global).
Notation score := (score pos mean local global ne).

(** The same targets with densities in the relation [Q]. *)
Definition same_but (Q : ext R -> P -> P -> Prop) (t t' : target) : Prop :=
  tg_id t' = tg_id t /\ tg_r t' = tg_r t /\ tg_cid t' = tg_cid t /\ tg_new t' = tg_new t /\ tg_t0 t' = tg_t0 t /\ Q (tg_r t) (tg_pdf t) (tg_pdf t').
Definition similar (Q : ext R -> P -> P -> Prop) (st st' : tracker) : Prop :=
  targets st' = targets st /\ tree st' = tree st /\ next_id st' = next_id st /\
  forall a, match heap st a, heap st' a with
            | Some t, Some t' => same_but Q t t'
            | None, None => True
            | _, _ => False
            end.

Section Similar.
Variable Q : ext R -> P -> P -> Prop.
Hypothesis Qrefl : forall x p, Q x p p.
Hypothesis Qtrans : forall x p q r, Q x p q -> Q x q r -> Q x p r.
Hypothesis Qframe : forall o x p, Q x p (global (local o p)).

Lemma similar_refl st : similar Q st st.
Proof. repeat (split; auto). intros a. destruct (heap st a); auto. repeat (split; auto). Qed.

Lemma similar_trans st1 st2 st3 : similar Q st1 st2 -> similar Q st2 st3 -> similar Q st1 st3.
Proof.
  intros (A1 & A2 & A3 & A4) (B1 & B2 & B3 & B4). split; [congruence|]. split; [congruence|]. split; [congruence|].
  intros a. specialize (A4 a). specialize (B4 a). destruct (heap st1 a), (heap st2 a), (heap st3 a); try contradiction; auto.
  destruct A4 as (a1 & a2 & a3 & a4 & a5 & a6), B4 as (b1 & b2 & b3 & b4 & b5 & b6). repeat (split; [congruence|]). rewrite a2 in b6. eauto.
Qed.

Lemma similar_write st st' a t o : heap st a = Some t -> write st a (reframe o t) = Ok st' -> similar Q st st'.
Proof.
  intros E Ew. unfold write, deref in Ew. rewrite E in Ew. cbn [bind] in Ew. inversion Ew; subst. repeat (split; auto). cbn [heap].
  intros b. unfold heap_upd. destruct (Nat.eqb_spec b a) as [->|]; [rewrite E|destruct (heap st b); auto]; repeat (split; auto). apply Qframe.
Qed.

Lemma similar_each o l : forall st st', for_each (apply_to (fun _ => reframe o)) l st = Ok st' -> similar Q st st'.
Proof.
  induction l as [|a l IH]; intros st st' E; cbn [for_each] in E; [inversion E; apply similar_refl|].
  apply bind_ok in E. destruct E as (st1 & E1 & E). apply similar_trans with st1; auto.
  unfold apply_to in E1. apply bind_ok in E1. destruct E1 as (t & Et & E1). unfold deref in Et.
  destruct (heap st a) as [u|] eqn:Eh; inversion Et; subst. eapply similar_write; eauto.
Qed.

Lemma score_similar g fuel truth origin c p st v st' : score g fuel truth origin c p st = Ok (v, st') -> similar Q st st'.
Proof.
  intros E. unfold Eval.score in E. apply bind_ok in E. destruct E as (o & _ & E). unfold evaluate in E.
  apply bind_ok in E. destruct E as (ts & _ & E). apply bind_ok in E. destruct E as (st1 & E1 & E).
  apply bind_ok in E. destruct E as (w & _ & E). inversion E; subst. eapply similar_each; eauto.
Qed.

Lemma phd_each nx ny corner grid samples o l : forall m st m' st',
  for_each (phd_target local global nx ny corner grid samples o) l (m, st) = Ok (m', st') -> similar Q st st'.
Proof.
  induction l as [|(k, a) l IH]; intros m st m' st' E; cbn [for_each] in E; [inversion E; apply similar_refl|].
  apply bind_ok in E. destruct E as ((m1, st1) & E1 & E). apply similar_trans with st1; eauto.
  unfold phd_target in E1. apply bind_ok in E1. destruct E1 as (t & Et & E1). cbn [snd] in *. unfold deref in Et.
  destruct (heap st a) as [u|] eqn:Eh; inversion Et; subst. apply bind_ok in E1. destruct E1 as (st2 & Ew & E1).
  apply bind_ok in E1. destruct E1 as (m2 & _ & E1). inversion E1; subst. eapply similar_write; eauto.
Qed.

Lemma phd_similar fov o nebox nx ny samples st m st' : pos_phd fov o nebox nx ny samples st = Ok (m, st') -> similar Q st st'.
Proof.
  intros E. unfold Eval.pos_phd in E. apply bind_ok in E. destruct E as (l & _ & E). apply bind_ok in E. destruct E as ((m1, st1) & E1 & E).
  inversion E; subst. eapply phd_each; eauto.
Qed.
End Similar.

Variable box : P -> rect (ext R).

(** Densities with the property [I], which evaluations keep along with the box:
    the index stays right. *)
Definition framed (I : ext R -> P -> Prop) (x : ext R) (p p' : P) : Prop := I x p -> I x p' /\ box p' = box p.

Lemma similar_consistent I st st' : similar (framed I) st st' -> consistent box st -> all_targets I st -> consistent box st' /\ all_targets I st'.
Proof.
  intros (E1 & E2 & E3 & H) ((Hn & Hl) & Hi & Hb) HI.
  assert (HI' : forall a t, heap st a = Some t -> I (tg_r t) (tg_pdf t)).
  { intros a t E. apply (HI (a, t)). unfold live. apply in_flat_map. exists a. rewrite E. split; [apply Hl; congruence|simpl; auto]. }
  split; [split; [|split]|].
  - split; [rewrite E1; auto|]. intros a. rewrite E1, <- Hl. specialize (H a). destruct (heap st a), (heap st' a); try contradiction; split; congruence.
  - unfold indexed in *. rewrite E2. replace (map _ (live st')) with (map (fun x => (box (tg_pdf (snd x)), fst x)) (live st)); auto.
    unfold live. rewrite E1. clear -H HI'. induction (targets st) as [|a l IH]; auto. cbn [flat_map]. rewrite !map_app, IH. f_equal.
    specialize (H a). destruct (heap st a) as [t|] eqn:Et, (heap st' a) as [t'|]; try contradiction; auto.
    destruct H as (_ & _ & _ & _ & _ & H). cbn. rewrite (proj2 (H (HI' a t Et))). reflexivity.
  - unfold tree_ok. rewrite E2. auto.
  - intros (a, t') Hx. unfold live in Hx. apply in_flat_map in Hx. destruct Hx as (b & _ & Hx). specialize (H b).
    destruct (heap st b) as [t|] eqn:Et, (heap st' b) as [u|]; try contradiction. destruct Hx as [Hx|[]]. injection Hx as -> ->. cbn [snd].
    destruct H as (_ & -> & _ & _ & _ & H). apply H. apply (HI' a t Et).
Qed.

(** Same densities: nothing changes. *)
Lemma similar_eq st st' : similar (fun _ p p' => p' = p) st st' ->
  targets st' = targets st /\ tree st' = tree st /\ next_id st' = next_id st /\ (forall a, heap st' a = heap st a) /\ live st' = live st.
Proof.
  intros (E1 & E2 & E3 & H).
  assert (Hh : forall a, heap st' a = heap st a).
  { intros a. specialize (H a). destruct (heap st a) as [[]|], (heap st' a) as [[]|]; try contradiction; auto.
    destruct H as (h1 & h2 & h3 & h4 & h5 & h6). cbn in *. subst. reflexivity. }
  repeat (split; auto). unfold live. rewrite E1. apply flat_map_ext_in'. intros a _. rewrite Hh. reflexivity.
Qed.

Variable unit : R.
Hypothesis unit_pos : (0 < unit)%R.
Hypothesis box_real : forall p, real_box (box p).
Variable covnorm : P -> ext R.
Variables r_lim cov_lim rB_max : R.
Hypothesis r_lim_pos : (0 < r_lim)%R.
Hypothesis rB_max_ok : (0 <= rB_max <= 1)%R.
Notation ecall := (ecall (P := P) (Rep := Rep)).
Notation ecall_step := (ecall_step pos mean local global ne (volR unit) box covnorm r_lim cov_lim rB_max).
Notation ecalls := (ecalls pos mean local global ne (volR unit) box covnorm r_lim cov_lim rB_max).

Section Inv.
Variable I : ext R -> P -> Prop.
Hypothesis Iframe : forall o x p, I x p -> I x (global (local o p)) /\ box (global (local o p)) = box p.
Definition fine_ecall (c : ecall) : Prop := match c with Call c => sane_call c /\ keeps covnorm r_lim cov_lim I c | _ => True end.

Lemma framed_refl x p : framed I x p p. Proof. split; auto. Qed.
Lemma framed_trans x p q r : framed I x p q -> framed I x q r -> framed I x p r.
Proof. intros H1 H2 Hp. destruct (H1 Hp) as (Hq & E1). destruct (H2 Hq) as (Hr & E2). split; auto. congruence. Qed.

Lemma ecall_keeps st (c : ecall) st' : ecall_step st c (Ok st') -> consistent box st -> all_targets I st -> fine_ecall c ->
  consistent box st' /\ all_targets I st'.
Proof.
  intros Hstep Hc HI Hf. inversion Hstep as [c' o' Hcall| fov o' nebox nx ny samples E1 E|g fuel truth origin cc p E1 E]; subst.
  - destruct Hf as (Hs & Hk). split.
    + destruct (call_ok unit unit_pos box box_real covnorm r_lim cov_lim rB_max _ _ _ Hc Hs Hcall) as (g & new & He). apply (e_ok _ _ _ _ _ He).
    + apply (calls_inv unit unit_pos box box_real covnorm r_lim cov_lim rB_max I st [c'] (Ok st') r_lim_pos rB_max_ok); auto.
      eapply cl_cons; [exact Hcall|apply cl_nil].
  - unfold after in E. apply bind_ok in E. destruct E as ((m, st2) & E & E2). inversion E2; subst.
    eapply similar_consistent; eauto. eapply (phd_similar (framed I)); eauto using framed_refl, framed_trans.
  - unfold after in E. apply bind_ok in E. destruct E as ((m, st2) & E & E2). inversion E2; subst.
    eapply similar_consistent; eauto. eapply (score_similar (framed I)); eauto using framed_refl, framed_trans.
Qed.

Lemma ecalls_keep st (cs : list ecall) o : ecalls st cs o -> consistent box st -> all_targets I st -> Forall fine_ecall cs ->
  forall st', o = Ok st' -> consistent box st' /\ all_targets I st'.
Proof.
  intros H. induction H as [st|st c cs st1 o Hstep H IH|st c cs Hstep|st c cs Hstep]; intros Hc HI Hs st' Eo; try discriminate.
  - inversion Eo; subst. auto.
  - inversion Hs as [|? ? Hs1 Hs2]; subst. destruct (ecall_keeps _ _ _ Hstep Hc HI Hs1). apply IH; auto.
Qed.

Lemma ecalls_defined (cs : list ecall) st : ecalls new_tracker cs (Ok st) -> Forall fine_ecall cs ->
  consistent box st /\ all_targets I st /\
  forall (c : call (P := P) (Rep := Rep)) o, sane_call c -> call_step (volR unit) box covnorm r_lim cov_lim rB_max st c o -> o <> UB.
Proof.
  intros H Hs. destruct (ecalls_keep _ _ _ H (consistent_new box) ltac:(intros x []) Hs st eq_refl) as (Hc & HI).
  split; auto. split; auto. intros c o Hsc Hcall ->. exact (call_ok unit unit_pos box box_real covnorm r_lim cov_lim rB_max _ _ _ Hc Hsc Hcall).
Qed.
End Inv.
End Main.

(** ** Entries that can no longer be removed *)
Section Stuck.
Context {P Rep : Type}.
Variable box : P -> rect (ext R).
Variable covnorm : P -> ext R.
Variables r_lim cov_lim rB_max : R.
Variable vol : rect (ext R) -> ext R.
Notation target := (target (P := P)).
Notation tracker := (tracker (P := P)).
Notation correction := (correction (P := P) (Rep := Rep)).
Notation bal := (balanced (le extR) real_box).

Lemma leaf_entries (n : node (ext R) nat) : bal n -> fst n = 0 -> length (entries n) <= 8.
Proof.
  intros (_ & H8 & _) E. unfold entries. rewrite E. apply Nat.le_trans with (length (snd n)); auto. clear.
  induction (snd n) as [|b bs IH]; auto. cbn [flat_map length]. rewrite app_length.
  assert (length (RTreeSpec.below 0 b) <= 1) by (cbn [RTreeSpec.below]; destruct (snd b); cbn; lia). lia.
Qed.

Lemma break_none {S} (body : nat -> option S -> res (option S * bool)) n : forall a,
  (forall i, a <= i < a + n -> body i None = Ok (None, false)) -> for_break n a body None = Ok None.
Proof.
  induction n as [|n IH]; intros a H; cbn [for_break]; auto. rewrite H by lia. cbn [bind snd fst]. apply IH. intros i Hi. apply H. lia.
Qed.

(** The index is deeper than one node, all boxes in it are [B], and the box used
    for the removal does not meet [B]: nothing is removed. *)
Lemma remove_stuck (n : node (ext R) nat) B q d : bal n -> 8 < length (entries n) ->
  (forall e, In e (entries n) -> fst e = B) -> ~ meets q B ->
  RTree.remove extR Nat.eqb vol q d n = Ok n.
Proof.
  intros Hb Hl HB Hq. destruct n as (lv, bs). destruct lv as [|lv]; [pose proof (leaf_entries _ Hb eq_refl); lia|].
  unfold remove. cbn [remove_rec]. change (0 <? S lv) with true. cbn iota.
  rewrite break_none; [reflexivity|]. intros i Hi. assert (Hi' : i < length bs) by exact (proj2 Hi).
  destruct (nth_error bs i) as [b|] eqn:Eb; [|apply nth_error_None in Eb; lia]. unfold get. rewrite Eb. cbn [bind].
  assert (Hin : In b bs) by (eapply nth_error_In; eauto). destruct Hb as (Hf & _). rewrite Forall_forall in Hf. specialize (Hf b Hin).
  cbn [fst balanced_branch] in Hf. destruct Hf as (cs & Es & H4 & (Hc & (b1 & I1 & M1) & (b2 & I2 & M2) & (b3 & I3 & M3) & (b4 & I4 & M4)) & _ & _).
  assert (Hsub : forall r, In r (map fst (flat_map (RTreeSpec.below lv) cs)) -> r = B).
  { intros r Hr. apply in_map_iff in Hr. destruct Hr as (e & <- & He). apply HB. unfold entries. cbn [fst snd]. apply in_flat_map.
    exists b. split; auto. cbn [RTreeSpec.below]. rewrite Es. exact He. }
  assert (EB : fst b = B).
  { apply Hsub in I1, I2, I3, I4. subst. destruct (fst b), B. cbn in *. congruence. }
  rewrite EB. destruct (overlap extR q B) eqn:Eo; auto. apply overlap_touches in Eo. contradiction.
Qed.

(** Clusters of one such target each: the targets are deleted and stay in the
    index. *)
Notation par_run := (par_run vol box covnorm r_lim cov_lim).

Definition lone (c : cluster) : Prop := cl_reports c = [] /\ exists a, cl_targets c = [a].
Definition the (c : cluster) : addr := hd 0 (cl_targets c).
Definition doomed (s : correction) (tr : node (ext R) addr) (a : addr) (o : option target) : Prop :=
  exists t t', o = Some t /\ RTree.remove extR Nat.eqb vol (box (tg_pdf t)) a tr = Ok tr /\
    s_update s [] [t] = Some ([t'], []) /\ viable covnorm r_lim cov_lim t' = false.

Lemma run_doomed s cls tr scan : NoDup (map the cls) -> Forall lone cls ->
  forall m k, k + m = length cls ->
  forall st, tree st = tr -> (forall j c, k <= j -> nth_error cls j = Some c -> doomed s tr (the c) (heap st (the c))) ->
  exists st', par_run s cls (mkConf st scan (repeat 3 k ++ repeat 0 m)) (Ok (mkConf st' scan (repeat 3 (length cls)))) /\ tree st' = tr /\
    (forall j c, k <= j -> nth_error cls j = Some c -> heap st' (the c) = None) /\
    (forall a, heap st a = None -> heap st' a = None).
Proof.
  intros Hnd Hlone. induction m as [|m IH]; intros k Hk st Etr Hdoom.
  - exists st. rewrite Nat.add_0_r in Hk. subst k. cbn [repeat]. rewrite app_nil_r. split; [|split; auto; split; auto].
    + apply pr_done. intros j Hj. unfold ready in Hj. cbn [c_pcs] in Hj. destruct (Nat.lt_ge_cases j (length cls)) as [Hl|Hl].
      * rewrite (nth_indep _ 3 0) in Hj by (rewrite repeat_length; auto).
        assert (nth j (repeat 3 (length cls)) 0 = 3) by (apply (repeat_spec (length cls) 3), nth_In; rewrite repeat_length; auto). lia.
      * rewrite nth_overflow in Hj by (rewrite repeat_length; auto). lia.
    + intros j c Hj Ec. assert (nth_error cls j <> None) by congruence. apply nth_error_Some in H. lia.
  - assert (Hkl : k < length cls) by lia. destruct (nth_error cls k) as [c|] eqn:Ec; [|apply nth_error_None in Ec; lia].
    destruct (Hdoom k c (Nat.le_refl _) Ec) as (t & t' & Et & Erem & Eup & Ev).
    assert (Hc : lone c) by (rewrite Forall_forall in Hlone; apply Hlone; eapply nth_error_In; eauto).
    destruct Hc as (Er & a & Ea). assert (Eta : the c = a) by (unfold the; rewrite Ea; reflexivity). rewrite Eta in *.
    set (pc n := repeat 3 k ++ n :: repeat 0 m).
    assert (Epc : forall n, get (pc n) k = Ok n).
    { intros n. unfold pc, get. rewrite nth_error_app2 by (rewrite repeat_length; auto). rewrite repeat_length, Nat.sub_diag. reflexivity. }
    assert (Erd : forall n (cf : conf (P := P) (Rep := Rep)), c_pcs cf = pc n -> n < 3 -> ready cf k).
    { intros n cf E Hn. unfold ready. rewrite E. unfold pc. rewrite app_nth2 by (rewrite repeat_length; auto). rewrite repeat_length, Nat.sub_diag. exact Hn. }
    assert (Eup' : forall n n', Res.upd (pc n) k n' = pc n').
    { intros n n'. unfold pc. clear. induction k as [|k IH]; cbn; auto. f_equal. exact IH. }
    set (st1 := with_tree st tr). assert (Est1 : heap st1 a = Some t) by (cbn; exact Et).
    set (st2 := mkTracker (heap_upd (heap st1) a (Some t')) (targets st1) (tree st1) (next_id st1)).
    set (st3 := mkTracker (heap_upd (heap st2) a None) (filter (fun b => negb (b =? a)) (targets st2)) (tree st2) (next_id st2)).
    assert (X1 : exec vol box covnorm r_lim cov_lim s cls k (mkConf st scan (pc 0)) = Ok (mkConf st1 scan (pc 1))).
    { unfold exec, get at 1. rewrite Ec. cbn [bind c_pcs]. rewrite Epc. cbn [bind c_st c_scan section]. unfold section1. rewrite Ea. cbn [for_each].
      unfold index_remove, deref. rewrite Et. cbn [bind]. rewrite Etr, Erem. cbn [bind]. rewrite Eup'. reflexivity. }
    assert (X2 : exec vol box covnorm r_lim cov_lim s cls k (mkConf st1 scan (pc 1)) = Ok (mkConf st2 scan (pc 2))).
    { unfold exec, get at 1. rewrite Ec. cbn [bind c_pcs]. rewrite Epc. cbn [bind c_st c_scan section]. unfold section2. rewrite Ea, Er. cbn [map_res].
      unfold deref at 1. rewrite Est1. cbn [bind map]. rewrite Eup. cbn [combine for_each]. unfold store_target, write, deref. cbn [fst snd].
      rewrite Est1. cbn [bind]. rewrite Eup'. reflexivity. }
    assert (X3 : exec vol box covnorm r_lim cov_lim s cls k (mkConf st2 scan (pc 2)) = Ok (mkConf st3 scan (pc 3))).
    { unfold exec, get at 1. rewrite Ec. cbn [bind c_pcs]. rewrite Epc. cbn [bind c_st c_scan section]. unfold section3. rewrite Ea. cbn [for_each].
      assert (E2 : heap st2 a = Some t') by (cbn; unfold heap_upd; rewrite Nat.eqb_refl; reflexivity).
      unfold restore, erase, deref. rewrite E2. cbn [bind]. rewrite Ev. cbn [bind]. rewrite Eup'. reflexivity. }
    assert (Hh3 : forall b, heap st3 b = if b =? a then None else heap st b).
    { intros b. cbn. unfold heap_upd. destruct (b =? a); auto. }
    destruct (IH (S k) ltac:(lia) st3 eq_refl) as (st' & Hrun & Etr' & Hdead & Hkeep).
    { intros j c' Hj Ec'. rewrite Hh3. destruct (Nat.eqb_spec (the c') a) as [E|E]; [|apply (Hdoom j); auto; lia].
      exfalso. assert (j = k); [|lia].
      rewrite NoDup_nth_error in Hnd. apply Hnd; [rewrite map_length; apply nth_error_Some; congruence|].
      rewrite !nth_error_map, Ec, Ec'. cbn. congruence. }
    exists st'. split; [|split; auto; split].
    + eapply pr_step; [apply (Erd 0); [reflexivity|lia]|exact X1|].
      eapply pr_step; [apply (Erd 1); [reflexivity|lia]|exact X2|].
      eapply pr_step; [apply (Erd 2); [reflexivity|lia]|exact X3|].
      replace (pc 3) with (repeat 3 (S k) ++ repeat 0 m); [exact Hrun|]. unfold pc.
      change (3 :: repeat 0 m) with ([3] ++ repeat 0 m). rewrite app_assoc. f_equal. clear. induction k; cbn in *; congruence.
    + intros j c' Hj Ec'. destruct (Nat.eq_dec j k) as [->|Hne]; [|apply (Hdead j); auto; lia].
      rewrite Ec in Ec'. inversion Ec'; subst c'. rewrite Eta. apply Hkeep. rewrite Hh3, Nat.eqb_refl. reflexivity.
    + intros b Hb. apply Hkeep. rewrite Hh3. destruct (b =? a); auto.
Qed.

(** Clustering without reports. *)
Definition recid (cid : nat) (t : target) : target := mkTarget (tg_id t) (tg_r t) (tg_pdf t) cid (tg_new t) (tg_t0 t).

Lemma lone_clusters : forall (l : list addr) (st : tracker) cls, NoDup l -> (forall a, In a l -> heap st a <> None) ->
  exists st', for_each lone_cluster l (st, cls) =
      Ok (st', cls ++ map (fun ka => mkCluster (fst ka) [] [snd ka]) (combine (seq (length cls) (length l)) l)) /\
    tree st' = tree st /\ targets st' = targets st /\
    (forall a, ~ In a l -> heap st' a = heap st a) /\
    (forall a t, In a l -> heap st a = Some t -> exists cid, heap st' a = Some (recid cid t)).
Proof.
  induction l as [|a l IH]; intros st cls Hn Hl; cbn [for_each].
  - exists st. cbn. rewrite app_nil_r. split; [auto|]. split; auto. split; auto. split; auto. intros a t [].
  - inversion Hn as [|? ? Hna Hn']; subst. destruct (heap st a) as [t|] eqn:Et; [|destruct (Hl a ltac:(simpl; auto) Et)].
    unfold lone_cluster at 1, set_cid, apply_to, write, deref. rewrite Et. cbn [bind].
    match goal with |- context [for_each _ _ (?s, _)] => set (st1 := s) end.
    assert (Hh1 : forall b, heap st1 b = if b =? a then Some (recid (length cls) t) else heap st b) by (intros b; cbn; unfold heap_upd; reflexivity).
    destruct (IH st1 (cls ++ [mkCluster (length cls) [] [a]]) Hn') as (st' & E & E1 & E2 & Hno & Hin).
    { intros b Hb. rewrite Hh1. destruct (b =? a); [congruence|apply Hl; simpl; auto]. }
    exists st'. split; [|split; [exact E1|split; [exact E2|split]]].
    + rewrite E. rewrite app_length. cbn [length seq combine map fst snd]. rewrite <- app_assoc. cbn [app]. rewrite Nat.add_1_r. reflexivity.
    + intros b Hb. rewrite Hno by (intros H; apply Hb; simpl; auto). rewrite Hh1. destruct (Nat.eqb_spec b a) as [->|]; auto. exfalso. apply Hb. simpl; auto.
    + intros b u Hb Eu. destruct (Nat.eq_dec b a) as [->|Hne].
      * rewrite Hno by auto. rewrite Hh1, Nat.eqb_refl. exists (length cls). congruence.
      * destruct Hb as [E'|Hb]; [congruence|]. apply (Hin b u); auto. rewrite Hh1. destruct (Nat.eqb_spec b a); [contradiction|auto].
Qed.

(** A correction with an empty scan in which every target found is doomed. *)
Lemma correct_doomed (s : correction) (st : tracker) l tr :
  s_scan s = [] -> (0 < r_lim)%R -> (forall p, s_sees s p = true) -> query (s_fov s) st = Ok l -> NoDup l -> tree st = tr ->
  (forall a, In a l -> exists t, heap st a = Some t /\ forall cid, doomed s tr a (Some (recid cid t))) ->
  exists st', correct_call vol box covnorm r_lim cov_lim rB_max s st (Ok st') /\ tree st' = tr /\ forall a, In a l -> heap st' a = None.
Proof.
  intros Es Hr Hsee Eq Hn Etr Hd.
  assert (Hview : in_view s st = Ok l).
  { unfold in_view. rewrite Eq. cbn [bind].
    assert (Hm : exists ts, map_res (deref st) l = Ok ts /\ length ts = length l).
    { clear -Hd. induction l as [|a l IH]; [exists []; auto|]. destruct (Hd a ltac:(simpl; auto)) as (t & Et & _).
      destruct IH as (ts & E & L); [intros b Hb; apply Hd; simpl; auto|]. exists (t :: ts). cbn [map_res]. unfold deref at 1. rewrite Et. cbn [bind].
      rewrite E. cbn. auto. }
    destruct Hm as (ts & E & L). rewrite E. cbn [bind]. f_equal. clear -Hsee L. revert ts L.
    induction l as [|a l IH]; intros [|t ts] L; try discriminate; auto. cbn [combine filter snd]. rewrite Hsee. cbn [map fst]. f_equal. apply IH. auto. }
  destruct (lone_clusters l st [] Hn) as (st1 & E1 & Et1 & _ & _ & Hin). { intros a Ha. destruct (Hd a Ha) as (t & Et & _). congruence. }
  cbn [length app] in E1. set (cls := map (fun ka => mkCluster (fst ka) [] [snd ka]) (combine (seq 0 (length l)) l)) in *.
  assert (Hthe : map the cls = l).
  { unfold cls. rewrite map_map. unfold the. cbn [cl_targets hd]. clear. generalize 0. induction l as [|a l IH]; intros n; cbn; auto. f_equal. apply IH. }
  assert (Emk : make_clusters (s_rbox s) l st (start_scan s) = Ok (st1, [], cls)).
  { unfold make_clusters, start_scan. rewrite Es. cbn [map map_res bind].
    replace (components (cc_build (cc_calls []))) with (Ok (@nil (list nat))) by reflexivity. cbn [bind for_each]. rewrite E1. reflexivity. }
  assert (Hlone : Forall lone cls).
  { apply Forall_forall. intros c Hc. unfold cls in Hc. apply in_map_iff in Hc. destruct Hc as ((k, a) & <- & _). split; auto. exists a. auto. }
  destruct (run_doomed s cls tr [] ltac:(rewrite Hthe; auto) Hlone (length cls) 0 eq_refl st1 ltac:(congruence)) as (st' & Hrun & Etr' & Hdead & _).
  { intros j c _ Ec. assert (Ha : In (the c) l) by (rewrite <- Hthe; apply in_map; eapply nth_error_In; eauto).
    destruct (Hd _ Ha) as (t & Et & Hdt). destruct (Hin _ t Ha Et) as (cid & ->). apply Hdt. }
  exists st'. split; [|split; auto].
  - eapply cc_go; [exact Hview|]. eapply cr_all; [exact Emk|exact Hrun|]. apply birth_few. cbn [c_scan]. unfold rB_sum. cbn [fold_left].
    rewrite le_FF. destruct (Rleb_spec r_lim 0); [lra|reflexivity].
  - intros a Ha. rewrite <- Hthe in Ha. apply in_map_iff in Ha. destruct Ha as (c & <- & Hc). apply In_nth_error in Hc. destruct Hc as (j & Ej).
    apply (Hdead j); auto. lia.
Qed.
End Stuck.

(** ** Areas without extent *)
Section Degenerate.
Context {P : Type}.
Variable local : point -> P -> P.
Variable global : P -> P.
Variable box : P -> rect (ext R).

Lemma no_cell d x y : xdiv d (xdiv (nsub extR (Fin x) (Fin x)) (Fin y)) = NaN \/ xdiv d (xdiv (nsub extR (Fin x) (Fin x)) (Fin y)) = PInf \/
  xdiv d (xdiv (nsub extR (Fin x) (Fin x)) (Fin y)) = NInf.
Proof.
  rewrite sub_FF. replace (x - x)%R with 0%R by ring. unfold xdiv at 2 4 6. unfold ediv.
  destruct (Reqb_spec y 0) as [->|Hy].
  - destruct (Reqb_spec 0 0); [|contradiction]. left. destruct d; reflexivity.
  - replace (0 / y)%R with 0%R by (field; auto). destruct d as [d| | |]; cbn; auto.
    + unfold ediv. destruct (Reqb_spec 0 0); [|contradiction]. destruct (Reqb_spec d 0); auto. destruct (Rltb_spec d 0); auto.
    + destruct (Rltb_spec 0 0); auto.
    + destruct (Rltb_spec 0 0); auto.
Qed.

Lemma floor_bad v : v = NaN \/ v = PInf \/ v = NInf -> floor_int v = UB.
Proof. intros [->|[->| ->]]; reflexivity. Qed.

Lemma first_bad {S} n a (body : nat -> S -> res S) s : 0 < n -> body a s = UB -> for_loop n a body s = UB.
Proof. intros Hn E. destruct n as [|n]; [lia|]. cbn [for_loop]. rewrite E. reflexivity. Qed.

Lemma phd_degenerate (st : tracker (P := P)) fov o x0 x1 y0 y1 nx ny samples x : consistent box st -> real_corners fov ->
  In x (live st) -> meets fov (box (tg_pdf (snd x))) -> x0 = x1 \/ y0 = y1 ->
  pos_phd local global fov o (mkRect (Fin x0) (Fin y0) (Fin x1) (Fin y1)) nx ny samples st = UB.
Proof.
  intros Hc Hq Hx Hm Hd. destruct (query_ok box st fov Hc Hq) as (l & El & _ & Hl).
  unfold pos_phd. rewrite El. cbn [bind]. cbv zeta. cbn [RTree.min0 RTree.min1 RTree.max0 RTree.max1].
  assert (Hin : In (fst x) l).
  { apply Hl. unfold live in Hx. apply in_flat_map in Hx. destruct Hx as (b & _ & Hb). destruct (heap st b) as [u|] eqn:Eb; [|contradiction].
    destruct Hb as [E|[]]. exists u. rewrite <- E in Hm |- *. auto. }
  destruct l as [|a l]; [contradiction|]. destruct (proj1 (Hl a) (or_introl eq_refl)) as (t & Et & _).
  cbn [length seq combine for_each]. unfold phd_target at 1. unfold deref at 1. cbn [snd]. rewrite Et. cbn [bind]. unfold write, deref. cbn [snd]. rewrite Et. cbn [bind].
  rewrite first_bad; [reflexivity|lia|]. unfold add_sample, cell. cbn [fst snd].
  destruct Hd as [<-|<-].
  - rewrite (floor_bad (xdiv (nsub extR (fst (samples 0 0)) (Fin x0)) _)) by apply no_cell. reflexivity.
  - destruct (floor_int _) as [z| |] eqn:Ez; [|reflexivity|exfalso; unfold floor_int in Ez; destruct (xdiv _ _); try discriminate; destruct (andb _ _); discriminate].
    cbn [bind]. rewrite (floor_bad (xdiv (nsub extR (snd (samples 0 0)) (Fin y0)) _)) by apply no_cell. reflexivity.
Qed.
End Degenerate.
