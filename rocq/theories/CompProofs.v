(** A property of Gaussians that every filter step preserves holds of every
    component of every target after any history. *)
From Coq Require Import List Arith NArith Bool Reals Lra Lia Permutation.
Import ListNotations.
From Verif Require Import Res Scalar LapBase RTree RTreeSpec RTreeInst Murty MurtyMain Cluster ClusterSpec ClusterMain
  GM GMSpec GMProofs Tracker TrackerSpec TrackerProofs TrackerCluster TrackerMain TrackerHist TrackerOps TrackerOpsSpec TrackerOpsProofs TrackerOpsMain
  StepSpec StepProofs StepMain CompSpec.
Local Open Scope nat_scope.

Section Calls.
Context {P Rep : Type}.
Variables (vol : rect (ext R) -> ext R) (box : P -> rect (ext R)) (covnorm : P -> ext R) (r_lim cov_lim rB_max : R).

Lemma calls_snoc cs : forall st (c : call (P := P) (Rep := Rep)) st',
  calls vol box covnorm r_lim cov_lim rB_max st (cs ++ [c]) (Ok st') ->
  exists st1, calls vol box covnorm r_lim cov_lim rB_max st cs (Ok st1) /\
    call_step vol box covnorm r_lim cov_lim rB_max st1 c (Ok st').
Proof.
  induction cs as [|b cs IH]; intros st c st' H; simpl in H; inversion H; subst.
  - exists st. split; [constructor|]. match goal with H : calls _ _ _ _ _ _ _ [] _ |- _ => inversion H; subst end. auto.
  - match goal with H : calls _ _ _ _ _ _ _ (cs ++ _) _ |- _ => destruct (IH _ _ _ H) as (s1 & H1 & H2) end.
    exists s1. split; auto. econstructor; eauto.
Qed.
End Calls.

Section Comp.
Context {G BB Rep : Type}.
Variable op : ops G BB Rep.
Variable pm : params.
Notation comp := (comp (G := G)).
Notation pdf := (pdf (G := G) (BB := BB)).
Notation target := (target (P := pdf)).
Variable allowed : model -> Prop.
Variable valid : Rep -> Prop.
Variable I : G -> Prop.
Hypothesis HI : preserved allowed valid op I.

Definition has (c : list comp) : Prop := forall g, In g c -> I (snd g).

Lemma has_map (f : G -> G) (c c' : list comp) : (forall g, I g -> I (f g)) -> carried f c c' -> has c -> has c'.
Proof.
  intros Hf Hc Hh g Hg. destruct (Forall2_in_r _ _ _ _ Hc Hg) as (g0 & H0 & _ & ->). apply Hf, Hh. exact H0.
Qed.

Lemma has_snd (c c' : list comp) : map snd c' = map snd c -> has c -> has c'.
Proof.
  intros E Hh g Hg. apply (in_map snd) in Hg. rewrite E in Hg. apply in_map_iff in Hg. destruct Hg as (g0 & <- & H0). apply Hh, H0.
Qed.

Lemma has_normalised (c c' : list comp) eta : normalised c c' eta -> has c -> has c'.
Proof. intros [(_ & _ & E & _)|(_ & -> & _)] Hh; [eapply has_snd; eauto|intros g []]. Qed.

Lemma has_weighed (s : sensor (BB := BB)) id j z : valid z -> forall c i, has c -> has (weighed op s id j z i c).
Proof.
  intros Hz. induction c as [|g c IH]; intros i Hh; [intros ? []|]. intros x [<-|Hx].
  - cbn [snd]. apply (v_gain _ _ _ _ HI); auto. apply Hh. left. auto.
  - eapply IH; eauto. intros y Hy. apply Hh. right. auto.
Qed.

Lemma has_mixed w pdfs c' : (forall p, In p pdfs -> has p) -> mixed pm w pdfs c' -> has c'.
Proof.
  intros Hp (c & rest & eta & Hperm & _ & _ & _ & _ & Hn). eapply has_normalised; [exact Hn|]. intros g Hg.
  assert (Hin : In g (scaled w pdfs)) by (eapply Permutation_in; [exact Hperm|]; apply in_or_app; auto).
  unfold scaled in Hin. apply in_flat_map in Hin. destruct Hin as ((x & p) & Hxp & Hm). apply in_map_iff in Hm.
  destruct Hm as (g0 & <- & H0). cbn [fst snd] in *. apply (Hp p); auto. eapply in_combine_r; eauto.
Qed.

Lemma forall2_pair {A B} (Q : A -> B -> Prop) l l' : Forall2 Q l l' ->
  forall i x y, nth_error l i = Some x -> nth_error l' i = Some y -> Q x y.
Proof. induction 1; intros [|i] a b Ea Eb; simpl in *; try discriminate; [congruence|eauto]. Qed.

Lemma cluster_has (s : sensor (BB := BB)) rs (ts ts' : list target) rs' : (forall z, In z rs -> valid z) ->
  (forall t, In t ts -> has (p_c (tg_pdf t))) -> cluster_result op pm s rs ts ts' rs' ->
  (forall t, In t ts' -> has (p_c (tg_pdf t))) /\ (forall dx, In dx rs' -> valid (fst dx)).
Proof.
  intros Hrs Hts (frames & tins & css & ds & Hf & L1 & L2 & L3 & _ & Ht & Lr & Hr). split.
  - intros t' Hin. apply In_nth_error in Hin. destruct Hin as (i & Ei).
    assert (Hi : i < length ts) by (rewrite <- L3; apply nth_error_Some; congruence).
    destruct (nth_error ts i) as [t|] eqn:Et; [|apply nth_error_None in Et; lia].
    assert (Lf : length frames = length ts) by (symmetry; apply (Forall2_nth _ _ _ Hf)).
    destruct (nth_error frames i) as [c|] eqn:Ec; [|apply nth_error_None in Ec; lia].
    destruct (Ht i t c Et Ec) as (tin & cs & t2 & c' & E1 & E2 & E3 & Hw & _ & _ & _ & _ & Hg & _ & Ha & Hb).
    assert (t2 = t') by congruence. subst t2.
    assert (Hc : has c).
    { assert (X : carried (g_local op (rsum fst (map (r_pos op) rs ++ map (fun t => position op (p_c (tg_pdf t))) ts) / INR (length (map (r_pos op) rs ++ map (fun t => position op (p_c (tg_pdf t))) ts)),
         rsum snd (map (r_pos op) rs ++ map (fun t => position op (p_c (tg_pdf t))) ts) / INR (length (map (r_pos op) rs ++ map (fun t => position op (p_c (tg_pdf t))) ts)))%R) (p_c (tg_pdf t)) c).
      { exact (forall2_pair _ _ _ Hf i t c Et Ec). }
      eapply has_map; [|exact X|]; [apply (v_local _ _ _ _ HI)|]. apply Hts. eapply nth_error_In; eauto. }
    assert (Hc' : has c').
    { destruct (Rlt_le_dec (sum_over (marginal (length rs) (weight (length rs) tins) ds i) (seq 0 (length rs + 1))) (1 / 1000000)) as [Hlt|Hle].
      - destruct (Ha Hlt) as (_ & ->). exact Hc.
      - destruct (Hb Hle) as (_ & Hm). eapply has_mixed; [|exact Hm]. intros p Hp. apply in_app_or in Hp. destruct Hp as [Hp|[<-|[]]]; auto.
        destruct Hw as (_ & W1 & _ & W2 & _). apply In_nth_error in Hp. destruct Hp as (j & Ej).
        assert (Hj : j < length cs) by (apply nth_error_Some; congruence).
        rewrite W1 in Hj.
        match type of W2 with forall j z, nth_error ?l j = _ -> _ => destruct (nth_error l j) as [z|] eqn:Ez; [|apply nth_error_None in Ez; lia] end.
        specialize (W2 j z Ez). rewrite (nth_error_nth cs j [] Ej) in W2. eapply has_normalised; [exact W2|]. apply has_weighed; auto.
        apply nth_error_In in Ez. apply in_map_iff in Ez. destruct Ez as (z0 & <- & Hz0). apply (v_rlocal _ _ _ _ HI). auto. }
    eapply has_map; [|exact Hg|exact Hc']. apply (v_global _ _ _ _ HI).
  - intros dx Hdx. apply In_nth_error in Hdx. destruct Hdx as (j & Ej).
    assert (Hj : j < length rs) by (rewrite <- Lr; apply nth_error_Some; congruence).
    destruct (nth_error rs j) as [z|] eqn:Ez; [|apply nth_error_None in Ez; lia].
    rewrite (Hr j z Ez) in Ej. inversion Ej; subst dx. cbn [fst]. apply (v_rglobal _ _ _ _ HI), (v_rlocal _ _ _ _ HI), Hrs. eapply nth_error_In; eauto.
Qed.

Lemma map_some_in {A B} (f : B -> option A) l ks x : map Some l = map f ks -> In x l -> exists k, In k ks /\ f k = Some x.
Proof.
  intros E Hin. apply (in_map Some) in Hin. rewrite E in Hin. apply in_map_iff in Hin. destruct Hin as (k & E1 & E2). eauto.
Qed.
Lemma map_some_in_r {A B} (f : B -> option A) l ks k : map Some l = map f ks -> In k ks -> exists x, In x l /\ f k = Some x.
Proof.
  intros E Hin. apply (in_map f) in Hin. rewrite <- E in Hin. apply in_map_iff in Hin. destruct Hin as (x & E1 & E2). eauto.
Qed.

Lemma correction_has (s : sensor (BB := BB)) expf pick sortf bb fuel scan time c st st' :
  correct_op op pm expf pick sortf bb s fuel scan time = Correct c ->
  consistent p_box st -> (forall z, In z scan -> valid z) -> all_components I st ->
  correction_result p_box (p_norm op) (r_lim pm) (cov_lim pm) (rB_max pm) c st st' ->
  (forall rs ts ts' rs',
    (forall t, In t ts -> exists x, In x (live st) /\ tg_r t = tg_r (snd x) /\ tg_pdf t = tg_pdf (snd x)) ->
    s_update c rs ts = Some (ts', rs') -> cluster_result op pm s rs ts ts' rs') ->
  all_components I st'.
Proof.
  intros Ec Hcs Hval Hall (inview & st1 & scan1 & cls & newt & all & old & new & Hin & Hk & Hlen & Hcl & Elive & Hold & Hnew) Hres.
  assert (Escan : s_scan c = scan) by (inversion Ec; reflexivity).
  assert (Einit : s_init c = init_pdf op bb) by (inversion Ec; reflexivity).
  assert (Hone : forall k, In k cls -> exists ts', map Some ts' = map newt (cl_targets k) /\ (forall t, In t ts' -> has (p_c (tg_pdf t))) /\
     exists dws, map Some dws = map (nth_error all) (cl_reports k) /\ forall d, In d dws -> valid (fst d)).
  { intros k Hkin. destruct (Hcl k Hkin) as (ts & rs & ts' & dws & E1 & E2 & Eu & E3 & E4).
    assert (Hts : forall t, In t ts -> exists x, In x (live st) /\ tg_r t = tg_r (snd x) /\ tg_pdf t = tg_pdf (snd x)).
    { intros t Ht. destruct (map_some_in _ _ _ _ E1 Ht) as (a & Ha & Eh).
      assert (Hx : exists t0, In (a, t0) (live st)).
      { assert (X : In a (concat (map cl_targets cls))) by (apply in_concat; exists (cl_targets k); split; auto; apply in_map; auto).
        apply (k_targets _ _ _ _ _ _ _ _ Hk) in X. destruct X as [X|(j & r & t0 & _ & X & _)]; [|eauto].
        apply Hin in X. destruct X as (t0 & X & _). eauto. }
      destruct Hx as (t0 & Hx). exists (a, t0). split; auto. apply live_In in Hx; [|apply Hcs].
      rewrite (k_cid _ _ _ _ _ _ _ _ Hk k a t0 Hkin Ha Hx) in Eh. inversion Eh; subst. auto. }
    assert (Hrs : forall z, In z rs -> valid z).
    { intros z Hz. destruct (map_some_in _ _ _ _ E2 Hz) as (j & _ & Ej). apply Hval. rewrite <- Escan. eapply nth_error_In; eauto. }
    assert (Hts2 : forall t, In t ts -> has (p_c (tg_pdf t))).
    { intros t Ht. destruct (Hts t Ht) as (x & Hx & _ & ->). exact (Hall x Hx). }
    destruct (cluster_has s rs ts ts' _ Hrs Hts2 (Hres _ _ _ _ Hts Eu)) as (R1 & R2).
    exists ts'. split; auto. split; auto. exists dws. split; auto.
    intros d Hd. exact (R2 _ (in_map (fun dw => (fst dw, Fin (snd dw))) _ _ Hd)). }
  intros (a & t') Hx. rewrite Elive in Hx. apply in_app_or in Hx. destruct Hx as [Hx|Hx].
  - apply Hold in Hx. destruct Hx as (t & Ht & H1 & H2).
    destruct (in_dec Nat.eq_dec a (concat (map cl_targets cls))) as [Hc|Hc].
    + apply in_concat in Hc. destruct Hc as (l & Hl & Ha). apply in_map_iff in Hl. destruct Hl as (k & <- & Hkin).
      destruct H1 as (En & _); [eauto|]. destruct (Hone k Hkin) as (ts' & E3 & Hts' & _).
      destruct (map_some_in_r _ _ _ _ E3 Ha) as (x & Hx & Ex). assert (x = t') by congruence. subst x. exact (Hts' t' Hx).
    + rewrite H2; [exact (Hall (a, t) Ht)|]. intros (k & Hkin & Ha). apply Hc. apply in_concat. exists (cl_targets k). split; auto. apply in_map. auto.
  - assert (Hx2 : In (tg_r t', tg_pdf t', tg_cid t', tg_new t', tg_t0 t') (newborns (r_lim pm) (rB_max pm) c (map rp_cid scan1) all)).
    { eapply Permutation_in; [exact Hnew|]. apply in_map_iff. exists (a, t'). auto. }
    unfold newborns in Hx2. destruct Rle_dec; [|destruct Hx2]. apply in_flat_map in Hx2. destruct Hx2 as ((cid & (d & w)) & Hd & Hx2).
    cbn [fst snd] in Hx2. destruct Rle_dec; [|destruct Hx2]. destruct Hx2 as [Hx2|[]]. inversion Hx2 as [[X1 X2 X3 X4 X5]].
    apply in_combine_r in Hd. apply In_nth_error in Hd. destruct Hd as (j & Ej).
    assert (Hj : In j (concat (map cl_reports cls))).
    { apply (k_reports _ _ _ _ _ _ _ _ Hk). rewrite map_length, <- Hlen. apply nth_error_Some. congruence. }
    apply in_concat in Hj. destruct Hj as (l & Hl & Hj). apply in_map_iff in Hl. destruct Hl as (k & <- & Hkin).
    destruct (Hone k Hkin) as (_ & _ & _ & dws & E4 & Hdws). destruct (map_some_in_r _ _ _ _ E4 Hj) as (y & Hy & Ey).
    assert (y = (d, w)) by congruence. subst y. specialize (Hdws _ Hy). cbn [fst] in Hdws.
    intros g Hg. cbn [snd] in Hg. rewrite <- X2, Einit in Hg. unfold init_pdf, pdf_global, pdf_local in Hg. cbn [p_c] in Hg.
    simpl in Hg. destruct Hg as [<-|[]]. cbn [snd]. apply (v_global _ _ _ _ HI), (v_local _ _ _ _ HI), (v_init _ _ _ _ HI), Hdws.
Qed.

Lemma valid_is_request expf pick sortf n c : valid_request allowed valid op pm expf pick sortf n c -> request op pm expf pick sortf n c.
Proof. intros []; constructor; auto. Qed.

Lemma history_components pick sortf : sound_ops op -> valid_sort sortf -> valid_pick pick ->
  (0 < tscale pm)%R -> (0 < r_lim pm)%R -> (0 <= rB_max pm <= 1)%R -> forall unit, (0 < unit)%R -> forall n,
  (cw_lim pm <= 1)%R -> (1 / 100000000 * INR (200 * (n + 1)) < r_lim pm)%R -> forall cs st,
  Forall (valid_request allowed valid op pm exp pick sortf n) cs ->
  calls (volR unit) p_box (p_norm op) (r_lim pm) (cov_lim pm) (rB_max pm) new_tracker cs (Ok st) ->
  all_components I st.
Proof.
  intros H1 H2 H3 H5 H6 H7 unit H8 n H9 H10. assert (Hex : forall N ts, no_underflow exp N ts) by (intros; apply exp_no_underflow).
  induction cs as [|c cs IH] using rev_ind; intros st Hr H.
  - inversion H; subst. intros x [].
  - apply calls_snoc in H. destruct H as (st1 & Hc1 & Hstep). apply Forall_app in Hr. destruct Hr as (Hr & Hc). inversion Hc as [|? ? Hv _]; subst.
    specialize (IH st1 Hr Hc1).
    assert (Hq : Forall (request op pm exp pick sortf n) cs) by (eapply Forall_impl; [|exact Hr]; intros; apply valid_is_request; auto).
    destruct Hv as [m time last Hm Hp Hl|s fuel scan time bb Hs Hn Hval].
    + destruct (history_predict op pm exp pick sortf H1 H2 H3 Hex H5 H6 H7 unit H8 n cs st1 m time last H9 H10 Hq Hc1 Hp Hl) as (_ & Hout).
      destruct (Hout _ Hstep) as (st' & image & E & Hi & Hlive). inversion E; subst st'.
      intros (a & t') Hx. apply Hlive in Hx. destruct Hx as ((t & Ht & ->) & _). destruct (Hi a t Ht) as (_ & _ & _ & _ & _ & c1 & C1 & C2 & _).
      cbn [snd]. eapply has_map; [|exact C2|]; [apply (v_global _ _ _ _ HI)|]. eapply has_map; [|exact C1|exact (IH (a, t) Ht)].
      intros g Hg. apply (v_move _ _ _ _ HI); auto; [|apply (v_local _ _ _ _ HI); auto].
      apply Rmult_le_pos; [lra|]. left. apply Rinv_0_lt_compat. exact H5.
    + destruct (correct_op op pm exp pick sortf bb s fuel scan time) as [|c] eqn:Ec; [discriminate|].
      inversion Hstep; subst.
      destruct (history_correct op pm pick sortf H1 H2 H3 H5 H6 H7 unit H8 n cs st1 st s fuel scan time bb c Hq Hc1 Hs Ec ltac:(assumption)) as (R1 & R2).
      eapply correction_has; eauto.
      exact (calls_ok unit H8 _ p_box_real _ _ _ _ _ _ _ Hc1 (consistent_new _) (Forall_impl _ (request_sane op pm exp pick sortf H1 n) Hq)).
Qed.
End Comp.
