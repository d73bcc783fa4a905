(** Histories of a tracker whose densities are Gaussian mixtures. *)
From Coq Require Import List Arith NArith Bool Reals Lra Lia Permutation.
Import ListNotations.
From Verif Require Import Res Scalar LapBase RTree RTreeSpec RTreeInst Murty MurtyMain Cluster ClusterSpec ClusterMain
  GM GMSpec GMProofs Tracker TrackerSpec TrackerProofs TrackerPar TrackerCluster TrackerMain TrackerHist
  TrackerOps TrackerOpsSpec TrackerOpsProofs.
Local Open Scope nat_scope.

Section Main.
Context {G BB Rep : Type}.
Variable op : ops G BB Rep.
Variable pm : params.
Notation pdf := (pdf (G := G) (BB := BB)).
Notation target := (target (P := pdf)).
Notation tracker := (tracker (P := pdf)).
Notation call := (call (P := pdf) (Rep := Rep)).
Variable expf : R -> R.
Variable pick : nat -> list (mstate (T := ext R)) -> nat.
Variable sortf : list (comp (G := G)) -> list (comp (G := G)).
Hypothesis Hop : sound_ops op.
Hypothesis Hsort : valid_sort sortf.
Hypothesis Hpick : valid_pick pick.
Hypothesis Hexp : forall N ts, no_underflow expf N ts.
Hypothesis Htscale : (0 < tscale pm)%R.
Hypothesis Hrlim : (0 < r_lim pm)%R.
Hypothesis HrB : (0 <= rB_max pm <= 1)%R.
Variable unit : R.
Hypothesis unit_pos : (0 < unit)%R.

Notation box := (@p_box G BB).
Notation covnorm := (p_norm (BB := BB) op).
Notation calls := (calls (volR unit) box covnorm (r_lim pm) (cov_lim pm) (rB_max pm)).
Notation correct_call := (correct_call (volR unit) box covnorm (r_lim pm) (cov_lim pm) (rB_max pm)).
Notation req := (request op pm expf pick sortf).
Notation keep := (keeps covnorm (r_lim pm) (cov_lim pm)).

Lemma p_box_real (p : pdf) : real_box (box p).
Proof.
  split; [repeat split; eexists; reflexivity|]. unfold p_box. cbn [RTree.min0 RTree.min1 RTree.max0 RTree.max1].
  split; apply le_FF_iff; eapply Rle_trans; try apply Rmin_l; apply Rmax_l.
Qed.

Lemma p_box_global (p : pdf) : let b := p_aabb (pdf_global op p) in
  box (pdf_global op p) = mkRect (Fin (GM.min0 b)) (Fin (GM.min1 b)) (Fin (GM.max0 b)) (Fin (GM.max1 b)).
Proof.
  intros b. unfold p_box. fold b.
  assert (H : (GM.min0 b <= GM.max0 b)%R /\ (GM.min1 b <= GM.max1 b)%R).
  { unfold b, pdf_global, llaabbox. cbn [p_aabb GM.min0 GM.min1 GM.max0 GM.max1].
    split; eapply Rle_trans; try apply Rmin_l; apply Rmax_l. }
  destruct H as (H0 & H1). rewrite !Rmin_left, !Rmax_right by auto. reflexivity.
Qed.

Lemma request_sane n (c : call) : req n c -> sane_call c.
Proof.
  intros [m time last Hp Hl|s fuel scan time bb Hs Hn].
  - intros a t. unfold predict_op, predict_target. destruct (normalize _). reflexivity.
  - split; [apply Hs|]. split; [intros r _; apply Hop|]. intros rs ts ts' rs' E. eapply cluster_update_ids; eauto.
Qed.

Definition weak (r : ext R) (p : pdf) : Prop := prob r /\ weak_density (p_c p).
Definition strong (r : ext R) (p : pdf) : Prop := prob r /\ density (p_c p).

Lemma density_weak (c : list (comp (G := G))) : density c -> weak_density c.
Proof. intros (H1 & H2 & _). split; auto. Qed.

Lemma init_density bb z : density (p_c (init_pdf op bb z)).
Proof.
  unfold init_pdf, pdf_global, pdf_local. cbn [p_c]. apply linear_density, linear_density. split; [|split].
  - intros g [<-|[]]. simpl. lra.
  - simpl. lra.
  - simpl. lia.
Qed.

Lemma keeps_weak n (c : call) : req n c -> keep weak c.
Proof.
  intros [m time last Hp Hl|s fuel scan time bb Hs Hn].
  - intros a t (H1 & H2) _. destruct (survival_range pm m time last Htscale Hp Hl) as (z & Ez & Hz).
    destruct (predict_target_ok op pm m time last t z Ez Hz H1 H2) as (_ & Ha & Hb & _). split; auto.
  - split; [|split; [|split]].
    + intros rs ts ts' rs' E Hf dx Hdx. cbn [correct_op s_update] in E.
      destruct (cluster_update_ok op pm expf pick sortf Hop s Hs Hsort Hpick Hexp fuel rs ts ts' rs' Hf E) as (_ & H & _).
      destruct (H dx Hdx) as (w & Ew & Hw). exists w. split; auto. lra.
    + apply Hs.
    + intros r d Hr. split; [exists r; auto|]. apply density_weak, init_density.
    + intros rs ts ts' rs' E Hf _. cbn [correct_op s_update] in E.
      destruct (cluster_update_ok op pm expf pick sortf Hop s Hs Hsort Hpick Hexp fuel rs ts ts' rs' Hf E) as (H & _).
      eapply Forall_impl; [|exact H]. intros t Ht _. exact Ht.
Qed.

Lemma keeps_strong n (c : call) : (cw_lim pm <= 1)%R -> (1 / 100000000 * INR (200 * (n + 1)) < r_lim pm)%R ->
  req n c -> keep strong c.
Proof.
  intros Hcw Hn [m time last Hp Hl|s fuel scan time bb Hs Hsc].
  - intros a t (H1 & H2) _. destruct (survival_range pm m time last Htscale Hp Hl) as (z & Ez & Hz).
    destruct (predict_target_ok op pm m time last t z Ez Hz H1 (density_weak _ H2)) as (_ & Ha & Hb & Hc & Hd & _).
    split; auto. destruct H2 as (D1 & D2 & D3). split; [apply Hb|]. rewrite Hd, Hc. auto.
  - assert (Hsw : forall ts : list target, Forall (fun t => strong (tg_r t) (tg_pdf t)) ts -> Forall (good (G := G) (BB := BB)) ts).
    { intros ts Hf. eapply Forall_impl; [|exact Hf]. intros t (Ha & Hb). split; auto. apply density_weak. auto. }
    split; [|split; [|split]].
    + intros rs ts ts' rs' E Hf dx Hdx. cbn [correct_op s_update] in E.
      destruct (cluster_update_ok op pm expf pick sortf Hop s Hs Hsort Hpick Hexp fuel rs ts ts' rs' (Hsw _ Hf) E) as (_ & H & _).
      destruct (H dx Hdx) as (w & Ew & Hw). exists w. split; auto. lra.
    + apply Hs.
    + intros r d Hr. split; [exists r; auto|]. apply init_density.
    + intros rs ts ts' rs' E Hf Hle. cbn [correct_op s_update s_scan] in E, Hle.
      destruct (cluster_update_ok op pm expf pick sortf Hop s Hs Hsort Hpick Hexp fuel rs ts ts' rs' (Hsw _ Hf) E) as (H1 & _ & H2).
      assert (Hlt : (1 / 100000000 * INR (200 * (length rs + 1)) < r_lim pm)%R).
      { eapply Rle_lt_trans; [|exact Hn]. apply Rmult_le_compat_l; [lra|]. apply le_INR. lia. }
      assert (H3 := H2 ltac:(eapply Forall_impl; [|exact Hf]; intros t (_ & Ht); exact Ht) Hcw Hrlim Hlt).
      rewrite Forall_forall in H1, H3 |- *. intros t Ht Hfit. split; [apply (H1 t Ht)|]. apply (H3 t Ht). apply Hfit.
Qed.

Lemma history_bounds n (cs : list call) st : Forall (req n) cs -> calls new_tracker cs (Ok st) ->
  forall x, In x (live st) -> prob (tg_r (snd x)) /\ weak_density (p_c (tg_pdf (snd x))).
Proof.
  intros Hr H. apply (calls_inv unit unit_pos box p_box_real covnorm (r_lim pm) (cov_lim pm) (rB_max pm) weak
    new_tracker cs (Ok st) Hrlim HrB H (consistent_new box)).
  - eapply Forall_impl; [|exact Hr]. intros c. apply request_sane.
  - eapply Forall_impl; [|exact Hr]. intros c. apply keeps_weak.
  - intros x [].
  - reflexivity.
Qed.

Lemma history_density n (cs : list call) st : (cw_lim pm <= 1)%R -> (1 / 100000000 * INR (200 * (n + 1)) < r_lim pm)%R ->
  Forall (req n) cs -> calls new_tracker cs (Ok st) ->
  forall x, In x (live st) -> density (p_c (tg_pdf (snd x))).
Proof.
  intros Hcw Hn Hr H.
  enough (X : all_targets strong st) by (intros x Hx; apply (X x Hx)).
  apply (calls_inv unit unit_pos box p_box_real covnorm (r_lim pm) (cov_lim pm) (rB_max pm) strong
    new_tracker cs (Ok st) Hrlim HrB H (consistent_new box)).
  - eapply Forall_impl; [|exact Hr]. intros c. apply request_sane.
  - eapply Forall_impl; [|exact Hr]. intros c. apply keeps_strong; auto.
  - intros x [].
  - reflexivity.
Qed.

Lemma births_bounds n s fuel scan time bb (cs : list call) st ts ts' rs rs' : Forall (req n) cs -> calls new_tracker cs (Ok st) ->
  sound_sensor s -> (forall t, In t ts -> exists x, In x (live st) /\ tg_r t = tg_r (snd x) /\ tg_pdf t = tg_pdf (snd x)) ->
  match correct_op op pm expf pick sortf bb s fuel scan time with
  | Correct c => s_update c rs ts = Some (ts', rs')
  | Predict _ => False
  end -> forall dx, In dx rs' -> exists w, snd dx = Fin w /\ (0 <= w <= 1)%R.
Proof.
  intros Hr H Hs Hts E. cbn [correct_op s_update] in E.
  eapply (cluster_update_ok op pm expf pick sortf Hop s Hs Hsort Hpick Hexp fuel rs ts ts' rs'); eauto.
  apply Forall_forall. intros t Ht. destruct (Hts t Ht) as (x & Hx & E1 & E2). unfold good. rewrite E1, E2.
  exact (history_bounds n cs st Hr H x Hx).
Qed.

(** A correction completes, given enough steps for the assignment loops. *)
Lemma correction_completes n s scan time bb (cs : list call) st : Forall (req n) cs -> calls new_tracker cs (Ok st) ->
  sound_sensor s -> length (live st) <= 30 ->
  exists f0, forall fuel, f0 <= fuel -> forall c, correct_op op pm expf pick sortf bb s fuel scan time = Correct c ->
    (exists o, correct_call c st o) /\ forall o, correct_call c st o -> exists st', o = Ok st'.
Proof.
  intros Hr H Hs H30.
  assert (Hsane : Forall sane_call cs) by (eapply Forall_impl; [|exact Hr]; intros c; apply request_sane).
  assert (Hc : consistent box st) by exact (calls_ok unit unit_pos box p_box_real covnorm _ _ _ _ _ _ H (consistent_new box) Hsane).
  pose proof (history_bounds n cs st Hr H) as Hb.
  assert (Hsc : forall fuel c, correct_op op pm expf pick sortf bb s fuel scan time = Correct c -> sane_correction c).
  { intros fuel c E. assert (X : sane_call (Correct c)); [|exact X]. rewrite <- E. eapply request_sane with (n := length scan). constructor; auto. }
  assert (Hreq : forall fuel, exists c, correct_op op pm expf pick sortf bb s fuel scan time = Correct c) by (intros; eexists; reflexivity).
  destruct (Hreq 0) as (c0 & E0).
  destruct (in_view_plan box c0 st Hc (Hsc 0 c0 E0)) as (l & st1 & sc & cls & newt & newr & Ev & _ & _ & _ & Hp).
  assert (Hgood : forall c, In c cls -> Forall (good (G := G) (BB := BB)) (old_targets st1 c)).
  { intros c Hin. apply Forall_forall. intros v Hv.
    destruct (old_targets_live box c0 st l st1 sc cls newt newr c v Hc Hp Hin Hv) as (a & t & Ht & E1 & E2).
    unfold good. rewrite E1, E2. exact (Hb (a, t) Ht). }
  assert (Hlen : forall c, In c cls -> length (old_targets st1 c) <= 30).
  { intros c Hin. eapply Nat.le_trans; [|exact H30].
    assert (Hnd : NoDup (cl_targets c)).
    { pose proof (k_targets_once _ _ _ _ _ _ _ _ (p_clustering _ _ _ _ _ _ _ _ _ Hp)) as Hnd. apply in_split in Hin.
      destruct Hin as (l1 & l2 & ->). rewrite map_app, concat_app in Hnd. simpl in Hnd. apply NoDup_app_inv in Hnd. destruct Hnd as (_ & Hnd & _).
      apply NoDup_app_inv in Hnd. apply Hnd. }
    assert (H1 : length (old_targets st1 c) <= length (cl_targets c)).
    { unfold old_targets. clear. induction (cl_targets c) as [|a k IH]; simpl; auto. rewrite app_length. destruct (heap st1 a); simpl; lia. }
    eapply Nat.le_trans; [exact H1|]. rewrite <- (map_length fst (live st)). apply NoDup_incl_length; auto.
    intros a Ha. assert (Hcl : clustered cls a) by (unfold clustered; apply in_concat; exists (cl_targets c); split; auto; apply in_map; auto).
    apply (p_live _ _ _ _ _ _ _ _ _ Hp) in Hcl. destruct (k_state _ _ _ _ _ _ _ _ (p_clustering _ _ _ _ _ _ _ _ _ Hp)) as (Kt & _).
    rewrite Kt in Hcl. apply (proj1 Hc) in Hcl. destruct (heap st a) as [t|] eqn:Et; [|congruence].
    apply in_map_iff. exists (a, t). split; auto. apply live_In; [apply Hc|auto]. }
  assert (Hfuel : exists f0, forall fuel, f0 <= fuel -> forall c, In c cls ->
    cluster_update op pm expf pick sortf s fuel (old_reports sc c) (old_targets st1 c) <> None).
  { clear Hp. induction cls as [|c cls IH]; [exists 0; intros ? ? ? []|].
    destruct IH as (f1 & H1); [intros; apply Hgood; simpl; auto|intros; apply Hlen; simpl; auto|].
    destruct (cluster_update_returns op pm expf pick sortf Hop s Hs Hsort Hpick Hexp (old_reports sc c) (old_targets st1 c)) as (f2 & H2);
      [apply Hgood; simpl; auto|apply Hlen; simpl; auto|].
    exists (Nat.max f1 f2). intros fuel Hf c' [<-|Hin]; [apply H2; lia|apply H1; auto; lia]. }
  destruct Hfuel as (f0 & Hf0). exists f0. intros fuel Hf c Ec. split.
  - exact (correct_exists unit unit_pos box p_box_real covnorm _ _ _ c st Hc (Hsc fuel c Ec)).
  - intros o Ho. destruct o as [st'| |]; [eauto| |].
    + destruct (correct_ok unit unit_pos box p_box_real covnorm _ _ _ c st UB Hc (Hsc fuel c Ec) Ho).
    + exfalso. destruct (in_view_plan box c st Hc (Hsc fuel c Ec)) as (l' & st1' & sc' & cls' & newt' & newr' & Ev' & _ & _ & _ & Hp').
      assert (El : l' = l). { assert (X : in_view c st = in_view c0 st) by (inversion E0; inversion Ec; reflexivity). congruence. }
      subst l'.
      pose proof (p_make _ _ _ _ _ _ _ _ _ Hp) as M1. pose proof (p_make _ _ _ _ _ _ _ _ _ Hp') as M2.
      assert (X : make_clusters (s_rbox c) l st (start_scan c) = make_clusters (s_rbox c0) l st (start_scan c0)) by (inversion E0; inversion Ec; reflexivity).
      rewrite X, M1 in M2. inversion M2; subst st1' sc' cls'.
      inversion Ho as [|E'|l' o E' Hrest Eo]; [congruence|]. subst o. assert (l' = l) by congruence. subst l'.
      pose proof (correct_rest_ok unit unit_pos box p_box_real covnorm _ _ _ c st Hc l _ _ _ _ _ Hp' _ Hrest) as Y.
      cbn beta iota in Y. destruct Y as (k & Hk & Hout). unfold outcome in Hout.
      apply (Hf0 fuel Hf k Hk). inversion Ec; subst c. exact Hout.
Qed.
End Main.
