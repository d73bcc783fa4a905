(** Proofs about whole calls. *)
From Coq Require Import List Arith NArith Bool Reals Lra Lia Permutation.
Import ListNotations.
From Verif Require Import Res Scalar LapBase RTree RTreeSpec RTreeInst Murty MurtyMain Cluster ClusterSpec ClusterProofs ClusterMain
  GM GMSpec GMProofs Tracker TrackerSpec TrackerProofs TrackerPar TrackerCluster TrackerMain TrackerHist TrackerOps TrackerOpsSpec TrackerOpsProofs StepSpec.
Local Open Scope nat_scope.

(** ** A correction of the tracker *)
Section Calls.
Context {P Rep : Type}.
Variable unit : R.
Hypothesis unit_pos : (0 < unit)%R.
Variable box : P -> rect (ext R).
Hypothesis box_real : forall p, real_box (box p).
Variable covnorm : P -> ext R.
Variables r_lim cov_lim rB_max : R.
Notation tracker := (tracker (P := P)).
Notation target := (target (P := P)).
Notation correction := (correction (P := P) (Rep := Rep)).

Lemma kept_iff o (t : target) : kept covnorm r_lim cov_lim o = Some t <-> o = Some t /\ fit covnorm r_lim cov_lim t.
Proof.
  split; [apply kept_fit|]. intros (-> & H1 & H2 & H3 & H4). unfold kept, viable.
  assert (E1 : nlt extR (tg_r t) (Fin r_lim) = false).
  { destruct (tg_r t) as [x| | |] eqn:E; auto; [|congruence]. rewrite lt_FF. destruct (Rltb_spec x r_lim); auto. specialize (H1 x eq_refl). lra. }
  assert (E2 : nlt extR (Fin cov_lim) (covnorm (tg_pdf t)) = false).
  { destruct (covnorm (tg_pdf t)) as [x| | |] eqn:E; auto; [|congruence]. rewrite lt_FF. destruct (Rltb_spec cov_lim x); auto. specialize (H3 x eq_refl). lra. }
  rewrite E1, E2. reflexivity.
Qed.

Lemma correct_result (I : ext R -> P -> Prop) (s : correction) (st st' : tracker) : (0 < r_lim)%R ->
  consistent box st -> sane_correction s -> weighted_on I s -> (forall x, In x (live st) -> I (tg_r (snd x)) (tg_pdf (snd x))) ->
  correct_call (volR unit) box covnorm r_lim cov_lim rB_max s st (Ok st') ->
  correction_result box covnorm r_lim cov_lim rB_max s st st'.
Proof.
  intros Hrl Hc Hs Hw HI H.
  pose proof (correct_ok unit unit_pos box box_real covnorm r_lim cov_lim rB_max s st _ Hc Hs H) as Hx. cbn beta iota in Hx.
  destruct Hx as [(l & st1 & scan & cls & newt & newr & st2 & scan2 & new & order & Hp & Hl & E & Hq & Hc' & Hg & Hperm & Ha)].
  pose proof (weight_list box covnorm r_lim cov_lim I s st _ _ _ _ _ _ _ _ Hc Hs Hw HI Hp Hq) as (ws & Ews & Hws & _ & Hlen).
  pose proof (phase2_scan_length box covnorm r_lim cov_lim s st st1 scan cls newt newr st2 scan2 Hq) as Hl2.
  destruct Hg as [G1 G2 G3 G4 G5]. pose proof Hq as [Q1 Q2 Q3 Q4 Q5 Q6]. pose proof Hp as [Em Hk Hc1 Hlens Hlive Hsc V1 V2 V3].
  assert (Hls2 : length scan2 = length ws) by (apply (f_equal (@length _)) in Ews; rewrite !map_length in Ews; auto).
  set (all := combine (map rp scan2) ws).
  assert (Hall : forall j d x, nth_error scan2 j = Some (mkReport d (Fin x) (rp_cid (nth j scan (mkReport d NaN 0)))) ->
     nth_error all j = Some (d, x)) by
    (intros j d x Ej; unfold all; assert (E1 : nth_error (map rp scan2) j = Some d) by (rewrite nth_error_map, Ej; reflexivity);
     assert (E2 : nth_error ws j = Some x) by (apply (f_equal (fun l => nth_error l j)) in Ews; rewrite !nth_error_map, Ej in Ews; simpl in Ews;
       destruct (nth_error ws j); simpl in Ews; congruence);
     clear - E1 E2; revert E1 E2; generalize (map rp scan2) as a; intros a; revert ws j; induction a as [|y a IH]; intros [|w ws] [|j] E1 E2; simpl in *; try discriminate; [congruence|auto]).
  exists l, st1, scan, cls, newt, all, (live st2), new.
  split. { intros a. rewrite Hl. split; intros (t & Et & H1); exists t; [rewrite live_In by apply Hc|rewrite live_In in Et by apply Hc]; auto. }
  split; [exact Hk|]. split; [unfold all; rewrite combine_length, map_length; lia|]. split; [|split; [exact G1|split]].
  - intros c Hcin. specialize (V1 c Hcin). specialize (V3 c Hcin). specialize (Q6 c Hcin). unfold new_targets, new_reports in *.
    destruct (outcome s st1 scan c) as [(ts', rs')|] eqn:Eo; [|congruence]. unfold outcome in Eo.
    exists (old_targets st1 c), (old_reports scan c), ts'.
    assert (Hpart : forall j, In j (cl_reports c) -> j < length scan).
    { intros j Hj. apply Hsc. apply in_concat. exists (cl_reports c). split; auto. apply in_map. auto. }
    assert (Hval : forall j d x, In j (cl_reports c) -> newr j = Some (d, x) -> exists w, x = Fin w /\ nth_error all j = Some (d, w)).
    { intros j d x Hj En. specialize (Q5 j). destruct (nth_error scan j) as [r|] eqn:Er; [|apply nth_error_None in Er; specialize (Hpart j Hj); lia].
      rewrite En in Q5. assert (E2 : nth_error (map rp_rB scan2) j = Some x) by (rewrite nth_error_map, Q5; reflexivity).
      rewrite Ews, nth_error_map in E2. destruct (nth_error ws j) as [w|]; simpl in E2; [|discriminate]. inversion E2; subst x.
      exists w. split; auto. apply Hall. rewrite Q5. f_equal. f_equal. rewrite (nth_error_nth _ _ _ Er). auto. }
    assert (Hd : exists dws, rs' = map (fun dw => (fst dw, Fin (snd dw))) dws /\ map Some dws = map (nth_error all) (cl_reports c)).
    { clear -V3 Hval. revert rs' V3 Hval. induction (cl_reports c) as [|j js IH]; intros [|(d, x) rs'] V3 Hval; simpl in V3; try discriminate.
      - exists []. auto.
      - inversion V3 as [[E1 E2]]. destruct (Hval j d x ltac:(simpl; auto) E1) as (w & -> & Ew).
        destruct (IH rs' E2 ltac:(intros; eapply Hval; simpl; eauto)) as (dws & -> & Ed). exists ((d, w) :: dws). simpl. rewrite Ew, Ed. auto. }
    destruct Hd as (dws & -> & Ed). exists dws. split.
    { apply (sublive_length box st1 Hc1). intros a Ha'. apply Hlive. apply in_concat. exists (cl_targets c). split; auto. apply in_map. auto. }
    split. { unfold old_reports. destruct (k_scan _ _ _ _ _ _ _ _ Hk) as (Erp & _). unfold start_scan in Erp. rewrite map_map in Erp. cbn in Erp. rewrite map_id in Erp.
      rewrite <- Erp. clear -Hpart. induction (cl_reports c) as [|j js IH]; auto. cbn [flat_map map]. rewrite map_app, IH by (intros; apply Hpart; simpl; auto).
      rewrite nth_error_map. specialize (Hpart j ltac:(simpl; auto)). apply nth_error_Some in Hpart. destruct (nth_error scan j); [reflexivity|congruence]. }
    split; auto.
  - intros a t'. rewrite live_In by apply Q1. rewrite Q2. unfold after, clusteredb.
    assert (Hcl : existsb (Nat.eqb a) (concat (map cl_targets cls)) = true <-> exists c, In c cls /\ In a (cl_targets c)).
    { rewrite existsb_nat. rewrite in_concat. split.
      - intros (x & Hx & Hax). apply in_map_iff in Hx. destruct Hx as (c & <- & Hcin). eauto.
      - intros (c & Hcin & Hac). exists (cl_targets c). split; auto. apply in_map. auto. }
    split.
    + intros Ht. destruct (heap st a) as [t|] eqn:Et; [|discriminate]. exists t. split; [apply live_In; auto; apply Hc|].
      destruct (existsb (Nat.eqb a) (concat (map cl_targets cls))).
      * apply kept_iff in Ht. split; auto. intros Hn. exfalso. apply Hn, Hcl. auto.
      * split; [|congruence]. intros Hx. apply Hcl in Hx. discriminate.
    + intros (t & Hin & H1 & H2). apply live_In in Hin; [|apply Hc]. rewrite Hin.
      destruct (existsb (Nat.eqb a) (concat (map cl_targets cls))).
      * apply kept_iff. apply H1. apply Hcl. auto.
      * rewrite H2; auto. intros Hx. apply Hcl in Hx. discriminate.
  - change (Permutation (map content new) (newborns r_lim rB_max s (map rp_cid scan) all)).
    assert (Esum : Rsum (map snd all) = Rsum ws).
    { unfold all. f_equal. clear -Hls2. revert ws Hls2. induction scan2 as [|r sc IH]; intros [|w ws] Hls; simpl in *; try discriminate; auto. f_equal. auto. }
    rewrite (rB_sum_ws _ _ Ews) in Ha. rewrite le_FF in Ha. unfold newborns. rewrite Esum.
    destruct (Rleb_spec r_lim (Rsum ws)) as [HS|HS], (Rle_dec r_lim (Rsum ws)); try (exfalso; lra); [|rewrite Ha; auto].
    rewrite Ha. assert (Horder : Permutation order (seq 0 (length scan2))).
    { etransitivity; [exact Hperm|]. apply perm_seq.
      - apply (k_reports_once _ _ _ _ _ _ _ _ Hk).
      - intros j. rewrite Hl2. apply Hsc. }
    eapply Permutation_trans; [apply Permutation_flat_map'; exact Horder|]. unfold newborn.
    rewrite (flat_map_seq (fun r => match birth_r r_lim rB_max (s_lambdaB s) (Fin (Rsum ws)) r with
        | Some x => [(x, s_init s (rp r), rp_cid r, true, s_time s)] | None => [] end) scan2).
    assert (Ecid : map rp_cid scan = map rp_cid scan2).
    { apply nth_error_ext. intros j. rewrite !nth_error_map, Q5. destruct (nth_error scan j) as [q|]; auto. destruct (newr j) as [[? ?]|]; reflexivity. }
    rewrite Ecid. unfold all. assert (HSp : (0 < Rsum ws)%R) by lra. clear -Ews HSp. revert HSp. generalize (Rsum ws) as S. intros S HSp.
    assert (Eq : flat_map (fun r => match birth_r r_lim rB_max (s_lambdaB s) (Fin S) r with
        | Some x => [(x, s_init s (rp r), rp_cid r, true, s_time s)] | None => [] end) scan2 =
      flat_map (fun kd : nat * (Rep * R) => let nr := (snd (snd kd) * s_lambdaB s / S)%R in
         if Rle_dec r_lim nr then [(Fin (Rmin nr rB_max), s_init s (fst (snd kd)), fst kd, true, s_time s)] else [])
       (combine (map rp_cid scan2) (combine (map rp scan2) ws))).
    { revert ws Ews. induction scan2 as [|r sc IH]; intros [|w ws] Ex; simpl in Ex; try discriminate; auto.
      inversion Ex as [[E1 E2]]. cbn [flat_map map combine fst snd]. rewrite (IH ws E2). f_equal.
      rewrite (birth_r_ws r_lim rB_max r w (s_lambdaB s) S HSp E1). cbv zeta. destruct (Rle_dec r_lim (w * s_lambdaB s / S)); reflexivity. }
    rewrite Eq. apply Permutation_refl.
Qed.

Lemma predict_result f (st : tracker) : consistent box st -> (forall a t, tg_id (f a t) = tg_id t) ->
  exists st', predict (volR unit) box covnorm r_lim cov_lim f st = Ok st' /\
    forall a t', In (a, t') (live st') <-> (exists t, In (a, t) (live st) /\ t' = f a t) /\ fit covnorm r_lim cov_lim t'.
Proof.
  intros Hc Hf. destruct (predict_evolved unit unit_pos box box_real covnorm r_lim cov_lim f st Hc Hf) as (st' & E & He).
  exists st'. split; auto. intros a t'. rewrite (e_live _ _ _ _ _ He), app_nil_r, in_flat_map. unfold survive. split.
  - intros ((b, t) & Hin & Hx). cbn [fst snd] in Hx. destruct (kept covnorm r_lim cov_lim (Some (f b t))) as [u|] eqn:Ek; [|destruct Hx].
    destruct Hx as [Hx|[]]. inversion Hx; subst. apply kept_iff in Ek. destruct Ek as (Ek & Hfit). inversion Ek; subst. split; eauto.
  - intros ((t & Hin & ->) & Hfit). exists (a, t). split; auto. cbn [fst snd].
    rewrite (proj2 (kept_iff (Some (f a t)) (f a t)) (conj eq_refl Hfit)). simpl. auto.
Qed.
End Calls.

(** ** One target, one cluster *)
Section Values.
Context {G BB Rep : Type}.
Variable op : ops G BB Rep.
Variable pm : params.
Notation comp := (comp (G := G)).
Notation pdf := (pdf (G := G) (BB := BB)).
Notation target := (target (P := pdf)).
Implicit Types c : list comp.

Lemma position_pos c : p_pos op c = position op c.
Proof.
  unfold p_pos, position, mean. rewrite (fold_rsum (fun g => fst g * g_x0 op (snd g))%R), (fold_rsum (fun g => fst g * g_x1 op (snd g))%R).
  f_equal; lra.
Qed.

Lemma carried_linear (f : G -> G) c : carried f c (gm_linear f c).
Proof. unfold carried. induction c as [|g c IH]; simpl; constructor; auto. Qed.

Lemma boxed_global c bb aa o : boxed op o c (pdf_global op (mkPdf c bb aa o)).
Proof.
  intros Hne Hin. unfold pdf_global. cbn [p_origin p_c p_bbox p_aabb].
  destruct (local_box_ok (g_x0 op) (g_x1 op) (g_box op) c Hne Hin) as (b & -> & H1 & H2).
  split; [destruct c; [congruence|reflexivity]|]. exists b. split; [intros g Hg; apply H1; auto|]. split; [exact H2|]. reflexivity.
Qed.

Lemma survival_survives m time last x : survival pm m time last = Fin x -> (0 <= survival_prob m)%R -> (0 < tscale pm)%R -> (last <= time)%R ->
  survives m ((time - last) / tscale pm) x.
Proof.
  intros E Hs Ht Hl. destruct m as [pS q|pS Q]; simpl in *; [|congruence]. unfold powf in E.
  assert (Hd : (0 <= (time - last) / tscale pm)%R) by (apply Rmult_le_pos; [lra|left; apply Rinv_0_lt_compat; auto]).
  destruct (Reqb_spec ((time - last) / tscale pm) 0) as [E0|N0].
  - inversion E. split; auto. split; intros; contradiction.
  - destruct (Rltb_spec pS 0); [exfalso; lra|]. destruct (Reqb_spec pS 0) as [E1|N1].
    + destruct (Rltb_spec 0 ((time - last) / tscale pm)); [|exfalso; lra]. inversion E. split; [intros; contradiction|]. split; auto. intros; contradiction.
    + inversion E. split; [intros; contradiction|]. split; auto. intros; contradiction.
Qed.

Lemma predict_value m time last (t : target) : (0 <= survival_prob m <= 1)%R -> (0 < tscale pm)%R -> (last <= time)%R ->
  density (p_c (tg_pdf t)) -> predicted op pm m time last t (predict_target op pm m time last t).
Proof.
  intros Hs Ht Hl (Hn & Htot & Hlen). unfold predicted, predict_target.
  destruct (survival_range pm m time last Ht Hs Hl) as (x & Ex & Hx). rewrite Ex.
  set (o := p_pos op (p_c (tg_pdf t))). unfold pdf_local. cbn [p_c p_bbox p_aabb p_origin].
  set (c := gm_linear (move op pm m time last) (gm_linear (g_local op o) (p_c (tg_pdf t)))).
  rewrite (normalize_density c) by (unfold c; rewrite !linear_total; auto).
  cbn [tg_id tg_cid tg_new tg_t0 tg_r tg_pdf]. split; auto. split; auto. split; auto. split; auto. split.
  - intros r Er. exists x. split; [apply survival_survives; auto; apply Hs|]. rewrite Er, !mul_FF, Rmult_1_r. reflexivity.
  - exists c. rewrite <- position_pos. fold o. split; [|split].
    + unfold c, gm_linear. rewrite map_map. cbn [fst snd]. replace (move op pm m time last) with (motion op m ((time - last) / tscale pm)) by (destruct m; reflexivity).
      apply (carried_linear (fun g => motion op m ((time - last) / tscale pm) (g_local op o g)) (p_c (tg_pdf t))).
    + apply carried_linear.
    + apply boxed_global.
Qed.

Lemma weighed_upd (s : sensor (BB := BB)) id j z c i :
  map (fun ic => upd op s id j z (fst ic) (snd ic)) (combine (seq i (length c)) c) = weighed op s id j z i c.
Proof.
  revert i. induction c as [|g c IH]; intros i; simpl; auto. rewrite IH. f_equal. unfold upd, pd, detects. cbn [fst snd]. f_equal. unfold Rdiv. ring.
Qed.

Lemma miss_missed (s : sensor (BB := BB)) id j c : gm_missed (pd s id j) c = (1 - miss s id j 0 c)%R.
Proof.
  unfold gm_missed, missed_eta. rewrite (fold_rsum (fun ic => fst (snd ic) * pd s id j (fst ic))%R). rewrite Rplus_0_l. f_equal. f_equal.
  generalize 0 as i. induction c as [|g c IH]; intros i; simpl; auto. rewrite IH. f_equal. unfold pd, detects. cbn [fst snd]. unfold Rdiv. ring.
Qed.

Lemma input_weighs (s : sensor (BB := BB)) rs (t : target) tin : target_input op s rs t = Some tin ->
  weighs op s rs t (p_c (tg_pdf t)) tin (map fst (against op s rs t)).
Proof.
  unfold target_input. destruct (tg_r t) as [r| | |] eqn:Er; try discriminate. intros E. inversion E; subst tin. unfold weighs. cbn [t_r t_lik t_miss].
  assert (Hla : length (against op s rs t) = length rs) by (unfold against; rewrite map_length, combine_length, seq_length; lia).
  split; auto. split; [rewrite map_length; auto|]. split; [rewrite map_length; auto|]. split; [|apply miss_missed].
  intros j z Ej. assert (Ea : nth_error (against op s rs t) j = Some (gm_correct (upd op s (tg_id t) j z) (p_c (tg_pdf t)))).
  { unfold against. rewrite nth_error_map. assert (Ec : nth_error (combine (seq 0 (length rs)) rs) j = Some (j, z)).
    { assert (Hgen : forall (l : list Rep) k j, nth_error l j = Some z -> nth_error (combine (seq k (length l)) l) j = Some (k + j, z)).
      { induction l as [|y l IH]; intros k [|i] Ei; simpl in *; try discriminate; [inversion Ei; subst; rewrite Nat.add_0_r; auto|].
        rewrite (IH (S k) i Ei). do 2 f_equal. lia. }
      apply (Hgen rs 0 j Ej). }
    rewrite Ec. reflexivity. }
  destruct (gm_correct (upd op s (tg_id t) j z) (p_c (tg_pdf t))) as (c', eta) eqn:Eg. unfold gm_correct in Eg. rewrite weighed_upd in Eg.
  apply normalize_ok in Eg. rewrite (nth_error_nth (map fst (against op s rs t)) j [] (x := c')), (nth_error_nth (map snd (against op s rs t)) j 0%R (x := eta)); auto;
    rewrite nth_error_map, Ea; reflexivity.
Qed.

Variable pick : nat -> list (mstate (T := ext R)) -> nat.
Variable sortf : list comp -> list comp.
Hypothesis Hop : sound_ops op.
Variable s : sensor (BB := BB).
Hypothesis Hs : sound_sensor s.
Hypothesis Hsort : valid_sort sortf.
Hypothesis Hpick : valid_pick pick.

Lemma join_mixed w pdfs c eta : length w <= length pdfs -> (forall x, In x w -> (0 <= x)%R) -> (forall p, In p pdfs -> nonneg p) ->
  join sortf (cw_lim pm) w pdfs = Ok (c, eta) -> mixed pm w pdfs c.
Proof.
  intros Hl Hw Hp Ej. destruct (join_raw_ok sortf (cw_lim pm) w pdfs Hsort Hl Hw Hp) as (c0 & rest & E & Hperm & Hh & Hk & Hr & Hkw).
  unfold join in Ej. rewrite E in Ej. cbn [bind] in Ej. injection Ej as En. apply normalize_ok in En.
  assert (Hn : nonneg (c0 ++ rest)).
  { intros g Hg. eapply (scaled_nonneg w pdfs Hw Hp). eapply Permutation_in; eauto. }
  exists c0, rest, eta. split; auto. split; auto. split; [exact Hk|]. split; [|split; auto].
  - destruct Hr as [Hr|[Hr|(y & Hy & Hz & Hb)]]; auto. right. right. exists y. split; auto. split; auto.
    assert (Hy0 : (0 <= fst y)%R) by (apply Hn; apply in_or_app; auto).
    assert (Hc0 : (0 <= total c0)%R) by (apply total_nonneg; intros g Hg; apply Hn; apply in_or_app; auto).
    apply (below_true (cw_lim pm) (fst y) (total c0 + fst y)); auto. lra.
  - intros a x b Ec Hpos. specialize (Hkw a x b Ec). rewrite Rplus_0_l in Hkw.
    assert (Hc : forall g, In g c0 -> (0 <= fst g)%R) by (intros g Hg; apply Hn; apply in_or_app; auto).
    assert (Hx0 : (0 <= fst x)%R) by (apply Hc; rewrite Ec; apply in_or_app; simpl; auto).
    assert (Ha0 : (0 <= total a)%R) by (apply total_nonneg; intros g Hg; apply Hc; rewrite Ec; apply in_or_app; auto).
    apply (below_false (cw_lim pm) (fst x) (total a + fst x)); auto. lra.
Qed.

Lemma center_ok rs (ts : list target) : let places := map (r_pos op) rs ++ map (fun t => position op (p_c (tg_pdf t))) ts in
  center op rs ts = (rsum fst places / INR (length places), rsum snd places / INR (length places))%R.
Proof.
  cbv zeta. unfold center. rewrite (fold_rsum fst), (fold_rsum snd), !Rplus_0_l, app_length, !map_length.
  assert (E : map (fun t : target => p_pos op (p_c (tg_pdf t))) ts = map (fun t => position op (p_c (tg_pdf t))) ts) by (apply map_ext; intros; apply position_pos).
  rewrite E. reflexivity.
Qed.

Lemma sum_over_map (f : nat -> R) l : sum_over (fun x => x) (map f l) = sum_over f l.
Proof. induction l as [|a l IH]; simpl; auto. rewrite IH. auto. Qed.

(** One target, given its row of marginals. *)
Lemma update_value rs (t t' : target) (xs : list R) : weak_density (p_c (tg_pdf t)) ->
  length xs = length rs + 1 -> (forall x, In x xs -> (0 <= x)%R) ->
  target_update op pm sortf s rs (map Fin xs) t = Some t' ->
  tg_id t' = tg_id t /\ tg_cid t' = tg_cid t /\ tg_new t' = false /\ tg_t0 t' = tg_t0 t /\
  p_origin (tg_pdf t') = p_origin (tg_pdf t) /\
  ((sum_over (fun x => x) xs < 1 / 1000000)%R -> tg_r t' = Fin 0%R /\ p_c (tg_pdf t') = p_c (tg_pdf t)) /\
  ((1 / 1000000 <= sum_over (fun x => x) xs)%R -> tg_r t' = Fin (sum_over (fun x => x) xs) /\
     mixed pm xs (map fst (against op s rs t) ++ [p_c (tg_pdf t)]) (p_c (tg_pdf t'))).
Proof.
  intros Hw Hl Hx. unfold target_update, target_correct, esum. rewrite esum_fin, Rplus_0_l.
  set (S := sum_over (fun x => x) xs). rewrite le_FF. destruct (Rleb_spec (1 / 1000000) S) as [H6|H6].
  - destruct (join sortf (cw_lim pm) (map number (map Fin xs)) (map fst (against op s rs t) ++ [p_c (tg_pdf t)])) as [(c, eta)| |] eqn:Ej; try discriminate.
    assert (Enum : map number (map Fin xs) = xs) by (rewrite map_map; simpl; apply map_id). rewrite Enum in Ej.
    intros E. inversion E; subst t'. cbn [set_pdf tg_id tg_cid tg_new tg_t0 tg_pdf tg_r p_c p_origin]. do 5 (split; [auto|]). split; [intros; exfalso; lra|].
    intros _. split; auto. destruct (against_ok op Hop s Hs rs t (proj1 Hw)) as (Hla & Ha).
    apply (join_mixed xs _ c eta); auto.
    + rewrite app_length, map_length, Hla. simpl. lia.
    + intros p Hin. apply in_app_or in Hin. destruct Hin as [Hin|[<-|[]]]; [|apply Hw].
      apply in_map_iff in Hin. destruct Hin as (a & <- & Hin). apply Ha. auto.
  - intros E. inversion E; subst t'. cbn [set_pdf tg_id tg_cid tg_new tg_t0 tg_pdf tg_r p_c p_origin]. do 5 (split; [auto|]). split; [auto|]. intros; exfalso; lra.
Qed.

Lemma cluster_value fuel rs (ts : list target) ts' rs' : Forall good ts ->
  cluster_update op pm exp pick sortf s fuel rs ts = Some (ts', rs') -> cluster_result op pm s rs ts ts' rs'.
Proof.
  intros Hg E. unfold cluster_result. cbv zeta. pose proof (center_ok rs ts) as Ho. cbv zeta in Ho. rewrite <- Ho. clear Ho.
  unfold cluster_update in E. destruct (Nat.ltb_spec 30 (length ts)) as [|H30]; [discriminate|].
  set (o := center op rs ts) in *. set (rs1 := map (r_local op o) rs) in *.
  set (ts1 := map (fun t => set_pdf t (tg_r t) (pdf_local op o (tg_pdf t)) (tg_new t)) ts) in *.
  assert (Hl1 : length rs1 = length rs) by apply map_length.
  assert (Hlts : length ts1 = length ts) by apply map_length.
  assert (Hg1 : Forall good ts1).
  { unfold ts1. apply Forall_map. eapply Forall_impl; [|exact Hg]. intros t (H1 & H2). split; auto. cbn. apply linear_weak. auto. }
  destruct (all_some (map (target_input op s rs1) ts1)) as [tins|] eqn:Ei; [|discriminate].
  destruct (inputs_ok op Hop s Hs rs1 ts1 Hg1) as (tins' & Ei' & Hlt & Hv & _). assert (tins' = tins) by congruence. subst tins'. clear Ei'.
  apply all_some_Forall2 in Ei.
  destruct (correct exp pick (w_lim pm) (nhyp_max pm) fuel (length rs1) tins) as [out| |] eqn:Ec; try discriminate.
  match type of E with match ?x with _ => _ end = _ => destruct x as [ts2|] eqn:E2; [|discriminate] end.
  inversion E; subst ts' rs'. clear E.
  assert (H30' : length tins <= 30) by lia.
  pose proof (rB_split exp pick (w_lim pm) (nhyp_max pm) fuel (length rs1) tins out Hpick Hv H30' Ec (exp_no_underflow (length rs1) tins)) as (Hlb & Hb).
  assert (Hrs : forall j z b, nth_error rs j = Some z -> nth_error (c_rB out) j = Some b ->
     nth_error (combine (map (r_global op o) rs1) (c_rB out)) j = Some (r_global op o (r_local op o z), b)).
  { intros j z b E1 E3. assert (Em : nth_error (map (r_global op o) rs1) j = Some (r_global op o (r_local op o z)))
      by (unfold rs1; rewrite map_map, nth_error_map, E1; reflexivity).
    revert Em E3. generalize (map (r_global op o) rs1) as u, (c_rB out) as v. clear. intros u v. revert u v j.
    induction u as [|x u IH]; intros [|y v] [|j] E1 E2; simpl in *; try discriminate; [congruence|auto]. }
  assert (Hlr : length (combine (map (r_global op o) rs1) (c_rB out)) = length rs) by (rewrite combine_length, map_length, Hlb; lia).
  assert (Hfr : Forall2 (fun t c => carried (g_local op o) (p_c (tg_pdf t)) c) ts (map (fun t => p_c (tg_pdf t)) ts1)).
  { unfold ts1. rewrite map_map. cbn. generalize o. clear. intros o. induction ts as [|t ts IH]; constructor; auto. apply carried_linear. }
  destruct ts as [|t0 ts0].
  - cbn in ts1. subst ts1. inversion Ei; subst tins. cbn in E2. exists [], [], [], [].
    unfold correct in Ec. inversion Ec; subst out. cbn [c_n Nat.eqb] in E2. inversion E2; subst ts2. cbn [c_rB] in *.
    split; [constructor|]. do 3 (split; [reflexivity|]). split; [congruence|]. split; [intros [|i] t c Et; discriminate|]. split; auto.
    intros j z Ej. rewrite (Hrs j z (Fin 1%R) Ej).
    + do 3 f_equal. simpl. lra.
    + assert (Hj : j < length rs1) by (rewrite Hl1; apply nth_error_Some; congruence). clear -Hj. revert j Hj. induction (length rs1) as [|n IH]; intros [|j] Hj; simpl; auto; try lia. apply IH. lia.
  - set (ts := t0 :: ts0) in *. assert (Hne : tins <> []) by (intros Hn0; rewrite Hn0 in Hlt; simpl in Hlt; discriminate).
    destruct (truncation_exp pick (w_lim pm) (nhyp_max pm) fuel (length rs1) tins out Hpick Hv H30' Hne Ec) as (ds & Hn & Hnd & H1 & HR & Hhy & Hbest & Hcount & Hstop).
    assert (En : c_n out =? 0 = false) by (apply Nat.eqb_neq; lia). rewrite En in E2. apply all_some_Forall2 in E2.
    exists (map (fun t => p_c (tg_pdf t)) ts1), tins, (map (fun t => map fst (against op s rs1 t)) ts1), ds.
    set (p := marginal (length rs1) (weight (length rs1) tins) ds) in *. rewrite <- Hl1. fold p.
    assert (Hl2 : length ts2 = length ts1).
    { destruct (Forall2_nth _ _ _ E2) as (El & _). rewrite <- El, combine_length, seq_length. lia. }
    split; [exact Hfr|]. split; [lia|]. split; [rewrite map_length; auto|]. split; [rewrite map_length; lia|].
    split. { intros _. split; [exact Hnd|]. split; [exact H1|]. split; [exact Hhy|]. split; [exact Hbest|]. split; [exact Hcount|]. exact Hstop. }
    split; [|split; [rewrite Hlr; auto|]].
    + intros i t c Et Ef. assert (Et1 : nth_error ts1 i = Some (set_pdf t (tg_r t) (pdf_local op o (tg_pdf t)) (tg_new t))).
      { unfold ts1. rewrite nth_error_map, Et. reflexivity. }
      set (t1 := set_pdf t (tg_r t) (pdf_local op o (tg_pdf t)) (tg_new t)) in *. rewrite nth_error_map, Et1 in Ef. simpl in Ef. inversion Ef; subst c. clear Ef.
      destruct (Forall2_nth _ _ _ Ei) as (_ & Hi). destruct (Hi i t1 Et1) as (tin & Etin & Einp).
      assert (Ecomb : nth_error (combine (seq 0 (length ts1)) ts1) i = Some (i, t1)).
      { assert (Hgen : forall (l : list target) k i x, nth_error l i = Some x -> nth_error (combine (seq k (length l)) l) i = Some (k + i, x)).
        { clear. induction l as [|y l IH]; intros k [|i] x Ex; simpl in *; try discriminate; [inversion Ex; subst; rewrite Nat.add_0_r; auto|].
          rewrite (IH (S k) i x Ex). do 2 f_equal. lia. }
        apply (Hgen ts1 0 i t1 Et1). }
      destruct (Forall2_nth _ _ _ E2) as (_ & Hi2). destruct (Hi2 i _ Ecomb) as (t2 & Et2 & Eu). cbn [fst snd] in Eu.
      assert (Hit : i < length tins) by (apply nth_error_Some; congruence).
      rewrite (row_fin (length rs1) i (c_R out) (p i)) in Eu by (intros j Hj; apply HR; auto).
      assert (Hgt : good t1) by (rewrite Forall_forall in Hg1; apply Hg1; eapply nth_error_In; eauto).
      destruct (update_value rs1 t1 t2 (map (p i) (seq 0 (length rs1 + 1)))) as (V1 & V2 & V3 & V4 & V5 & V6 & V7); auto.
      { apply Hgt. }
      { rewrite map_length, seq_length. auto. }
      { intros x Hx. apply in_map_iff in Hx. destruct Hx as (j & <- & _). unfold p, marginal.
        assert (Hw0 : forall d, In d ds -> (0 <= weight (length rs1) tins d)%R) by (intros d Hd; left; apply (Hhy d Hd)).
        assert (Hsum : forall f, (forall d, In d ds -> (0 <= f d)%R) -> (0 <= sum_over f ds)%R).
        { clear. intros f. induction ds as [|d ds IH]; intros H; simpl; [lra|]. pose proof (H d ltac:(simpl; auto)). assert (0 <= sum_over f ds)%R by (apply IH; intros; apply H; simpl; auto). lra. }
        assert (Hpos : (0 < sum_over (weight (length rs1) tins) ds)%R).
        { destruct ds as [|d ds']; [simpl in H1; lia|]. simpl. pose proof (proj2 (proj2 (proj2 (Hhy d ltac:(simpl; auto))))).
          assert (0 <= sum_over (weight (length rs1) tins) ds')%R; [|lra]. clear -Hw0. assert (Hs' : forall e, In e ds' -> (0 <= weight (length rs1) tins e)%R) by (intros; apply Hw0; simpl; auto).
          clear Hw0. induction ds' as [|e l IH]; simpl; [lra|]. pose proof (Hs' e ltac:(simpl; auto)). assert (0 <= sum_over (weight (length rs1) tins) l)%R by (apply IH; intros; apply Hs'; simpl; auto). lra. }
        apply Rmult_le_pos; [|left; apply Rinv_0_lt_compat; auto]. apply Hsum. intros d Hd. destruct (says _ _ _ _); [apply Hw0; auto|lra]. }
      rewrite sum_over_map in V6, V7.
      exists tin, (map fst (against op s rs1 t1)), (set_pdf t2 (tg_r t2) (pdf_global op (tg_pdf t2)) (tg_new t2)), (p_c (tg_pdf t2)).
      split; [exact Etin|]. split; [rewrite nth_error_map, Et1; reflexivity|]. split; [rewrite nth_error_map, Et2; reflexivity|].
      split; [exact (input_weighs s rs1 t1 tin Einp)|]. cbn [set_pdf tg_id tg_cid tg_new tg_t0 tg_r tg_pdf].
      split; [exact V1|]. split; [exact V2|]. split; [exact V3|]. split; [exact V4|]. cbn in V5.
      split; [|split; [|split; [exact V6|exact V7]]].
      * unfold pdf_global. cbn [p_c]. rewrite V5. apply carried_linear.
      * destruct (tg_pdf t2) as [c2 bb2 aa2 o2]. cbn in V5 |- *. subst o2. apply boxed_global.
    + intros j z Ej. assert (Hj : j < length rs1) by (rewrite Hl1; apply nth_error_Some; congruence).
      destruct (Hb j Hj) as (b & Eb & _ & _ & Hsplit). destruct (Hsplit Hne) as (q & Hq & Hsum).
      assert (Eq : sum_over q (seq 0 (length tins)) = sum_over (fun i => p i j) (seq 0 (length ts))).
      { rewrite <- Hlts, <- Hlt. assert (Hi : forall i, In i (seq 0 (length tins)) -> q i = p i j).
        { intros i Hi. apply in_seq in Hi. destruct (Hq i ltac:(lia)) as (E3 & _). rewrite HR in E3 by lia. inversion E3. reflexivity. }
        revert Hi. generalize (seq 0 (length tins)) as l. clear. induction l as [|i l IH]; intros Hi; simpl; auto. rewrite (Hi i) by (simpl; auto). rewrite IH; auto. intros; apply Hi; simpl; auto. }
      rewrite Eq in Hsum. rewrite (Hrs j z (Fin b) Ej).
      * do 3 f_equal. lra.
      * rewrite <- Hlb in Hj. rewrite (nth_error_nth' _ NaN Hj). f_equal. exact Eb.
Qed.
End Values.
