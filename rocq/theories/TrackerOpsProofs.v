(** Proofs about histories of a tracker whose densities are Gaussian mixtures. *)
From Coq Require Import List Arith NArith Bool Reals Lra Lia Permutation.
Import ListNotations.
From Verif Require Import Res Scalar LapBase RTree RTreeSpec RTreeInst Murty MurtyMain Cluster ClusterSpec ClusterProofs ClusterMain
  GM GMSpec GMProofs Tracker TrackerSpec TrackerHist TrackerOps TrackerOpsSpec.
Local Open Scope nat_scope.

Lemma all_some_Forall2 {A B} (f : A -> option B) l xs : all_some (map f l) = Some xs -> Forall2 (fun x y => f x = Some y) l xs.
Proof.
  revert xs. induction l as [|x l IH]; intros xs H; simpl in H.
  - inversion H. constructor.
  - destruct (f x) as [y|] eqn:E; [|discriminate]. destruct (all_some (map f l)) as [ys|]; [|discriminate].
    inversion H; subst. constructor; auto.
Qed.

Lemma Forall2_nth {A B} (R : A -> B -> Prop) l l' : Forall2 R l l' -> length l = length l' /\
  forall i x, nth_error l i = Some x -> exists y, nth_error l' i = Some y /\ R x y.
Proof.
  induction 1 as [|x y l l' H H' (IH1 & IH2)].
  - split; auto. intros [|i] x E; discriminate.
  - split; [simpl; congruence|]. intros [|i] z E; simpl in *; [inversion E; subst; eauto|auto].
Qed.

Lemma powf_range x y : (0 <= x <= 1)%R -> (0 <= y)%R -> exists z, powf x y = Fin z /\ (0 <= z <= 1)%R.
Proof.
  intros (H0 & H1) Hy. unfold powf. destruct (Reqb_spec y 0); [exists 1%R; split; [auto|lra]|].
  destruct (Rltb_spec x 0); [exfalso; lra|]. destruct (Reqb_spec x 0).
  - destruct (Rltb_spec 0 y); [|exfalso; lra]. exists 0%R. split; [auto|lra].
  - exists (Rpower x y). split; auto. split; [left; apply exp_pos|]. unfold Rpower.
    rewrite <- exp_0. destruct (Req_dec x 1) as [->|Hx]; [rewrite ln_1, Rmult_0_r; lra|].
    left. apply exp_increasing. assert (Hl : (ln x < ln 1)%R) by (apply ln_increasing; lra). rewrite ln_1 in Hl.
    assert (0 < y)%R by lra. nra.
Qed.

Section Proofs.
Context {G BB Rep : Type}.
Variable op : ops G BB Rep.
Variable pm : params.
Variable expf : R -> R.
Variable pick : nat -> list (mstate (T := ext R)) -> nat.
Notation comp := (comp (G := G)).
Variable sortf : list comp -> list comp.
Notation pdf := (pdf (G := G) (BB := BB)).
Notation target := (target (P := pdf)).
Implicit Types c : list comp.

(** ** Boxes *)
Lemma llaabbox_real o b : real_box (mkRect (Fin (GM.min0 (llaabbox op o b))) (Fin (GM.min1 (llaabbox op o b)))
  (Fin (GM.max0 (llaabbox op o b))) (Fin (GM.max1 (llaabbox op o b)))).
Proof.
  split; [repeat split; eexists; reflexivity|]. unfold llaabbox. cbn [GM.min0 GM.min1 GM.max0 GM.max1 RTree.min0 RTree.min1 RTree.max0 RTree.max1].
  split; apply le_FF_iff; eapply Rle_trans; try apply Rmin_l; apply Rmax_l.
Qed.

(** ** Weights under moves *)
Lemma linear_total f c : total (gm_linear f c) = total c.
Proof. induction c as [|g c IH]; simpl; auto. rewrite IH. auto. Qed.
Lemma linear_nonneg f c : nonneg c -> nonneg (gm_linear f c).
Proof. intros H g Hg. apply in_map_iff in Hg. destruct Hg as (h & <- & Hh). simpl. auto. Qed.
Lemma linear_length (f : G -> G) c : length (gm_linear f c) = length c.
Proof. apply map_length. Qed.
Lemma linear_nil (f : G -> G) c : gm_linear f c = [] <-> c = [].
Proof. destruct c; simpl; split; auto; discriminate. Qed.

Lemma linear_weak f c : weak_density c -> weak_density (gm_linear f c).
Proof.
  intros (H1 & H2). split; [apply linear_nonneg; auto|]. rewrite linear_nil, linear_total. auto.
Qed.
Lemma linear_density f c : density c -> density (gm_linear f c).
Proof.
  intros (H1 & H2 & H3). split; [apply linear_nonneg; auto|]. rewrite linear_length, linear_total. auto.
Qed.
Lemma density_weak c : density c -> weak_density c.
Proof. intros (H1 & H2 & _). split; auto. Qed.

Lemma weak_total c : weak_density c -> (0 <= total c <= 1)%R.
Proof. intros (H & [->|H2]); simpl; [lra|]. lra. Qed.

Lemma normalize_weak c c' eta : normalize c = (c', eta) -> nonneg c -> weak_density c' /\ (0 <= eta)%R.
Proof.
  intros E H. destruct (normalize_nonneg _ _ _ E H) as (H1 & H2). split; auto. split; auto.
  destruct (normalize_ok _ _ _ E) as [(_ & _ & _ & _ & Ht)|(_ & -> & _)]; auto.
Qed.

(** Normalising a density changes nothing. *)
Lemma normalize_density c : total c = 1%R -> normalize c = (c, 1%R).
Proof.
  intros H. unfold normalize. rewrite wsum_total, H. destruct (Rltb_spec (1 / 100000000) 1); [|exfalso; lra].
  f_equal. rewrite <- (map_id c) at 2. apply map_ext. intros (w, g). cbn [fst snd]. f_equal. field.
Qed.

Lemma normalize_weak_density c : weak_density c -> exists eta, normalize c = (c, eta) /\ (0 <= eta <= 1)%R /\ (total c = 1%R -> eta = 1%R).
Proof.
  intros (H & [->|H2]).
  - exists 0%R. split; [|split; [lra|simpl; lra]]. unfold normalize, wsum. simpl. destruct (Rltb_spec (1 / 100000000) 0); auto. 
  - exists 1%R. rewrite normalize_density by auto. split; auto. split; [lra|auto].
Qed.

(** ** Prediction *)
Lemma survival_range m time last : (0 < tscale pm)%R -> (0 <= survival_prob m <= 1)%R -> (last <= time)%R ->
  exists z, survival pm m time last = Fin z /\ (0 <= z <= 1)%R.
Proof.
  intros Ht Hs Hl. destruct m as [pS q|pS Q]; simpl in *; [|eauto].
  apply powf_range; auto. apply Rmult_le_pos; [lra|]. left. apply Rinv_0_lt_compat. auto.
Qed.

Lemma predict_target_ok m time last (t : target) z : survival pm m time last = Fin z -> (0 <= z <= 1)%R ->
  prob (tg_r t) -> weak_density (p_c (tg_pdf t)) ->
  let t' := predict_target op pm m time last t in
  tg_id t' = tg_id t /\ prob (tg_r t') /\ weak_density (p_c (tg_pdf t')) /\
  length (p_c (tg_pdf t')) = length (p_c (tg_pdf t)) /\ total (p_c (tg_pdf t')) = total (p_c (tg_pdf t)) /\
  (total (p_c (tg_pdf t)) = 1%R -> tg_r t' = nmul extR (tg_r t) (Fin z)).
Proof.
  intros Es Hz (r & Er & Hr) Hw t'. subst t'. unfold predict_target. rewrite Es.
  set (o := p_pos op (p_c (tg_pdf t))). unfold pdf_local. cbn [p_c p_bbox p_aabb p_origin].
  set (c := gm_linear (move op pm m time last) (gm_linear (g_local op o) (p_c (tg_pdf t)))).
  assert (Hc : weak_density c) by (apply linear_weak, linear_weak; auto).
  assert (Ht : total c = total (p_c (tg_pdf t))) by (unfold c; rewrite !linear_total; auto).
  assert (Hl : length c = length (p_c (tg_pdf t))) by (unfold c; rewrite !linear_length; auto).
  destruct (normalize_weak_density c Hc) as (eta & E & Heta & H1). rewrite E.
  cbn [tg_id tg_r tg_pdf]. unfold pdf_global. cbn [p_c]. rewrite Er. rewrite !mul_FF. split; auto. split.
  { exists (r * z * eta)%R. split; auto. split; [repeat apply Rmult_le_pos; lra|].
    assert (0 <= r * z <= 1)%R by (split; [apply Rmult_le_pos; lra|nra]). nra. }
  split; [apply linear_weak; auto|]. rewrite linear_length, linear_total. split; auto. split; auto.
  intros H. rewrite H1 by congruence. rewrite Rmult_1_r. auto.
Qed.

(** ** Correction *)
Lemma pd_range s id j i : sound_sensor s -> (0 <= pd (BB := BB) s id j i <= 1)%R.
Proof.
  intros (_ & _ & Hp & Hh). specialize (Hh id j i). apply le_INR in Hh.
  replace (INR 1000) with 1000%R in Hh by (rewrite INR_IZR_INZ; reflexivity).
  pose proof (pos_INR (sn_hits s id j i)). unfold pd.
  assert (0 <= INR (sn_hits s id j i) / 1000 <= 1)%R by lra. split; [apply Rmult_le_pos; lra|nra].
Qed.

Lemma missed_range (f : nat -> R) c : (forall i, (0 <= f i <= 1)%R) -> weak_density c -> (0 <= gm_missed f c <= 1)%R.
Proof.
  intros Hf Hc. unfold gm_missed, missed_eta. rewrite (fold_rsum (fun ic => fst (snd ic) * f (fst ic))%R).
  destruct Hc as (Hn & Ht).
  assert (H : (0 <= rsum (fun ic => fst (snd ic) * f (fst ic)) (combine (seq 0 (length c)) c) <= total c)%R).
  { clear Ht. generalize 0 as k. induction c as [|g c IH]; intros k; simpl; [lra|].
    pose proof (IH ltac:(intros h Hh; apply Hn; simpl; auto) (S k)) as H. pose proof (Hn g ltac:(simpl; auto)). specialize (Hf k).
    assert (0 <= fst g * f k)%R by (apply Rmult_le_pos; lra). assert (fst g * f k <= fst g)%R by nra. lra. }
  assert (Ht1 : (total c <= 1)%R) by (destruct Ht as [->|Ht]; [simpl; lra|lra]). lra.
Qed.

Section Correction.
Hypothesis Hop : sound_ops op.
Variable s : sensor (BB := BB).
Hypothesis Hs : sound_sensor s.

Lemma correct_weak id j z c c' eta : nonneg c -> gm_correct (upd op s id j z) c = (c', eta) ->
  weak_density c' /\ (0 <= eta)%R /\ length c' <= length c /\ ((0 < eta)%R -> total c' = 1%R).
Proof.
  intros Hn E. unfold gm_correct in E.
  set (c1 := map (fun ic => upd op s id j z (fst ic) (snd ic)) (combine (seq 0 (length c)) c)) in *.
  assert (H1 : nonneg c1).
  { intros g Hg. apply in_map_iff in Hg. destruct Hg as ((i, h) & <- & Hh). apply in_combine_r in Hh. cbn [fst snd]. unfold upd. cbn [fst].
    destruct Hop as (Hl & Hk & _). specialize (Hl z (snd h)). specialize (Hk z). pose proof (pd_range s id j i Hs).
    apply Rmult_le_pos; [auto|]. apply Rmult_le_pos; [apply Rmult_le_pos; lra|]. left. apply Rinv_0_lt_compat. auto. }
  destruct (normalize_weak _ _ _ E H1) as (H2 & H3). split; auto. split; auto.
  destruct (normalize_ok _ _ _ E) as [(_ & _ & Hm & _ & Ht)|(_ & -> & ->)].
  - split; auto. apply (f_equal (@length _)) in Hm. rewrite !map_length in Hm. assert (Hm' : length c' = length c1) by exact Hm. rewrite Hm'. unfold c1.
    rewrite map_length, combine_length, seq_length. lia.
  - split; [simpl; lia|lra].
Qed.

Lemma against_ok rs (t : target) : nonneg (p_c (tg_pdf t)) ->
  length (against op s rs t) = length rs /\
  forall x, In x (against op s rs t) -> weak_density (fst x) /\ (0 <= snd x)%R /\ length (fst x) <= length (p_c (tg_pdf t)) /\
    ((0 < snd x)%R -> total (fst x) = 1%R).
Proof.
  intros Hn. unfold against. split; [rewrite map_length, combine_length, seq_length; lia|].
  intros (c', eta) Hx. apply in_map_iff in Hx. destruct Hx as ((j, z) & E & _). cbn [fst snd] in *. eapply correct_weak; eauto.
Qed.

Lemma input_ok rs (t : target) : prob (tg_r t) -> weak_density (p_c (tg_pdf t)) ->
  exists tin, target_input op s rs t = Some tin /\ valid_target (length rs) tin /\ tg_r t = Fin (t_r tin) /\
    t_lik tin = map snd (against op s rs t).
Proof.
  intros (r & Er & Hr) Hw. unfold target_input. rewrite Er. eexists. split; [reflexivity|]. cbn [t_r t_lik].
  destruct (against_ok rs t (proj1 Hw)) as (Hl & Ha). split; [|auto]. split; [auto|]. cbn [t_lik t_miss t_r]. split; [rewrite map_length; auto|]. split.
  - intros l Hin. apply in_map_iff in Hin. destruct Hin as (x & <- & Hx). apply Ha; auto.
  - apply (missed_range (pd s (tg_id t) (length rs))); auto. intros i. apply pd_range. auto.
Qed.

Lemma inputs_ok rs (ts : list target) : Forall (fun t => prob (tg_r t) /\ weak_density (p_c (tg_pdf t))) ts ->
  exists tins, all_some (map (target_input op s rs) ts) = Some tins /\ length tins = length ts /\
    (forall tin, In tin tins -> valid_target (length rs) tin) /\
    forall i t, nth_error ts i = Some t -> nth_error tins i = Some (nth i tins no_target) /\
      t_lik (nth i tins no_target) = map snd (against op s rs t).
Proof.
  induction 1 as [|t ts (H1 & H2) H (tins & E & Hl & Hv & Hn)].
  - exists []. simpl. split; auto. split; auto. split; [intros ? []|]. intros [|i] t E; discriminate.
  - destruct (input_ok rs t H1 H2) as (tin & Et & Hvt & Er & El). exists (tin :: tins). simpl. rewrite Et, E. split; auto.
    split; [congruence|]. split; [intros x [<-|Hx]; auto|]. intros [|i] u Eu; simpl in *; [inversion Eu; subst; auto|auto].
Qed.

Hypothesis Hsort : valid_sort sortf.
Hypothesis Hpick : valid_pick pick.
Hypothesis Hexp : forall N ts, no_underflow expf N ts.

(** *** One target *)
Lemma join_some w pdfs : length w <= length pdfs -> (forall x, In x w -> (0 <= x)%R) -> (forall p, In p pdfs -> nonneg p) ->
  exists c eta, join sortf (cw_lim pm) w pdfs = Ok (c, eta) /\ weak_density c.
Proof.
  intros Hl Hw Hp. destruct (join_raw_ok sortf (cw_lim pm) w pdfs Hsort Hl Hw Hp) as (c & rest & E & Hperm & _).
  unfold join. rewrite E. cbn [bind]. destruct (normalize c) as (c', eta) eqn:En. exists c', eta. split; auto.
  apply (normalize_weak c c' eta En). intros g Hg. eapply (scaled_nonneg w pdfs Hw Hp). eapply Permutation_in; [exact Hperm|].
  apply in_or_app. auto.
Qed.

(** Enough weight in enough components leaves a density. *)
Lemma join_density w pdfs n : length w <= length pdfs -> (forall x, In x w -> (0 <= x)%R) -> (forall p, In p pdfs -> nonneg p) ->
  (cw_lim pm <= 1)%R -> length (scaled w pdfs) <= n -> (1 / 100000000 * INR n < total (scaled w pdfs))%R ->
  forall c eta, join sortf (cw_lim pm) w pdfs = Ok (c, eta) -> density c.
Proof.
  intros Hl Hw Hp Hcw Hn Ht c' eta Ej. destruct (join_raw_ok sortf (cw_lim pm) w pdfs Hsort Hl Hw Hp) as (c & rest & E & Hperm & Hh & Hk & Hr & _).
  pose proof (scaled_nonneg w pdfs Hw Hp) as Hnn.
  assert (Hnc : nonneg (c ++ rest)) by (intros g Hg; apply Hnn; eapply Permutation_in; eauto).
  assert (Htot : (total (c ++ rest) = total (scaled w pdfs))%R) by (apply total_perm; auto).
  assert (Hlen : length (c ++ rest) <= n) by (rewrite (Permutation_length Hperm); auto).
  unfold join in Ej. rewrite E in Ej. cbn [bind] in Ej. injection Ej as En.
  destruct c as [|g0 c].
  - exfalso. destruct Hr as [Hr|[Hr|(y & Hy & Hz & Hb)]].
    + subst rest. simpl in Htot. pose proof (pos_INR n). lra.
    + unfold MAX_COMPONENTS in Hr. simpl in Hr. lia.
    + simpl in Hb. rewrite Rplus_0_l in Hb. assert (Hy0 : (0 <= fst y)%R) by (apply Hnc; auto).
      apply below_true in Hb; [|lra|lra]. nra.
  - assert (Hmax : forall x, In x ((g0 :: c) ++ rest) -> (fst x <= fst g0)%R).
    { destruct Hh as (Hd & Hcr). inversion Hd as [|? ? Hd1 Hd2]; subst. rewrite Forall_forall in Hd2.
      intros x Hx. apply in_app_or in Hx. destruct Hx as [[<-|Hx]|Hx]; [lra|apply Hd2; auto|apply Hcr; simpl; auto]. }
    assert (Hle : (total ((g0 :: c) ++ rest) <= INR (length ((g0 :: c) ++ rest)) * fst g0)%R).
    { generalize ((g0 :: c) ++ rest) Hmax. intros l. induction l as [|x l IH]; intros Hm; [simpl; lra|].
      change (total (x :: l)) with (fst x + total l)%R. change (length (x :: l)) with (S (length l)). rewrite S_INR.
      pose proof (Hm x ltac:(simpl; auto)). specialize (IH ltac:(intros; apply Hm; simpl; auto)). lra. }
    assert (Hg0 : (0 <= fst g0)%R) by (apply Hnc; simpl; auto).
    assert (Hg : (1 / 100000000 < fst g0)%R).
    { apply le_INR in Hlen. pose proof (pos_INR (length ((g0 :: c) ++ rest))).
      assert (INR (length ((g0 :: c) ++ rest)) * fst g0 <= INR n * fst g0)%R by (apply Rmult_le_compat_r; auto).
      assert (Hlt : (1 / 100000000 * INR n < INR n * fst g0)%R) by lra.
      destruct (Rle_lt_dec (fst g0) (1 / 100000000)); auto. pose proof (pos_INR n). exfalso. nra. }
    assert (Hc : nonneg (g0 :: c)) by (intros g Hin; apply Hnc; apply in_or_app; auto).
    assert (Htc : (fst g0 <= total (g0 :: c))%R).
    { simpl. assert (0 <= total c)%R by (apply total_nonneg; intros g Hin; apply Hc; simpl; auto). lra. }
    destruct (normalize_nonneg _ _ _ En Hc) as (Hnc' & _).
    destruct (normalize_ok _ _ _ En) as [(_ & _ & Hm & _ & Ht1)|(Hx & _)]; [|exfalso; lra].
    split; auto. split; auto. apply (f_equal (@length _)) in Hm. rewrite !map_length in Hm. assert (Hm' : length c' = length (g0 :: c)) by exact Hm. rewrite Hm'. exact Hk.
Qed.

Lemma esum_fin xs a : fold_left (nadd extR) (map Fin xs) (Fin a) = Fin (a + sum_over (fun x => x) xs)%R.
Proof.
  revert a. induction xs as [|x xs IH]; intros a; simpl; [f_equal; lra|].
  change (ext_add _ (Fin a) (Fin x)) with (Fin (a + x)%R). rewrite IH. f_equal. lra.
Qed.

Lemma total_scaled_1 w (pdfs : list (list comp)) : length w = length pdfs ->
  (forall i x p, nth_error w i = Some x -> nth_error pdfs i = Some p -> x = 0%R \/ total p = 1%R) ->
  total (scaled w pdfs) = sum_over (fun x => x) w.
Proof.
  intros Hl H. rewrite total_scaled. revert pdfs Hl H. induction w as [|x w IH]; intros [|p pdfs] Hl H; simpl in *; try discriminate; auto.
  rewrite (IH pdfs); [|congruence|intros i y q E1 E2; apply (H (S i) y q); auto].
  destruct (H 0 x p eq_refl eq_refl) as [->| ->]; lra.
Qed.

Lemma scaled_length w (pdfs : list (list comp)) k : (forall p, In p pdfs -> length p <= k) -> length (scaled w pdfs) <= k * length pdfs.
Proof.
  unfold scaled. revert pdfs. induction w as [|x w IH]; intros [|p pdfs] H; simpl; try lia.
  rewrite app_length, map_length, Nat.mul_succ_r, Nat.add_comm. apply Nat.add_le_mono; [apply IH; intros; apply H; simpl; auto|apply H; simpl; auto].
Qed.

Lemma update_ok rs (t : target) (xs : list R) : prob (tg_r t) -> weak_density (p_c (tg_pdf t)) ->
  length xs = length rs + 1 -> (forall x, In x xs -> (0 <= x)%R) -> (sum_over (fun x => x) xs <= 1)%R ->
  exists t', target_update op pm sortf s rs (map Fin xs) t = Some t' /\ tg_id t' = tg_id t /\ prob (tg_r t') /\ weak_density (p_c (tg_pdf t')) /\
    ((forall j x, nth_error xs j = Some x -> (0 < x)%R -> j < length rs -> (0 < nth j (map snd (against op s rs t)) 0)%R) ->
     density (p_c (tg_pdf t)) -> (cw_lim pm <= 1)%R -> (1 / 100000000 * INR (200 * (length rs + 1)) < r_lim pm)%R ->
     (0 < r_lim pm)%R -> (forall r, tg_r t' = Fin r -> (r_lim pm <= r)%R) -> density (p_c (tg_pdf t'))).
Proof.
  intros Hp Hw Hl Hx Hsum. unfold target_update, target_correct, esum. rewrite esum_fin, Rplus_0_l.
  set (S := sum_over (fun x => x) xs) in *.
  assert (HS : (0 <= S)%R). { unfold S. clear -Hx. induction xs as [|x xs IH]; simpl; [lra|]. pose proof (Hx x ltac:(simpl; auto)).
    assert (0 <= sum_over (fun x => x) xs)%R by (apply IH; intros; apply Hx; simpl; auto). lra. }
  rewrite le_FF. destruct (Rleb_spec (1 / 1000000) S) as [H6|H6].
  2:{ eexists. split; [reflexivity|]. split; [reflexivity|]. cbn [set_pdf tg_r tg_pdf]. split; [exists 0%R; split; [auto|lra]|]. split; auto. }
  assert (Enum : map number (map Fin xs) = xs) by (rewrite map_map; simpl; apply map_id). rewrite Enum.
  destruct (against_ok rs t (proj1 Hw)) as (Hla & Ha). set (pdfs := map fst (against op s rs t) ++ [p_c (tg_pdf t)]).
  assert (Hlp : length xs = length pdfs) by (unfold pdfs; rewrite app_length, map_length, Hla; simpl; lia).
  assert (Hnp : forall p, In p pdfs -> nonneg p).
  { intros p Hin. unfold pdfs in Hin. apply in_app_or in Hin. destruct Hin as [Hin|[<-|[]]]; [|apply Hw].
    apply in_map_iff in Hin. destruct Hin as (a & <- & Hin). apply Ha. auto. }
  destruct (join_some xs pdfs ltac:(lia) Hx Hnp) as (c & eta & Ej & Hwc). rewrite Ej.
  eexists. split; [reflexivity|]. split; [reflexivity|]. cbn [set_pdf tg_r tg_pdf p_c]. split; [exists S; split; [auto|lra]|]. split; auto.
  intros Hpos (Hd1 & Hd2 & Hd3) Hcw Hnum Hrl Hr. specialize (Hr S eq_refl).
  apply (join_density xs pdfs (200 * (length rs + 1))) with (eta := eta); auto; try lia.
  - rewrite Nat.add_comm in Hl. apply Nat.le_trans with (200 * length pdfs); [|lia]. apply scaled_length. intros p Hin. unfold pdfs in Hin.
    apply in_app_or in Hin. destruct Hin as [Hin|[<-|[]]]; auto. apply in_map_iff in Hin. destruct Hin as (a & <- & Hin).
    destruct (Ha a Hin) as (_ & _ & Hle & _). lia.
  - rewrite (total_scaled_1 xs pdfs Hlp); [fold S; lra|]. intros i x p E1 E2.
    destruct (Hx x (nth_error_In _ _ E1)) as [Hx0|Hx0]; [|auto]. right.
    destruct (Nat.lt_ge_cases i (length rs)) as [Hi|Hi].
    + unfold pdfs in E2. rewrite nth_error_app1 in E2 by (rewrite map_length; lia).
      specialize (Hpos i x E1 Hx0 Hi). rewrite nth_error_map in E2. destruct (nth_error (against op s rs t) i) as [a|] eqn:Ea; [|discriminate].
      simpl in E2. inversion E2; subst p. apply (Ha a (nth_error_In _ _ Ea)).
      rewrite nth_indep with (d' := snd a) in Hpos by (rewrite map_length; lia). rewrite map_nth in Hpos.
      rewrite (nth_error_nth _ _ a Ea) in Hpos. exact Hpos.
    + assert (i < length xs) by (apply nth_error_Some; congruence). assert (i = length rs) by lia. subst i.
      unfold pdfs in E2. rewrite nth_error_app2 in E2 by (rewrite map_length; lia). rewrite map_length, Hla, Nat.sub_diag in E2.
      simpl in E2. inversion E2; subst p. auto.
Qed.

(** *** The cluster *)
Lemma row_fin N i l (p : nat -> R) : (forall j, j <= N -> nth (i * (N + 1) + j) l NaN = Fin (p j)) ->
  row_of N i l = map Fin (map p (seq 0 (N + 1))).
Proof.
  intros H. assert (Hlen : i * (N + 1) + N < length l).
  { destruct (Nat.lt_ge_cases (i * (N + 1) + N) (length l)) as [|Hge]; auto. specialize (H N (Nat.le_refl N)).
    rewrite nth_overflow in H by auto. discriminate. }
  unfold row_of. apply nth_ext with (d := NaN) (d' := NaN).
  - rewrite firstn_length, skipn_length, !map_length, seq_length. lia.
  - intros j Hj. rewrite firstn_length, skipn_length in Hj. assert (Hj' : j < N + 1) by lia.
    rewrite map_map. rewrite nth_map_seq by auto. rewrite <- H by lia.
    assert (Hs' : forall (a : list (ext R)) n k, nth k (skipn n a) NaN = nth (n + k) a NaN).
    { clear. induction a as [|x a IH]; intros [|n] k; simpl; auto; destruct k; auto. }
    assert (Hf : forall (a : list (ext R)) n k, k < n -> nth k (firstn n a) NaN = nth k a NaN).
    { clear. induction a as [|x a IH]; intros [|n] k Hk; simpl; auto; try lia. destruct k; auto. apply IH. lia. }
    rewrite Hf by auto.
    apply Hs'.
Qed.

Lemma marginal_pos N (tins : list target_in) w ds i j : (forall t, In t tins -> valid_target N t) ->
  (forall d, In d ds -> hypothesis N tins d) -> (0 < sum_over w ds)%R -> (forall d, (0 <= w d)%R) ->
  i < length tins -> j < N -> (0 < marginal N w ds i j)%R -> (0 < nth j (t_lik (nth i tins no_target)) 0)%R.
Proof.
  intros Hv Hh Hsum Hw Hi Hj Hm. unfold marginal in Hm.
  assert (Hpos : (0 < sum_over (fun s => if says N i j s then w s else 0) ds)%R).
  { apply (Rmult_lt_reg_r (/ sum_over w ds)); [apply Rinv_0_lt_compat; auto|]. rewrite Rmult_0_l. exact Hm. }
  assert (Hex : exists d, In d ds /\ says N i j d = true).
  { clear -Hpos. induction ds as [|d ds IH]; simpl in Hpos; [lra|]. destruct (says N i j d) eqn:E; [exists d; simpl; auto|].
    rewrite Rplus_0_l in Hpos. destruct (IH Hpos) as (e & He & Hse). exists e. simpl. auto. }
  destruct Hex as (d & Hd & Hsay). destruct (Hh d Hd) as (Hl & _ & Hb & Hwt). unfold weight in Hwt.
  rewrite prod_over_pos in Hwt.
  2:{ intros k Hk. apply in_seq in Hk. apply cw_nonneg. apply Hv. apply nth_In. lia. }
  specialize (Hwt i ltac:(apply in_seq; lia)). unfold says in Hsay. destruct (Nat.ltb_spec j N); [|lia].
  apply Nat.eqb_eq in Hsay. rewrite Hsay in Hwt. unfold choice_weight in Hwt. destruct (Nat.ltb_spec j N); [|lia].
  destruct (Hv (nth i tins no_target)) as ((Hr0 & Hr1) & Hll & Hlk & _); [apply nth_In; auto|].
  assert (Hn0 : (0 <= nth j (t_lik (nth i tins no_target)) 0)%R) by (apply Hlk, nth_In; lia).
  destruct Hn0 as [Hn0|Hn0]; auto. rewrite <- Hn0, Rmult_0_r in Hwt. lra.
Qed.

Lemma correct_lengths N tins fuel out :
  correct expf pick (w_lim pm) (nhyp_max pm) fuel N tins = Ok out -> length (c_rB out) = N.
Proof.
  unfold correct. destruct tins as [|t tins]; [intros H; inversion H; simpl; apply repeat_length|].
  destruct (associate expf pick (w_lim pm) (nhyp_max pm) fuel N (t :: tins)) as [((n, ws), Rm)| |]; try discriminate.
  cbn [bind]. destruct n; intros H; inversion H; simpl; [apply repeat_length|rewrite map_length, seq_length; auto].
Qed.

Definition good (t : target) : Prop := prob (tg_r t) /\ weak_density (p_c (tg_pdf t)).

Lemma all_some_ok {A B} (f : A -> option B) l : (forall x, In x l -> exists y, f x = Some y) -> exists ys, all_some (map f l) = Some ys.
Proof.
  induction l as [|x l IH]; intros H; simpl; [eauto|]. destruct (H x ltac:(simpl; auto)) as (y & Ey).
  destruct IH as (ys & E); [intros; apply H; simpl; auto|]. rewrite Ey, E. eauto.
Qed.

Lemma Forall2_in_r {A B} (R : A -> B -> Prop) l l' y : Forall2 R l l' -> In y l' -> exists x, In x l /\ R x y.
Proof.
  induction 1 as [|a b l l' Hab H IH]; intros Hy; [destruct Hy|]. destruct Hy as [<-|Hy]; [exists a; simpl; auto|].
  destruct (IH Hy) as (x & Hx & Hr). exists x. simpl. auto.
Qed.

Lemma cluster_update_ids fuel rs (ts : list target) ts' rs' : cluster_update op pm expf pick sortf s fuel rs ts = Some (ts', rs') ->
  map tg_id ts' = map tg_id ts /\ length rs' = length rs.
Proof.
  unfold cluster_update. destruct (30 <? length ts); [discriminate|].
  set (o := center op rs ts). set (rs1 := map (r_local op o) rs).
  set (ts1 := map (fun t => set_pdf t (tg_r t) (pdf_local op o (tg_pdf t)) (tg_new t)) ts).
  assert (E1 : map tg_id ts1 = map tg_id ts) by (unfold ts1; rewrite map_map; reflexivity).
  destruct (all_some (map (target_input op s rs1) ts1)) as [tins|]; [|discriminate].
  destruct (correct expf pick (w_lim pm) (nhyp_max pm) fuel (length rs1) tins) as [out| |] eqn:Ec; try discriminate.
  match goal with |- match ?x with _ => _ end = _ -> _ => destruct x as [ts2|] eqn:E2; [|discriminate] end.
  intros H. inversion H; subst ts' rs'. split.
  - rewrite map_map. simpl. rewrite <- E1. destruct (c_n out =? 0).
    + inversion E2; subst ts2. rewrite map_map. reflexivity.
    + apply all_some_Forall2 in E2. revert E2. generalize 0 as k. clear. revert ts2. induction ts1 as [|t ts1 IH]; intros ts2 k E2; simpl in E2.
      * inversion E2. reflexivity.
      * inversion E2 as [|? t' ? ts2' H1 H2]; subst. simpl. f_equal; [|eapply IH; eauto]. cbn [fst snd] in H1.
        unfold target_update in H1. destruct (target_correct _) as (r & [|]); [|inversion H1; reflexivity].
        destruct (join _ _ _ _) as [(c, eta)| |]; inversion H1. reflexivity.
  - rewrite combine_length, map_length, (correct_lengths _ _ _ _ Ec). unfold rs1. rewrite map_length. lia.
Qed.

Lemma cluster_update_ok fuel rs (ts : list target) ts' rs' : Forall good ts ->
  cluster_update op pm expf pick sortf s fuel rs ts = Some (ts', rs') ->
  Forall good ts' /\ (forall dx, In dx rs' -> exists w, snd dx = Fin w /\ (0 <= w <= 1)%R) /\
  (Forall (fun t => density (p_c (tg_pdf t))) ts -> (cw_lim pm <= 1)%R -> (0 < r_lim pm)%R ->
   (1 / 100000000 * INR (200 * (length rs + 1)) < r_lim pm)%R ->
   Forall (fun t => (forall r, tg_r t = Fin r -> (r_lim pm <= r)%R) -> density (p_c (tg_pdf t))) ts').
Proof.
  intros Hg. unfold cluster_update. destruct (Nat.ltb_spec 30 (length ts)) as [|H30]; [discriminate|].
  set (o := center op rs ts). set (rs1 := map (r_local op o) rs).
  set (ts1 := map (fun t => set_pdf t (tg_r t) (pdf_local op o (tg_pdf t)) (tg_new t)) ts).
  assert (Hl1 : length rs1 = length rs) by apply map_length.
  assert (Hg1 : Forall good ts1).
  { unfold ts1. apply Forall_map. eapply Forall_impl; [|exact Hg]. intros t (H1 & H2). split; auto. cbn. apply linear_weak. auto. }
  destruct (inputs_ok rs1 ts1 Hg1) as (tins & Ei & Hlt & Hv & Hn). rewrite Ei.
  assert (Hlts : length ts1 = length ts) by apply map_length.
  destruct (correct expf pick (w_lim pm) (nhyp_max pm) fuel (length rs1) tins) as [out| |] eqn:Ec; try discriminate.
  assert (H30' : length tins <= 30) by lia.
  match goal with |- match ?x with _ => _ end = _ -> _ => destruct x as [ts2|] eqn:E2; [|discriminate] end.
  intros H. inversion H; subst ts' rs'. clear H.
  assert (Hmain : Forall good ts2 /\ (Forall (fun t => density (p_c (tg_pdf t))) ts -> (cw_lim pm <= 1)%R -> (0 < r_lim pm)%R ->
     (1 / 100000000 * INR (200 * (length rs + 1)) < r_lim pm)%R ->
     Forall (fun t => (forall r, tg_r t = Fin r -> (r_lim pm <= r)%R) -> density (p_c (tg_pdf t))) ts2)).
  { destruct (c_n out =? 0) eqn:En.
    - inversion E2; subst ts2. split.
      + apply Forall_map. eapply Forall_impl; [|exact Hg1]. intros t (H1 & H2). split; auto.
      + intros Hd _ _ _. apply Forall_map. unfold ts1. apply Forall_map. eapply Forall_impl; [|exact Hd].
        intros t H _. cbn. apply linear_density. auto.
    - apply Nat.eqb_neq in En.
      assert (HM : 0 < length tins).
      { destruct tins; [|simpl; lia]. exfalso. unfold correct in Ec. inversion Ec; subst out. apply En. reflexivity. }
      destruct (correct_outcome expf pick Hpick (w_lim pm) (nhyp_max pm) (length rs1) tins Hv H30' (Hexp (length rs1) tins) fuel out HM Ec)
        as (ds & Hu & _ & HR & _).
      set (w := fun d => expf (ln (weight (length rs1) tins d))) in HR.
      set (p := marginal (length rs1) w ds) in HR.
      assert (Hpos : (0 < sum_over w ds)%R) by (apply (used_pos expf (w_lim pm) (nhyp_max pm) _ _ (Hexp (length rs1) tins) ds Hu)).
      assert (Hw0 : forall d, (0 <= w d)%R) by (intros d; apply (proj1 (Hexp (length rs1) tins))).
      assert (Hstep : forall i t, nth_error ts1 i = Some t -> exists t',
        target_update op pm sortf s rs1 (row_of (length rs1) i (c_R out)) t = Some t' /\ good t' /\
        (density (p_c (tg_pdf t)) -> (cw_lim pm <= 1)%R -> (1 / 100000000 * INR (200 * (length rs + 1)) < r_lim pm)%R ->
         (0 < r_lim pm)%R -> (forall r, tg_r t' = Fin r -> (r_lim pm <= r)%R) -> density (p_c (tg_pdf t')))).
      { intros i t Et. assert (Hi : i < length ts1) by (apply nth_error_Some; congruence).
        rewrite (row_fin (length rs1) i (c_R out) (p i)) by (intros j Hj; apply HR; lia).
        assert (Hgt : good t) by (rewrite Forall_forall in Hg1; apply Hg1; eapply nth_error_In; eauto).
        destruct (update_ok rs1 t (map (p i) (seq 0 (length rs1 + 1)))) as (t' & Eu & _ & Hp & Hwd & Hdens).
        - apply Hgt.
        - apply Hgt.
        - rewrite map_length, seq_length. auto.
        - intros x Hx. apply in_map_iff in Hx. destruct Hx as (j & <- & Hj).
          apply (marginal_nonneg expf (w_lim pm) (nhyp_max pm) _ _ (Hexp (length rs1) tins) ds i j Hu).
        - pose proof (row_sum_le expf (w_lim pm) (nhyp_max pm) _ _ H30' (Hexp (length rs1) tins) ds i Hu) as (_ & Hle).
          assert (Esum : forall (f : nat -> R) l, sum_over (fun x => x) (map f l) = sum_over f l).
          { clear. intros f l. induction l as [|a l IH]; simpl; auto. rewrite IH. auto. }
          rewrite Esum. exact Hle.
        - exists t'. split; auto. split; [split; auto|]. rewrite Hl1 in Hdens. intros Hd Hcw Hnum Hrl Hr. apply Hdens; auto.
          intros j x Ex Hx Hj. destruct (Hn i t Et) as (_ & El). rewrite <- El.
          apply (marginal_pos (length rs1) tins w ds i j); auto; try lia.
          + apply Hu.
          + rewrite nth_error_map in Ex. destruct (nth_error (seq 0 (length rs + 1)) j) as [j'|] eqn:Ej.
            * assert (j' = j). { apply nth_error_nth with (d := 0) in Ej. rewrite seq_nth in Ej by lia. simpl in Ej. congruence. }
              subst j'. simpl in Ex. inversion Ex; subst x. exact Hx.
            * apply nth_error_None in Ej. rewrite seq_length in Ej. lia. }
      apply all_some_Forall2 in E2.
      assert (Hcomb : forall it, In it (combine (seq 0 (length ts1)) ts1) -> nth_error ts1 (fst it) = Some (snd it)).
      { assert (Hgen : forall (l : list target) k it, In it (combine (seq k (length l)) l) -> nth_error l (fst it - k) = Some (snd it) /\ k <= fst it).
        { clear. induction l as [|t l IH]; intros k it Hin; [destruct Hin|]. destruct Hin as [<-|Hin]; [simpl; rewrite Nat.sub_diag; auto|].
          destruct (IH (S k) it Hin) as (E & Hle). split; [|lia]. replace (fst it - k) with (S (fst it - S k)) by lia. simpl. auto. }
        intros it Hin. destruct (Hgen _ _ _ Hin) as (E & _). rewrite Nat.sub_0_r in E. auto. }
      split.
      + apply Forall_forall. intros t' Hin. destruct (Forall2_in_r _ _ _ _ E2 Hin) as ((i, t) & Hit & Eu). cbn [fst snd] in Eu.
        destruct (Hstep i t (Hcomb _ Hit)) as (t'' & Eu' & Hgood & _). rewrite Eu in Eu'. inversion Eu'; subst. auto.
      + intros Hd Hcw Hrl Hnum. apply Forall_forall. intros t' Hin. destruct (Forall2_in_r _ _ _ _ E2 Hin) as ((i, t) & Hit & Eu). cbn [fst snd] in Eu.
        destruct (Hstep i t (Hcomb _ Hit)) as (t'' & Eu' & _ & Hdens). rewrite Eu in Eu'. inversion Eu'; subst. apply Hdens; auto.
        pose proof (nth_error_In _ _ (Hcomb _ Hit)) as Hin1. cbn [snd] in Hin1. unfold ts1 in Hin1. apply in_map_iff in Hin1. destruct Hin1 as (t0 & <- & Hin0).
        cbn. apply linear_density. rewrite Forall_forall in Hd. auto. }
  destruct Hmain as (Hm1 & Hm2). split; [|split].
  - apply Forall_map. eapply Forall_impl; [|exact Hm1]. intros t (H1 & H2). split; auto. cbn. apply linear_weak. auto.
  - intros (d, x) Hin. apply in_combine_r in Hin. cbn [snd].
    destruct (rB_split expf pick (w_lim pm) (nhyp_max pm) fuel (length rs1) tins out Hpick Hv H30' Ec (Hexp (length rs1) tins)) as (Hlb & Hb).
    apply (In_nth _ _ NaN) in Hin. destruct Hin as (j & Hj & <-). rewrite Hlb in Hj. destruct (Hb j Hj) as (b & E & Hb01 & _). eauto.
  - intros Hd Hcw Hrl Hnum. apply Forall_map. eapply Forall_impl; [|exact (Hm2 Hd Hcw Hrl Hnum)]. intros t H Hr. cbn. apply linear_density. apply H. exact Hr.
Qed.
Lemma cluster_update_returns rs (ts : list target) : Forall good ts -> length ts <= 30 ->
  exists f0, forall fuel, f0 <= fuel -> cluster_update op pm expf pick sortf s fuel rs ts <> None.
Proof.
  intros Hg H30.
  set (o := center op rs ts). set (rs1 := map (r_local op o) rs).
  set (ts1 := map (fun t => set_pdf t (tg_r t) (pdf_local op o (tg_pdf t)) (tg_new t)) ts).
  assert (Hg1 : Forall good ts1).
  { unfold ts1. apply Forall_map. eapply Forall_impl; [|exact Hg]. intros t (H1 & H2). split; auto. cbn. apply linear_weak. auto. }
  destruct (inputs_ok rs1 ts1 Hg1) as (tins & Ei & Hlt & Hv & Hn).
  assert (H30' : length tins <= 30) by (rewrite Hlt; unfold ts1; rewrite map_length; auto).
  destruct (correct_returns expf pick Hpick (w_lim pm) (nhyp_max pm) (length rs1) tins Hv H30') as (_ & f0 & out & Hrun).
  exists f0. intros fuel Hf. specialize (Hrun fuel Hf). unfold cluster_update. destruct (Nat.ltb_spec 30 (length ts)) as [|_]; [lia|].
  fold o. fold rs1. fold ts1. rewrite Ei, Hrun. destruct (c_n out =? 0) eqn:En; [discriminate|]. apply Nat.eqb_neq in En.
  assert (HM : 0 < length tins).
  { destruct tins; [|simpl; lia]. exfalso. unfold correct in Hrun. inversion Hrun; subst out. apply En. reflexivity. }
  destruct (correct_outcome expf pick Hpick (w_lim pm) (nhyp_max pm) (length rs1) tins Hv H30' (Hexp (length rs1) tins) fuel out HM Hrun)
    as (ds & Hu & _ & HR & _).
  destruct (all_some_ok (fun it => target_update op pm sortf s rs1 (row_of (length rs1) (fst it) (c_R out)) (snd it))
    (combine (seq 0 (length ts1)) ts1)) as (ts2 & ->); [|discriminate].
  intros (i, t) Hit. cbn [fst snd]. pose proof (in_combine_l _ _ _ _ Hit) as Hi. apply in_seq in Hi. apply in_combine_r in Hit.
  rewrite Forall_forall in Hg1. destruct (Hg1 t Hit) as (Hp & Hw).
  rewrite (row_fin (length rs1) i (c_R out) (marginal (length rs1) (fun d => expf (ln (weight (length rs1) tins d))) ds i))
    by (intros j Hj; apply HR; lia).
  edestruct (update_ok rs1 t) as (t' & Eu & _); [exact Hp|exact Hw| | | |exists t'; exact Eu].
  - rewrite map_length, seq_length. auto.
  - intros x Hx. apply in_map_iff in Hx. destruct Hx as (j & <- & Hj).
    apply (marginal_nonneg expf (w_lim pm) (nhyp_max pm) _ _ (Hexp (length rs1) tins) ds i j Hu).
  - pose proof (row_sum_le expf (w_lim pm) (nhyp_max pm) _ _ H30' (Hexp (length rs1) tins) ds i Hu) as (_ & Hle).
    assert (Esum : forall (f : nat -> R) l, sum_over (fun x => x) (map f l) = sum_over f l).
    { clear. intros f l. induction l as [|a l IH]; simpl; auto. rewrite IH. auto. }
    rewrite Esum. exact Hle.
Qed.
End Correction.
End Proofs.
