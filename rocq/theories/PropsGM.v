(** Properties C38-C43: Gaussian mixtures (include/gm.hpp).

    Mixtures are lists of weighted components; weights are real numbers.
    [sortf] is any function that sorts by non-increasing weight. *)
From Coq Require Import List Arith ZArith Bool Reals Lra Lia Permutation Sorted.
Import ListNotations.
From Verif Require Import Res Scalar LapBase Cluster GM GMSpec GMProofs.
Local Open Scope nat_scope.

(** *** C38 *)
Theorem C38_normalize : forall (G : Type) (c : list (comp (G := G))) c' eta,
  normalize c = (c', eta) -> normalised c c' eta.
Proof. intros G c c' eta. exact (normalize_ok c c' eta). Qed.
Print Assumptions C38_normalize.

Theorem C38_correct : forall (G : Type) (upd : nat -> comp -> comp) (c : list (comp (G := G))) c' eta,
  gm_correct upd c = (c', eta) ->
  normalised (map (fun ic => upd (fst ic) (snd ic)) (combine (seq 0 (length c)) c)) c' eta.
Proof. intros G upd c c' eta. exact (normalize_ok _ c' eta). Qed.
Print Assumptions C38_correct.

Theorem C38_join : forall (G : Type) sortf cw_lim w (pdfs : list (list (comp (G := G)))) c' eta,
  join sortf cw_lim w pdfs = Ok (c', eta) ->
  exists c, join_raw sortf cw_lim w pdfs = Ok c /\ normalised c c' eta.
Proof.
  intros G sortf cw w pdfs c' eta H. unfold join in H. destruct (join_raw sortf cw w pdfs) as [c| |]; try discriminate.
  exists c. split; auto. cbn [bind] in H. injection H as H. exact (normalize_ok c c' eta H).
Qed.
Print Assumptions C38_join.

Theorem C38_prune : forall (G : Type) sortf cw_lim (c : list (comp (G := G))) c' eta,
  valid_sort sortf -> (1 / 100000000 < cw_lim)%R -> prune sortf cw_lim c = (c', Some eta) -> total c' = 1%R.
Proof. intros G sortf cw c c' eta. exact (prune_sum sortf cw c c' eta). Qed.
Print Assumptions C38_prune.

(** *** C39 *)
Theorem C39_join_heaviest : forall (G : Type) sortf cw_lim w (pdfs : list (list (comp (G := G)))),
  valid_sort sortf -> length w <= length pdfs ->
  (forall x, In x w -> (0 <= x)%R) -> (forall p, In p pdfs -> nonneg p) ->
  exists c rest, join_raw sortf cw_lim w pdfs = Ok c /\
    Permutation (c ++ rest) (scaled w pdfs) /\ heaviest c rest /\ length c <= MAX_COMPONENTS /\
    (rest = [] \/ length c = MAX_COMPONENTS \/
     exists y, In y rest /\ (forall z, In z rest -> (fst z <= fst y)%R) /\ (fst y < cw_lim * (total c + fst y))%R) /\
    (forall a x b, c = a ++ x :: b -> (0 < total a + fst x)%R -> (cw_lim * (total a + fst x) <= fst x)%R).
Proof.
  intros G sortf cw w pdfs Hs Hl Hw Hp.
  destruct (join_raw_ok sortf cw w pdfs Hs Hl Hw Hp) as (c & rest & E & Hperm & Hh & Hk & Hr & Hkw).
  assert (Hn : nonneg (c ++ rest)).
  { intros g Hg. eapply (scaled_nonneg w pdfs Hw Hp). eapply Permutation_in; eauto. }
  exists c, rest. split; auto. split; auto. split; auto. split; auto. split.
  - destruct Hr as [Hr|[Hr|(y & Hy & Hz & Hb)]]; auto. right. right. exists y. split; auto. split; auto.
    assert (Hy0 : (0 <= fst y)%R) by (apply Hn; apply in_or_app; auto).
    assert (Hc0 : (0 <= total c)%R) by (apply total_nonneg; intros g Hg; apply Hn; apply in_or_app; auto).
    apply (below_true cw (fst y) (total c + fst y)); auto. lra.
  - intros a x b Ec Hpos. specialize (Hkw a x b Ec). rewrite Rplus_0_l in Hkw.
    assert (Hc : forall g, In g c -> (0 <= fst g)%R) by (intros g Hg; apply Hn; apply in_or_app; auto).
    assert (Hx0 : (0 <= fst x)%R) by (apply Hc; rewrite Ec; apply in_or_app; simpl; auto).
    assert (Ha0 : (0 <= total a)%R) by (apply total_nonneg; intros g Hg; apply Hc; rewrite Ec; apply in_or_app; auto).
    apply (below_false cw (fst x) (total a + fst x)); auto. lra.
Qed.
Print Assumptions C39_join_heaviest.

(** *** C40 *)
Theorem C40_prune_heaviest : forall (G : Type) sortf cw_lim (c : list (comp (G := G))), valid_sort sortf ->
  exists kept light surplus, Permutation (kept ++ light ++ surplus) c /\
    (forall g, In g light -> (fst g < cw_lim)%R) /\ (forall g, In g (kept ++ surplus) -> (cw_lim <= fst g)%R) /\
    heaviest kept surplus /\ length kept <= MAX_COMPONENTS /\ (surplus <> [] -> length kept = MAX_COMPONENTS) /\
    (kept = [] -> prune sortf cw_lim c = ([], None)) /\
    (kept <> [] -> exists c' eta, prune sortf cw_lim c = (c', Some eta) /\ normalised kept c' eta).
Proof. intros G sortf cw c. exact (prune_ok sortf cw c). Qed.
Print Assumptions C40_prune_heaviest.
Theorem C40_sum_heaviest : forall (G : Type) sortf cw_lim (a b : list (comp (G := G))), valid_sort sortf ->
  exists kept light surplus, Permutation (kept ++ light ++ surplus) (a ++ b) /\
    (forall g, In g light -> (fst g < cw_lim)%R) /\ (forall g, In g (kept ++ surplus) -> (cw_lim <= fst g)%R) /\
    heaviest kept surplus /\ length kept <= MAX_COMPONENTS /\ (surplus <> [] -> length kept = MAX_COMPONENTS) /\
    (kept = [] -> plus sortf cw_lim a b = []) /\
    (kept <> [] -> exists eta, normalised kept (plus sortf cw_lim a b) eta).
Proof. intros G sortf cw a b. exact (plus_ok sortf cw a b). Qed.
Print Assumptions C40_sum_heaviest.

(** *** C41 *)
Theorem C41_join_moments : forall (G : Type) sortf cw_lim w (pdfs : list (list (comp (G := G)))) c' eta,
  valid_sort sortf -> length w <= length pdfs ->
  (forall x, In x w -> (0 <= x)%R) -> (forall p, In p pdfs -> nonneg p /\ (p = [] \/ total p = 1%R)) ->
  join sortf cw_lim w pdfs = Ok (c', eta) -> c' <> [] -> length c' = length (scaled w pdfs) ->
  let W := rsum (fun wp => fst wp * total (snd wp))%R (combine w pdfs) in
  (0 < W)%R /\
  (forall x, mean x c' = rsum (fun wp => fst wp * mean x (snd wp)) (combine w pdfs) / W)%R /\
  (forall (p : G -> R) x y, cov p x y c' =
     rsum (fun wp => fst wp * (cov p x y (snd wp) +
        total (snd wp) * ((mean x (snd wp) - mean x c') * (mean y (snd wp) - mean y c')))) (combine w pdfs) / W)%R.
Proof.
  intros G sortf cw w pdfs c' eta Hs Hl Hw Hp E Hne Hlen W.
  exact (proj2 (join_moments sortf cw w pdfs c' eta Hs Hl Hw Hp E Hne Hlen)).
Qed.
Print Assumptions C41_join_moments.

(** *** C42: never writes outside, leaves fewer columns than components unwritten. *)
Theorem C42_sample_in_bounds : forall (G : Type) cols (c : list (comp (G := G))), nonneg c -> (total c <= 1)%R ->
  exists ns, Forall2 (fun g n => (INR n <= fst g * INR cols < INR n + 1)%R) c ns /\ nsum ns <= cols /\
    sample_cols cols c = Ok (flat_map (fun i => repeat (Some (fst i)) (snd i)) (combine (seq 0 (length c)) ns) ++
                             repeat None (cols - nsum ns)) /\
    (total c = 1%R -> cols - nsum ns < length c \/ cols = nsum ns).
Proof. intros G cols c. exact (sample_cols_ok cols c). Qed.
Print Assumptions C42_sample_in_bounds.

(** Not all columns are written: weights 1/3 and 2/3, 1000 columns as in pos_phd. *)
Theorem C42_all_columns_refuted : exists c : list (comp (G := unit)), nonneg c /\ total c = 1%R /\
  exists out, sample_cols 1000 c = Ok out /\ length out = 1000 /\ In None out.
Proof.
  exists [((1 / 3)%R, tt); ((2 / 3)%R, tt)].
  assert (Hn : nonneg (G := unit) [((1 / 3)%R, tt); ((2 / 3)%R, tt)]) by (intros g [<-|[<-|[]]]; simpl; lra).
  assert (Ht : total (G := unit) [((1 / 3)%R, tt); ((2 / 3)%R, tt)] = 1%R) by (simpl; lra).
  split; auto. split; auto.
  destruct (sample_cols_ok 1000 _ Hn ltac:(rewrite Ht; lra)) as (ns & Hf & Hs & E & _).
  destruct ns as [|a [|b [|? ?]]]; try (inversion Hf as [|? ? ? ? ? X]; inversion X as [|? ? ? ? ? Y]; inversion Y; fail); try (inversion Hf; fail).
  inversion Hf as [|? ? ? ? Ha X]; subst. inversion X as [|? ? ? ? Hb _]; subst. clear Hf X. cbn [fst] in *.
  assert (H1000 : INR 1000 = 1000%R) by (rewrite INR_IZR_INZ; reflexivity). rewrite H1000 in *.
  assert (Hlt : a + b < 1000).
  { assert (a < 334 /\ b < 667) by (split; apply INR_lt; rewrite (INR_IZR_INZ 334) || rewrite (INR_IZR_INZ 667); simpl; lra). lia. }
  eexists. split; [exact E|]. cbn [nsum length seq combine flat_map fst snd] in *. rewrite app_nil_r, !app_length, !repeat_length.
  split; [lia|]. apply in_or_app. right. replace (1000 - (a + (b + 0))) with (S (1000 - (a + (b + 0)) - 1)) by lia. simpl. auto.
Qed.
Print Assumptions C42_all_columns_refuted.

(** *** C43 *)
Theorem C43_box_of_mixture : forall (G : Type) (x0 x1 : G -> R) (cbox : G -> aabb) (c : list (comp (G := G))),
  c <> [] -> (forall g, In g c -> point_in (x0 (snd g)) (x1 (snd g)) (cbox (snd g))) ->
  exists b, local_aabbox x0 x1 cbox c = Some b /\
    (forall g, In g c -> inside_box (cbox (snd g)) b /\ point_in (x0 (snd g)) (x1 (snd g)) b) /\
    (forall b', (forall g, In g c -> inside_box (cbox (snd g)) b') -> inside_box b b').
Proof. intros G x0 x1 cbox c. exact (local_box_ok x0 x1 cbox c). Qed.
Print Assumptions C43_box_of_mixture.

(** ** Examples *)

(** Insertion sort is one possible std::sort. *)
Fixpoint ins {G} (x : comp (G := G)) (l : list comp) : list comp :=
  match l with [] => [x] | y :: l' => if Rltb (fst x) (fst y) then y :: ins x l' else x :: l end.
Definition isort {G} (l : list (comp (G := G))) : list comp := fold_right ins [] l.

Lemma ins_perm {G} (x : comp (G := G)) l : Permutation (x :: l) (ins x l).
Proof.
  induction l as [|y l IH]; simpl; auto. destruct (Rltb (fst x) (fst y)); auto.
  rewrite perm_swap. constructor. auto.
Qed.
Lemma ins_dec {G} (x : comp (G := G)) l : decreasing l -> decreasing (ins x l).
Proof.
  unfold decreasing. induction l as [|y l IH]; intros H; simpl; [repeat constructor|].
  inversion H; subst. destruct (Rltb_spec (fst x) (fst y)).
  - constructor; auto. apply Forall_forall. intros z Hz. eapply Permutation_in in Hz; [|symmetry; apply ins_perm].
    rewrite Forall_forall in H3. destruct Hz as [<-|Hz]; [lra|auto].
  - constructor; auto. constructor; [lra|]. rewrite Forall_forall in *. intros z Hz. specialize (H3 z Hz). lra.
Qed.
Example isort_valid : forall G : Type, valid_sort (isort (G := G)).
Proof.
  intros G c. induction c as [|x c (IH1 & IH2)]; simpl; [split; [auto|constructor]|].
  split; [|apply ins_dec; auto]. rewrite <- ins_perm. constructor. auto.
Qed.

(** Two normalised mixtures, joined with weights 3/10 and 6/10: nothing is dropped. *)
Definition ex_pdfs : list (list (comp (G := nat))) := [[((1 / 4)%R, 0); ((3 / 4)%R, 1)]; [(1%R, 2)]].
Definition ex_w : list R := [3 / 10; 6 / 10]%R.
Example join_hypotheses_met :
  length ex_w <= length ex_pdfs /\ (forall x, In x ex_w -> (0 <= x)%R) /\
  (forall p, In p ex_pdfs -> nonneg p /\ (p = [] \/ total p = 1%R)) /\
  exists c' eta, join isort (1 / 100) ex_w ex_pdfs = Ok (c', eta) /\ c' <> [] /\ length c' = length (scaled ex_w ex_pdfs).
Proof.
  assert (H1 : length ex_w <= length ex_pdfs) by (simpl; lia).
  assert (H2 : forall x, In x ex_w -> (0 <= x)%R) by (intros x [<-|[<-|[]]]; lra).
  assert (H3 : forall p, In p ex_pdfs -> nonneg p /\ (p = [] \/ total p = 1%R)).
  { intros p [<-|[<-|[]]]; split; try (right; simpl; lra); intros g Hg; simpl in Hg; intuition; subst; simpl; lra. }
  split; auto. split; auto. split; auto.
  destruct (join_raw_ok isort (1 / 100) ex_w ex_pdfs (isort_valid nat) H1 H2 (fun p H => proj1 (H3 p H)))
    as (c & rest & E & Hp & _ & _ & Hr & _).
  assert (Hsc : scaled ex_w ex_pdfs = [((3 / 10 * (1 / 4))%R, 0); ((3 / 10 * (3 / 4))%R, 1); ((6 / 10 * 1)%R, 2)]) by reflexivity.
  assert (Hall : forall g, In g (c ++ rest) -> (3 / 40 <= fst g)%R).
  { intros g Hg. eapply Permutation_in in Hg; [|exact Hp]. rewrite Hsc in Hg. simpl in Hg. intuition; subst; simpl; lra. }
  assert (Htot : (total (c ++ rest) = 9 / 10)%R) by (rewrite (total_perm _ _ Hp), Hsc; simpl; lra).
  rewrite total_app in Htot.
  assert (Hrest : rest = []).
  { destruct Hr as [Hr|[Hr|(y & Hy & Hz & Hb)]]; auto.
    - exfalso. apply Permutation_length in Hp. rewrite app_length, Hsc, Hr in Hp. unfold MAX_COMPONENTS in Hp. simpl in Hp. lia.
    - exfalso. assert (Hnr : forall l : list (comp (G := nat)), (forall g, In g l -> (3 / 40 <= fst g)%R) -> (0 <= total l)%R).
      { intros l Hl. apply total_nonneg. intros g Hg. specialize (Hl g Hg). lra. }
      assert (Hc0 : (0 <= total c)%R) by (apply Hnr; intros; apply Hall; apply in_or_app; auto).
      assert (Hy0 : (3 / 40 <= fst y)%R) by (apply Hall; apply in_or_app; auto).
      apply below_true in Hb; [|lra|lra].
      destruct (in_split y rest Hy) as (l1 & l2 & El). rewrite El, total_app in Htot. simpl in Htot.
      assert (0 <= total l1)%R by (apply Hnr; intros; apply Hall; rewrite El; apply in_or_app; right; apply in_or_app; auto).
      assert (0 <= total l2)%R by (apply Hnr; intros; apply Hall; rewrite El; apply in_or_app; right; apply in_or_app; simpl; auto).
      lra. }
  subst rest. rewrite app_nil_r in Hp, Hall. simpl in Htot. rewrite Rplus_0_r in Htot.
  unfold join. rewrite E. cbn [bind]. destruct (normalize c) as (c', eta) eqn:En. exists c', eta. split; auto.
  destruct (normalize_ok _ _ _ En) as [(_ & _ & Hs & _ & H)|(Hx & _)]; [|exfalso; lra].
  split. { intros ->. simpl in H. lra. }
  rewrite <- (Permutation_length Hp). apply (f_equal (@length _)) in Hs. rewrite !map_length in Hs. auto.
Qed.

Example box_hypotheses_met :
  let c := [((1 / 2)%R, 0%R); ((1 / 2)%R, 5%R)] in
  forall g, In g c -> point_in (snd g) (snd g) (mkAabb (snd g - 1) (snd g - 1) (snd g + 1) (snd g + 1)).
Proof. intros c g Hg. unfold point_in. simpl. lra. Qed.

(** A prune that drops one of three components. *)
Example prune_hypotheses_met : exists c' eta,
  prune isort (1 / 100) [((1 / 1000)%R, 0); ((3 / 4)%R, 1); ((1 / 4)%R, 2)] = (c', Some eta) /\ c' <> [].
Proof.
  destruct (prune_ok isort (1 / 100) [((1 / 1000)%R, 0); ((3 / 4)%R, 1); ((1 / 4)%R, 2)] (isort_valid nat))
    as (kept & light & surplus & Hp & Hl & Hk & _ & _ & Hs & _ & Hx).
  assert (Hne : kept <> []).
  { intros ->. assert (Hs' : surplus = []).
    { destruct surplus; auto. exfalso. assert (X : length (@nil (comp (G := nat))) = MAX_COMPONENTS) by (apply Hs; discriminate).
      unfold MAX_COMPONENTS in X. simpl in X. lia. }
    subst. simpl in Hp. rewrite app_nil_r in Hp.
    assert (X : (3 / 4 < 1 / 100)%R); [|lra]. apply (Hl ((3 / 4)%R, 1)).
    eapply Permutation_in; [symmetry; exact Hp|]. simpl. auto. }
  destruct (Hx Hne) as (c' & eta & E & Hn). exists c', eta. split; auto.
  assert (Ht : total c' = 1%R) by (eapply (prune_sum isort (1 / 100)); [apply isort_valid|lra|exact E]).
  intros ->. simpl in Ht. lra.
Qed.
