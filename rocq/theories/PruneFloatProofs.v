(** Pruning in doubles. *)
From Coq Require Import List Arith Lia ZArith Reals Lra Bool Sorting.Sorted Sorting.Permutation.
From Flocq Require Import Core BinarySingleNaN.
From Coq Require Import Floats.
Import ListNotations.
From Verif Require Import Scalar FloatBase FloatExt FloatSum ClusterFloat GM GMFloat GMFloatSpec GMFloatProofs GMFloatMatch JoinFloatSpec PruneFloat PruneFloatSpec.
Local Open Scope R_scope.
Notation fval := FloatBase.val.

Section Prune.
Context {G : Type}.
Notation comp := (float * G)%type.

Lemma split_filter (f : comp -> bool) l : Permutation l (filter f l ++ filter (fun x => negb (f x)) l).
Proof.
  induction l as [|x l IH]; [constructor|]. cbn [filter]. destruct (f x); cbn [negb app]; [constructor; exact IH|].
  eapply Permutation_trans; [apply perm_skip; exact IH|]. apply Permutation_middle.
Qed.

Lemma sorted_split (R : comp -> comp -> Prop) a b : StronglySorted R (a ++ b) -> StronglySorted R a /\ forall x y, In x a -> In y b -> R x y.
Proof.
  induction a as [|x a IH]; cbn [app]; intros H; [split; [constructor|intros ? ? []]|]. apply StronglySorted_inv in H. destruct H as [H1 H2].
  destruct (IH H1) as [H3 H4]. rewrite Forall_app in H2. destruct H2 as [H5 H6]. split; [constructor; auto|].
  intros u v [<-|Hu] Hv; [rewrite Forall_forall in H6; auto|auto].
Qed.

Lemma combine_snd {A B} (l : list A) (m : list B) : length l = length m -> map snd (combine l m) = m /\ map fst (combine l m) = l.
Proof. revert m. induction l as [|x l IH]; intros [|y m] H; simpl in *; try discriminate; auto. destruct (IH m) as [H1 H2]; [lia|]. rewrite H1, H2. auto. Qed.

Lemma shares (P : float -> float -> Prop) : forall (kept : list comp) ws, Forall2 P (map fst kept) ws ->
  Forall2 (fun g g' => P (fst g) (fst g')) kept (combine ws (map snd kept)).
Proof. induction kept as [|g kept IH]; intros ws H; inversion H; subst; cbn [map combine]; constructor; auto. Qed.

Lemma prune_ok sortf cw_lim (c : list comp) : sorts sortf -> fin cw_lim ->
  (forall g, In g c -> upto (bpow radix2 900) (fst g)) ->
  exists kept, heaviest (fval cw_lim) c kept /\
  (0.99e-8 <= exact_sum (map fst kept) /\ shared kept (fprune sortf cw_lim c) \/
   exact_sum (map fst kept) <= 1.01e-8 /\ fprune sortf cw_lim c = []).
Proof.
  intros Hs Fl Hc. unfold fprune. set (f := fun g : comp => negb (PrimFloat.ltb (fst g) cw_lim)). set (c1 := filter f c).
  assert (Hf : forall g, In g c -> f g = negb (Rlt_bool (fval (fst g)) (fval cw_lim))).
  { intros g Hg. unfold f. f_equal. exact (f_lt (fst g) cw_lim (proj1 (Hc g Hg)) Fl). }
  destruct (Hs c1) as [Pc Sc]; [intros g Hg; apply filter_In in Hg; apply Hc, Hg|]. set (s := sortf c1) in *.
  set (kept := firstn MAX_COMPONENTS s).
  assert (Es : s = kept ++ skipn MAX_COMPONENTS s) by (symmetry; apply firstn_skipn).
  assert (Hk : forall g, In g s -> In g c /\ fval cw_lim <= fval (fst g)).
  { intros g Hg. apply (Permutation_in _ (Permutation_sym Pc)) in Hg. apply filter_In in Hg. destruct Hg as [Hg Hfg]. split; auto. rewrite Hf in Hfg by auto.
    destruct (Rlt_bool_spec (fval (fst g)) (fval cw_lim)); [discriminate|auto]. }
  assert (Hin : forall g, In g kept -> In g s) by (intros g Hg; rewrite Es; apply in_app_iff; auto).
  exists kept. split.
  - rewrite Es in Sc. apply sorted_split in Sc. destruct Sc as [S1 S2]. split; [exact S1|]. split; [apply firstn_le_length|].
    split; [intros g Hg; apply Hk; auto|]. exists (skipn MAX_COMPONENTS s ++ filter (fun x => negb (f x)) c). split.
    + rewrite app_assoc, <- Es. eapply Permutation_trans; [apply (split_filter f)|]. apply Permutation_app_tail. exact Pc.
    + intros d Hd. apply in_app_iff in Hd. destruct Hd as [Hd|Hd].
      * right. split; [|intros g Hg; apply (S2 g d Hg Hd)]. unfold kept. rewrite firstn_length.
        assert (skipn MAX_COMPONENTS s <> []) by (intros E; rewrite E in Hd; destruct Hd). destruct (Nat.le_gt_cases (length s) MAX_COMPONENTS) as [L|L]; [rewrite skipn_all2 in H by auto; congruence|].
        change MAX_COMPONENTS with 200%nat in *. lia.
      * left. apply filter_In in Hd. destruct Hd as [Hd Hfd]. rewrite Hf in Hfd by auto. destruct (Rlt_bool_spec (fval (fst d)) (fval cw_lim)); [auto|discriminate].
  - assert (Hw : forall w, In w (map fst kept) -> upto (bpow radix2 900) w).
    { intros w Hw. apply in_map_iff in Hw. destruct Hw as (g & <- & Hg). apply Hc, Hk, Hin, Hg. }
    assert (Hl : (Z.of_nat (length (map fst kept)) <= 2 ^ 20)%Z).
    { rewrite map_length. pose proof (firstn_le_length MAX_COMPONENTS s). fold kept in H. change MAX_COMPONENTS with 200%nat in H. lia. }
    assert (Eout : match kept with [] => [] | _ => combine (fst (fnormalize (map fst kept))) (map snd kept) end = combine (fst (fnormalize (map fst kept))) (map snd kept)).
    { destruct kept; [|reflexivity]. cbn [map]. destruct (fst (fnormalize [])); reflexivity. }
    rewrite Eout. pose proof (fwsum_fsums (map fst kept)) as Fs.
    destruct (fsums_ok _ _ (bpow radix2 900) Fs) as [t Et]; [split; [apply bpow_ge_0|apply Rle_refl]| |lia|].
    { intros x Hx. destruct (Hw x Hx) as [F B]. exists (fval x). split; [apply proj_fin; exact F|exact B]. }
    destruct (fsums_fin _ _ Fs) as [Hnn Hft].
    { intros x Hx. destruct (Hw x Hx) as [F B]. right. exists (fval x). split; [apply proj_fin; exact F|lra]. }
    destruct (Hft t Et) as [_ Ht]. specialize (Ht ltac:(lia)). pose proof (nn_fin _ _ Hnn Et) as T0. apply proj_Fin in Et. destruct Et as [Ft Vt].
    assert (F8 : fin 1e-8%float) by (apply fin_SF; reflexivity).
    pose proof (f_lt 1e-8%float (fwsum (map fst kept)) F8 Ft) as E. change (nlt floatN 1e-8%float (fwsum (map fst kept))) with (PrimFloat.ltb 1e-8 (fwsum (map fst kept))) in E. rewrite Vt in E.
    assert (V8 : 0.9999e-8 <= fval 1e-8%float <= 1.0001e-8).
    { let v := eval vm_compute in (Prim2SF 1e-8%float) in replace (fval 1e-8%float) with (SF2R radix2 v) by (rewrite val_SF; reflexivity). unfold SF2R, F2R, cond_Zopp, Fnum, Fexp. simpl IZR. simpl bpow. lra. }
    assert (K : 2 * INR (length (map fst kept)) * uro <= / 1000).
    { assert (N : INR (length (map fst kept)) <= bpow radix2 20) by (rewrite INR_IZR_INZ; change (bpow radix2 20) with (IZR (2 ^ 20)); apply IZR_le; exact Hl).
      apply Rle_trans with (2 * bpow radix2 20 * uro); [apply Rmult_le_compat_r; [pose proof uro_pos; lra|lra]|].
      unfold uro. change 2 with (bpow radix2 1). rewrite <- !bpow_plus. apply Rle_trans with (bpow radix2 (-10)); [apply bpow_le; lia|simpl; lra]. }
    assert (Near : Rabs (t - exact_sum (map fst kept)) <= / 1000 * exact_sum (map fst kept)).
    { change (exact_sum (map fst kept)) with (rsum (map fval (map fst kept))). eapply Rle_trans; [exact Ht|]. apply Rmult_le_compat_r; [|exact K].
      apply vsum_nonneg. intros x Hx. destruct (Hw x Hx) as [F B]. split; [|exact F]. right. exists (fval x). split; [apply proj_fin; exact F|lra]. }
    apply Rabs_le_inv in Near.
    destruct (PrimFloat.ltb 1e-8 (fwsum (map fst kept))) eqn:Hb; destruct (Rlt_bool_spec (fval 1e-8%float) t) as [Ht8|Ht8]; try discriminate.
    + left. split; [lra|].
      destruct (normalized (map fst kept) (bpow radix2 900) (conj (bpow_ge_0 radix2 900) (Rle_refl _)) Hw Hl Hb) as (H1 & H2 & H3 & H4 & H5 & H6 & H7 & H8).
      set (ws := fst (fnormalize (map fst kept))) in *. assert (L : length ws = length (map snd kept)) by (rewrite H5, !map_length; reflexivity).
      destruct (combine_snd ws (map snd kept) L) as [C1 C2]. rewrite map_length in H7, H8. unfold shared. rewrite C1, C2. split; [reflexivity|]. split; [|split; [exact H8|]].
      * intros [w g] Hg. apply H6. apply in_combine_l in Hg. exact Hg.
      * exact (shares _ kept ws H7).
    + right. split; [lra|]. unfold fnormalize. rewrite Hb. reflexivity.
Qed.

Lemma plus_ok sortf cw_lim (a b : list comp) : sorts sortf -> fin cw_lim ->
  (forall g, In g a \/ In g b -> upto (bpow radix2 900) (fst g)) ->
  exists kept, heaviest (fval cw_lim) (a ++ b) kept /\
  (0.99e-8 <= exact_sum (map fst kept) /\ shared kept (fplus sortf cw_lim a b) \/
   exact_sum (map fst kept) <= 1.01e-8 /\ fplus sortf cw_lim a b = []).
Proof. intros Hs Fl Hc. apply prune_ok; auto. intros g Hg. apply Hc, in_app_iff, Hg. Qed.
End Prune.

(** For examples: weights between 0 and 1, by computation. *)
Lemma small_weights {G} (a b : list (float * G)) :
  forallb (fun g => is_finite_SF (Prim2SF (fst g)) && PrimFloat.leb 0 (fst g) && PrimFloat.leb (fst g) 1) (a ++ b) = true ->
  forall g, In g a \/ In g b -> upto (bpow radix2 900) (fst g).
Proof.
  intros H g Hg. rewrite forallb_forall in H. specialize (H g (proj2 (in_app_iff a b g) Hg)). apply andb_true_iff in H. destruct H as [H H2]. apply andb_true_iff in H. destruct H as [H H1].
  assert (F : fin (fst g)) by (apply fin_SF; exact H).
  assert (F0 : fin 0%float) by (apply fin_SF; reflexivity). assert (F1 : fin 1%float) by (apply fin_SF; reflexivity).
  pose proof (f_le 0%float (fst g) F0 F) as E1. pose proof (f_le (fst g) 1%float F F1) as E2. cbn [nle floatN] in E1, E2. rewrite H1 in E1. rewrite H2 in E2.
  assert (V0 : fval 0%float = 0) by (rewrite val_SF; reflexivity). assert (V1 : fval 1%float = 1) by (rewrite val_SF; cbv -[IZR Rmult Rplus Rinv]; lra).
  destruct (Rle_bool_spec (fval 0%float) (fval (fst g))); [|discriminate]. destruct (Rle_bool_spec (fval (fst g)) (fval 1%float)); [|discriminate].
  split; [exact F|]. pose proof (bpow_le radix2 0 900 ltac:(lia)) as B. change (bpow radix2 0) with 1 in B. set (top := bpow radix2 900) in *. clearbody top. split; lra.
Qed.
