(** Proofs about mixtures. *)
From Coq Require Import List Arith ZArith Bool Reals Lra Lia Permutation Sorted.
Import ListNotations.
From Verif Require Import Res Scalar LapBase Cluster GM GMSpec.
Local Open Scope nat_scope.

Section GM.
Context {G : Type}.
Notation comp := (comp (G := G)).
Implicit Types (c p : list comp).

Lemma total_app a b : (total (G := G) (a ++ b) = total a + total b)%R.
Proof. induction a as [|x a IH]; simpl; [lra|]. rewrite IH. lra. Qed.

Lemma total_perm a b : Permutation a b -> total (G := G) a = total b.
Proof. induction 1; simpl; lra. Qed.

Lemma total_nonneg c : nonneg c -> (0 <= total c)%R.
Proof.
  induction c as [|x c IH]; intros H; simpl; [lra|]. pose proof (H x ltac:(simpl; auto)).
  assert (0 <= total c)%R by (apply IH; intros g Hg; apply H; simpl; auto). lra.
Qed.

Lemma wsum_total c : wsum c = total c.
Proof.
  unfold wsum. assert (H : forall a, (fold_left (fun a g => a + fst g) c a = a + total c)%R).
  { induction c as [|x c IH]; intros a; simpl; [lra|]. rewrite IH. lra. }
  rewrite H. lra.
Qed.

Lemma total_scale k c : (total (map (fun g => ((fst g / k)%R, snd g)) c) = total c / k)%R.
Proof. induction c as [|x c IH]; simpl; [lra|]. rewrite IH. lra. Qed.

Lemma normalize_ok c c' eta : normalize c = (c', eta) -> normalised c c' eta.
Proof.
  unfold normalize. rewrite wsum_total. destruct (Rltb_spec (1 / 100000000) (total c)) as [H|H]; intros E; inversion E; subst.
  - left. split; auto. split; auto. split; [rewrite map_map; reflexivity|]. split.
    + rewrite map_map. cbn [fst]. apply map_ext. intros g. field. lra.
    + rewrite total_scale. field. lra.
  - right. split; [lra|auto].
Qed.

Lemma normalize_nonneg c c' eta : normalize c = (c', eta) -> nonneg c -> nonneg c' /\ (0 <= eta)%R.
Proof.
  unfold normalize. rewrite wsum_total. destruct (Rltb_spec (1 / 100000000) (total c)) as [H|H]; intros E Hn; inversion E; subst.
  - split; [|lra]. intros g Hg. apply in_map_iff in Hg. destruct Hg as (h & <- & Hh). cbn [fst].
    apply Rmult_le_pos; [auto|]. left. apply Rinv_0_lt_compat. lra.
  - split; [intros g []|lra].
Qed.

Lemma decreasing_app_inv a b : decreasing (G := G) (a ++ b) -> decreasing a /\ decreasing b /\
  forall x y, In x a -> In y b -> (fst y <= fst x)%R.
Proof.
  unfold decreasing. induction a as [|z a IH]; intros H; simpl in *.
  - split; [constructor|]. split; auto. intros x y [].
  - inversion H; subst. destruct (IH H2) as (Ha & Hb & Hab). rewrite Forall_forall in H3. split.
    + constructor; auto. apply Forall_forall. intros x Hx. apply H3. apply in_or_app; auto.
    + split; auto. intros x y [<-|Hx] Hy; auto. apply H3. apply in_or_app; auto.
Qed.

(** ** The priority queue *)

Lemma pop_top_spec q : match pop_top q with
  | None => q = []
  | Some (x, q') => Permutation q (x :: q') /\ forall y, In y q -> (fst y <= fst x)%R
  end.
Proof.
  induction q as [|x q IH]; simpl; auto. destruct (pop_top q) as [(y, q')|].
  - destruct IH as (Hp & Hm). unfold pair_ltb.
    assert (Hy : forall z, In z q -> (fst z <= fst y)%R) by auto.
    destruct (Rltb_spec (fst x) (fst y)).
    + split. { rewrite Hp. apply perm_swap. } intros z [<-|Hz]; [lra|auto].
    + destruct (Rltb_spec (fst y) (fst x)).
      * split. { apply perm_skip. auto. } intros z [<-|Hz]; [lra|]. specialize (Hy z Hz). lra.
      * assert (fst x = fst y) by lra. destruct (snd x <? snd y).
        -- split. { rewrite Hp. apply perm_swap. } intros z [<-|Hz]; [lra|auto].
        -- split. { apply perm_skip. auto. } intros z [<-|Hz]; [lra|]. specialize (Hy z Hz). lra.
  - subst q. split; auto. intros z [<-|[]]. lra.
Qed.

Section Join.
Variable cw_lim : R.
Variable w : list R.
Variable ps : list (list comp).
Hypothesis Hlen : length ps = length w.
Hypothesis Hw : forall x, In x w -> (0 <= x)%R.
Hypothesis Hs : forall p, In p ps -> decreasing p.
Hypothesis Hn : forall p, In p ps -> nonneg p.

Definition scale (j : nat) (g : comp) : comp := ((nth j w 0 * fst g)%R, snd g).
Definition pj (j : nat) : list comp := nth j ps [].
Definition heads (wi : list nat) (js : list nat) : list (R * nat) :=
  flat_map (fun j => match nth_error (pj j) (nth j wi 0) with Some g => [(fst (scale j g), j)] | None => [] end) js.
Definition remain (wi : list nat) (js : list nat) : list comp :=
  flat_map (fun j => map (scale j) (skipn (nth j wi 0) (pj j))) js.

Lemma wj_nonneg j : (0 <= nth j w 0)%R.
Proof.
  destruct (Nat.lt_ge_cases j (length w)) as [H|H].
  - apply Hw. apply nth_In. auto.
  - rewrite nth_overflow by auto. lra.
Qed.

Lemma pj_decreasing j : decreasing (pj j).
Proof.
  unfold pj. destruct (Nat.lt_ge_cases j (length ps)) as [H|H].
  - apply Hs. apply nth_In. auto.
  - rewrite nth_overflow by auto. constructor.
Qed.


Lemma nth_upd_other (wi : list nat) j x i : i <> j -> nth i (upd wi j x) 0 = nth i wi 0.
Proof.
  revert j i. induction wi as [|y wi IH]; intros [|j] [|i] H; simpl; auto; try congruence.
Qed.
Lemma nth_upd_same (wi : list nat) j x : j < length wi -> nth j (upd wi j x) 0 = x.
Proof. revert j. induction wi as [|y wi IH]; intros [|j] H; simpl in *; auto; try lia. apply IH. lia. Qed.

Lemma heads_other wi j x js : ~ In j js -> heads (upd wi j x) js = heads wi js.
Proof.
  intros H. induction js as [|i js IH]; auto. unfold heads in *. cbn [flat_map]. rewrite IH by (simpl in H; tauto).
  rewrite nth_upd_other; auto. simpl in H. intuition.
Qed.
Lemma remain_other wi j x js : ~ In j js -> remain (upd wi j x) js = remain wi js.
Proof.
  intros H. induction js as [|i js IH]; auto. unfold remain in *. cbn [flat_map]. rewrite IH by (simpl in H; tauto).
  rewrite nth_upd_other; auto. simpl in H. intuition.
Qed.

Lemma split_seq j n : j < n -> exists l1 l2, seq 0 n = l1 ++ j :: l2 /\ ~ In j l1 /\ ~ In j l2.
Proof.
  intros H. destruct (in_split j (seq 0 n)) as (l1 & l2 & E). { apply in_seq. lia. }
  exists l1, l2. split; auto. pose proof (seq_NoDup n 0) as Hd. rewrite E in Hd. apply NoDup_remove_2 in Hd.
  split; intros Hx; apply Hd; apply in_or_app; auto.
Qed.

Lemma heads_app wi a b : heads wi (a ++ b) = heads wi a ++ heads wi b.
Proof. apply flat_map_app. Qed.
Lemma remain_app wi a b : remain wi (a ++ b) = remain wi a ++ remain wi b.
Proof. apply flat_map_app. Qed.

Lemma heads_in wi js x j : In (x, j) (heads wi js) -> In j js /\ exists g, nth_error (pj j) (nth j wi 0) = Some g /\ x = fst (scale j g).
Proof.
  unfold heads. rewrite in_flat_map. intros (i & Hi & Hx). destruct (nth_error (pj i) (nth i wi 0)) as [g|] eqn:E; [|destruct Hx].
  destruct Hx as [Hx|[]]. inversion Hx; subst. split; auto. exists g. auto.
Qed.

Lemma skipn_nth {A} (l : list A) i x : nth_error l i = Some x -> skipn i l = x :: skipn (S i) l.
Proof. revert i. induction l as [|y l IH]; intros [|i] H; simpl in *; try discriminate; [congruence|]. rewrite (IH i H). reflexivity. Qed.

(** Every remaining component is no heavier than the greatest head. *)
Lemma remain_le wi js m : (forall y, In y (heads wi js) -> (fst y <= m)%R) ->
  forall y, In y (remain wi js) -> (fst y <= m)%R.
Proof.
  intros H y Hy. unfold remain in Hy. apply in_flat_map in Hy. destruct Hy as (j & Hj & Hy).
  destruct (nth_error (pj j) (nth j wi 0)) as [g|] eqn:E.
  - rewrite (skipn_nth _ _ _ E) in Hy. assert (Hg : (fst (scale j g) <= m)%R).
    { apply (H (fst (scale j g), j)). unfold heads. apply in_flat_map. exists j. split; auto. rewrite E. simpl. auto. }
    apply in_map_iff in Hy. destruct Hy as (h & <- & Hh). destruct Hh as [->|Hh]; auto.
    enough (fst h <= fst g)%R.
    { apply Rle_trans with (2 := Hg). simpl. apply Rmult_le_compat_l; auto. apply wj_nonneg. }
    pose proof (pj_decreasing j) as Hd. rewrite <- (firstn_skipn (nth j wi 0) (pj j)) in Hd.
    apply decreasing_app_inv in Hd. destruct Hd as (_ & Hd & _). rewrite (skipn_nth _ _ _ E) in Hd.
    inversion Hd; subst. rewrite Forall_forall in H3. auto.
  - apply nth_error_None in E. rewrite skipn_all2 in Hy by auto. destruct Hy.
Qed.

Lemma remain_nil wi js : heads wi js = [] -> remain wi js = [].
Proof.
  unfold heads, remain. induction js as [|j js IH]; auto. cbn [flat_map].
  destruct (nth_error (pj j) (nth j wi 0)) as [g|] eqn:E; [discriminate|]. intros H. rewrite IH by auto.
  apply nth_error_None in E. rewrite skipn_all2 by auto. reflexivity.
Qed.

Definition kept_well (s0 : R) (c : list comp) : Prop :=
  forall a x b, c = a ++ x :: b -> below cw_lim (fst x) (s0 + total a + fst x) = false.

Lemma join_loop_ok k : forall wi q s0 c, length wi = length w ->
  Permutation q (heads wi (seq 0 (length w))) ->
  exists c' rest, join_loop cw_lim k w ps wi q s0 c = Ok (c ++ c') /\
    Permutation (c' ++ rest) (remain wi (seq 0 (length w))) /\ heaviest c' rest /\ length c' <= k /\
    (rest = [] \/ length c' = k \/
     exists y, In y rest /\ (forall z, In z rest -> (fst z <= fst y)%R) /\ below cw_lim (fst y) (s0 + total c' + fst y) = true) /\
    kept_well s0 c'.
Proof.
  induction k as [|k IH]; intros wi q s0 c Hwi Hq.
  - exists [], (remain wi (seq 0 (length w))). simpl. rewrite app_nil_r. split; auto. split; auto.
    split; [split; [constructor|intros x y []]|]. split; auto. split; auto. intros [|? ?] x b E; discriminate.
  - cbn [join_loop]. pose proof (pop_top_spec q) as Ht. destruct (pop_top q) as [((nw, j), q')|].
    2:{ subst q. apply Permutation_nil in Hq. exists [], []. rewrite app_nil_r, (remain_nil _ _ Hq). split; auto. split; auto.
        split; [split; [constructor|intros x y []]|]. split; [simpl; lia|]. split; auto. intros [|? ?] x b E; discriminate. }
    destruct Ht as (Hp & Hm). cbn [fst] in Hm.
    assert (Hm' : forall y, In y (remain wi (seq 0 (length w))) -> (fst y <= nw)%R).
    { apply remain_le. intros y Hy. apply Hm. eapply Permutation_in; [symmetry; exact Hq|auto]. }
    assert (Hin : In (nw, j) (heads wi (seq 0 (length w)))).
    { eapply Permutation_in; [exact Hq|]. eapply Permutation_in; [symmetry; exact Hp|simpl; auto]. }
    apply heads_in in Hin. destruct Hin as (Hj & g & Eg & Ew). apply in_seq in Hj.
    destruct (split_seq j (length w)) as (l1 & l2 & El & N1 & N2); [lia|].
    set (i := nth j wi 0) in *.
    assert (Hrem : Permutation (remain wi (seq 0 (length w))) (scale j g :: remain (upd wi j (S i)) (seq 0 (length w)))).
    { rewrite El, !remain_app, (remain_other wi j (S i) l1 N1).
      change (remain wi (j :: l2)) with (map (scale j) (skipn i (pj j)) ++ remain wi l2).
      change (remain (upd wi j (S i)) (j :: l2)) with (map (scale j) (skipn (nth j (upd wi j (S i)) 0) (pj j)) ++ remain (upd wi j (S i)) l2).
      rewrite (remain_other wi j (S i) l2 N2). rewrite nth_upd_same by lia. rewrite (skipn_nth _ _ _ Eg). cbn [map app].
      symmetry. apply Permutation_middle. }
    destruct (below cw_lim nw (s0 + nw)) eqn:Eb.
    + exists [], (remain wi (seq 0 (length w))). rewrite app_nil_r. split; auto. split; auto.
      split; [split; [constructor|intros x y []]|]. split; [simpl; lia|]. split; [|intros [|? ?] x b E; discriminate].
      right. right. exists (scale j g). split. { eapply Permutation_in; [symmetry; exact Hrem|simpl; auto]. }
      rewrite <- Ew. split; auto. simpl. rewrite Rplus_0_r. auto.
    + assert (Ep : get ps j = Ok (pj j)).
      { unfold get, pj. rewrite (nth_error_nth' ps []) by lia. reflexivity. }
      assert (Ei : get wi j = Ok i) by (unfold get, i; rewrite (nth_error_nth' wi 0) by lia; reflexivity).
      rewrite Ep. cbn [bind]. rewrite Ei. cbn [bind].
      assert (Egg : get (pj j) i = Ok g) by (unfold get; rewrite Eg; reflexivity). rewrite Egg. cbn [bind].
      unfold set. rewrite (proj2 (Nat.ltb_lt j (length wi))) by lia. cbn [bind].
      assert (Hheads : forall h, (nth_error (pj j) (S i) = h) ->
        Permutation (match h with Some g' => [(fst (scale j g'), j)] | None => [] end ++ q') (heads (upd wi j (S i)) (seq 0 (length w)))).
      { intros h Eh.
        assert (X : Permutation ((nw, j) :: q') (heads wi l1 ++ [(nw, j)] ++ heads wi l2)).
        { rewrite <- Hp, Hq, El, heads_app. change (heads wi (j :: l2)) with
            (match nth_error (pj j) i with Some g => [(fst (scale j g), j)] | None => [] end ++ heads wi l2).
          rewrite Eg, <- Ew. reflexivity. }
        assert (Y : Permutation q' (heads wi l1 ++ heads wi l2)).
        { apply Permutation_cons_inv with (a := (nw, j)). rewrite X. simpl. symmetry. apply Permutation_middle. }
        rewrite El, heads_app. change (heads (upd wi j (S i)) (j :: l2)) with
          (match nth_error (pj j) (nth j (upd wi j (S i)) 0) with Some g => [(fst (scale j g), j)] | None => [] end ++ heads (upd wi j (S i)) l2).
        rewrite (heads_other wi j (S i) l1 N1), (heads_other wi j (S i) l2 N2). rewrite nth_upd_same by lia. rewrite Eh, Y.
        rewrite !app_assoc. apply Permutation_app_tail. apply Permutation_app_comm. }
      assert (Hgo : forall q'', Permutation q'' (heads (upd wi j (S i)) (seq 0 (length w))) ->
        exists c' rest, join_loop cw_lim k w ps (upd wi j (S i)) q'' (s0 + nw) (c ++ [(nw, snd g)]) = Ok (c ++ c') /\
    Permutation (c' ++ rest) (remain wi (seq 0 (length w))) /\ heaviest c' rest /\ length c' <= S k /\
    (rest = [] \/ length c' = S k \/
     exists y, In y rest /\ (forall z, In z rest -> (fst z <= fst y)%R) /\ below cw_lim (fst y) (s0 + total c' + fst y) = true) /\
    kept_well s0 c').
      { intros q'' Hq''. destruct (IH (upd wi j (S i)) q'' (s0 + nw)%R (c ++ [(nw, snd g)])) as (c' & rest & E & Hpm & (Hd & Hh) & Hl & Hr & Hk).
        { rewrite upd_length. auto. } { auto. }
        exists (scale j g :: c'), rest. split. { rewrite E, <- app_assoc. cbn [app]. rewrite Ew. reflexivity. }
        assert (Hle : forall y, In y (c' ++ rest) -> (fst y <= fst (scale j g))%R).
        { intros y Hy. rewrite <- Ew. apply Hm'. eapply Permutation_in; [symmetry; exact Hrem|]. right. eapply Permutation_in; eauto. }
        split. { rewrite Hrem, <- Hpm. reflexivity. }
        split. { split.
          - constructor; auto. apply Forall_forall. intros y Hy. apply Hle. apply in_or_app; auto.
          - intros x y [<-|Hx] Hy; auto. apply Hle. apply in_or_app; auto. }
        split; [simpl; lia|]. split.
        - destruct Hr as [Hr|[Hr|(y & Hy & Hz & Hb)]]; auto. { right. left. simpl. lia. }
          right. right. exists y. split; auto. split; auto. cbn [total]. rewrite <- Ew. rewrite <- Hb. f_equal. lra.
        - intros a x b Eab. destruct a as [|a0 a]; cbn [app] in Eab; injection Eab as E1 E2; rewrite <- E1.
          + cbn [total]. rewrite <- Ew, Rplus_0_r. auto.
          + cbn [total]. rewrite <- Ew. replace (s0 + (nw + total a) + fst x)%R with (s0 + nw + total a + fst x)%R by lra. eapply Hk. eauto. }
      destruct (S i <? length (pj j)) eqn:El'.
      * apply Nat.ltb_lt in El'. destruct (nth_error (pj j) (S i)) as [g'|] eqn:Eg'; [|apply nth_error_None in Eg'; lia].
        assert (Eg2 : get (pj j) (S i) = Ok g') by (unfold get; rewrite Eg'; reflexivity). rewrite Eg2. cbn [bind].
        assert (Ewj : get w j = Ok (nth j w 0%R)) by (unfold get; rewrite (nth_error_nth' w 0%R) by lia; reflexivity).
        rewrite Ewj. cbn [bind]. apply Hgo. apply (Hheads (Some g') eq_refl).
      * apply Nat.ltb_ge in El'. apply Hgo. apply (Hheads None). apply nth_error_None. lia.
Qed.
End Join.

Lemma combine_seq (w : list R) (ps : list (list comp)) : length ps = length w ->
  combine w ps = map (fun j => (nth j w 0%R, nth j ps [])) (seq 0 (length w)).
Proof.
  revert ps. induction w as [|x w IH]; intros [|p ps] H; simpl in *; auto; try discriminate.
  f_equal. rewrite IH by auto. rewrite <- seq_shift, map_map. reflexivity.
Qed.
Lemma combine_map_self {A B} (f : A -> B) l : combine (map f l) l = map (fun x => (f x, x)) l.
Proof. induction l as [|x l IH]; simpl; congruence. Qed.

Lemma flat_map_map {A B C} (f : A -> B) (g : B -> list C) l : flat_map g (map f l) = flat_map (fun x => g (f x)) l.
Proof. induction l as [|x l IH]; simpl; congruence. Qed.

Lemma nth_repeat0 j n : nth j (repeat 0 n) 0 = 0.
Proof. revert j. induction n as [|n IH]; intros [|j]; simpl; auto. Qed.

Lemma join_start_heads w ps : length ps = length w -> join_start w ps = heads w ps (repeat 0 (length w)) (seq 0 (length w)).
Proof.
  intros H. unfold join_start, heads. rewrite (combine_seq w ps H), combine_map_self, flat_map_map.
  apply flat_map_ext. intros j. cbn [fst snd]. rewrite nth_repeat0. unfold pj, scale. destruct (nth j ps []); reflexivity.
Qed.
Lemma scaled_remain w ps : length ps = length w -> scaled w ps = remain w ps (repeat 0 (length w)) (seq 0 (length w)).
Proof.
  intros H. unfold scaled, remain. rewrite (combine_seq w ps H), flat_map_map. apply flat_map_ext. intros j.
  rewrite nth_repeat0. reflexivity.
Qed.

Lemma combine_firstn_l {A B} (a : list A) (b : list B) : combine a (firstn (length a) b) = combine a b.
Proof. revert b. induction a as [|x a IH]; intros [|y b]; simpl; auto. rewrite IH. reflexivity. Qed.

Lemma scaled_sorted sortf w ps : valid_sort sortf -> Permutation (scaled w (map sortf ps)) (scaled (G := G) w ps).
Proof.
  intros Hs. revert ps. induction w as [|x w IH]; intros [|p ps]; simpl; auto. unfold scaled in *. cbn [combine flat_map fst snd].
  apply Permutation_app; auto. apply Permutation_map. symmetry. apply Hs.
Qed.

(** The first [length w] mixtures take part. *)
Lemma join_raw_ok sortf cw_lim w pdfs : valid_sort sortf -> length w <= length pdfs ->
  (forall x, In x w -> (0 <= x)%R) -> (forall p, In p pdfs -> nonneg p) ->
  exists c rest, join_raw sortf cw_lim w pdfs = Ok c /\
    Permutation (c ++ rest) (scaled w pdfs) /\ heaviest c rest /\ length c <= MAX_COMPONENTS /\
    (rest = [] \/ length c = MAX_COMPONENTS \/
     exists y, In y rest /\ (forall z, In z rest -> (fst z <= fst y)%R) /\ below cw_lim (fst y) (total c + fst y) = true) /\
    kept_well cw_lim 0 c.
Proof.
  intros Hs Hl Hw Hn. unfold join_raw. rewrite (proj2 (Nat.ltb_ge _ _)) by auto.
  set (ps := map sortf (firstn (length w) pdfs)).
  assert (Hlen : length ps = length w) by (unfold ps; rewrite map_length, firstn_length; lia).
  destruct (join_loop_ok cw_lim w ps Hlen Hw) with (k := MAX_COMPONENTS) (wi := repeat 0 (length w)) (q := join_start w ps) (s0 := 0%R) (c := @nil comp)
    as (c & rest & E & Hp & Hh & Hk & Hr & Hkw).
  { intros p Hp. unfold ps in Hp. apply in_map_iff in Hp. destruct Hp as (p' & <- & _). apply Hs. }
  { apply repeat_length. }
  { rewrite join_start_heads; auto. }
  exists c, rest. split; [exact E|]. split.
  { rewrite Hp, <- scaled_remain by auto. unfold ps. rewrite scaled_sorted by auto. unfold scaled. rewrite combine_firstn_l. reflexivity. }
  split; auto. split; auto. split; auto.
  destruct Hr as [Hr|[Hr|(y & H1 & H2 & H3)]]; auto. right. right. exists y. split; auto. split; auto.
  rewrite Rplus_0_l in H3. auto.
Qed.

Lemma below_true cw x s : (0 <= x)%R -> (x <= s)%R -> below cw x s = true -> (0 < s)%R /\ (x < cw * s)%R.
Proof.
  intros Hx Hs. unfold below, ediv. destruct (Reqb_spec s 0) as [->|Hne].
  - destruct (Reqb_spec x 0); [discriminate|]. exfalso; lra.
  - rewrite lt_FF. destruct (Rltb_spec (x / s) cw) as [H|]; [|discriminate]. intros _. split; [lra|].
    apply Rmult_lt_compat_r with (r := s) in H; [|lra]. replace (x / s * s)%R with x in H by (field; lra). auto.
Qed.
Lemma below_false cw x s : (0 <= x)%R -> (x <= s)%R -> below cw x s = false -> (0 < s)%R -> (cw * s <= x)%R.
Proof.
  intros Hx Hs H H0. unfold below, ediv in H. destruct (Reqb_spec s 0) as [->|Hne]; [exfalso; lra|].
  rewrite lt_FF in H. destruct (Rltb_spec (x / s) cw) as [|Hge]; [discriminate|].
  assert (Hge' : (cw <= x / s)%R) by lra. apply Rmult_le_compat_r with (r := s) in Hge'; [|lra].
  replace (x / s * s)%R with x in Hge' by (field; lra). auto.
Qed.

Lemma scaled_nonneg w pdfs : (forall x, In x w -> (0 <= x)%R) -> (forall p, In p pdfs -> nonneg p) -> nonneg (scaled (G := G) w pdfs).
Proof.
  intros Hw Hp g Hg. unfold scaled in Hg. apply in_flat_map in Hg. destruct Hg as ((x, p) & Hxp & Hg).
  apply in_map_iff in Hg. destruct Hg as (h & <- & Hh). cbn [fst snd] in *.
  pose proof (in_combine_l _ _ _ _ Hxp). pose proof (in_combine_r _ _ _ _ Hxp). apply Rmult_le_pos; auto. eapply Hp; eauto.
Qed.

(** ** Moments *)

Definition expect (f : G -> R) (c : list comp) : R := rsum (fun g => fst g * f (snd g))%R c.

Lemma fold_rsum {A} (f : A -> R) l a : (fold_left (fun s x => s + f x) l a = a + rsum f l)%R.
Proof. revert a. induction l as [|x l IH]; intros a; simpl; [lra|]. rewrite IH. lra. Qed.

Lemma mean_expect x c : mean x c = expect x c.
Proof. unfold mean, expect. rewrite (fold_rsum (fun g => fst g * x (snd g))%R). lra. Qed.

Lemma expect_app f a b : (expect f (a ++ b) = expect f a + expect f b)%R.
Proof. unfold expect. induction a as [|g a IH]; simpl; [lra|]. rewrite IH. lra. Qed.
Lemma expect_perm f a b : Permutation a b -> expect f a = expect f b.
Proof. unfold expect. induction 1; simpl; lra. Qed.
Lemma expect_scale f k c : (expect f (map (fun g => ((k * fst g)%R, snd g)) c) = k * expect f c)%R.
Proof. unfold expect. induction c as [|g c IH]; simpl; [lra|]. rewrite IH. lra. Qed.
Lemma expect_scaled f w (ps : list (list comp)) : expect f (scaled w ps) = rsum (fun wp => fst wp * expect f (snd wp))%R (combine w ps).
Proof.
  unfold scaled. induction (combine w ps) as [|(x, p) l IH]; simpl; auto.
  rewrite expect_app, IH, expect_scale. reflexivity.
Qed.
Lemma total_scaled w (ps : list (list comp)) : total (scaled w ps) = rsum (fun wp => fst wp * total (snd wp))%R (combine w ps).
Proof.
  unfold scaled. induction (combine w ps) as [|(x, p) l IH]; simpl; auto.
  rewrite total_app, IH. f_equal. induction p as [|g p IH']; simpl; [lra|]. rewrite IH'. lra.
Qed.

Lemma cov_gen (p : G -> R) x y mx my c : (rsum (fun g => fst g * (p (snd g) + (x (snd g) - mx) * (y (snd g) - my))) c =
  expect p c + expect (fun g => x g * y g) c - mx * expect y c - my * expect x c + mx * my * total c)%R.
Proof. unfold expect. induction c as [|g c IH]; simpl; [lra|]. rewrite IH. ring. Qed.

Lemma cov_expect (p : G -> R) x y c : (cov p x y c = expect p c + expect (fun g => x g * y g) c - expect x c * expect y c - expect y c * expect x c
  + expect x c * expect y c * total c)%R.
Proof.
  unfold cov. rewrite !mean_expect.
  rewrite (fold_rsum (fun g => fst g * (p (snd g) + (x (snd g) - expect x c) * (y (snd g) - expect y c)))%R), cov_gen. ring.
Qed.

Lemma expect_normalised f c c' eta : normalize c = (c', eta) -> (1 / 100000000 < total c)%R -> (expect f c' = expect f c / total c)%R.
Proof.
  unfold normalize. rewrite wsum_total. intros E H. destruct (Rltb_spec (1 / 100000000) (total c)); [|exfalso; lra]. inversion E; subst.
  rewrite (map_ext _ (fun g => ((/ total c * fst g)%R, snd g))). 2:{ intros g. f_equal. unfold Rdiv. ring. }
  rewrite expect_scale. unfold Rdiv. ring.
Qed.

Lemma rsum_ext {A} (f g : A -> R) l : (forall x, In x l -> f x = g x) -> rsum f l = rsum g l.
Proof. induction l as [|x l IH]; intros H; simpl; auto. rewrite (H x) by (simpl; auto). rewrite IH; auto. intros y Hy. apply H. simpl. auto. Qed.
Lemma join_moments (sortf : list comp -> list comp) cw_lim w (pdfs : list (list comp)) c' eta : valid_sort sortf -> length w <= length pdfs ->
  (forall x, In x w -> (0 <= x)%R) -> (forall p, In p pdfs -> nonneg p /\ (p = [] \/ total p = 1%R)) ->
  join sortf cw_lim w pdfs = Ok (c', eta) -> c' <> [] -> length c' = length (scaled w pdfs) ->
  let W := rsum (fun wp => fst wp * total (snd wp))%R (combine w pdfs) in
  eta = W /\ (0 < W)%R /\
  (forall x, mean x c' = rsum (fun wp => fst wp * mean x (snd wp)) (combine w pdfs) / W)%R /\
  (forall (p : G -> R) x y, cov p x y c' =
     rsum (fun wp => fst wp * (cov p x y (snd wp) +
        total (snd wp) * ((mean x (snd wp) - mean x c') * (mean y (snd wp) - mean y c')))) (combine w pdfs) / W)%R.
Proof.
  intros Hs Hl Hw Hp E Hne Hlen W. unfold join in E.
  destruct (join_raw_ok sortf cw_lim w pdfs Hs Hl Hw (fun p H => proj1 (Hp p H))) as (c & rest & Ec & Hperm & _).
  rewrite Ec in E. cbn [bind] in E. injection E as E.
  assert (Hc : (1 / 100000000 < total c)%R /\ eta = total c /\ length c' = length c).
  { destruct (normalize_ok _ _ _ E) as [(H1 & H2 & H3 & _)|(_ & H2 & _)]; [|congruence].
    split; auto. split; auto. apply (f_equal (@length _)) in H3. rewrite !map_length in H3. auto. }
  destruct Hc as (Ht & He & Hlc). pose proof (Permutation_length Hperm) as Hpl. rewrite app_length in Hpl.
  assert (rest = []) by (destruct rest; auto; simpl in Hpl; lia). subst rest. rewrite app_nil_r in Hperm.
  assert (HW : total c = W) by (rewrite (total_perm _ _ Hperm); apply total_scaled).
  assert (Hex : forall f, expect f c' = (rsum (fun wp => fst wp * expect f (snd wp)) (combine w pdfs) / W)%R).
  { intros f. rewrite (expect_normalised f _ _ _ E Ht), (expect_perm f _ _ Hperm), expect_scaled, HW. reflexivity. }
  assert (HW0 : (0 < W)%R) by lra.
  split; [congruence|]. split; auto. split.
  - intros x. rewrite mean_expect, Hex. f_equal. apply rsum_ext. intros wp _. rewrite mean_expect. reflexivity.
  - intros p x y. assert (Ht1 : total c' = 1%R).
    { destruct (normalize_ok _ _ _ E) as [(_ & _ & _ & _ & H)|(H & _)]; auto. exfalso; lra. }
    rewrite cov_expect, Ht1.
    assert (Hr : rsum (fun wp => fst wp * (cov p x y (snd wp) +
        total (snd wp) * ((mean x (snd wp) - mean x c') * (mean y (snd wp) - mean y c'))))%R (combine w pdfs) =
      rsum (fun wp => (1 * (fst wp * expect p (snd wp)) + 1 * (fst wp * expect (fun g => x g * y g) (snd wp)))
         + (- expect y c') * (fst wp * expect x (snd wp)) +
         1 * ((- expect x c') * (fst wp * expect y (snd wp)) + expect x c' * expect y c' * (fst wp * total (snd wp))))%R (combine w pdfs)).
    { apply rsum_ext. intros (x0, q) Hq. cbn [fst snd]. rewrite cov_expect, !mean_expect.
      destruct (proj2 (Hp q (in_combine_r _ _ _ _ Hq))) as [->|Hq1].
      - unfold expect. simpl. ring.
      - rewrite Hq1. ring. }
    rewrite Hr. clear Hr.
    assert (Hsum : forall l, (rsum (fun wp => (1 * (fst wp * expect p (snd wp)) + 1 * (fst wp * expect (fun g => x g * y g) (snd wp)))
         + (- expect y c') * (fst wp * expect x (snd wp)) +
         1 * ((- expect x c') * (fst wp * expect y (snd wp)) + expect x c' * expect y c' * (fst wp * total (snd wp)))) l =
       rsum (fun wp => fst wp * expect p (snd wp)) l + rsum (fun wp => fst wp * expect (fun g => x g * y g) (snd wp)) l
       - expect y c' * rsum (fun wp => fst wp * expect x (snd wp)) l - expect x c' * rsum (fun wp => fst wp * expect y (snd wp)) l
       + expect x c' * expect y c' * rsum (fun wp : R * list comp => fst wp * total (snd wp)) l)%R).
    { induction l as [|wp l IH]; simpl; [lra|]. rewrite IH. ring. }
    rewrite Hsum. clear Hsum. fold W. rewrite (Hex p), (Hex (fun g => x g * y g)%R).
    assert (Ex : (rsum (fun wp => fst wp * expect x (snd wp)) (combine w pdfs) = expect x c' * W)%R) by (rewrite Hex; field; lra).
    assert (Ey : (rsum (fun wp => fst wp * expect y (snd wp)) (combine w pdfs) = expect y c' * W)%R) by (rewrite Hex; field; lra).
    rewrite Ex, Ey. field. lra.
Qed.

(** ** Pruning *)

Lemma firstn_heaviest k c : decreasing c -> heaviest (firstn k c) (skipn k c).
Proof. intros H. rewrite <- (firstn_skipn k c) in H. apply decreasing_app_inv in H. destruct H as (H1 & _ & H3). split; auto. Qed.

Lemma filter_split (f : comp -> bool) c : Permutation (filter f c ++ filter (fun g => negb (f g)) c) c.
Proof.
  induction c as [|x c IH]; simpl; auto. destruct (f x); simpl; [constructor; auto|].
  rewrite <- Permutation_middle. constructor. auto.
Qed.

Lemma prune_ok sortf cw_lim c : valid_sort sortf ->
  exists kept light surplus, Permutation (kept ++ light ++ surplus) c /\
    (forall g, In g light -> (fst g < cw_lim)%R) /\ (forall g, In g (kept ++ surplus) -> (cw_lim <= fst g)%R) /\
    heaviest kept surplus /\ length kept <= MAX_COMPONENTS /\ (surplus <> [] -> length kept = MAX_COMPONENTS) /\
    (kept = [] -> prune sortf cw_lim c = ([], None)) /\
    (kept <> [] -> exists c' eta, prune sortf cw_lim c = (c', Some eta) /\ normalised kept c' eta).
Proof.
  intros Hs. set (heavy := filter (fun g : comp => negb (Rltb (fst g) cw_lim)) c).
  exists (firstn MAX_COMPONENTS (sortf heavy)), (filter (fun g : comp => negb (negb (Rltb (fst g) cw_lim))) c), (skipn MAX_COMPONENTS (sortf heavy)).
  pose proof (Hs heavy) as (Hp & Hd).
  split. { rewrite (Permutation_app_comm (filter _ c)), app_assoc, firstn_skipn, <- Hp. apply filter_split. }
  split. { intros g Hg. apply filter_In in Hg. destruct Hg as (_ & Hg). destruct (Rltb_spec (fst g) cw_lim); auto. discriminate. }
  split. { intros g Hg. rewrite firstn_skipn in Hg. eapply Permutation_in in Hg; [|symmetry; exact Hp]. apply filter_In in Hg.
    destruct Hg as (_ & Hg). destruct (Rltb_spec (fst g) cw_lim); [discriminate|lra]. }
  split; [apply firstn_heaviest; auto|]. split; [rewrite firstn_length; lia|]. split.
  { intros H. rewrite firstn_length. apply Nat.min_l. destruct (Nat.le_gt_cases (length (sortf heavy)) MAX_COMPONENTS); [|lia].
    exfalso. apply H. apply skipn_all2. auto. }
  split.
  - intros E. unfold prune. change (filter _ c) with heavy. cbv zeta. rewrite E. reflexivity.
  - intros E. unfold prune. change (filter _ c) with heavy. cbv zeta. destruct (firstn MAX_COMPONENTS (sortf heavy)) as [|g k] eqn:Ek; [congruence|].
    destruct (normalize (g :: k)) as (c', eta) eqn:En. exists c', eta. split; auto. apply normalize_ok. auto.
Qed.

Lemma plus_ok sortf cw_lim (a b : list comp) : valid_sort sortf ->
  exists kept light surplus, Permutation (kept ++ light ++ surplus) (a ++ b) /\
    (forall g, In g light -> (fst g < cw_lim)%R) /\ (forall g, In g (kept ++ surplus) -> (cw_lim <= fst g)%R) /\
    heaviest kept surplus /\ length kept <= MAX_COMPONENTS /\ (surplus <> [] -> length kept = MAX_COMPONENTS) /\
    (kept = [] -> plus sortf cw_lim a b = []) /\
    (kept <> [] -> exists eta, normalised kept (plus sortf cw_lim a b) eta).
Proof.
  intros Hs. destruct (prune_ok sortf cw_lim (a ++ b) Hs) as (kept & light & surplus & H1 & H2 & H3 & H4 & H5 & H6 & H7 & H8).
  exists kept, light, surplus. repeat (split; auto); unfold plus.
  - intros K. rewrite (H7 K). reflexivity.
  - intros K. destruct (H8 K) as (c' & eta & E & Hn). exists eta. rewrite E. exact Hn.
Qed.

Lemma prune_sum sortf cw_lim c c' eta : valid_sort sortf -> (1 / 100000000 < cw_lim)%R ->
  prune sortf cw_lim c = (c', Some eta) -> total c' = 1%R.
Proof.
  intros Hs Hc E. destruct (prune_ok sortf cw_lim c Hs) as (kept & light & surplus & _ & _ & Hk & _ & _ & _ & H0 & H1).
  destruct kept as [|g k]. { rewrite H0 in E; [discriminate|auto]. }
  destruct H1 as (c'' & eta' & E' & Hn); [discriminate|]. rewrite E in E'. inversion E'; subst.
  destruct Hn as [(_ & _ & _ & _ & H)|(Ht & _)]; auto. exfalso.
  assert (Hg : forall h, In h (g :: k) -> (cw_lim <= fst h)%R) by (intros h Hh; apply Hk; apply in_or_app; auto).
  assert (0 <= total k)%R. { apply total_nonneg. intros h Hh. specialize (Hg h (or_intror Hh)). lra. }
  specialize (Hg g (or_introl eq_refl)). simpl in Ht. lra.
Qed.

(** ** Sampling *)

Lemma int_part_nat x : (0 <= x)%R -> (0 <= Int_part x)%Z /\ (INR (Z.to_nat (Int_part x)) <= x < INR (Z.to_nat (Int_part x)) + 1)%R.
Proof.
  intros H. destruct (base_Int_part x) as (H1 & H2).
  assert (Hz : (0 <= Int_part x)%Z).
  { apply Z.lt_succ_r. apply lt_IZR. rewrite succ_IZR. lra. }
  split; auto. rewrite INR_IZR_INZ, Z2Nat.id by auto. lra.
Qed.

Fixpoint nsum (l : list nat) : nat := match l with [] => 0 | n :: l => n + nsum l end.

Lemma sample_fold cols : forall c s (done : list (option nat)) ns,
  nonneg c -> (INR (length done) + total c * INR cols <= INR cols)%R ->
  ns = map (fun g => Z.to_nat (Int_part (fst g * INR cols))) c ->
  length done + nsum ns <= cols /\
  fold_left (fun acc ig =>
      '(out, col) <- acc;;
      let x := Int_part (fst (snd ig) * INR cols) in
      if Z.ltb x 0 then UB
      else
        let n := Z.to_nat x in
        if cols <? col + n then UB
        else Ok (firstn col out ++ repeat (Some (fst ig)) n ++ skipn (col + n) out, col + n))
    (combine (seq s (length c)) c) (Ok (done ++ repeat None (cols - length done), length done)) =
  Ok (done ++ flat_map (fun i => repeat (Some (fst i)) (snd i)) (combine (seq s (length c)) ns) ++
        repeat None (cols - (length done + nsum ns)), length done + nsum ns).
Proof.
  induction c as [|g c IH]; intros s done ns Hn Ht ->.
  - simpl. split; [|rewrite Nat.add_0_r; reflexivity]. simpl in Ht. rewrite Nat.add_0_r. apply INR_le. lra.
  - assert (Hg : (0 <= fst g)%R) by (apply Hn; simpl; auto).
    assert (Hnc : nonneg c) by (intros h Hh; apply Hn; simpl; auto).
    destruct (int_part_nat (fst g * INR cols)) as (Hz & Hlo & Hhi). { apply Rmult_le_pos; auto. apply pos_INR. }
    set (n := Z.to_nat (Int_part (fst g * INR cols))) in *.
    cbn [length seq combine fold_left map fst snd bind total] in *.
    rewrite (proj2 (Z.ltb_ge _ _)) by auto. fold n.
    pose proof (total_nonneg c Hnc) as Htc. pose proof (pos_INR cols) as Hc0.
    assert (Hle : length done + n <= cols).
    { apply INR_le. rewrite plus_INR. assert (0 <= total c * INR cols)%R by (apply Rmult_le_pos; auto). lra. }
    rewrite (proj2 (Nat.ltb_ge _ _)) by auto.
    destruct (IH (S s) (done ++ repeat (Some s) n) (map (fun g : comp => Z.to_nat (Int_part (fst g * INR cols))) c) Hnc) as (H1 & H2); auto.
    { rewrite app_length, repeat_length, plus_INR. lra. }
    rewrite app_length, repeat_length in H1, H2. cbn [nsum]. fold n.
    split; [rewrite Nat.add_assoc; exact H1|].
    replace (firstn (length done) (done ++ repeat None (cols - length done))) with done.
    2:{ rewrite firstn_app, Nat.sub_diag, firstn_all. simpl. rewrite app_nil_r. reflexivity. }
    replace (skipn (length done + n) (done ++ repeat None (cols - length done))) with (repeat (@None nat) (cols - (length done + n))).
    2:{ rewrite skipn_app. rewrite skipn_all2 by lia. cbn [app]. replace (length done + n - length done) with n by lia.
        replace (cols - length done) with (n + (cols - (length done + n))) by lia. rewrite repeat_app, skipn_app, skipn_all2 by (rewrite repeat_length; lia).
        rewrite repeat_length, Nat.sub_diag. reflexivity. }
    rewrite <- app_assoc in H2. rewrite H2. cbn [flat_map fst snd combine]. rewrite <- !app_assoc, !Nat.add_assoc. reflexivity.
Qed.

Lemma sample_cols_ok cols c : nonneg c -> (total c <= 1)%R ->
  exists ns, Forall2 (fun g n => (INR n <= fst g * INR cols < INR n + 1)%R) c ns /\ nsum ns <= cols /\
    sample_cols cols c = Ok (flat_map (fun i => repeat (Some (fst i)) (snd i)) (combine (seq 0 (length c)) ns) ++
                             repeat None (cols - nsum ns)) /\
    (total c = 1%R -> cols - nsum ns < length c \/ cols = nsum ns).
Proof.
  intros Hn Ht. set (ns := map (fun g : comp => Z.to_nat (Int_part (fst g * INR cols))) c).
  destruct (sample_fold cols c 0 [] ns Hn) as (H1 & H2); auto.
  { simpl. pose proof (pos_INR cols). apply Rmult_le_compat_r with (r := INR cols) in Ht; lra. }
  assert (Hf : Forall2 (fun g n => (INR n <= fst g * INR cols < INR n + 1)%R) c ns).
  { unfold ns. clear H1 H2 Ht ns. induction c as [|g c IH]; simpl; constructor.
    - apply int_part_nat. apply Rmult_le_pos; [apply Hn; simpl; auto|apply pos_INR].
    - apply IH. intros h Hh. apply Hn. simpl. auto. }
  exists ns. split; auto. simpl in H1. split; auto. split.
  - unfold sample_cols. cbn [app length] in H2. rewrite Nat.sub_0_r in H2. rewrite H2. reflexivity.
  - intros Ht1. destruct c as [|g c']; [simpl in Ht1; lra|]. left.
    assert (Hlt : (total (g :: c') * INR cols < INR (nsum ns) + INR (length (g :: c')))%R).
    { assert (X : forall (l : list comp) m, Forall2 (fun g n => (INR n <= fst g * INR cols < INR n + 1)%R) l m ->
        (total l * INR cols <= INR (nsum m) + INR (length l))%R /\ (l <> [] -> total l * INR cols < INR (nsum m) + INR (length l))%R).
      { induction 1 as [|x n l m Hx Hfl IH]; [simpl; split; [lra|intros H0; exfalso; apply H0; reflexivity]|]. cbn [total nsum length]. rewrite plus_INR, S_INR, Rmult_plus_distr_r.
        destruct IH as (IH & _). split; intros; lra. }
      apply X; auto. discriminate. }
    rewrite Ht1, Rmult_1_l, <- plus_INR in Hlt. apply INR_lt in Hlt. lia.
Qed.
End GM.

(** ** Boxes *)

Lemma local_box_ok {G} (x0 x1 : G -> R) (cbox : G -> aabb) (c : list (comp (G := G))) :
  c <> [] -> (forall g, In g c -> point_in (x0 (snd g)) (x1 (snd g)) (cbox (snd g))) ->
  exists b, local_aabbox x0 x1 cbox c = Some b /\
    (forall g, In g c -> inside_box (cbox (snd g)) b /\ point_in (x0 (snd g)) (x1 (snd g)) b) /\
    (forall b', (forall g, In g c -> inside_box (cbox (snd g)) b') -> inside_box b b').
Proof.
  intros Hne Hp. destruct c as [|g0 c0]; [congruence|]. unfold local_aabbox.
  set (f := fun b (h : comp) => mkAabb (Rmin (min0 b) (min0 (cbox (snd h)))) (Rmin (min1 b) (min1 (cbox (snd h))))
                     (Rmax (max0 b) (max0 (cbox (snd h)))) (Rmax (max1 b) (max1 (cbox (snd h))))).
  assert (Hf : forall l b, inside_box b (fold_left f l b) /\ (forall g, In g l -> inside_box (cbox (snd g)) (fold_left f l b)) /\
    forall b', inside_box b b' -> (forall g, In g l -> inside_box (cbox (snd g)) b') -> inside_box (fold_left f l b) b').
  { induction l as [|h l IH]; intros b; simpl.
    - split; [unfold inside_box; lra|]. split; [intros g []|auto].
    - destruct (IH (f b h)) as (H1 & H2 & H3). clear IH. set (r := fold_left f l (f b h)) in *. unfold inside_box in *. simpl in *.
      pose proof (Rmin_l (min0 b) (min0 (cbox (snd h)))). pose proof (Rmin_r (min0 b) (min0 (cbox (snd h)))).
      pose proof (Rmin_l (min1 b) (min1 (cbox (snd h)))). pose proof (Rmin_r (min1 b) (min1 (cbox (snd h)))).
      pose proof (Rmax_l (max0 b) (max0 (cbox (snd h)))). pose proof (Rmax_r (max0 b) (max0 (cbox (snd h)))).
      pose proof (Rmax_l (max1 b) (max1 (cbox (snd h)))). pose proof (Rmax_r (max1 b) (max1 (cbox (snd h)))).
      split; [lra|]. split.
      + intros g [<-|Hg]; [lra|auto].
      + intros b' Hb Hg. apply H3; auto. specialize (Hg h (or_introl eq_refl)) as Hh.
        repeat split; try (apply Rmin_glb; lra); apply Rmax_lub; lra. }
  set (b0 := mkAabb _ _ _ _). exists (fold_left f (g0 :: c0) b0). split; [reflexivity|]. destruct (Hf (g0 :: c0) b0) as (H1 & H2 & H3).
  split.
  - intros g Hg. split; auto. specialize (H2 g Hg). specialize (Hp g Hg). unfold inside_box, point_in in *.
    lra.
  - intros b' Hb. apply H3; auto. specialize (Hb g0 (or_introl eq_refl)). specialize (Hp g0 (or_introl eq_refl)).
    unfold inside_box, point_in in *. subst b0. simpl. lra.
Qed.
