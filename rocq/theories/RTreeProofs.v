(** Proofs about the spatial index: insertion, removal, search, count. *)
From Coq Require Import List Arith Bool Lia Permutation.
Import ListNotations.
From Verif Require Import Res Scalar RTree RTreeSpec RTreeSplit.

(** ** Lists *)
Lemma flat_map_upd {A B} (f : A -> list B) (l : list A) i x d : i < length l ->
  Permutation (f (nth i l d) ++ flat_map f (upd l i x)) (f x ++ flat_map f l).
Proof.
  revert i. induction l as [|y l IH]; intros i Hi; [simpl in Hi; lia|]. destruct i as [|i]; cbn [nth upd flat_map].
  - rewrite !app_assoc. apply Permutation_app_tail. apply Permutation_app_comm.
  - simpl in Hi. rewrite app_assoc, (Permutation_app_comm (f (nth i l d))), <- app_assoc, IH by lia.
    rewrite !app_assoc. apply Permutation_app_tail, Permutation_app_comm.
Qed.

Lemma perm_upd {A} (l : list A) i x d : i < length l -> Permutation (nth i l d :: upd l i x) (x :: l).
Proof.
  revert i. induction l as [|y l IH]; intros i Hi; [simpl in Hi; lia|]. destruct i as [|i]; cbn [nth upd].
  - apply perm_swap.
  - simpl in Hi. rewrite perm_swap, IH by lia. apply perm_swap.
Qed.

Lemma Forall_upd {A} (P : A -> Prop) l i x : Forall P l -> P x -> Forall P (upd l i x).
Proof. intros Hl Hx. revert i. induction Hl; intros [|i]; cbn [upd]; constructor; auto. Qed.

Lemma Forall_perm {A} (P : A -> Prop) l l' : Permutation l l' -> Forall P l -> Forall P l'.
Proof. intros Hp Hl. apply Forall_forall. intros x Hx. eapply Forall_forall in Hl; eauto. eapply Permutation_in; [symmetry|]; eauto. Qed.

Lemma flat_map_perm {A B} (f : A -> list B) l l' : Permutation l l' -> Permutation (flat_map f l) (flat_map f l').
Proof.
  induction 1; simpl; auto.
  - apply Permutation_app_head; auto.
  - rewrite !app_assoc. apply Permutation_app_tail, Permutation_app_comm.
  - etransitivity; eauto.
Qed.

Lemma upd_app_l {A} (m : list A) t i x : i < length m -> upd (m ++ t) i x = upd m i x ++ t.
Proof. revert i. induction m as [|y m IH]; intros i Hi; simpl in Hi; [lia|]. destruct i; simpl; auto. rewrite IH by lia. auto. Qed.
Lemma upd_same {A} (l : list A) i d : i < length l -> upd l i (nth i l d) = l.
Proof. revert i. induction l as [|y l IH]; intros i Hi; simpl in Hi; [lia|]. destruct i; simpl; auto. rewrite IH by lia. auto. Qed.

Section Proofs.
Context {T D : Type} (O : Num T) (deq : D -> D -> bool).
Variable vol : rect T -> T.
Variable ok : T -> Prop.
Notation le := (le O).
Notation good := (good O ok).
Notation fine := (fine ok).
Hypothesis lt_asym : forall x y, ok x -> ok y -> nlt O x y = true -> nlt O y x = false.
Hypothesis le_trans : forall x y z, ok x -> ok y -> ok z -> le x y -> le y z -> le x z.
Hypothesis diff_ok : forall b c0 c1, good b -> good c0 -> good c1 ->
  let g0 := nsub O (vol (combine_rect O b c0)) (vol c0) in
  let g1 := nsub O (vol (combine_rect O b c1)) (vol c1) in
  let d := nsub O g1 g0 in
  if nle O (n0 O) d then nlt O (nsub O (n0 O) (n1 O)) d = true
  else nlt O (nsub O (n0 O) (n1 O)) (nsub O (n0 O) d) = true.
Hypothesis seed_ok : forall a b c, good a -> good b -> good c -> contains le c a -> contains le c b ->
  nlt O (nsub O (nsub O (n0 O) (vol c)) (n1 O))
        (nsub O (nsub O (vol (combine_rect O a b)) (vol a)) (vol b)) = true.
Hypothesis deq_spec : forall a b, deq a b = true <-> a = b.

Notation bb := (balanced_branch (D := D) le good).
Notation E lv bs := (flat_map (below (T := T) (D := D) lv) bs).

(** ** Bounding rectangles *)
Lemma bounding_perm r rs rs' : Permutation rs rs' -> bounding le r rs -> bounding le r rs'.
Proof.
  intros Hp (H & (q1 & I1 & E1) & (q2 & I2 & E2) & (q3 & I3 & E3) & (q4 & I4 & E4)).
  split; [intros q Hq; apply H; eapply Permutation_in; [symmetry; eauto|auto]|].
  split; [exists q1|split; [exists q2|split; [exists q3|exists q4]]]; (split; [|auto]); eapply Permutation_in; eauto.
Qed.

Lemma bounding_combine a A b B : good a -> good b -> Forall good A -> Forall good B ->
  bounding le a A -> bounding le b B -> bounding le (combine_rect O a b) (A ++ B).
Proof.
  intros Ga Gb GA GB (HA & (a1 & Ia1 & Ea1) & (a2 & Ia2 & Ea2) & (a3 & Ia3 & Ea3) & (a4 & Ia4 & Ea4))
         (HB & (b1 & Ib1 & Eb1) & (b2 & Ib2 & Eb2) & (b3 & Ib3 & Eb3) & (b4 & Ib4 & Eb4)).
  assert (Gc : good (combine_rect O a b)) by (apply combine_good; auto).
  rewrite Forall_forall in GA, GB.
  split.
  { intros q Hq. apply in_app_iff in Hq. destruct Hq as [Hq|Hq].
    - apply (contains_trans O ok le_trans _ a q); auto. apply (combine_l O ok); auto.
    - apply (contains_trans O ok le_trans _ b q); auto. apply (combine_r O ok); auto. }
  unfold combine_rect. cbn [min0 min1 max0 max1]. repeat split.
  - destruct (fmin_or O (min0 a) (min0 b)) as [-> | ->]; [exists a1|exists b1]; rewrite in_app_iff; auto.
  - destruct (fmin_or O (min1 a) (min1 b)) as [-> | ->]; [exists a2|exists b2]; rewrite in_app_iff; auto.
  - destruct (fmax_or O (max0 a) (max0 b)) as [-> | ->]; [exists a3|exists b3]; rewrite in_app_iff; auto.
  - destruct (fmax_or O (max1 a) (max1 b)) as [-> | ->]; [exists a4|exists b4]; rewrite in_app_iff; auto.
Qed.

Lemma bb_good lv b : bb lv b -> good (fst b).
Proof. destruct lv; simpl; [intros [_ H]; auto|intros (bs & _ & _ & _ & H & _); auto]. Qed.

Lemma bb_entries_good lv : forall b, bb lv b -> Forall good (map fst (below lv b)).
Proof.
  induction lv as [|lv IH]; intros b; simpl.
  - intros [(d & E) H]. rewrite E. simpl. auto.
  - intros (bs & E & _ & _ & _ & H). rewrite E. clear E. induction H as [|b' bs Hb _ IHbs]; simpl; auto.
    rewrite map_app. apply Forall_app. auto.
Qed.

Lemma bb_all_good lv bs : Forall (bb lv) bs -> Forall good (map fst (E lv bs)).
Proof.
  induction 1 as [|b bs Hb _ IH]; simpl; auto. rewrite map_app. apply Forall_app. split; auto. apply bb_entries_good; auto.
Qed.

Lemma bb_bounding lv b : bb lv b -> bounding le (fst b) (map fst (below lv b)).
Proof.
  destruct lv; simpl.
  - intros [(d & E) H]. rewrite E. simpl.
    split; [intros q [<-|[]]; apply (contains_refl O ok lt_asym); auto|].
    repeat split; eexists; (split; [left; reflexivity|auto]).
  - intros (bs & E & _ & Hb & _). rewrite E. auto.
Qed.

Lemma forall_all_good lv bs : Forall (bb lv) bs -> all_good O ok bs.
Proof. intros H b Hb. rewrite Forall_forall in H. apply bb_good with lv; auto. Qed.

Lemma cover_bounding_fold lv bs : Forall (bb lv) bs -> forall r rs, good r -> Forall good rs -> bounding le r rs ->
  bounding le (fold_left (fun r (b : branch T D) => combine_rect O r (fst b)) bs r) (rs ++ map fst (E lv bs)).
Proof.
  induction 1 as [|b bs Hb Hbs IH]; intros r rs Hr Hrs Hbd; cbn [fold_left flat_map map].
  - rewrite app_nil_r. auto.
  - rewrite map_app, app_assoc. apply IH.
    + apply combine_good; auto. eapply bb_good; eauto.
    + apply Forall_app. split; auto. apply bb_entries_good; auto.
    + apply bounding_combine; auto; [eapply bb_good; eauto|apply bb_entries_good; auto|apply bb_bounding; auto].
Qed.

Lemma cover_bounding lv bs : Forall (bb lv) bs -> bs <> [] ->
  good (node_cover O bs) /\ bounding le (node_cover O bs) (map fst (E lv bs)).
Proof.
  intros H Hne. split.
  - apply (cover_good O ok lt_asym le_trans bs Hne). eapply forall_all_good; eauto.
  - destruct bs as [|b bs]; [congruence|]. unfold node_cover. cbn [flat_map]. rewrite map_app.
    inversion H; subst. apply cover_bounding_fold; auto; [eapply bb_good; eauto|apply bb_entries_good; auto|apply bb_bounding; auto].
Qed.

Lemma sub_branch l bs : Forall (bb l) bs -> 4 <= length bs <= 8 -> bb (S l) (node_cover O bs, Sub l bs).
Proof.
  intros H Hl. destruct (cover_bounding l bs H) as [Hg Hb]; [destruct bs; [simpl in Hl; lia|discriminate]|].
  simpl. exists bs. auto.
Qed.

(** ** Insertion *)
Lemma pick_branch_spec r (bs : list (branch T D)) : 1 <= length bs ->
  wp False (pick_branch O vol r bs) (fun i => i < length bs).
Proof.
  intros Hl. unfold pick_branch. apply wp_bind.
  assert (d0 : branch T D) by (destruct bs; [simpl in *; lia|assumption]).
  eapply wp_conseq.
  { apply (wp_for False (length bs) 0 _ (fun k (st : option (nat * T * T)) =>
      match st with None => k = 0 | Some (i, _, _) => i < length bs end)).
    - reflexivity.
    - intros k st Hk Hst. rewrite (get_ok _ _ d0) by lia. cbn [bind].
      destruct st as [[[i a] c]|].
      + destruct (nlt O _ c); [apply wp_ret; lia|]. destruct (_ && _); apply wp_ret; lia.
      + apply wp_ret. lia. }
  intros [[[i a] c]|] H; cbn beta iota in *; [apply wp_ret; auto|lia].
Qed.

Lemma insert_rec_spec r it lv : bb lv (r, it) -> forall fuel level bs, level < fuel -> lv <= level ->
  Forall (bb level) bs -> length bs <= 8 -> (lv < level -> 1 <= length bs) ->
  wp False (insert_rec O vol fuel r it lv level bs) (fun o =>
    match o with
    | (x, None) => Forall (bb level) x /\ Permutation (E level x) (below lv (r, it) ++ E level bs) /\
                   length bs <= length x <= 8
    | (x, Some y) => Forall (bb level) x /\ Forall (bb level) y /\
                   Permutation (E level x ++ E level y) (below lv (r, it) ++ E level bs) /\
                   4 <= length x <= 8 /\ 4 <= length y <= 8
    end).
Proof.
  intros Hit. pose proof (bb_good _ _ Hit) as Hr. cbn [fst] in Hr.
  induction fuel as [|fuel IH]; intros level bs Hf Hlv Hbs Hlen Hne; [lia|]. cbn [insert_rec].
  destruct (Nat.ltb_spec lv level) as [Hlt|Hge].
  - destruct level as [|l]; [lia|]. apply wp_bind. eapply wp_conseq; [apply pick_branch_spec; auto|].
    intros i Hi. assert (d0 : branch T D) by (destruct bs; [simpl in *; lia|assumption]).
    rewrite (get_ok _ _ d0) by auto. cbn [bind]. set (b := nth i bs d0).
    assert (Hb : bb (S l) b) by (rewrite Forall_forall in Hbs; apply Hbs, nth_In; auto).
    pose proof Hb as Hb'. cbn [balanced_branch] in Hb'. destruct Hb' as (bs' & Es & Hl' & Hbd & Hgb & Hbs'). rewrite Es.
    apply wp_bind. eapply wp_conseq; [apply (IH l bs'); auto; lia|].
    intros [x [y|]] Hpost.
    + destruct Hpost as (Hx & Hy & Hp & Hlx & Hly). rewrite set_ok by auto. cbn [bind].
      set (bs'' := upd bs i (node_cover O x, Sub l x)).
      assert (Hbs'' : Forall (bb (S l)) bs'') by (apply Forall_upd; auto; apply sub_branch; auto).
      pose proof (sub_branch l y Hy Hly) as Hby.
      eapply wp_conseq.
      { apply (add_branch_spec O vol ok lt_asym le_trans diff_ok seed_ok bs'').
        - eapply forall_all_good; eauto.
        - apply (bb_good _ _ Hby).
        - unfold bs''. rewrite upd_length. auto. }
      assert (Hperm : Permutation (below (S l) (node_cover O y, Sub l y) ++ E (S l) bs'') (below lv (r, it) ++ E (S l) bs)).
      { apply Permutation_app_inv_l with (below (S l) b).
        rewrite app_assoc, (Permutation_app_comm (below (S l) b)), <- app_assoc. unfold bs'', b.
        rewrite (flat_map_upd (below (S l))) by auto. fold b.
        change (below (S l) (node_cover O y, Sub l y)) with (E l y).
        change (below (S l) (node_cover O x, Sub l x)) with (E l x).
        rewrite app_assoc, (Permutation_app_comm (E l y)), Hp.
        rewrite !app_assoc. apply Permutation_app_tail. rewrite Permutation_app_comm. apply Permutation_app_tail.
        cbn [below]. rewrite Es. reflexivity. }
      assert (Hall : Forall (bb (S l)) ((node_cover O y, Sub l y) :: bs'')) by (constructor; auto).
      intros [x' [y'|]] Hpost.
      * destruct Hpost as (Hp' & Hlx' & Hly').
        pose proof (Forall_perm _ _ _ (Permutation_sym Hp') Hall) as Hxy. apply Forall_app in Hxy. destruct Hxy.
        repeat split; auto; try lia. rewrite <- flat_map_app, (flat_map_perm _ _ _ Hp'). exact Hperm.
      * destruct Hpost as (Hp' & Hlx').
        split; [eapply Forall_perm; [symmetry; eauto|auto]|]. split.
        -- rewrite (flat_map_perm _ _ _ Hp'). exact Hperm.
        -- split; auto. apply Permutation_length in Hp'. simpl in Hp'. unfold bs'' in Hp'. rewrite upd_length in Hp'. lia.
    + destruct Hpost as (Hx & Hp & Hlx). rewrite set_ok by auto. cbn [bind]. apply wp_ret.
      assert (Hnb : bb (S l) (combine_rect O r (fst b), Sub l x)).
      { simpl. exists x. split; auto. split; [lia|]. split; [|split; auto].
        - eapply bounding_perm; [apply Permutation_map; symmetry; exact Hp|]. rewrite map_app.
          apply bounding_combine; auto.
          + apply (bb_entries_good _ _ Hit).
          + apply bb_all_good; auto.
          + apply (bb_bounding _ _ Hit).
        - apply combine_good; auto. }
      split; [apply Forall_upd; auto|]. split; [|rewrite upd_length; auto].
      apply Permutation_app_inv_l with (below (S l) b). unfold b. rewrite (flat_map_upd (below (S l))) by auto. fold b.
      change (below (S l) (combine_rect O r (fst b), Sub l x)) with (E l x). rewrite Hp.
      rewrite !app_assoc. apply Permutation_app_tail. rewrite Permutation_app_comm. apply Permutation_app_tail.
      cbn [below]. rewrite Es. reflexivity.
  - assert (level = lv) by lia. subst level. rewrite Nat.eqb_refl.
    eapply wp_conseq.
    { apply (add_branch_spec O vol ok lt_asym le_trans diff_ok seed_ok bs (r, it)); auto. eapply forall_all_good; eauto. }
    assert (Hall : Forall (bb lv) ((r, it) :: bs)) by (constructor; auto).
    intros [x [y|]] Hpost.
    + destruct Hpost as (Hp' & Hlx' & Hly').
      pose proof (Forall_perm _ _ _ (Permutation_sym Hp') Hall) as Hxy. apply Forall_app in Hxy. destruct Hxy.
      repeat split; auto; try lia. rewrite <- flat_map_app, (flat_map_perm _ _ _ Hp'). reflexivity.
    + destruct Hpost as (Hp' & Hlx').
      split; [eapply Forall_perm; [symmetry; eauto|auto]|]. split; [rewrite (flat_map_perm _ _ _ Hp'); reflexivity|].
      apply Permutation_length in Hp'. simpl in Hp'. lia.
Qed.

(** The root while nodes are being reinserted: at least [k] branches. *)
Definition root_ok (k : nat) (n : node T D) : Prop :=
  Forall (bb (fst n)) (snd n) /\ length (snd n) <= 8 /\ (0 < fst n -> k <= length (snd n)).

Lemma insert_rect_spec r it lv k root : bb lv (r, it) -> root_ok k root -> 1 <= k <= 2 -> lv <= fst root ->
  wp False (insert_rect O vol r it lv root) (fun root' => root_ok k root' /\ fst root <= fst root' /\
     Permutation (entries root') (below lv (r, it) ++ entries root)).
Proof.
  intros Hit Hroot Hk Hlv. destruct root as [level bs]. destruct Hroot as (Hbs & Hlen & Hne). cbn [fst snd] in *.
  unfold insert_rect. apply wp_bind. eapply wp_conseq.
  { apply insert_rec_spec; auto. intros H. specialize (Hne ltac:(lia)). lia. }
  intros [x [y|]] Hpost.
  - destruct Hpost as (Hx & Hy & Hp & Hlx & Hly). cbn [add_plain length Nat.ltb Nat.leb bind MAXNODES app].
    unfold add_plain. cbn [length]. change (0 <? MAXNODES) with true. change (1 <? MAXNODES) with true. cbn [bind app length].
    change (1 <? MAXNODES) with true. cbn [bind app]. apply wp_ret.
    unfold root_ok, entries. cbn [fst snd]. split; [split; [|split]|split].
    + constructor; [|constructor; [|constructor]]; apply sub_branch; auto.
    + simpl. lia.
    + simpl. lia.
    + lia.
    + cbn [flat_map]. rewrite app_nil_r. exact Hp.
  - destruct Hpost as (Hx & Hp & Hlx). apply wp_ret.
    unfold root_ok, entries. cbn [fst snd]. split; [split; [|split]|split]; auto; try lia.
Qed.

(** ** Removal *)
Lemma disconnect_spec (bs : list (branch T D)) i d0 : i < length bs ->
  wp False (disconnect bs i) (fun bs' => Permutation (nth i bs d0 :: bs') bs).
Proof.
  intros Hi. unfold disconnect. destruct (exists_last (l := bs)) as (m & x & ->); [destruct bs; [simpl in Hi; lia|discriminate]|].
  rewrite app_length in Hi. simpl in Hi.
  rewrite (get_ok _ _ d0) by (rewrite app_length; simpl; lia). cbn [bind].
  rewrite app_length. simpl length. replace (length m + 1 - 1) with (length m) by lia.
  assert (Hlast : nth (length m) (m ++ [x]) d0 = x) by (rewrite app_nth2, Nat.sub_diag by lia; auto).
  rewrite Hlast, set_ok by (rewrite app_length; simpl; lia). cbn [bind]. apply wp_ret.
  destruct (Nat.eq_dec i (length m)) as [->|Hn].
  - pose proof (upd_same (m ++ [x]) (length m) d0 ltac:(rewrite app_length; simpl; lia)) as Hs. rewrite Hlast in Hs.
    rewrite Hs, removelast_last, Hlast.
    apply Permutation_cons_append.
  - rewrite upd_app_l by lia. rewrite removelast_last, app_nth1 by lia. rewrite perm_upd by lia. apply Permutation_cons_append.
Qed.

Lemma overlap_touches a b : overlap O a b = true <-> touches le a b.
Proof.
  unfold overlap, touches, RTreeSpec.le. rewrite andb_true_iff, !negb_true_iff, !orb_false_iff. tauto.
Qed.

Lemma touches_contains r c q : fine r -> good c -> good q -> contains le c q -> touches le r q -> touches le r c.
Proof.
  intros (R1 & R2 & R3 & R4) ((C1 & C2 & C3 & C4) & _) ((Q1 & Q2 & Q3 & Q4) & _) (K1 & K2 & K3 & K4) (T1 & T2 & T3 & T4).
  repeat split.
  - apply le_trans with (max0 q); auto.
  - apply le_trans with (min0 q); auto.
  - apply le_trans with (max1 q); auto.
  - apply le_trans with (min1 q); auto.
Qed.

Lemma prune lv b r e : bb lv b -> fine r -> overlap O r (fst b) = false -> In e (below lv b) -> overlap O r (fst e) = false.
Proof.
  intros Hb Hr Ho He. destruct (overlap O r (fst e)) eqn:Eo; auto. exfalso.
  apply overlap_touches in Eo.
  assert (Hin : In (fst e) (map fst (below lv b))) by (apply in_map; auto).
  destruct (bb_bounding _ _ Hb) as [Hc _]. specialize (Hc _ Hin).
  pose proof (bb_entries_good _ _ Hb) as Hg. rewrite Forall_forall in Hg. specialize (Hg _ Hin).
  assert (Ht : touches le r (fst b)) by (eapply touches_contains; [| | |exact Hc|exact Eo]; auto; eapply bb_good; eauto).
  apply overlap_touches in Ht. congruence.
Qed.

Definition removed (d : D) (level : nat) (bs : list (branch T D)) (lst : list (node T D))
    (o : option (list (branch T D) * list (node T D))) : Prop :=
  match o with
  | None => False
  | Some (bs', lst') => exists L r0, lst' = L ++ lst /\ Forall (bb level) bs' /\
      length bs - 1 <= length bs' <= length bs /\
      Forall (fun n => fst n < level /\ Forall (bb (fst n)) (snd n)) L /\
      Permutation (E level bs) ((r0, d) :: E level bs' ++ flat_map entries L)
  end.

Lemma remove_rec_spec r d : fine r -> forall fuel level bs lst, level < fuel -> Forall (bb level) bs -> length bs <= 8 ->
  wp False (remove_rec O deq fuel r d level bs lst) (fun o =>
    removed d level bs lst o \/ (o = None /\ forall r0, In (r0, d) (E level bs) -> overlap O r r0 = false)).
Proof.
  intros Hr. induction fuel as [|fuel IH]; intros level bs lst Hf Hbs Hlen; [lia|]. cbn [remove_rec].
  set (I := fun k (o : option (list (branch T D) * list (node T D))) => o = None /\
     forall j d0 r0, j < k -> In (r0, d) (below level (nth j bs d0)) -> overlap O r r0 = false).
  assert (Hfin : forall o, removed d level bs lst o \/ I (0 + length bs) o ->
     removed d level bs lst o \/ (o = None /\ forall r0, In (r0, d) (E level bs) -> overlap O r r0 = false)).
  { intros o [H|[-> H]]; auto. right. split; auto. intros r0 Hin. apply in_flat_map in Hin. destruct Hin as (b & Hb & Hin).
    destruct (In_nth _ _ b Hb) as (j & Hj & E0). apply (H j b r0); [lia|]. rewrite E0. auto. }
  destruct (Nat.ltb_spec 0 level) as [Hlt|Hge].
  - destruct level as [|l]; [lia|].
    eapply wp_conseq; [|exact Hfin]. apply wp_for_break.
    { split; auto. intros; lia. }
    intros i o Hi [-> Hno].
    assert (d0 : branch T D) by (destruct bs; [simpl in *; lia|assumption]).
    rewrite (get_ok _ _ d0) by lia. cbn [bind]. set (b := nth i bs d0).
    assert (Hb : bb (S l) b) by (rewrite Forall_forall in Hbs; apply Hbs, nth_In; lia).
    assert (HnextI : (forall r0, In (r0, d) (below (S l) b) -> overlap O r r0 = false) -> I (S i) None).
    { intros H. split; auto. intros j d1 r0 Hj Hin. destruct (Nat.eq_dec j i) as [->|].
      - rewrite (nth_indep _ d1 d0) in Hin by lia. apply H. exact Hin.
      - apply (Hno j d1 r0); auto. lia. }
    destruct (overlap O r (fst b)) eqn:Eo.
    2:{ apply wp_ret. cbn [snd fst]. apply HnextI. intros r0 Hin. apply (prune (S l) b r (r0, d)); auto. }
    pose proof Hb as Hb'. cbn [balanced_branch] in Hb'. destruct Hb' as (bs' & Es & Hl' & Hbd & Hgb & Hbs'). rewrite Es.
    assert (Ebl : below (S l) b = E l bs') by (cbn [below]; rewrite Es; reflexivity).
    apply wp_bind. eapply wp_conseq; [apply (IH l bs' lst); auto; lia|].
    intros o [Hrem|[-> Hn]].
    2:{ apply wp_ret. cbn [snd fst]. apply HnextI. intros r0 Hin. apply Hn. rewrite <- Ebl. auto. }
    destruct o as [[bs1 lst1]|]; [|contradiction]. destruct Hrem as (L & r0 & -> & Hb1 & Hl1 & HL & Hp).
    destruct (Nat.leb_spec MINNODES (length bs1)) as [Hm|Hm]; unfold MINNODES in Hm.
    + rewrite set_ok by lia. cbn [bind]. apply wp_ret. cbn [snd fst]. exists L, r0. split; auto.
      split; [apply Forall_upd; auto; apply sub_branch; auto; lia|]. split; [rewrite upd_length; lia|].
      split; [eapply Forall_impl; [|exact HL]; intros n [H1 H2]; split; [lia|auto]|].
      apply Permutation_app_inv_l with (E l bs1).
      rewrite <- Permutation_middle, app_assoc.
      change (E l bs1) with (below (S l) (node_cover O bs1, Sub l bs1)) at 1.
      rewrite <- (flat_map_upd (below (S l)) bs i (node_cover O bs1, Sub l bs1) d0) by lia. fold b. rewrite Ebl, Hp.
      simpl. constructor. rewrite <- !app_assoc. apply Permutation_app_head. apply Permutation_app_comm.
    + apply wp_bind. eapply wp_conseq; [apply (disconnect_spec bs i d0); lia|].
      intros bs'' Hp''. cbn beta in Hp''. fold b in Hp''. apply wp_ret. cbn [snd fst]. exists ((l, bs1) :: L), r0. split; auto.
      assert (Hall : Forall (bb (S l)) (b :: bs'')) by (eapply Forall_perm; [symmetry; eauto|auto]). inversion Hall; subst.
      split; auto. split; [apply Permutation_length in Hp''; simpl in Hp''; lia|]. split.
      * constructor; [split; auto; simpl; lia|]. eapply Forall_impl; [|exact HL]. intros n [H1' H2']; split; [lia|auto].
      * rewrite <- (flat_map_perm _ _ _ Hp''). cbn [flat_map]. rewrite Ebl, Hp. simpl. constructor.
        change (entries (l, bs1)) with (E l bs1).
        rewrite (Permutation_app_comm (E (S l) bs'')). rewrite <- ?app_assoc. apply Permutation_refl.
  - assert (level = 0) by lia. subst level.
    eapply wp_conseq; [|exact Hfin]. apply wp_for_break.
    { split; auto. intros; lia. }
    intros i o Hi [-> Hno].
    assert (d0 : branch T D) by (destruct bs; [simpl in *; lia|assumption]).
    rewrite (get_ok _ _ d0) by lia. cbn [bind]. set (b := nth i bs d0).
    assert (Hb : bb 0 b) by (rewrite Forall_forall in Hbs; apply Hbs, nth_In; lia).
    pose proof Hb as Hb'. destruct Hb' as [(dd & Es) Hgb].
    assert (Ebl : below 0 b = [(fst b, dd)]) by (cbn [below]; rewrite Es; reflexivity).
    rewrite Es. cbn [is_data]. destruct (deq dd d) eqn:Ed.
    + apply deq_spec in Ed. subst dd.
      apply wp_bind. eapply wp_conseq; [apply (disconnect_spec bs i d0); lia|].
      intros bs'' Hp''. cbn beta in Hp''. fold b in Hp''. apply wp_ret. cbn [snd fst]. exists [], (fst b). split; auto.
      assert (Hall : Forall (bb 0) (b :: bs'')) by (eapply Forall_perm; [symmetry; eauto|auto]). inversion Hall; subst.
      split; auto. split; [apply Permutation_length in Hp''; simpl in Hp''; lia|]. split; auto.
      rewrite <- (flat_map_perm _ _ _ Hp''). cbn [flat_map]. rewrite Ebl, app_nil_r. reflexivity.
    + apply wp_ret. cbn [snd fst]. split; auto. intros j d1 r0 Hj Hin. destruct (Nat.eq_dec j i) as [->|].
      * rewrite (nth_indep _ d1 d0) in Hin by lia. fold b in Hin. rewrite Ebl in Hin. destruct Hin as [Hin|[]].
        inversion Hin; subst. rewrite (proj2 (deq_spec d d) eq_refl) in Ed. discriminate.
      * apply (Hno j d1 r0); auto. lia.
Qed.

Lemma reinsert_node_spec n k root : Forall (bb (fst n)) (snd n) -> fst n <= fst root -> root_ok k root -> 1 <= k <= 2 ->
  wp False (reinsert_node O vol n root) (fun root' => root_ok k root' /\ fst root <= fst root' /\
     Permutation (entries root') (entries n ++ entries root)).
Proof.
  intros Hn Hlv Hroot Hk. unfold reinsert_node. eapply wp_conseq.
  { apply (wp_for False (length (snd n)) 0 _ (fun i root' => root_ok k root' /\ fst root <= fst root' /\
      Permutation (entries root') (E (fst n) (firstn i (snd n)) ++ entries root))).
    - split; auto.
    - intros i root' Hi (H1 & H2 & H3).
      assert (d0 : branch T D) by (destruct (snd n); [simpl in *; lia|assumption]).
      rewrite (get_ok _ _ d0) by lia. cbn [bind].
      assert (Hb : bb (fst n) (nth i (snd n) d0)) by (rewrite Forall_forall in Hn; apply Hn, nth_In; lia).
      eapply wp_conseq; [apply (insert_rect_spec _ _ (fst n) k root'); auto; [|lia]; rewrite <- surjective_pairing; auto|].
      intros root'' (K1 & K2 & K3). split; auto. split; [lia|]. rewrite K3, <- surjective_pairing, H3.
      rewrite (firstn_S (snd n) i d0) by lia. rewrite flat_map_app. cbn [flat_map]. rewrite app_nil_r, app_assoc.
      apply Permutation_app_tail, Permutation_app_comm. }
  intros root' (H1 & H2 & H3). cbn [Nat.add] in H3. rewrite firstn_all in H3. auto.
Qed.

Lemma reinsert_list_spec k lst : 1 <= k <= 2 -> forall root,
  Forall (fun n => fst n <= fst root /\ Forall (bb (fst n)) (snd n)) lst -> root_ok k root ->
  wp False (reinsert_list O vol lst root) (fun root' => root_ok k root' /\
     Permutation (entries root') (flat_map entries lst ++ entries root)).
Proof.
  intros Hk. induction lst as [|n lst IH]; intros root Hl Hroot; cbn [reinsert_list].
  - apply wp_ret. split; auto.
  - inversion Hl as [|? ? [H1 H2] H3]; subst. apply wp_bind. eapply wp_conseq; [apply (reinsert_node_spec n k root); auto|].
    intros root' (K1 & K2 & K3). eapply wp_conseq; [apply IH; auto|].
    { eapply Forall_impl; [|exact H3]. intros m [M1 M2]; split; [lia|auto]. }
    intros root'' (J1 & J2). split; auto. rewrite J2, K3. cbn [flat_map]. rewrite !app_assoc.
    apply Permutation_app_tail, Permutation_app_comm.
Qed.

Lemma root_ok_balanced n : root_ok 2 n <-> balanced le good n.
Proof. reflexivity. Qed.

Lemma remove_spec r d root : fine r -> balanced le good root ->
  wp False (remove O deq vol r d root) (fun root' => balanced le good root' /\
    ((exists r0, Permutation (entries root) ((r0, d) :: entries root')) \/
     (root' = root /\ forall r0, In (r0, d) (entries root) -> ~ touches le r r0))).
Proof.
  intros Hr Hroot. destruct root as [level bs]. pose proof Hroot as Hroot'. destruct Hroot' as (Hbs & Hlen & Hne).
  cbn [fst snd] in *. unfold remove. apply wp_bind.
  eapply wp_conseq; [apply remove_rec_spec; auto|]. intros o [Hrem|[-> Hno]].
  2:{ apply wp_ret. split; auto. right. split; auto. intros r0 Hin Ht. apply overlap_touches in Ht.
      rewrite (Hno r0 Hin) in Ht. discriminate. }
  destruct o as [[bs1 lst1]|]; [|contradiction]. destruct Hrem as (L & r0 & -> & Hb1 & Hl1 & HL & Hp).
  rewrite app_nil_r. apply wp_bind.
  eapply wp_conseq.
  { apply (reinsert_list_spec 1 L ltac:(lia) (level, bs1)).
    - eapply Forall_impl; [|exact HL]. intros n [H1 H2]. cbn [fst]. split; [lia|auto].
    - split; [exact Hb1|]. cbn [fst snd]. split; [lia|]. intros H. specialize (Hne H). lia. }
  intros [level' bs'] ((K1 & K2 & K3) & K4). cbn [fst snd] in *.
  assert (Hp' : Permutation (E level bs) ((r0, d) :: entries (level', bs'))).
  { rewrite Hp. constructor. rewrite K4. apply Permutation_app_comm. }
  destruct (Nat.eqb_spec (length bs') 1) as [E1|E1].
  - destruct (Nat.ltb_spec 0 level') as [Hl|Hl]; cbn [andb].
    + destruct bs' as [|b [|? ?]]; try (simpl in E1; lia). cbn [get nth_error bind].
      change (get [b] 0) with (Ok b). cbn [bind].
      destruct level' as [|l]; [lia|]. inversion K1 as [|? ? Hb _]; subst.
      cbn [balanced_branch] in Hb. destruct Hb as (bs2 & Es & Hl2 & _ & _ & Hbs2). rewrite Es. apply wp_ret.
      split; [split; [exact Hbs2|split; [simpl; lia|simpl; lia]]|]. left. exists r0.
      etransitivity; [exact Hp'|]. unfold entries. cbn [fst snd flat_map]. cbn [below]. rewrite Es, app_nil_r. reflexivity.
    + apply wp_ret. split; [split; [exact K1|split; [exact K2|cbn [fst]; lia]]|]. left. exists r0. auto.
  - cbn [andb]. apply wp_ret. split; [split; [exact K1|split; [exact K2|]]|].
    + cbn [fst snd]. intros H. specialize (K3 H). lia.
    + left. exists r0. auto.
Qed.

Lemma insert_spec r (d : D) root : good r -> balanced le good root ->
  wp False (insert O vol r d root) (fun root' => balanced le good root' /\
     Permutation (entries root') ((r, d) :: entries root)).
Proof.
  intros Hr Hroot. unfold insert. eapply wp_conseq.
  { apply (insert_rect_spec r (Data d) 0 2 root); auto; [|lia]. simpl. split; eauto. }
  intros root' (H1 & _ & H2). split; auto.
Qed.

Lemma step_spec root o B ops : op_good good fine o -> balanced le good root -> history le ops B ->
  Permutation (entries root) B ->
  wp False (step O deq vol root o) (fun root' => balanced le good root' /\
     exists B', history le (ops ++ [o]) B' /\ Permutation (entries root') B').
Proof.
  intros Ho Hroot Hh Hp. destruct o as [r d|r d|]; cbn [step].
  - eapply wp_conseq; [apply insert_spec; auto|]. intros root' (H1 & H2). split; auto.
    exists ((r, d) :: B). split; [constructor; auto|]. rewrite H2, Hp. auto.
  - eapply wp_conseq; [apply remove_spec; auto|]. intros root' (H1 & [(r0 & H2)|(-> & H2)]); split; auto.
    + exists (entries root'). split; auto. eapply h_remove; eauto. rewrite <- Hp. exact H2.
    + exists B. split; auto. apply h_remove_none; auto. intros r0 Hin. apply H2. eapply Permutation_in; [symmetry; eauto|auto].
  - apply wp_ret. split; [split; [constructor|split; [simpl; lia|simpl; lia]]|]. exists []. split; auto.
    eapply h_clear; eauto.
Qed.

Lemma run_spec_gen ops : forall root B done, Forall (op_good good fine) ops -> balanced le good root -> history le done B ->
  Permutation (entries root) B ->
  wp False (run O deq vol root ops) (fun root' => balanced le good root' /\ history le (done ++ ops) (entries root')).
Proof.
  induction ops as [|o ops IH]; intros root B done Hops Hroot Hh Hp; cbn [run].
  - apply wp_ret. split; auto. rewrite app_nil_r. eapply h_perm; eauto. symmetry; auto.
  - inversion Hops; subst. apply wp_bind. eapply wp_conseq; [apply (step_spec root o B done); auto|].
    intros root' (H1' & B' & H2' & H3'). eapply wp_conseq; [apply (IH root' B' (done ++ [o])); auto|].
    intros root'' (J1 & J2). split; auto. rewrite <- app_assoc in J2. auto.
Qed.

Lemma run_spec ops : Forall (op_good good fine) ops ->
  exists root, run O deq vol empty ops = Ok root /\ balanced le good root /\ history le ops (entries root).
Proof.
  intros H. pose proof (run_spec_gen ops empty [] [] H) as Hw.
  assert (He : balanced (T := T) (D := D) le good empty) by (split; [constructor|split; simpl; lia]).
  specialize (Hw He (h_start le) (Permutation_refl _)). cbn [app] in Hw.
  destruct (run O deq vol empty ops) as [root| |]; cbn [wp] in Hw; [exists root; tauto|contradiction|contradiction].
Qed.

(** ** Search *)
Lemma filter_none {A} (f : A -> bool) l : (forall x, In x l -> f x = false) -> filter f l = [].
Proof. induction l as [|x l IH]; intros H; simpl; auto. rewrite H by (simpl; auto). apply IH. intros y Hy. apply H. simpl; auto. Qed.

Lemma search_rec_spec q : fine q -> forall fuel level bs acc, level < fuel -> Forall (bb level) bs ->
  search_rec O fuel q level bs acc = Ok (acc ++ map snd (filter (fun e => overlap O q (fst e)) (E level bs))).
Proof.
  intros Hq. induction fuel as [|fuel IH]; intros level bs acc Hf Hbs; [lia|]. cbn [search_rec].
  assert (Hw : wp False (for_loop (length bs) 0 (fun i acc =>
           b <- get bs i;;
           if overlap O q (fst b) then
             match snd b with
             | Sub level' bs' => if 0 <? level then search_rec O fuel q level' bs' acc else UB
             | Data d => if 0 <? level then UB else Ok (acc ++ [d])
             end
           else Ok acc) acc)
     (fun x => x = acc ++ map snd (filter (fun e => overlap O q (fst e)) (E level (firstn (0 + length bs) bs))))).
  { apply (wp_for False (length bs) 0 _ (fun k x => x = acc ++ map snd (filter (fun e => overlap O q (fst e)) (E level (firstn k bs))))).
    - simpl. rewrite app_nil_r. auto.
    - intros i x Hi ->.
      assert (d0 : branch T D) by (destruct bs; [simpl in *; lia|assumption]).
      rewrite (get_ok _ _ d0) by lia. cbn [bind]. rewrite (firstn_S bs i d0) by lia. set (b := nth i bs d0).
      assert (Hb : bb level b) by (rewrite Forall_forall in Hbs; apply Hbs, nth_In; lia).
      rewrite flat_map_app. cbn [flat_map]. rewrite app_nil_r, filter_app, map_app, app_assoc.
      destruct (overlap O q (fst b)) eqn:Eo.
      + destruct level as [|l].
        * destruct Hb as [(d & Es) _]. rewrite Es. change (0 <? 0) with false. cbn iota. apply wp_ret.
          f_equal. cbn [below]. rewrite Es. cbn [filter fst]. rewrite Eo. reflexivity.
        * cbn [balanced_branch] in Hb. destruct Hb as (bs' & Es & Hl' & Hbd & Hgb & Hbs'). rewrite Es. change (0 <? S l) with true. cbn iota.
          rewrite IH by (auto; lia). apply wp_ret. f_equal. cbn [below]. rewrite Es. reflexivity.
      + apply wp_ret. rewrite (filter_none _ (below level b)); [simpl; rewrite app_nil_r; auto|].
        intros e He. eapply prune; eauto. }
  cbn [Nat.add] in Hw. rewrite firstn_all in Hw.
  destruct (for_loop _ _ _ _) as [x| |]; cbn [wp] in Hw; [congruence|contradiction|contradiction].
Qed.

Lemma search_spec q (root : node T D) : fine q -> balanced le good root ->
  search O q root = Ok (map snd (filter (fun e => overlap O q (fst e)) (entries root))).
Proof. intros Hq (H & _). unfold search. rewrite search_rec_spec by auto. reflexivity. Qed.

(** ** Count *)
Lemma count_rec_spec : forall fuel level bs n, level < fuel -> Forall (bb level) bs ->
  count_rec fuel level bs n = Ok (n + length (E level bs)).
Proof.
  induction fuel as [|fuel IH]; intros level bs n Hf Hbs; [lia|]. cbn [count_rec].
  destruct level as [|l].
  - change (0 <? 0) with false. cbn iota. f_equal. f_equal.
    clear -Hbs. induction Hbs as [|b bs [(d & Es) _] _ IH]; simpl; auto. rewrite Es. simpl. auto.
  - change (0 <? S l) with true. cbn iota.
    assert (Hw : wp False (for_loop (length bs) 0 (fun i n =>
             b <- get bs i;;
             match snd b with Sub level' bs' => count_rec fuel level' bs' n | Data _ => UB end) n)
       (fun x => x = n + length (E (S l) (firstn (0 + length bs) bs)))).
    { apply (wp_for False (length bs) 0 _ (fun k x => x = n + length (E (S l) (firstn k bs)))).
      - simpl. auto.
      - intros i x Hi ->.
        assert (d0 : branch T D) by (destruct bs; [simpl in *; lia|assumption]).
        rewrite (get_ok _ _ d0) by lia. cbn [bind]. rewrite (firstn_S bs i d0) by lia. set (b := nth i bs d0).
        assert (Hb : bb (S l) b) by (rewrite Forall_forall in Hbs; apply Hbs, nth_In; lia).
        rewrite flat_map_app, app_length. cbn [flat_map]. rewrite app_nil_r.
        cbn [balanced_branch] in Hb. destruct Hb as (bs' & Es & Hl' & Hbd & Hgb & Hbs'). rewrite Es.
        rewrite IH by (auto; lia). apply wp_ret. cbn [below]. rewrite Es. lia. }
    cbn [Nat.add] in Hw. rewrite firstn_all in Hw.
    destruct (for_loop _ _ _ _) as [x| |]; cbn [wp] in Hw; [congruence|contradiction|contradiction].
Qed.
Lemma count_spec (root : node T D) : balanced le good root -> count root = Ok (length (entries root)).
Proof. intros (H & _). unfold count. rewrite count_rec_spec by auto. reflexivity. Qed.
End Proofs.
