(** The augmenting row reduction keeps the invariant of a partial assignment. *)
From Coq Require Import List Arith Bool Lia Reals Lra.
Import ListNotations.
From Verif Require Import Res Scalar Lap LapBase LapScan.
Open Scope R_scope.

Lemma skipn_cons_nth {A} (l : list A) k d :
  (k < length l)%nat -> skipn k l = nth k l d :: skipn (S k) l.
Proof.
  revert k; induction l; intros [|k] H; simpl in *; try lia; auto.
  rewrite (IHl k) by lia. reflexivity.
Qed.

Lemma firstn_upd_ge {A} (l : list A) k i x :
  (k <= i)%nat -> firstn k (upd l i x) = firstn k l.
Proof.
  revert k i; induction l; intros [|k] [|i] H; simpl; auto; try lia.
  f_equal; apply IHl; lia.
Qed.

Lemma firstn_upd_lt {A} (l : list A) k i x :
  (i < k)%nat -> firstn k (upd l i x) = upd (firstn k l) i x.
Proof.
  revert k i; induction l; intros [|k] [|i] H; simpl; auto; try lia.
  f_equal; apply IHl; lia.
Qed.

Lemma skipn_upd_lt {A} (l : list A) k i x :
  (i < k)%nat -> skipn k (upd l i x) = skipn k l.
Proof.
  revert k i; induction l; intros [|k] [|i] H; simpl; auto; try lia.
  apply IHl; lia.
Qed.

Lemma firstn_S_nth {A} (l : list A) k d :
  (k < length l)%nat -> firstn (S k) l = firstn k l ++ [nth k l d].
Proof.
  revert k; induction l; intros [|k] H; simpl in *; try lia; auto.
  f_equal. apply (IHl k); lia.
Qed.

Lemma nth_firstn {A} (l : list A) k i d :
  (i < k)%nat -> nth i (firstn k l) d = nth i l d.
Proof.
  revert k i; induction l; intros [|k] [|i] H; simpl; auto; try lia.
  apply IHl; lia.
Qed.

Lemma nodup_remove_mid {A} (l1 l2 : list A) a :
  NoDup (l1 ++ a :: l2) -> NoDup (l1 ++ l2) /\ ~ In a (l1 ++ l2).
Proof. intros H; split; [eapply NoDup_remove_1|eapply NoDup_remove_2]; eauto. Qed.

Lemma nodup_insert {A} (l1 l2 : list A) a :
  NoDup (l1 ++ l2) -> ~ In a (l1 ++ l2) -> NoDup (l1 ++ a :: l2).
Proof.
  induction l1; simpl; intros H Hn; [constructor; auto|].
  inversion H; subst. constructor.
  - rewrite in_app_iff in *. simpl. intros [X|[X|X]]; subst; intuition.
  - apply IHl1; auto.
Qed.

Section Arr.
Variables (n m : nat) (C : list (ext R)).
Hypothesis HC : wfC n m C.
Hypothesis Hhall : hall n m C.
Variable simd : bool.

Notation vok := (vok m).
Notation core := (core n m C).
Notation pairok := (pairok n m C).
Notation assigned := (assigned m).
Notation av := (av m C).
Notation rc := (rc m C).

Lemma lk_eq v v' k : nth k v' NaN = nth k v NaN -> lk v' k = lk v k.
Proof. unfold lk; intros ->; auto. Qed.
Lemma vr_eq v v' k : nth k v' NaN = nth k v NaN -> vr v' k = vr v k.
Proof. unfold vr; intros ->; auto. Qed.

(** Giving column [j] to row [i], possibly lowering the price of [j]. *)
Lemma assign_core rowsol colsol v v' i j :
  core rowsol colsol v -> (i < n)%nat -> ~ assigned colsol i -> (j < m)%nat ->
  lk v j = false ->
  vok v' -> (forall k, (k < m)%nat -> k <> j -> nth k v' NaN = nth k v NaN) ->
  (lk v' j = false -> vr v' j <= vr v j) ->
  pairok v' i j ->
  core (upd rowsol i (Some j)) (upd colsol j (Some i)) v'.
Proof.
  intros Hc Hi Hna Hj Hl Hv' Hsame Hlow Hp.
  destruct Hc as [Hlr Hlc Hv Ha1 Ha3 Hpr].
  constructor.
  - rewrite upd_length; auto.
  - rewrite upd_length; auto.
  - auto.
  - intros j' i' Hj' E. destruct (Nat.eq_dec j j') as [<-|Hne].
    + rewrite nth_upd_eq in E by lia. inversion E; subst i'. split; auto.
      apply nth_upd_eq; lia.
    + rewrite nth_upd_neq in E by auto. destruct (Ha1 _ _ Hj' E) as [? E'].
      split; auto. rewrite nth_upd_neq; auto.
      intros <-. apply Hna. exists j'; auto.
  - intros j' Hj' E. destruct (Nat.eq_dec j j') as [<-|Hne].
    + rewrite nth_upd_eq in E by lia. discriminate.
    + rewrite nth_upd_neq in E by auto. rewrite Hsame; auto.
  - intros j' i' Hj' E. destruct (Nat.eq_dec j j') as [<-|Hne].
    + rewrite nth_upd_eq in E by lia. inversion E; subst i'. auto.
    + rewrite nth_upd_neq in E by auto.
      pose proof (Hpr _ _ Hj' E) as P.
      assert (El : lk v' j' = lk v j') by (apply lk_eq, Hsame; auto).
      assert (Er : vr v' j' = vr v j') by (apply vr_eq, Hsame; auto).
      constructor.
      * apply P.
      * intros Hlk k Hk Hav. unfold LapBase.rc. rewrite Er.
        destruct (Nat.eq_dec k j) as [->|Hkj].
        -- assert (av v i' j = true) as Hav'.
           { unfold LapBase.av in *. rewrite Hl. apply andb_true_iff in Hav. destruct Hav as [-> _]. auto. }
           assert (rc v i' j' <= rc v i' j) as X by (apply (po_min _ _ _ _ _ _ P); auto; congruence).
           assert (vr v' j <= vr v j).
           { apply Hlow. unfold LapBase.av in Hav. apply andb_true_iff in Hav.
             destruct Hav as [_ Hav]. apply negb_true_iff in Hav. auto. }
           unfold LapBase.rc in X. lra.
        -- assert (vr v' k = vr v k) as -> by (apply vr_eq, Hsame; auto).
           apply (po_min _ _ _ _ _ _ P); auto; [congruence|].
           unfold LapBase.av in *. rewrite <- (lk_eq v v' k); auto.
      * intros Hlk k Hk Hkj Hfin.
        destruct (Nat.eq_dec k j) as [->|Hkj'].
        -- exfalso. assert (lk v j = true); [|congruence].
           apply (po_alt _ _ _ _ _ _ P); auto. congruence.
        -- rewrite (lk_eq v v' k) by auto. apply (po_alt _ _ _ _ _ _ P); auto. congruence.
      * intros Hlk s Hs. apply (po_forced _ _ _ _ _ _ P); auto. congruence.
Qed.

(** Who is assigned after the reassignment. *)
Lemma assigned_upd rowsol colsol v i j i' :
  core rowsol colsol v -> (j < m)%nat -> ~ assigned colsol i ->
  (assigned (upd colsol j (Some i)) i' <->
   i' = i \/ (assigned colsol i' /\ nth j colsol None <> Some i')).
Proof.
  intros Hc Hj Hna. unfold LapBase.assigned. split.
  - intros (j' & Hj' & E). destruct (Nat.eq_dec j j') as [<-|Hne].
    + rewrite nth_upd_eq in E by (rewrite (co_lc _ _ _ _ _ _ Hc); auto). left; congruence.
    + rewrite nth_upd_neq in E by auto. right. split; [eauto|].
      intros E'. apply Hne. eapply core_inj; eauto.
  - intros [->|[(j' & Hj' & E) Hne]].
    + exists j. split; auto. apply nth_upd_eq. rewrite (co_lc _ _ _ _ _ _ Hc); auto.
    + exists j'. split; auto. rewrite nth_upd_neq; auto. congruence.
Qed.

Definition pend (prev : nat) (s : arr (T := ext R)) : list nat :=
  firstn (a_numfree s) (a_free s) ++ skipn (a_k s) (firstn prev (a_free s)).

Record arrinv (prev : nat) (s : arr (T := ext R)) : Prop := {
  ai_core : core (a_rowsol s) (a_colsol s) (a_v s);
  ai_len : length (a_free s) = n;
  ai_nf : (a_numfree s <= a_k s)%nat;
  ai_k : (a_k s <= prev)%nat;
  ai_prev : (prev <= n)%nat;
  ai_nodup : NoDup (pend prev s);
  ai_pend : forall i, In i (pend prev s) <->
              (i < n)%nat /\ ~ assigned (a_colsol s) i }.

Definition nlocked (v : list (ext R)) : nat := length (lockedcols m v).

(** What a step that does not advance [k] does to the prices. *)
Definition lowering (s s' : arr (T := ext R)) : Prop :=
  exists i j1 j2, (i < n)%nat /\ ~ assigned (a_colsol s) i /\
    (j1 < m)%nat /\ (j2 < m)%nat /\
    av (a_v s) i j1 = true /\ av (a_v s) i j2 = true /\
    (forall j, (j < m)%nat -> av (a_v s) i j = true ->
       rc (a_v s) i j1 <= rc (a_v s) i j) /\
    rc (a_v s) i j1 < rc (a_v s) i j2 /\
    a_v s' = upd (a_v s) j1 (Fin (cr m C i j1 - rc (a_v s) i j2)).

Definition progress (s s' : arr (T := ext R)) : Prop :=
  (nlocked (a_v s) <= nlocked (a_v s'))%nat /\
  (a_k s' = S (a_k s) \/
   (a_k s' = a_k s /\
    ((nlocked (a_v s) < nlocked (a_v s'))%nat \/ lowering s s'))).

Lemma filter_length_le (f g : nat -> bool) l :
  (forall x, In x l -> f x = true -> g x = true) ->
  (length (filter f l) <= length (filter g l))%nat.
Proof.
  induction l as [|a l IH]; intros H; simpl; auto.
  assert (length (filter f l) <= length (filter g l))%nat by (apply IH; intros; apply H; simpl; auto).
  destruct (f a) eqn:E.
  - rewrite (H a); simpl; auto; lia.
  - destruct (g a); simpl; lia.
Qed.

Lemma filter_length_lt (f g : nat -> bool) l x :
  (forall x, In x l -> f x = true -> g x = true) ->
  In x l -> f x = false -> g x = true ->
  (length (filter f l) < length (filter g l))%nat.
Proof.
  induction l as [|a l IH]; intros H Hin Hf Hg; simpl; [destruct Hin|].
  assert (length (filter f l) <= length (filter g l))%nat by (apply filter_length_le; intros; apply H; simpl; auto).
  destruct Hin as [->|Hin].
  - rewrite Hf, Hg. simpl. lia.
  - assert (length (filter f l) < length (filter g l))%nat by (apply IH; auto; intros; apply H; simpl; auto).
    destruct (f a) eqn:E.
    + rewrite (H a); simpl; auto; lia.
    + destruct (g a); simpl; lia.
Qed.

(** Replacing entry [k] by the row that lost its column. *)
Lemma pend_head prev s : arrinv prev s -> (a_k s < prev)%nat ->
  pend prev s = firstn (a_numfree s) (a_free s) ++
    nth (a_k s) (a_free s) 0%nat :: skipn (S (a_k s)) (firstn prev (a_free s)).
Proof.
  intros H Hk. unfold pend. f_equal.
  pose proof (ai_len _ _ H). pose proof (ai_prev _ _ H).
  rewrite (skipn_cons_nth _ _ 0%nat) by (rewrite firstn_length; lia).
  f_equal. apply nth_firstn; auto.
Qed.

(** The three ways the free list is updated after assigning [j] to [i]. *)
Lemma step_inv prev s v' i j :
  arrinv prev s -> (a_k s < prev)%nat -> i = nth (a_k s) (a_free s) 0%nat ->
  (j < m)%nat -> lk (a_v s) j = false -> vok v' ->
  (forall k, (k < m)%nat -> k <> j -> nth k v' NaN = nth k (a_v s) NaN) ->
  (lk v' j = false -> vr v' j <= vr (a_v s) j) ->
  pairok v' i j ->
  (nth j (a_colsol s) None = None ->
   arrinv prev (mkArr (a_free s) (upd (a_rowsol s) i (Some j))
      (upd (a_colsol s) j (Some i)) v' (S (a_k s)) (a_numfree s))) /\
  (forall i0, nth j (a_colsol s) None = Some i0 ->
   arrinv prev (mkArr (upd (a_free s) (a_k s) i0) (upd (a_rowsol s) i (Some j))
      (upd (a_colsol s) j (Some i)) v' (a_k s) (a_numfree s)) /\
   arrinv prev (mkArr (upd (a_free s) (a_numfree s) i0) (upd (a_rowsol s) i (Some j))
      (upd (a_colsol s) j (Some i)) v' (S (a_k s)) (S (a_numfree s)))).
Proof.
  intros HI Hk Ei Hj Hl Hv' Hsame Hlow Hp.
  pose proof (pend_head _ _ HI Hk) as Hpend. rewrite <- Ei in Hpend.
  assert (Hi : (i < n)%nat /\ ~ assigned (a_colsol s) i).
  { apply (ai_pend _ _ HI). rewrite Hpend. apply in_app_iff. right. left. auto. }
  destruct Hi as [Hi Hna].
  pose proof (assign_core _ _ _ _ _ _ (ai_core _ _ HI) Hi Hna Hj Hl Hv' Hsame Hlow Hp) as Hcore.
  pose proof (ai_nodup _ _ HI) as Hnd. rewrite Hpend in Hnd.
  apply nodup_remove_mid in Hnd. destruct Hnd as [Hnd Hnotin].
  pose proof (fun i' => assigned_upd _ _ _ i j i' (ai_core _ _ HI) Hj Hna) as Has.
  pose proof (ai_len _ _ HI) as Hlen. pose proof (ai_nf _ _ HI) as Hnf.
  pose proof (ai_prev _ _ HI) as Hprev.
  assert (Hin : forall x, In x (firstn (a_numfree s) (a_free s) ++ skipn (S (a_k s)) (firstn prev (a_free s)))
                <-> (x < n)%nat /\ ~ assigned (a_colsol s) x /\ x <> i).
  { intros x. pose proof (ai_pend _ _ HI x) as P. rewrite Hpend in P.
    rewrite in_app_iff in P |- *. simpl in P. split.
    - intros H. assert (x <> i). { intros ->. apply Hnotin. apply in_app_iff; auto. }
      tauto.
    - intros (H1 & H2 & H3). assert (P' := proj2 P (conj H1 H2)).
      destruct P' as [?|[?|?]]; auto. congruence. }
  split.
  - intros Ej. constructor; simpl; auto; try lia.
    intros x. unfold pend; simpl. rewrite Hin, Has.
    rewrite Ej. split.
    + intros (A & B & D). split; auto. intros [X|[X _]]; auto.
    + intros (A & B). repeat split; auto. intros X. apply B. right. split; auto. discriminate.
  - intros i0 Ej.
    destruct (co_a1 _ _ _ _ _ _ (ai_core _ _ HI) _ _ Hj Ej) as [Hi0 _].
    assert (Hne : i0 <> i). { intros ->. apply Hna. exists j; auto. }
    assert (Hnin0 : ~ In i0 (firstn (a_numfree s) (a_free s) ++ skipn (S (a_k s)) (firstn prev (a_free s)))).
    { rewrite Hin. intros (_ & X & _). apply X. exists j; auto. }
    assert (Hset : forall x, (x = i0 \/ In x (firstn (a_numfree s) (a_free s) ++ skipn (S (a_k s)) (firstn prev (a_free s))))
              <-> (x < n)%nat /\ ~ assigned (upd (a_colsol s) j (Some i)) x).
    { intros x. rewrite Hin, Has, Ej. split.
      - intros [->|(A & B & D)]; split; auto; intros [X|[X Y]]; auto.
      - intros (A & B). destruct (Nat.eq_dec x i0); auto. right. repeat split; auto.
        intros X. apply B. right. split; auto. congruence. }
    split.
    + assert (E : pend prev (mkArr (upd (a_free s) (a_k s) i0) (upd (a_rowsol s) i (Some j))
          (upd (a_colsol s) j (Some i)) v' (a_k s) (a_numfree s)) =
        firstn (a_numfree s) (a_free s) ++ i0 :: skipn (S (a_k s)) (firstn prev (a_free s))).
      { unfold pend; simpl. rewrite firstn_upd_ge by auto. f_equal.
        rewrite firstn_upd_lt by auto.
        rewrite (skipn_cons_nth _ _ 0%nat) by (rewrite upd_length, firstn_length; lia).
        rewrite nth_upd_eq by (rewrite firstn_length; lia).
        rewrite skipn_upd_lt by lia. reflexivity. }
      constructor; simpl; auto; try lia.
      * rewrite upd_length; auto.
      * rewrite E. apply nodup_insert; auto.
      * rewrite E. intros x. rewrite <- Hset. rewrite !in_app_iff. simpl.
        intuition.
    + assert (E : pend prev (mkArr (upd (a_free s) (a_numfree s) i0) (upd (a_rowsol s) i (Some j))
          (upd (a_colsol s) j (Some i)) v' (S (a_k s)) (S (a_numfree s))) =
        firstn (a_numfree s) (a_free s) ++ i0 :: skipn (S (a_k s)) (firstn prev (a_free s))).
      { unfold pend; cbn [a_free a_k a_numfree].
        rewrite (firstn_S_nth _ _ 0%nat) by (rewrite upd_length; lia).
        rewrite nth_upd_eq by lia. rewrite firstn_upd_ge by lia.
        rewrite (firstn_upd_lt _ prev) by lia. rewrite skipn_upd_lt by lia.
        rewrite <- app_assoc. reflexivity. }
      constructor; simpl a_k; simpl a_numfree; auto; try lia.
      * simpl. rewrite upd_length; auto.
      * rewrite E. apply nodup_insert; auto.
      * rewrite E. intros x. simpl a_colsol. rewrite <- Hset. rewrite !in_app_iff. simpl.
        intuition.
Qed.

Lemma av_split v i j : av v i j = true -> finb m C i j = true /\ lk v j = false.
Proof.
  unfold LapBase.av. intros H. apply andb_true_iff in H. destruct H as [H1 H2].
  apply negb_true_iff in H2. auto.
Qed.

Lemma vok_upd_fin v j x : vok v -> (j < m)%nat -> x <= 0 -> vok (upd v j (Fin x)).
Proof.
  intros [Hl H] Hj Hx. split; [rewrite upd_length; auto|].
  intros k Hk. rewrite nth_upd by lia. destruct (Nat.eqb_spec j k); eauto.
Qed.

Lemma vok_upd_ninf v j : vok v -> (j < m)%nat -> vok (upd v j NInf).
Proof.
  intros [Hl H] Hj. split; [rewrite upd_length; auto|].
  intros k Hk. rewrite nth_upd by lia. destruct (Nat.eqb_spec j k); eauto.
Qed.

Lemma arr_step_spec prev s :
  arrinv prev s -> (a_k s < prev)%nat ->
  wp False (arr_step extR simd m C s) (fun s' => arrinv prev s' /\ progress s s').
Proof.
  intros HI Hk.
  pose proof (ai_core _ _ HI) as Hc.
  pose proof (co_v _ _ _ _ _ _ Hc) as Hv.
  pose proof (ai_len _ _ HI) as Hlen. pose proof (ai_nf _ _ HI) as Hnf.
  pose proof (ai_prev _ _ HI) as Hprev.
  pose proof (co_lc _ _ _ _ _ _ Hc) as Hlc. pose proof (co_lr _ _ _ _ _ _ Hc) as Hlr.
  assert (Hlv : length (a_v s) = m) by apply Hv.
  unfold arr_step.
  rewrite (get_ok _ _ 0%nat) by lia. cbn [bind].
  remember (nth (a_k s) (a_free s) 0%nat) as i eqn:Ei.
  assert (Hi : (i < n)%nat /\ ~ assigned (a_colsol s) i).
  { apply (ai_pend _ _ HI). rewrite pend_head by auto. rewrite <- Ei. apply in_app_iff. right. left. auto. }
  destruct Hi as [Hi Hna].
  destruct (hall_avail n m C _ _ _ i Hhall Hc Hi Hna) as (k0 & Hk0 & Hav0).
  apply wp_bind. eapply wp_conseq; [apply (find_umins_spec n m C HC); eauto|].
  intros [[[umin usubmin] j1] j2] (Hj1 & Hu & Hmin & Hsub).
  destruct (Hmin _ Hk0 Hav0) as [Hav1 _].
  unfold hh in Hu. rewrite Hav1 in Hu. subst umin.
  destruct (av_split _ _ _ Hav1) as [Hfin1 Hlk1].
  rewrite (get_ok _ _ None) by lia. cbn [bind].
  rewrite (get_ok _ _ NaN) by lia. cbn [bind].
  destruct (v_cases m _ _ Hv Hj1) as [(Ev1 & _ & Hv1le)|(_ & X & _)]; [|congruence].
  rewrite Ev1.
  destruct Hsub as [[-> Hnoalt]|(j2' & -> & Hj2 & Hne & Hav2 & _ & -> & Hle & Hsec)].
  - (* no second column: the column is locked *)
    cbv zeta.
    change (nsub extR (Fin (vr (a_v s) j1)) (nsub extR PInf (Fin (rc (a_v s) i j1)))) with (@NInf R).
    change (nlt extR NInf (Fin (vr (a_v s) j1))) with true.
    cbv iota.
    rewrite set_ok by lia. cbn [bind].
    rewrite set_ok by lia. cbn [bind].
    rewrite set_ok by lia. cbn [bind].
    set (v' := upd (a_v s) j1 NInf).
    assert (Hlk' : lk v' j1 = true).
    { unfold v', lk. rewrite nth_upd_eq by lia. auto. }
    assert (Hsame : forall k, (k < m)%nat -> k <> j1 -> nth k v' NaN = nth k (a_v s) NaN).
    { intros k Hkm Hkj. unfold v'. apply nth_upd_neq; auto. }
    assert (Hp : pairok v' i j1).
    { constructor; auto.
      - congruence.
      - intros _ k Hkm Hkj Hf. rewrite (lk_eq (a_v s) v') by auto.
        specialize (Hnoalt k Hkm Hkj). unfold LapBase.av in Hnoalt. rewrite Hf in Hnoalt.
        simpl in Hnoalt. apply negb_false_iff in Hnoalt. auto.
      - intros _ sg Hsg. destruct Hsg as [Hs1 Hs2].
        destruct (Hs1 i Hi) as [Hsm Hsf].
        destruct (Nat.eq_dec (sg i) j1); auto. exfalso.
        specialize (Hnoalt (sg i) Hsm n0). unfold LapBase.av in Hnoalt. rewrite Hsf in Hnoalt.
        simpl in Hnoalt. apply negb_false_iff in Hnoalt.
        destruct (locked_assigned n m C _ _ _ _ Hc Hsm Hnoalt) as [i' Ei'].
        pose proof (co_pair _ _ _ _ _ _ Hc _ _ Hsm Ei') as P.
        assert (sg i' = sg i) by (apply (po_forced _ _ _ _ _ _ P); [auto|split; auto]).
        destruct (co_a1 _ _ _ _ _ _ Hc _ _ Hsm Ei') as [Hi' _].
        assert (i' = i) by auto. subst i'. apply Hna. exists (sg i); auto. }
    assert (Hnl : (nlocked (a_v s) < nlocked v')%nat).
    { unfold nlocked, lockedcols. apply filter_length_lt with j1; auto.
      - intros x Hx E. destruct (Nat.eq_dec x j1) as [->|]; auto.
        apply in_seq in Hx. rewrite (lk_eq (a_v s) v'); auto. apply Hsame; auto; lia.
      - apply in_seq; lia. }
    destruct (step_inv prev s v' i j1 HI Hk Ei Hj1 Hlk1) as [HA HB]; auto.
    { apply vok_upd_ninf; auto. }
    { congruence. }
    destruct (nth j1 (a_colsol s) None) as [i0|] eqn:E0.
    + replace (S (a_k s) - 1)%nat with (a_k s) by lia.
      rewrite set_ok by lia. cbn [bind]. apply wp_ret.
      split; [apply HB; auto|]. split; simpl; [lia|]. right. split; auto.
    + apply wp_ret. split; [apply HA; auto|]. split; simpl; [lia|]. left; auto.
  - cbv zeta. rewrite !sub_FF, lt_FF.
    destruct (av_split _ _ _ Hav2) as [Hfin2 Hlk2].
    destruct (Rltb_spec (vr (a_v s) j1 - (rc (a_v s) i j2' - rc (a_v s) i j1)) (vr (a_v s) j1)) as [Hlow|Hnl].
    + (* the price of j1 goes down *)
      rewrite set_ok by lia. cbn [bind].
      rewrite set_ok by lia. cbn [bind].
      rewrite set_ok by lia. cbn [bind].
      assert (Ex : vr (a_v s) j1 - (rc (a_v s) i j2' - rc (a_v s) i j1) = cr m C i j1 - rc (a_v s) i j2')
        by (unfold LapBase.rc; lra).
      rewrite Ex in *.
      set (x := cr m C i j1 - rc (a_v s) i j2') in *.
      set (v' := upd (a_v s) j1 (Fin x)).
      assert (Hnv : nth j1 v' NaN = Fin x) by (unfold v'; apply nth_upd_eq; lia).
      assert (Hlk' : lk v' j1 = false) by (unfold lk; rewrite Hnv; auto).
      assert (Hvr' : vr v' j1 = x) by (unfold vr; rewrite Hnv; auto).
      assert (Hsame : forall k, (k < m)%nat -> k <> j1 -> nth k v' NaN = nth k (a_v s) NaN).
      { intros k Hkm Hkj. unfold v'. apply nth_upd_neq; auto. }
      assert (Hp : pairok v' i j1).
      { constructor; auto; try congruence.
        intros _ k Hkm Hav. destruct (Nat.eq_dec k j1) as [->|Hkj]; [lra|].
        assert (av (a_v s) i k = true).
        { unfold LapBase.av in *. rewrite <- (lk_eq (a_v s) v' k); auto. }
        assert (rc (a_v s) i j2' <= rc (a_v s) i k) as X by auto.
        unfold LapBase.rc at 1. rewrite Hvr'. unfold LapBase.rc at 1. rewrite (vr_eq (a_v s) v' k) by auto.
        unfold LapBase.rc in X. unfold x, LapBase.rc. lra. }
      assert (Hnlk : nlocked v' = nlocked (a_v s)).
      { unfold nlocked, lockedcols. f_equal. apply filter_ext_in. intros k Hkm. apply in_seq in Hkm.
        destruct (Nat.eq_dec k j1) as [->|]; [congruence|]. apply lk_eq, Hsame; auto; lia. }
      destruct (step_inv prev s v' i j1 HI Hk Ei Hj1 Hlk1) as [HA HB]; auto.
      { apply vok_upd_fin; auto. lra. }
      { intros _. lra. }
      destruct (nth j1 (a_colsol s) None) as [i0|] eqn:E0.
      * replace (S (a_k s) - 1)%nat with (a_k s) by lia.
        rewrite set_ok by lia. cbn [bind]. apply wp_ret.
        split; [apply HB; auto|]. split; simpl; [lia|]. right. split; auto. right.
        exists i, j1, j2'. repeat split; auto. 
        -- intros j Hj Ha. apply Hmin; auto.
        -- unfold x, LapBase.rc in *. lra.
      * apply wp_ret. split; [apply HA; auto|]. split; simpl; [lia|]. left; auto.
    + assert (Heq : rc (a_v s) i j1 = rc (a_v s) i j2') by lra.
      destruct (nth j1 (a_colsol s) None) as [i1|] eqn:E1.
      * cbn [idx bind].
        rewrite (get_ok _ _ None) by lia. cbn [bind].
        rewrite set_ok by lia. cbn [bind].
        rewrite set_ok by lia. cbn [bind].
        assert (Hp : pairok (a_v s) i j2').
        { constructor; auto; try congruence.
          intros _ k Hkm Hav. rewrite <- Heq. apply Hmin; auto. }
        destruct (step_inv prev s (a_v s) i j2' HI Hk Ei Hj2 Hlk2) as [HA HB]; auto.
        { intros _. lra. }
        destruct (nth j2' (a_colsol s) None) as [i0|] eqn:E0.
        -- rewrite set_ok by lia. cbn [bind]. apply wp_ret.
           split; [apply HB; auto|]. split; simpl; [lia|]. left; auto.
        -- apply wp_ret. split; [apply HA; auto|]. split; simpl; [lia|]. left; auto.
      * cbn [bind].
        rewrite set_ok by lia. cbn [bind].
        rewrite set_ok by lia. cbn [bind].
        assert (Hp : pairok (a_v s) i j1).
        { constructor; auto; try congruence.
          intros _ k Hkm Hav. apply Hmin; auto. }
        destruct (step_inv prev s (a_v s) i j1 HI Hk Ei Hj1 Hlk1) as [HA HB]; auto.
        { intros _. lra. }
        apply wp_ret. split; [apply HA; auto|]. split; simpl; [lia|]. left; auto.
Qed.

(** Partial correctness of the loop. *)
Lemma arr_loop_spec fuel prev s :
  arrinv prev s ->
  wp True (arr_loop extR simd fuel m C prev s)
    (fun s' => arrinv prev s' /\ a_k s' = prev).
Proof.
  revert s. induction fuel as [|fuel IH]; intros s HI; simpl;
  destruct (Nat.ltb_spec (a_k s) prev) as [Hk|Hk]; simpl; auto.
  - split; auto. pose proof (ai_k _ _ HI). lia.
  - apply wp_bind. pose proof (arr_step_spec _ _ HI Hk) as X.
    eapply wp_mono; [exact X|tauto|]. intros s' [HI' _]. apply IH; auto.
  - split; auto. pose proof (ai_k _ _ HI). lia.
Qed.

(** After a pass the free list holds exactly the rows without a column. *)
Record passinv (s : arr (T := ext R)) : Prop := {
  pi_core : core (a_rowsol s) (a_colsol s) (a_v s);
  pi_len : length (a_free s) = n;
  pi_nf : (a_numfree s <= n)%nat;
  pi_nodup : NoDup (firstn (a_numfree s) (a_free s));
  pi_free : forall i, In i (firstn (a_numfree s) (a_free s)) <->
              (i < n)%nat /\ ~ assigned (a_colsol s) i }.

Lemma pass_start s : passinv s ->
  arrinv (a_numfree s) (mkArr (a_free s) (a_rowsol s) (a_colsol s) (a_v s) 0 0).
Proof.
  intros [H1 H2 H3 H4 H5]. constructor; simpl; auto; lia.
Qed.

Lemma pass_end prev s : arrinv prev s -> a_k s = prev -> passinv s.
Proof.
  intros [H1 H2 H3 H4 H5 H6 H7] E.
  assert (pend prev s = firstn (a_numfree s) (a_free s)) as Ep.
  { unfold pend. rewrite E. rewrite skipn_all2; [apply app_nil_r|]. rewrite firstn_length; lia. }
  rewrite Ep in *. constructor; auto; lia.
Qed.

Lemma arr_pass_spec fuel s : passinv s ->
  wp True (arr_pass extR simd fuel m C s) passinv.
Proof.
  intros H. unfold arr_pass. eapply wp_conseq; [apply arr_loop_spec, pass_start, H|].
  simpl. intros s' [H1 H2]. eapply pass_end; eauto.
Qed.
End Arr.
