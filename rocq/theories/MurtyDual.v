(** The values computed by [sort_by_dual]. *)
From Coq Require Import List Arith Bool Lia Reals Lra Permutation.
Import ListNotations.
From Verif Require Import Res Scalar Lap LapSpec LapBase LapMain Murty MurtyBase.
Local Open Scope R_scope.

Section Dual.
Variable C : matrix (ext R).
Hypothesis HC : cost_matrix C.
Hypothesis Hrows : (m_rows C <= 30)%nat.
Hypothesis Hord : m_ord C = RowMajor.
Let n := m_rows C.
Let m := m_cols C.
Let D := m_data C.
Variable (r : lap_result (T := ext R)) (s : list nat).
Hypothesis Hg : lap_good C r s.

Definition row_dual (i : nat) : res (ext R) :=
  for_loop (m_cols C) 0
    (fun j best =>
       if (j =? nth i s 0)%nat then Ok best
       else
         c <- at_ C i j;;
         if nle extR (ninf extR) c then Ok best
         else
           ui <- get (l_u r) i;;
           vj <- get (l_v r) j;;
           let h := nsub extR (nsub extR c ui) vj in
           Ok (if nlt extR h best then h else best))
    (ninf extR).

(** What a dual value says about the row. *)
Definition dual_ok (i : nat) (h : ext R) : Prop :=
  (h = PInf /\ forall t, feasible C t -> nth i t 0%nat = nth i s 0%nat) \/
  (exists d, h = Fin d /\ 0 <= d /\
     forall t, feasible C t -> nth i t 0%nat <> nth i s 0%nat -> total C s + d <= total C t).

Lemma row_dual_spec F i : (i < n)%nat -> wp F (row_dual i) (dual_ok i).
Proof.
  intros Hi. pose proof Hg as [_ Hsol Hf Hso]. fold n m D in Hso.
  pose proof Hso as [(cs & Hcore & Hall) Hlu Hu].
  pose proof (co_v _ _ _ _ _ _ Hcore) as Hv.
  destruct (proj1 Hf) as (Hls & _ & Hlt). fold n in Hls. fold m in Hlt.
  assert (Hs : forall i, (i < n)%nat -> nth i (l_rowsol r) None = Some (nth i s 0%nat)).
  { intros i' Hi'. rewrite Hsol.
    rewrite nth_indep with (d' := Some 0%nat) by (rewrite map_length, Hls; auto). apply map_nth. }
  set (si := nth i s 0%nat).
  assert (Hsi : (si < m)%nat) by (apply Hlt, nth_In; lia).
  assert (Ecs : nth si cs None = Some i).
  { destruct (Hall i Hi) as (j' & Hj' & E'). destruct (co_a1 _ _ _ _ _ _ Hcore _ _ Hj' E') as [_ Er].
    rewrite Hs in Er by auto. inversion Er. subst j'. exact E'. }
  pose proof (co_pair _ _ _ _ _ _ Hcore _ _ Hsi Ecs) as P.
  pose proof (Hu i si Hi (Hs i Hi)) as Eu. rewrite (h_val n m D (wfD C HC)) in Eu by auto.
  unfold hh, av in Eu. rewrite (po_fin _ _ _ _ _ _ P) in Eu. simpl andb in Eu.
  set (v := l_v r) in *. set (u := l_u r) in *.
  assert (Hbody : forall j, (j < m)%nat -> at_ C i j = Ok (c m D i j)).
  { intros j Hj. rewrite (c_entry C Hord). apply at_entry; auto. }
  destruct (lk v si) eqn:Elk; simpl negb in Eu; cbv iota in Eu.
  - (* a row without alternatives *)
    eapply wp_conseq.
    { unfold row_dual. apply (wp_for F (m_cols C) 0 _ (fun k best => best = PInf)).
      - reflexivity.
      - intros j best Hj ->. fold si. destruct (Nat.eqb_spec j si); [reflexivity|].
        assert (Hj' : (j < m)%nat) by (unfold m; lia).
        rewrite Hbody by auto. cbn [bind].
        destruct (c_cases n m D (wfD C HC) i j Hi Hj') as [[Ec Ef]|[Ec Ef]]; rewrite Ec.
        + change (nle extR (ninf extR) (Fin (cr m D i j))) with false. cbv iota.
          rewrite (get_ok _ _ NaN) by (fold u; lia). cbn [bind].
          rewrite (get_v m) by (fold v; auto). cbn [bind]. fold v u.
          destruct (v_cases m v j Hv Hj') as [(_ & El & _)|(-> & _ & _)].
          * pose proof (po_alt _ _ _ _ _ _ P Elk j Hj' n0 Ef). congruence.
          * rewrite Eu. reflexivity.
        + reflexivity. }
    intros h ->. left. split; auto. intros t Ht.
    apply (po_forced _ _ _ _ _ _ P Elk _ (feasible_feas C Hrows Hord t Ht)).
  - assert (Hav : forall t, feasible C t -> av m D v i (nth i t 0%nat) = true).
    { intros t Ht. pose proof (feasible_feas C Hrows Hord t Ht) as Hft. pose proof Hft as [F1 F2].
      destruct (F1 i Hi) as [Hk Hfk]. unfold av. fold m D in Hfk. rewrite Hfk. simpl.
      destruct (lk v (nth i t 0%nat)) eqn:El'; auto. exfalso.
      destruct (locked_assigned n m D _ _ _ _ Hcore Hk El') as [i' Ei'].
      pose proof (co_pair _ _ _ _ _ _ Hcore _ _ Hk Ei') as P'.
      assert (nth i' t 0%nat = nth i t 0%nat) by (apply (po_forced _ _ _ _ _ _ P' El' _ Hft)).
      destruct (co_a1 _ _ _ _ _ _ Hcore _ _ Hk Ei') as [Hi' _].
      assert (i' = i) by (apply F2; auto). subst i'.
      assert (si = nth i t 0%nat) by (eapply core_inj; eauto). congruence. }
    eapply wp_conseq.
    { unfold row_dual. apply (wp_for F (m_cols C) 0 _ (fun k best =>
        (best = PInf /\ forall j, (j < k)%nat -> j <> si -> av m D v i j = false) \/
        (exists d, best = Fin d /\ 0 <= d /\
           forall j, (j < k)%nat -> j <> si -> av m D v i j = true -> d <= rc m D v i j - rc m D v i si))).
      - left. split; auto. intros; lia.
      - intros j best Hj Hinv. fold si.
        assert (Hj' : (j < m)%nat) by (unfold m; lia).
        assert (Hskip : av m D v i j = false \/ j = si -> (best = PInf /\ forall j', (j' < S j)%nat -> j' <> si -> av m D v i j' = false) \/
          (exists d, best = Fin d /\ 0 <= d /\
             forall j', (j' < S j)%nat -> j' <> si -> av m D v i j' = true -> d <= rc m D v i j' - rc m D v i si)).
        { intros Hno. destruct Hinv as [[-> H]|(d & -> & Hd & H)].
          - left. split; auto. intros j' Hj1 Hne. destruct (Nat.eq_dec j' j) as [->|]; [|apply H; auto; lia].
            destruct Hno; congruence.
          - right. exists d. split; auto. split; auto. intros j' Hj1 Hne Ha.
            destruct (Nat.eq_dec j' j) as [->|]; [|apply H; auto; lia]. destruct Hno; congruence. }
        destruct (Nat.eqb_spec j si) as [->|Hne]; [apply wp_ret; auto|].
        rewrite Hbody by auto. cbn [bind].
        destruct (c_cases n m D (wfD C HC) i j Hi Hj') as [[Ec Ef]|[Ec Ef]]; rewrite Ec.
        + change (nle extR (ninf extR) (Fin (cr m D i j))) with false. cbv iota.
          rewrite (get_ok _ _ NaN) by (fold u; lia). cbn [bind].
          rewrite (get_v m) by (fold v; auto). cbn [bind]. fold v u. rewrite Eu. rewrite sub_FF. cbv zeta.
          destruct (v_cases m v j Hv Hj') as [(-> & El & _)|(-> & El & _)].
          * assert (Ea : av m D v i j = true) by (unfold av; rewrite Ef, El; auto).
            pose proof (po_min _ _ _ _ _ _ P Elk j Hj' Ea) as Hmin.
            assert (Eq : cr m D i j - rc m D v i si - vr v j = rc m D v i j - rc m D v i si) by (unfold rc; lra).
            rewrite sub_FF, Eq. apply wp_ret. right.
            destruct Hinv as [[-> H]|(d & -> & Hd & H)].
            -- exists (rc m D v i j - rc m D v i si). rewrite lt_FP. split; auto. split; [lra|].
               intros j' Hj1 Hne' Ha. destruct (Nat.eq_dec j' j) as [->|]; [lra|].
               rewrite H in Ha by (auto; lia). discriminate.
            -- rewrite lt_FF. destruct (Rltb_spec (rc m D v i j - rc m D v i si) d) as [Hlt'|Hlt'].
               ++ exists (rc m D v i j - rc m D v i si). split; auto. split; [lra|].
                  intros j' Hj1 Hne' Ha. destruct (Nat.eq_dec j' j) as [->|]; [lra|].
                  specialize (H j'). lapply H; [intros H0|lia]. specialize (H0 Hne' Ha). lra.
               ++ exists d. split; auto. split; [lra|].
                  intros j' Hj1 Hne' Ha. destruct (Nat.eq_dec j' j) as [->|]; [lra|].
                  apply H; auto; lia.
          * change (nsub extR (Fin (cr m D i j - rc m D v i si)) NInf) with (@PInf R).
            assert (Hnlt : nlt extR PInf best = false) by (destruct Hinv as [[-> _]|(d & -> & _)]; auto).
            rewrite Hnlt. apply wp_ret. apply Hskip. left. unfold av. rewrite El. apply andb_false_r.
        + change (nle extR (ninf extR) PInf) with true. cbv iota. apply wp_ret. apply Hskip.
          left. unfold av. rewrite Ef. auto. }
    intros h [[-> H]|(d & -> & Hd & H)].
    + left. split; auto. intros t Ht. destruct (Nat.eq_dec (nth i t 0%nat) si) as [|Hne]; auto.
      pose proof (Hav t Ht) as Ha. rewrite H in Ha; [discriminate| |auto].
      destruct (proj1 (feasible_feas C Hrows Hord t Ht) i Hi). simpl. auto.
    + right. exists d. split; auto. split; auto. intros t Ht Hne.
      destruct (lap_good_opt C Hrows Hord r s t Hg Ht) as [A B]. fold n m D v in A, B.
      assert (H1 : rc m D v i (nth i t 0%nat) - rc m D v i (nth i s 0%nat) <=
        Rsum (map (fun i => rc m D v i (nth i t 0%nat) - rc m D v i (nth i s 0%nat)) (seq 0 n))).
      { apply (Rsum_one (fun i => rc m D v i (nth i t 0%nat) - rc m D v i (nth i s 0%nat))).
        - intros x Hx. apply in_seq in Hx. specialize (A x). lapply A; [lra|lia].
        - apply in_seq. lia. }
      assert (H2 : d <= rc m D v i (nth i t 0%nat) - rc m D v i si).
      { apply H; auto. destruct (proj1 (feasible_feas C Hrows Hord t Ht) i Hi). simpl. auto. }
      fold si in H1. lra.
Qed.

End Dual.

Lemma insert_desc_perm a l : Permutation (insert_desc extR a l) (a :: l).
Proof.
  induction l as [|b l IH]; simpl; auto. destruct (tuple_lt extR a b); auto.
  rewrite IH. apply perm_swap.
Qed.

Lemma sort_desc_perm l : Permutation (sort_desc extR l) l.
Proof.
  induction l as [|a l IH]; simpl; auto. rewrite insert_desc_perm. auto.
Qed.

(** The partition order: every row once, with its column and dual value. *)
Lemma sort_by_dual_spec F (st : mstate (T := ext R)) r s :
  cost_matrix (s_C st) -> (m_rows (s_C st) <= 30)%nat -> m_ord (s_C st) = RowMajor ->
  lap_good (s_C st) r s -> s_res st = l_rowsol r -> s_u st = l_u r -> s_v st = l_v r ->
  wp F (sort_by_dual extR st)
    (fun order =>
       Permutation (map (fun p => snd (fst p)) order) (seq 0 (m_rows (s_C st))) /\
       forall h i j, In (h, i, j) order ->
         (i < m_rows (s_C st))%nat /\ j = nth i s 0%nat /\ dual_ok (s_C st) s i h).
Proof.
  intros HC Hr Ho Hg Er Eu Ev. unfold sort_by_dual. apply wp_bind.
  eapply wp_conseq.
  { apply (wp_mapM F _ (fun i (p : ext R * nat * nat) => snd (fst p) = i /\
      (i < m_rows (s_C st))%nat /\ snd p = nth i s 0%nat /\ dual_ok (s_C st) s i (fst (fst p)))).
    intros i Hi. apply in_seq in Hi.
    assert (Hls : length s = m_rows (s_C st)) by apply (lg_feas _ _ _ Hg).
    rewrite Er. rewrite (lg_sol _ _ _ Hg).
    rewrite (get_ok _ _ (Some 0%nat)) by (rewrite map_length; lia). cbn [bind].
    rewrite map_nth. cbn [idx bind]. apply wp_bind. rewrite Eu, Ev.
    eapply wp_conseq; [apply (row_dual_spec (s_C st) HC Hr Ho r s Hg F i); lia|].
    intros h Hh. apply wp_ret. simpl. split; auto. split; [lia|]. auto. }
  intros l Hl. apply wp_ret. split.
  - rewrite (Permutation_map _ (sort_desc_perm l)).
    assert (map (fun p => snd (fst p)) l = seq 0 (m_rows (s_C st))) as ->; [|auto].
    induction Hl as [|i p l1 l2 [Hp _] _ IH]; simpl; auto. congruence.
  - intros h i j Hin. apply (Permutation_in _ (sort_desc_perm l)) in Hin.
    revert Hin. induction Hl as [|i' p l1 l2 Hp _ IH]; intros Hin; [destruct Hin|].
    destruct Hin as [->|Hin]; auto. simpl in Hp. destruct Hp as (-> & H1 & H2 & H3). auto.
Qed.
