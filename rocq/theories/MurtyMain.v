(** Correctness of Murty's algorithm: the queue and the draws. *)
From Coq Require Import List Arith Bool Lia Reals Lra Permutation Sorted.
Import ListNotations.
From Verif Require Import Res Scalar Lap LapSpec LapBase LapMain Murty MurtyBase MurtySub MurtyDual MurtyProofs.
Local Open Scope nat_scope.

(** What std::priority_queue guarantees of its top: no other element comes
    before it.  This is asked for queues whose costs are numbers, where the
    comparison is a strict weak order. *)
Definition valid_pick (pick : nat -> list (mstate (T := ext R)) -> nat) : Prop :=
  forall tick q, q <> [] -> (forall x, In x q -> is_fin (s_cost x)) ->
    pick tick q < length q /\
    forall x d, In x q -> after extR (nth (pick tick q) q d) x = false.

Lemma after_false (a b : mstate (T := ext R)) x y : s_cost a = Fin x -> s_cost b = Fin y ->
  after extR a b = false -> (x <= y)%R.
Proof.
  unfold after. intros -> -> H. apply orb_false_iff in H. destruct H as [H _].
  rewrite lt_FF in H. destruct (Rltb_spec y x); [discriminate|lra].
Qed.

Lemma mapfst_split {A B} (L : list (A * B)) k d : k < length L ->
  exists L1 p L2, L = L1 ++ p :: L2 /\ length L1 = k /\ nth k (map fst L) d = fst p.
Proof.
  revert k. induction L as [|p L IH]; intros k Hk; [simpl in Hk; lia|].
  destruct k as [|k].
  - exists [], p, L. auto.
  - simpl in Hk. destruct (IH k) as (L1 & p' & L2 & -> & E1 & E2); [lia|].
    exists (p :: L1), p', L2. simpl. auto.
Qed.

Lemma remove_nth_app {A} (l1 : list A) x l2 : remove_nth (l1 ++ x :: l2) (length l1) = Ok (l1 ++ l2).
Proof.
  unfold remove_nth.
  replace (length l1 <? length (l1 ++ x :: l2)) with true
    by (symmetry; apply Nat.ltb_lt; rewrite app_length; simpl; lia).
  f_equal. f_equal.
  - induction l1; simpl; f_equal; auto.
  - induction l1 as [|y l1 IH]; [auto|]. exact IH.
Qed.

Lemma filter_length_le {A} (f : A -> bool) l : length (filter f l) <= length l.
Proof. induction l; simpl; auto. destruct (f a); simpl; lia. Qed.

Section Queue.
Variable C0 : matrix (ext R).
Hypothesis HC0 : cost_matrix C0.
Hypothesis Hrows : m_rows C0 <= 30.
Hypothesis Hord : m_ord C0 = RowMajor.
Variable pick : nat -> list (mstate (T := ext R)) -> nat.
Hypothesis Hpick : valid_pick pick.
Notation state := (mstate (T := ext R)).
Notation okst := (okst C0).
Notation cnt := (cnt).

Definition alist := list (state * (pairs * pairs)).

Definition dominated (D : list (list nat)) (L : alist) : Prop :=
  forall d p, In d D -> In p L -> exists x, s_cost (fst p) = Fin x /\ (total C0 d <= x)%R.

Record inv (L : alist) (D : list (list nat)) : Prop := {
  iv_ok : Forall okst L;
  iv_f : forall d, In d D -> feasible C0 d;
  iv_cnt : forall s, feasible C0 s -> count_occ (list_eq_dec Nat.eq_dec) D s + cnt L s = 1;
  iv_dom : dominated D L }.

Definition unsolved (q : list state) : nat := length (filter (fun s => negb (s_solved s)) q).

Lemma cnt_perm L L' s : Permutation L L' -> cnt L s = cnt L' s.
Proof.
  unfold MurtyProofs.cnt. induction 1; simpl; auto.
  - destruct (memb (snd x) s); simpl; auto.
  - destruct (memb (snd x) s), (memb (snd y) s); auto.
  - congruence.
Qed.

Lemma inv_perm L L' D : Permutation L L' -> inv L D -> inv L' D.
Proof.
  intros Hp [H1 H2 H3 H4]. constructor; auto.
  - eapply Permutation_Forall; eauto.
  - intros s Hs. rewrite <- (cnt_perm L L') by auto. auto.
  - intros d p Hd Hin. apply H4; auto. apply (Permutation_in p (Permutation_sym Hp)); auto.
Qed.

Lemma okst_cost p : okst p -> exists x, s_cost (fst p) = Fin x /\
  forall s, feasible C0 s -> memb (snd p) s = true -> (x <= total C0 s)%R.
Proof. destruct p as [st [B X]]. intros (_ & (x & H) & _). exists x. exact H. Qed.

Lemma top_spec L D tick : inv L D -> L <> [] ->
  exists L1 p L2, L = L1 ++ p :: L2 /\ length L1 = pick tick (map fst L) /\
    (forall d, nth (pick tick (map fst L)) (map fst L) d = fst p) /\
    forall p' x y, In p' L -> s_cost (fst p) = Fin x -> s_cost (fst p') = Fin y -> (x <= y)%R.
Proof.
  intros [H1 _ _ _] Hne.
  assert (Hfin : forall x, In x (map fst L) -> is_fin (s_cost x)).
  { intros x Hx. apply in_map_iff in Hx. destruct Hx as (p & <- & Hin).
    rewrite Forall_forall in H1. destruct (okst_cost p (H1 p Hin)) as (y & E & _). exists y; auto. }
  destruct (Hpick tick (map fst L)) as [Hk Hbest]; auto.
  { destruct L; simpl; congruence. }
  assert (HkL : pick tick (map fst L) < length L) by (rewrite map_length in Hk; auto).
  destruct L as [|p0 L0] eqn:EL; [congruence|]. rewrite <- EL in *.
  destruct (mapfst_split L _ (fst p0) HkL) as (L1 & p & L2 & E1 & E2 & E3).
  exists L1, p, L2. split; auto. split; auto. split.
  - intros d. rewrite nth_indep with (d' := fst p0) by auto. auto.
  - intros p' x y Hin Ex Ey. apply (after_false (fst p) (fst p')); auto.
    rewrite <- E3. apply Hbest. apply in_map. auto.
Qed.

(** ** The loop that solves states *)
Definition drawn (D : list (list nat)) (a : option state * list state * nat) : Prop :=
  let '(o, q, _) := a in
  match o with
  | None => q = [] /\ inv [] D
  | Some st => exists g L, q = map fst L /\ inv ((st, g) :: L) D /\ s_solved st = true /\
      forall p x y, In p L -> s_cost st = Fin x -> s_cost (fst p) = Fin y -> (x <= y)%R
  end.

Lemma draw_loop_spec D rounds : forall L tick, inv L D -> L <> [] ->
  unsolved (map fst L) < rounds ->
  spec (fun fuel => draw_loop extR pick rounds fuel (map fst L) tick) (drawn D).
Proof.
  induction rounds as [|rounds IH]; intros L tick HI Hne Hr; [lia|].
  destruct (top_spec L D tick HI Hne) as (L1 & [st g] & L2 & EL & Ek & Eg & Hbest).
  cbn [draw_loop].
  assert (Hget : get (map fst L) (pick tick (map fst L)) = Ok st).
  { rewrite (get_ok _ _ st). - rewrite Eg. auto.
    - rewrite map_length, <- Ek, EL, app_length. simpl. lia. }
  assert (Hrem : remove_nth (map fst L) (pick tick (map fst L)) = Ok (map fst (L1 ++ L2))).
  { rewrite <- Ek. rewrite EL at 1. rewrite map_app. simpl.
    replace (length L1) with (length (map fst L1)) by apply map_length.
    rewrite remove_nth_app, map_app. auto. }
  rewrite Hget. cbn [bind]. rewrite Hrem. cbn [bind].
  assert (Hp : Permutation L ((st, g) :: L1 ++ L2)) by (rewrite EL; symmetry; apply Permutation_middle).
  pose proof (inv_perm _ _ _ Hp HI) as HI'.
  destruct (s_solved st) eqn:Es.
  - apply spec_pure. simpl. exists g, (L1 ++ L2). split; auto. split; auto. split; auto.
    intros p x y Hin Hx Hy. apply (Hbest p x y); auto. rewrite EL. rewrite in_app_iff in *. simpl. tauto.
  - destruct g as [B X]. pose proof HI' as [Hok Hf Hc Hd].
    pose proof (Forall_inv_tail Hok) as Hok2. destruct (Forall_inv Hok) as (Hrep & (x & Hx & Hlow) & _).
    eapply (spec_bind (fun fuel => solve extR fuel st) (fun a fuel => let '(s, ok) := a in _)).
    { apply (solve_spec C0 HC0 Hrows Hord st B X x); auto. }
    intros [st' ok] Hst. cbv beta iota in Hst.
    assert (Hun : unsolved (map fst (L1 ++ L2)) < rounds).
    { clear -Hr Es EL. rewrite EL in Hr. unfold unsolved in *. rewrite !map_app in *. simpl in Hr.
      rewrite filter_app, app_length in *. simpl in Hr. rewrite Es in Hr. simpl in Hr. lia. }
    destruct ok.
    + destruct Hst as (Hok' & Hs' & y & Hy & Hxy).
      assert (HI2 : inv ((L1 ++ L2) ++ [(st', (B, X))]) D).
      { apply (inv_perm ((st', (B, X)) :: L1 ++ L2)); [apply Permutation_cons_append|].
        constructor; auto; [intros s Hs; specialize (Hc s Hs); rewrite cnt_cons in *; exact Hc|].
        intros d p Hdn [<-|Hin]; [|apply Hd; simpl; auto].
        exists y. split; auto. destruct (Hd d (st, (B, X)) Hdn) as (x' & Ex' & Hle); simpl; auto.
        simpl in Ex'. rewrite Hx in Ex'. inversion Ex'; subst. lra. }
      assert (E : map fst (L1 ++ L2) ++ [st'] = map fst ((L1 ++ L2) ++ [(st', (B, X))]))
        by (rewrite !map_app; auto).
      rewrite E. destruct (map fst ((L1 ++ L2) ++ [(st', (B, X))])) eqn:Em.
      { apply map_eq_nil in Em. destruct (L1 ++ L2); discriminate. }
      rewrite <- Em. apply IH; auto.
      * intros Hn. destruct (L1 ++ L2); discriminate.
      * unfold unsolved in *. rewrite map_app. simpl. rewrite filter_app. simpl. rewrite Hs'. simpl.
        rewrite app_nil_r. auto.
    + assert (HI2 : inv (L1 ++ L2) D).
      { constructor; auto.
        - intros s Hs. specialize (Hc s Hs). rewrite cnt_cons in Hc. simpl snd in Hc.
          rewrite (Hst s Hs) in Hc. auto.
        - intros d p Hdn Hin. apply Hd; simpl; auto. }
      destruct (L1 ++ L2) as [|p L3] eqn:E12.
      * simpl. apply spec_pure. simpl. auto.
      * cbn [map]. change (fst p :: map fst L3) with (map fst (p :: L3)). apply IH; auto. discriminate.
Qed.

(** ** draw *)
Definition draw_post (off : ext R) (D : list (list nat))
    (a : option (ext R * list (option nat)) * murty (T := ext R)) : Prop :=
  let '(o, M) := a in
  mu_offset M = off /\
  match o with
  | None => mu_queue M = [] /\ inv [] D
  | Some (cst, sol) => exists sg L, sol = map Some sg /\ feasible C0 sg /\
      cst = nadd extR (Fin (total C0 sg)) off /\ ~ In sg D /\
      (forall d, In d D -> (total C0 d <= total C0 sg)%R) /\
      (forall s, feasible C0 s -> ~ In s D -> (total C0 sg <= total C0 s)%R) /\
      mu_queue M = map fst L /\ inv L (D ++ [sg])
  end.

Lemma draw_spec L D M : inv L D -> mu_queue M = map fst L ->
  spec (fun fuel => draw extR pick fuel M) (draw_post (mu_offset M) D).
Proof.
  intros HI Eq. unfold draw. rewrite Eq. destruct (map fst L) as [|q0 q1] eqn:Em.
  - apply map_eq_nil in Em. subst L. apply spec_pure. simpl. auto.
  - rewrite <- Em.
    eapply (spec_bind (fun fuel => draw_loop extR pick (S (length (map fst L))) fuel (map fst L) (mu_tick M))
              (fun a fuel => let '(s, q, tick) := a in _)).
    { apply (draw_loop_spec D); eauto.
      - intros ->. discriminate.
      - unfold unsolved. apply Nat.lt_succ_r. apply filter_length_le. }
    intros [[o q] tick] Hdr. simpl in Hdr. destruct o as [st|].
    + destruct Hdr as ([B X] & L' & -> & HI' & Hs & Hbest).
      pose proof HI' as [Hok Hf Hc Hd].
      pose proof (Forall_inv_tail Hok) as Hok2. destruct (Forall_inv Hok) as (Hrep & (x & Hx & Hlow) & Hsol).
      destruct (Hsol Hs) as (r & t & sg & Hss). clear Hsol.
      destruct (solved_sol C0 Hrows st B X r t sg Hrep Hss) as (Hsf & Hsm & Hsmin).
      pose proof (ss_cost _ _ _ _ _ _ _ Hss) as Ecost.
      apply spec_pure. apply wp_bind.
      pose proof (rp_C _ _ _ _ Hrep) as EC.
      eapply wp_conseq.
      { apply (sort_by_dual_spec False st r t).
        - rewrite EC. apply sub_cost; auto.
        - rewrite EC. apply sub_rows; auto.
        - rewrite EC. reflexivity.
        - rewrite EC. apply Hss.
        - apply Hss.
        - apply Hss.
        - apply Hss. }
      intros order [Hperm Hord']. rewrite EC in Hperm, Hord'. cbn [m_rows sub] in Hperm, Hord'.
      assert (Hent : Forall (entry_ok C0 B X t) order).
      { apply Forall_forall. intros [[h i] j] Hin. apply (Hord' h i j Hin). }
      apply wp_bind. eapply wp_conseq.
      { apply (push_children_spec C0 HC0 Hrows Hord B X r t sg st Hrep Hss False order [] st (map fst L')); auto.
        - simpl. apply (Permutation_NoDup (Permutation_sym Hperm)). apply seq_NoDup.
        - apply Hss. }
      intros q' (Lc & -> & HLok & HLcost & HLcnt). apply wp_ret. cbn.
      split; auto. exists sg, (L' ++ Lc).
      assert (HnotD : ~ In sg D).
      { intros Hin. specialize (Hc sg Hsf). rewrite cnt_cons in Hc. simpl snd in Hc. rewrite Hsm in Hc.
        apply (count_occ_In (list_eq_dec Nat.eq_dec)) in Hin. lia. }
      assert (HDle : forall d, In d D -> (total C0 d <= total C0 sg)%R).
      { intros d Hin. destruct (Hd d (st, (B, X)) Hin) as (y & Ey & Hle); simpl; auto.
        simpl in Ey. rewrite Ecost in Ey. inversion Ey; subst. auto. }
      assert (HLle : forall p, In p (L' ++ Lc) -> exists y, s_cost (fst p) = Fin y /\ (total C0 sg <= y)%R).
      { intros p Hin. apply in_app_iff in Hin. destruct Hin as [Hin|Hin].
        - rewrite Forall_forall in Hok2. destruct (okst_cost p (Hok2 p Hin)) as (y & Ey & _).
          exists y. split; auto. apply (Hbest p _ _ Hin Ecost Ey).
        - apply (HLcost p Hin). }
      split; [apply Hss|]. split; auto. split; [rewrite Ecost; auto|]. split; auto. split; auto. split.
      { intros s Hsf' Hns. specialize (Hc s Hsf'). rewrite cnt_cons in Hc. simpl snd in Hc.
        apply (count_occ_not_In (list_eq_dec Nat.eq_dec)) in Hns. rewrite Hns in Hc.
        destruct (memb (B, X) s) eqn:Ems; [apply Hsmin; auto|].
        assert (Hc' : cnt L' s = 1) by lia. unfold MurtyProofs.cnt in Hc'.
        destruct (filter (fun p => memb (snd p) s) L') as [|p l] eqn:El; [discriminate|].
        assert (Hin : In p (filter (fun p => memb (snd p) s) L')) by (rewrite El; simpl; auto).
        apply filter_In in Hin. destruct Hin as [Hin Hmp].
        rewrite Forall_forall in Hok2. destruct (okst_cost p (Hok2 p Hin)) as (y & Ey & Hy).
        specialize (Hy s Hsf' Hmp). specialize (Hbest p _ _ Hin Ecost Ey). lra. }
      split; [rewrite map_app; auto|]. constructor.
      * apply Forall_app; auto.
      * intros d Hin. apply in_app_iff in Hin. destruct Hin as [Hin|[<-|[]]]; auto.
      * intros s Hsf'. specialize (Hc s Hsf'). rewrite cnt_cons in Hc. simpl snd in Hc.
        rewrite cnt_app, (HLcnt s Hsf'). change (Bk C0 B []) with B.
        rewrite count_occ_app. simpl count_occ.
        destruct (memb (B, X) s) eqn:Ems.
        -- destruct (existsb (differ C0 B s) order) eqn:Ex.
           ++ destruct (list_eq_dec Nat.eq_dec sg s) as [<-|Hne].
              ** rewrite (sol_no_difference C0 B X r t sg st Hss order Hent) in Ex. discriminate.
              ** simpl. lia.
           ++ assert (s = sg).
              { apply (no_difference C0 Hrows B X r t sg st Hss order s); auto. }
              subst s. destruct (list_eq_dec Nat.eq_dec sg sg); [|congruence]. simpl. lia.
        -- destruct (list_eq_dec Nat.eq_dec sg s) as [<-|Hne]; [congruence|]. simpl. lia.
      * intros d p Hin Hp. destruct (HLle p Hp) as (y & Ey & Hy). exists y. split; auto.
        apply in_app_iff in Hin. destruct Hin as [Hin|[<-|[]]]; auto.
        specialize (HDle d Hin). lra.
    + destruct Hdr as [-> HI']. apply spec_pure. simpl. auto.
Qed.

(** ** Successive draws *)
Definition out_of (off : ext R) (s : list nat) : option (ext R * list (option nat)) :=
  Some (nadd extR (Fin (total C0 s)) off, map Some s).

Record ranked (D0 ds : list (list nat)) : Prop := {
  rk_f : forall d, In d ds -> feasible C0 d;
  rk_nd : NoDup ds;
  rk_new : forall d, In d ds -> ~ In d D0;
  rk_above : forall d0 d, In d0 D0 -> In d ds -> (total C0 d0 <= total C0 d)%R;
  rk_sorted : StronglySorted (fun a b => total C0 a <= total C0 b)%R ds;
  rk_best : forall d s, In d ds -> feasible C0 s -> ~ In s D0 -> ~ In s ds -> (total C0 d <= total C0 s)%R }.

Lemma draws_spec k : forall L D M, inv L D -> mu_queue M = map fst L ->
  spec (fun fuel => draws extR pick fuel k M)
    (fun outs => exists ds, length ds <= k /\
       outs = map (out_of (mu_offset M)) ds ++ repeat None (k - length ds) /\
       ranked D ds /\
       (length ds < k -> forall s, feasible C0 s -> In s D \/ In s ds)).
Proof.
  induction k as [|k IH]; intros L D M HI Eq.
  - cbn [draws]. apply spec_pure. apply wp_ret. exists []. split; auto. split; auto.
    split; [constructor; simpl; try tauto; constructor|]. simpl. lia.
  - cbn [draws].
    eapply (spec_bind (fun fuel => draw extR pick fuel M) (fun a fuel => let '(r, m) := a in _)).
    { apply (draw_spec L D M HI Eq). }
    intros [o M'] [Eoff Ho].
    destruct o as [[cst sol]|].
    + destruct Ho as (sg & L' & -> & Hf & -> & Hnew & Habove & Hbest & Eq' & HI').
      eapply (spec_bind (fun fuel => draws extR pick fuel k M') (fun rs fuel => _)).
      { apply (IH L' (D ++ [sg]) M' HI' Eq'). }
      intros outs (ds & Hlen & -> & [R1 R2 R3 R4 R5 R6] & Hall). apply spec_pure. apply wp_ret.
      exists (sg :: ds). simpl length. split; [lia|]. split.
      { simpl. rewrite Eoff. auto. }
      split; [constructor|].
      * intros d [<-|Hin]; auto.
      * constructor; auto. intros Hin. apply (R3 sg Hin). rewrite in_app_iff. simpl; auto.
      * intros d [<-|Hin]; auto. intros HD. apply (R3 d Hin). rewrite in_app_iff. auto.
      * intros d0 d H0 [<-|Hin]; auto. apply R4; auto. rewrite in_app_iff; auto.
      * constructor; auto. apply Forall_forall. intros d Hin. apply R4; auto. rewrite in_app_iff; simpl; auto.
      * intros d s [<-|Hin] Hs HnD Hns; [apply Hbest; auto|]. apply R6; auto.
        -- rewrite in_app_iff. simpl in *. tauto.
        -- simpl in Hns. tauto.
      * intros Hlt s Hs. destruct (Hall ltac:(lia) s Hs) as [H|H]; simpl; auto.
        rewrite in_app_iff in H. simpl in H. tauto.
    + destruct Ho as [Eq' HI'].
      eapply (spec_bind (fun fuel => draws extR pick fuel k M') (fun rs fuel => _)).
      { apply (IH [] D M' HI' Eq'). }
      intros outs (ds & Hlen & -> & [R1 R2 R3 R4 R5 R6] & Hall). apply spec_pure. apply wp_ret.
      assert (HallD : forall s, feasible C0 s -> In s D).
      { intros s Hs. pose proof (iv_cnt _ _ HI' s Hs) as Hc. unfold MurtyProofs.cnt in Hc. simpl in Hc.
        apply (count_occ_In (list_eq_dec Nat.eq_dec)). lia. }
      assert (ds = []).
      { destruct ds as [|d ds]; auto. exfalso. apply (R3 d); simpl; auto. apply HallD, R1. simpl; auto. }
      subst ds. exists []. simpl. split; [lia|]. split; [rewrite Nat.sub_0_r; auto|].
      split; [constructor; simpl; try tauto; constructor|]. auto.
Qed.

Lemma leftover_nil k : leftover [] k = seq 0 k.
Proof.
  unfold leftover. generalize (seq 0 k). intros l. induction l as [|a l IH]; simpl; auto. rewrite IH. auto.
Qed.

Lemma sub_nil : sub C0 [] [] = C0.
Proof.
  destruct HC0 as [Hlen _].
  unfold sub. unfold rl, cl. cbn [map]. rewrite !leftover_nil, !seq_length.
  destruct C0 as [rows cols ord data] eqn:EC. simpl in *. f_equal; auto.
  apply nth_ext with (d := NaN) (d' := NaN).
  { rewrite map_length, prod_length, !seq_length. auto. }
  intros k Hk. rewrite map_length, prod_length, !seq_length in Hk.
  assert (Hc : cols <> 0) by (intros ->; lia).
  assert (Ek : k = k / cols * cols + k mod cols).
  { rewrite (Nat.div_mod k cols) at 1 by auto. lia. }
  assert (Hr : k / cols < rows) by (apply Nat.div_lt_upper_bound; lia).
  assert (Hm : k mod cols < cols) by (apply Nat.mod_upper_bound; auto).
  rewrite Ek at 1. rewrite <- (seq_length cols 0) at 2.
  rewrite (nth_prod _ _ _ _ _ 0 0) by (rewrite seq_length; auto).
  rewrite !seq_nth by auto. unfold ecell, e, entry. simpl. rewrite Hord, <- Ek. auto.
Qed.

Hypothesis Hnn : forall x, In (Fin x) (m_data C0) -> (0 <= x)%R.

Lemma total_nonneg s : feasible C0 s -> (0 <= total C0 s)%R.
Proof.
  intros [(Hl & _ & Hr) Hf]. unfold total. apply Rsum_nonneg. intros i Hi.
  apply in_seq in Hi.
  destruct (Hf i ltac:(lia)) as [y Ey]. rewrite Ey. simpl. apply Hnn. rewrite <- Ey.
  unfold entry. rewrite Hord. apply nth_In. destruct HC0 as [-> _].
  assert (nth i s 0 < m_cols C0) by (apply Hr, nth_In; lia). nia.
Qed.

Lemma root_inv : inv [(root_state extR C0, ([], []))] [].
Proof.
  constructor.
  - constructor; auto. split; [|split].
    + constructor; simpl; auto.
      * constructor; simpl; try tauto; constructor.
      * symmetry. apply sub_nil.
      * unfold rl. simpl. rewrite leftover_nil. auto.
      * unfold cl. simpl. rewrite leftover_nil. auto.
      * unfold rl. simpl. rewrite leftover_nil, repeat_length, seq_length. auto.
      * unfold cl. simpl. rewrite leftover_nil, repeat_length, seq_length. auto.
      * apply repeat_length.
      * tauto.
    + exists 0%R. split; auto. intros s Hs _. apply total_nonneg; auto.
    + discriminate.
  - simpl. tauto.
  - intros s _. reflexivity.
  - intros d p [].
Qed.

Lemma run_spec k off : 
  spec (fun fuel => draws extR pick fuel k (mkMurty off [root_state extR C0] 0))
    (fun outs => exists ds, length ds <= k /\
       outs = map (out_of off) ds ++ repeat None (k - length ds) /\
       ranked [] ds /\
       (length ds < k -> forall s, feasible C0 s -> In s ds)).
Proof.
  eapply spec_conseq.
  { apply (draws_spec k [(root_state extR C0, ([], []))] []); [apply root_inv|reflexivity]. }
  intros outs (ds & H1 & H2 & H3 & H4). exists ds. split; auto. split; auto. split; auto.
  intros Hlt s Hs. destruct (H4 Hlt s Hs) as [[]|H]; auto.
Qed.
End Queue.

(** ** The shift by the smallest entry *)
Lemma min_coeff_ok l : l <> [] -> (forall x, In x l -> is_fin x \/ x = PInf) ->
  exists mn, min_coeff extR l = Ok mn /\ (is_fin mn \/ mn = PInf) /\
    forall y, In (Fin y) l -> exists x, mn = Fin x /\ (x <= y)%R.
Proof.
  destruct l as [|a l]; [congruence|]. intros _ H. simpl. eexists. split; [reflexivity|].
  assert (G : forall l mn, (is_fin mn \/ mn = PInf) -> (forall x, In x l -> is_fin x \/ x = PInf) ->
    let mn' := fold_left (fun m y => if nlt extR y m then y else m) l mn in
    (is_fin mn' \/ mn' = PInf) /\
    forall y, In (Fin y) (mn :: l) -> exists x, mn' = Fin x /\ (x <= y)%R).
  { clear. induction l as [|b l IH]; intros mn Hmn Hl; cbn zeta.
    - simpl. split; auto. intros y [->|[]]. exists y. split; auto. lra.
    - cbn [fold_left]. set (mn1 := if nlt extR b mn then b else mn).
      assert (Hmn1 : is_fin mn1 \/ mn1 = PInf).
      { unfold mn1. destruct (nlt extR b mn); auto. apply Hl. simpl; auto. }
      assert (Hle : forall y, mn = Fin y \/ b = Fin y -> exists x, mn1 = Fin x /\ (x <= y)%R).
      { intros y Hy. unfold mn1.
        destruct Hmn as [[xm ->]| ->], (Hl b (or_introl eq_refl)) as [[xb ->]| ->].
        - rewrite lt_FF. destruct (Rltb_spec xb xm); destruct Hy as [E|E]; inversion E; subst; eexists; split; eauto; lra.
        - change (nlt extR PInf (Fin xm)) with false. destruct Hy as [E|E]; inversion E; subst. eexists; split; eauto; lra.
        - change (nlt extR (Fin xb) PInf) with true. destruct Hy as [E|E]; inversion E; subst. eexists; split; eauto; lra.
        - destruct Hy as [E|E]; discriminate. }
      destruct (IH mn1 Hmn1) as [I1 I2]; [intros; apply Hl; simpl; auto|]. split; auto.
      intros y Hin.
      assert (Hc : (mn = Fin y \/ b = Fin y) \/ In (Fin y) l) by (simpl in Hin; tauto).
      destruct Hc as [Hc|Hc].
      + destruct (Hle y Hc) as (x1 & E1 & Hx1). destruct (I2 x1) as (x & Ex & Hx); [simpl; auto|]. exists x. split; auto. lra.
      + apply (I2 y). simpl; auto. }
  apply (G l a). - apply H; simpl; auto. - intros; apply H; simpl; auto.
Qed.

Definition ofnat_R (k : nat) : nofnat extR k = Fin (INR k).
Proof. reflexivity. Qed.

Section Shift.
Variable C : matrix (ext R).
Hypothesis HC : cost_matrix C.
Hypothesis Hord : m_ord C = RowMajor.
Variable mn : R.
Definition shifted : matrix (ext R) :=
  mkMat (m_rows C) (m_cols C) (m_ord C) (map (fun x => nsub extR x (Fin mn)) (m_data C)).

Lemma shifted_cost : cost_matrix shifted.
Proof.
  destruct HC as [H1 H2]. split; simpl; [rewrite map_length; auto|].
  intros x Hx. apply in_map_iff in Hx. destruct Hx as (y & <- & Hy).
  destruct (H2 y Hy) as [[z ->]| ->]; [left; eexists; reflexivity|right; reflexivity].
Qed.

Lemma shifted_entry i j : entry NaN shifted i j = nsub extR (entry NaN C i j) (Fin mn).
Proof.
  unfold entry, shifted. simpl m_ord. simpl m_data. simpl m_cols. simpl m_rows.
  exact (map_nth (fun x => nsub extR x (Fin mn)) _ NaN _).
Qed.

Lemma shifted_fin i j : is_fin (entry NaN shifted i j) <-> is_fin (entry NaN C i j).
Proof.
  rewrite shifted_entry. destruct (entry NaN C i j) as [x| | |] eqn:E.
  - split; intros _; eexists; reflexivity.
  - split; intros [y Hy]; discriminate Hy.
  - split; intros [y Hy]; discriminate Hy.
  - split; intros [y Hy]; discriminate Hy.
Qed.

Lemma shifted_feasible s : feasible shifted s <-> feasible C s.
Proof.
  unfold feasible. simpl m_rows. simpl m_cols.
  split; intros [H1 H2]; split; auto; intros i Hi; apply shifted_fin; auto.
Qed.

Lemma shifted_total s : feasible C s -> total C s = (total shifted s + mn * INR (m_rows C))%R.
Proof.
  intros [_ Hf]. unfold total. simpl m_rows.
  assert (G : forall k, k <= m_rows C ->
    Rsum (map (fun i => val (entry NaN C i (nth i s O))) (seq 0 k)) =
    (Rsum (map (fun i => val (entry NaN shifted i (nth i s O))) (seq 0 k)) + mn * INR k)%R).
  { induction k as [|k IH]; intros Hk; [simpl; lra|].
    rewrite seq_S, !map_app, !Rsum_app, IH by lia. rewrite S_INR. simpl map. rewrite shifted_entry.
    destruct (Hf k ltac:(lia)) as [y ->]. rewrite sub_FF. simpl. lra. }
  apply G. auto.
Qed.
End Shift.

(** ** All draws of a Murty object *)
Record ranking (C : matrix (ext R)) (k : nat) (ds : list (list nat)) : Prop := {
  rg_len : length ds <= k;
  rg_f : forall d, In d ds -> feasible C d;
  rg_nd : NoDup ds;
  rg_sorted : StronglySorted (fun a b => total C a <= total C b)%R ds;
  rg_best : forall d s, In d ds -> feasible C s -> ~ In s ds -> (total C d <= total C s)%R;
  rg_all : length ds < k -> forall s, feasible C s -> In s ds }.

Definition answer (C : matrix (ext R)) (s : list nat) : option (ext R * list (option nat)) :=
  Some (Fin (total C s), map Some s).

Lemma murty_spec C pick k : cost_matrix C -> m_rows C <= 30 -> m_ord C = RowMajor ->
  0 < m_rows C -> 0 < m_cols C -> valid_pick pick ->
  spec (fun fuel => murty_run extR pick fuel k C)
    (fun outs => exists ds, ranking C k ds /\
       outs = map (answer C) ds ++ repeat None (k - length ds)).
Proof.
  intros HC Hrows Hord Hr0 Hc0 Hpick. unfold murty_run, murty_new.
  assert (Hne : m_data C <> []).
  { destruct HC as [H _]. intros E. rewrite E in H. simpl in H. nia. }
  destruct (min_coeff_ok (m_data C) Hne (proj2 HC)) as (mn & -> & Hmn & Hmin). cbn [bind].
  destruct (nlt extR mn (n0 extR)) eqn:Elt.
  - destruct Hmn as [[x ->]| ->]; [|discriminate].
    cbn [bind]. change (mkMat _ _ _ _) with (shifted C x).
    eapply spec_conseq.
    { apply (run_spec (shifted C x) (shifted_cost C HC x) Hrows Hord pick Hpick); auto.
      intros y Hy. simpl in Hy. apply in_map_iff in Hy. destruct Hy as (z & Ez & Hz).
      destruct z as [z| | |]; try discriminate. change (Fin (z - x)%R = Fin y) in Ez. inversion Ez; subst.
      destruct (Hmin z Hz) as (x' & Ex & Hx). inversion Ex; subst. lra. }
    intros outs (ds & H1 & H2 & [R1 R2 R3 R4 R5 R6] & H4).
    assert (Hf : forall d, In d ds -> feasible C d) by (intros d Hd; apply (shifted_feasible C x), R1; auto).
    exists ds. split; [constructor; auto|].
    + clear -R5 Hf. induction R5 as [|a l H IH HF]; constructor; auto.
      * apply IH. intros; apply Hf; simpl; auto.
      * rewrite Forall_forall in *. intros b Hb. specialize (HF b Hb). simpl in HF.
        rewrite !(shifted_total C x) by (apply Hf; simpl; auto). lra.
    + intros d s Hd Hs Hns. rewrite !(shifted_total C x) by auto.
      apply Rplus_le_compat_r. apply R6; auto. apply shifted_feasible; auto.
    + intros Hlt s Hs. apply H4; auto. apply shifted_feasible; auto.
    + rewrite H2. f_equal. apply map_ext_in. intros s Hs. unfold out_of, answer.
      rewrite (shifted_total C x) by auto.
      change (nmul extR (Fin x) (nofnat extR (m_rows C))) with (@Fin R (Rmult x (INR (m_rows C)))).
      rewrite add_FF. auto.
  - cbn [bind]. change (n0 extR) with (@Fin R 0%R). eapply spec_conseq.
    { apply (run_spec C HC Hrows Hord pick Hpick); auto.
      intros y Hy. destruct (Hmin y Hy) as (x & -> & Hx).
      change (n0 extR) with (@Fin R 0%R) in Elt. rewrite lt_FF in Elt.
      destruct (Rltb_spec x 0); [discriminate|lra]. }
    intros outs (ds & H1 & H2 & [R1 R2 R3 R4 R5 R6] & H4).
    exists ds. split; [constructor; auto|].
    rewrite H2. f_equal. apply map_ext. intros s. unfold out_of, answer. rewrite add_FF.
    do 3 f_equal. lra.
Qed.

(** ** Facts about answers *)
Section Answers.
Variable C : matrix (ext R).
Hypothesis HC : cost_matrix C.
Hypothesis Hrows : m_rows C <= 30.
Hypothesis Hord : m_ord C = RowMajor.
Hypothesis Hr0 : 0 < m_rows C.
Hypothesis Hc0 : 0 < m_cols C.
Variable pick : nat -> list (mstate (T := ext R)) -> nat.
Hypothesis Hpick : valid_pick pick.
Variables (fuel k : nat) (outs : list (option (ext R * list (option nat)))).
Hypothesis Hrun : murty_run extR pick fuel k C = Ok outs.

Lemma run_ranking : exists ds, ranking C k ds /\ outs = map (answer C) ds ++ repeat None (k - length ds).
Proof.
  destruct (murty_spec C pick k HC Hrows Hord Hr0 Hc0 Hpick) as [H _]. specialize (H fuel).
  rewrite Hrun in H. exact H.
Qed.

Lemma answers_nth ds i : i < k -> length ds <= k ->
  nth_error (map (answer C) ds ++ repeat None (k - length ds)) i =
  Some (if i <? length ds then answer C (nth i ds []) else None).
Proof.
  intros Hi Hl. destruct (Nat.ltb_spec i (length ds)) as [H|H].
  - rewrite nth_error_app1 by (rewrite map_length; auto). rewrite nth_error_map.
    rewrite (nth_error_nth' ds []) by auto. auto.
  - rewrite nth_error_app2 by (rewrite map_length; auto). rewrite map_length.
    rewrite (nth_error_nth' _ None) by (rewrite repeat_length; lia). f_equal. apply nth_repeat.
Qed.

Lemma outs_cases i o : nth_error outs i = Some o -> exists ds, ranking C k ds /\
  outs = map (answer C) ds ++ repeat None (k - length ds) /\ i < k /\
  ((i < length ds /\ o = answer C (nth i ds [])) \/ (length ds <= i /\ o = None)).
Proof.
  intros Hi. destruct run_ranking as (ds & HR & E). exists ds. split; auto. split; auto.
  assert (Hik : i < k).
  { assert (H : nth_error outs i <> None) by congruence. apply nth_error_Some in H. rewrite E in H.
    rewrite app_length, map_length, repeat_length in H. pose proof (rg_len _ _ _ HR). lia. }
  split; auto. rewrite E, answers_nth in Hi by (auto; apply HR).
  destruct (Nat.ltb_spec i (length ds)); inversion Hi; auto.
Qed.

Lemma map_Some_inj (a b : list nat) : map Some a = map Some b -> a = b.
Proof.
  revert b. induction a as [|x a IH]; intros [|y b] E; try discriminate; auto.
  simpl in E. inversion E. f_equal; auto.
Qed.

Lemma run_length : length outs = k.
Proof.
  destruct run_ranking as (ds & HR & ->). rewrite app_length, map_length, repeat_length.
  pose proof (rg_len _ _ _ HR). lia.
Qed.

Lemma sorted_nth (P : list nat -> list nat -> Prop) ds : StronglySorted P ds ->
  forall i j, i < j -> j < length ds -> P (nth i ds []) (nth j ds []).
Proof.
  induction 1 as [|a l H IH HF]; intros i j Hij Hj; simpl in Hj; [lia|].
  destruct j as [|j]; [lia|]. destruct i as [|i]; simpl.
  - rewrite Forall_forall in HF. apply HF, nth_In. lia.
  - apply IH; lia.
Qed.

Lemma run_costs i j ci cj si sj : i < j ->
  nth_error outs i = Some (Some (ci, si)) -> nth_error outs j = Some (Some (cj, sj)) ->
  exists x y, ci = Fin x /\ cj = Fin y /\ (x <= y)%R.
Proof.
  intros Hij Hi Hj. destruct (outs_cases i _ Hi) as (ds & HR & E & Hik & [[H1 E1]|[_ E1]]); [|discriminate].
  assert (Hjk : j < k) by (rewrite <- run_length; apply nth_error_Some; congruence).
  rewrite E, answers_nth in Hj by (auto; apply HR).
  destruct (Nat.ltb_spec j (length ds)); [|discriminate].
  inversion E1; inversion Hj; subst. eexists _, _. split; [reflexivity|]. split; [reflexivity|].
  apply (sorted_nth _ _ (rg_sorted _ _ _ HR)); auto.
Qed.

Lemma run_true_cost cst sol : In (Some (cst, sol)) outs ->
  exists s, sol = map Some s /\ feasible C s /\ cst = Fin (total C s).
Proof.
  intros Hin. apply In_nth_error in Hin. destruct Hin as [i Hi].
  destruct (outs_cases i _ Hi) as (ds & HR & E & Hik & [[H1 E1]|[_ E1]]); [|discriminate].
  inversion E1; subst. eexists. split; [reflexivity|]. split; auto. apply HR. apply nth_In. auto.
Qed.

Lemma run_distinct i j ci cj s : 
  nth_error outs i = Some (Some (ci, s)) -> nth_error outs j = Some (Some (cj, s)) -> i = j.
Proof.
  intros Hi Hj. destruct (outs_cases i _ Hi) as (ds & HR & E & Hik & [[H1 E1]|[_ E1]]); [|discriminate].
  assert (Hjk : j < k) by (rewrite <- run_length; apply nth_error_Some; congruence).
  rewrite E, answers_nth in Hj by (auto; apply HR).
  destruct (Nat.ltb_spec j (length ds)); [|discriminate].
  inversion E1; inversion Hj; subst.
  apply (proj1 (NoDup_nth ds []) (rg_nd _ _ _ HR)); auto. apply map_Some_inj. congruence.
Qed.

Lemma run_none_stays i j : i <= j -> j < k -> nth_error outs i = Some None -> nth_error outs j = Some None.
Proof.
  intros Hij Hj Hi. destruct (outs_cases i _ Hi) as (ds & HR & E & Hik & [[H1 E1]|[H1 _]]); [discriminate|].
  rewrite E, answers_nth by (auto; apply HR). destruct (Nat.ltb_spec j (length ds)); auto. lia.
Qed.

Lemma run_complete s : In None outs -> feasible C s -> In (Some (Fin (total C s), map Some s)) outs.
Proof.
  intros Hin Hs. apply In_nth_error in Hin. destruct Hin as [i Hi].
  destruct (outs_cases i _ Hi) as (ds & HR & -> & Hik & [[H1 E1]|[H1 _]]); [discriminate|].
  apply in_app_iff. left. apply (in_map (answer C)). apply (rg_all _ _ _ HR); auto. lia.
Qed.

Lemma run_k_best cst sol s : In (Some (cst, sol)) outs -> feasible C s ->
  (forall c', ~ In (Some (c', map Some s)) outs) -> exists x, cst = Fin x /\ (x <= total C s)%R.
Proof.
  intros Hin Hs Hns. apply In_nth_error in Hin. destruct Hin as [i Hi].
  destruct (outs_cases i _ Hi) as (ds & HR & E & Hik & [[H1 E1]|[_ E1]]); [|discriminate].
  inversion E1; subst cst sol. eexists. split; [reflexivity|]. apply (rg_best _ _ _ HR); auto.
  - apply nth_In; auto.
  - intros Hin. apply (Hns (Fin (total C s))). rewrite E. apply in_app_iff. left. apply (in_map (answer C)); auto.
Qed.

(** All lists of [a] numbers below [b]. *)
Fixpoint all_lists (a b : nat) : list (list nat) :=
  match a with
  | O => [[]]
  | S a => flat_map (fun l => map (fun x => x :: l) (seq 0 b)) (all_lists a b)
  end.
Lemma all_lists_in b l : (forall x, In x l -> x < b) -> In l (all_lists (length l) b).
Proof.
  induction l as [|x l IH]; intros H; simpl; auto.
  apply in_flat_map. exists l. split; [apply IH; intros; apply H; simpl; auto|].
  apply in_map_iff. exists x. split; auto. apply in_seq. split; [lia|]. apply H. simpl; auto.
Qed.
Lemma all_lists_length a b : length (all_lists a b) = b ^ a.
Proof.
  induction a as [|a IH]; simpl; auto. rewrite <- IH.
  generalize (all_lists a b). intros L. induction L as [|l L IHL]; simpl; [lia|].
  rewrite app_length, map_length, seq_length, IHL. lia.
Qed.

Lemma run_ends : m_cols C ^ m_rows C < k -> In None outs.
Proof.
  intros Hk. destruct run_ranking as (ds & HR & ->).
  assert (Hl : length ds <= m_cols C ^ m_rows C).
  { rewrite <- all_lists_length. apply NoDup_incl_length; [apply HR|].
    intros d Hd. destruct (rg_f _ _ _ HR d Hd) as [(H1 & _ & H2) _]. rewrite <- H1. apply all_lists_in. auto. }
  apply in_app_iff. right. replace (k - length ds) with (S (k - length ds - 1)) by lia. simpl. auto.
Qed.
End Answers.

Lemma run_returns C pick k : cost_matrix C -> m_rows C <= 30 -> m_ord C = RowMajor ->
  0 < m_rows C -> 0 < m_cols C -> valid_pick pick ->
  (forall fuel, murty_run extR pick fuel k C <> UB) /\
  exists fuel0 outs, forall fuel, fuel0 <= fuel -> murty_run extR pick fuel k C = Ok outs.
Proof.
  intros HC Hrows Hord Hr0 Hc0 Hpick.
  destruct (murty_spec C pick k HC Hrows Hord Hr0 Hc0 Hpick) as [H1 H2]. split; auto.
  intros fuel E. specialize (H1 fuel). rewrite E in H1. exact H1.
Qed.

Lemma run_empty C pick fuel k : m_data C = [] -> murty_run extR pick fuel k C = UB.
Proof. intros H. unfold murty_run, murty_new. rewrite H. auto. Qed.

(** ** A queue that takes the first best element *)
Lemma after_total (a b : mstate (T := ext R)) : is_fin (s_cost a) -> is_fin (s_cost b) ->
  (after extR a b = true <-> (val (s_cost b) < val (s_cost a))%R \/
     (val (s_cost a) = val (s_cost b) /\ m_rows (s_C b) < m_rows (s_C a))).
Proof.
  intros [x Hx] [y Hy]. unfold after. rewrite Hx, Hy. simpl val. rewrite orb_true_iff, andb_true_iff, Nat.ltb_lt, lt_FF.
  change (neq extR (Fin x) (Fin y)) with (Reqb x y).
  destruct (Rltb_spec y x), (Reqb_spec x y); split; intros [H|H]; try tauto; try discriminate; try lra; auto.
  all: destruct H; try discriminate; try lra; auto.
Qed.

Lemma best_exists (q : list (mstate (T := ext R))) : q <> [] -> (forall x, In x q -> is_fin (s_cost x)) ->
  exists s, In s q /\ forall x, In x q -> after extR s x = false.
Proof.
  induction q as [|a q IH]; [congruence|]. intros _ Hf.
  assert (Ha : is_fin (s_cost a)) by (apply Hf; simpl; auto).
  assert (Hself : forall b, is_fin (s_cost b) -> after extR b b = false).
  { intros b Hb. destruct (after extR b b) eqn:E; auto. apply after_total in E; auto.
    destruct E as [E|[_ E]]; [lra|lia]. }
  destruct q as [|b q].
  - exists a. split; [simpl; auto|]. intros x [<-|[]]. auto.
  - destruct IH as (s & Hs & Hbest); [discriminate|intros; apply Hf; simpl in *; auto|].
    assert (Hsf : is_fin (s_cost s)) by (apply Hf; simpl in *; auto).
    destruct (after extR s a) eqn:E.
    + exists a. split; [simpl; auto|]. intros x [<-|Hx]; auto.
      destruct (after extR a x) eqn:Ex; auto. specialize (Hbest x Hx).
      assert (Hxf : is_fin (s_cost x)) by (apply Hf; simpl; auto).
      assert (after extR s x = true); [|congruence].
      apply after_total in E; auto. apply after_total in Ex; auto. apply after_total; auto.
      destruct E as [E|[E E']], Ex as [Ex|[Ex Ex']]; try (left; lra). right. split; [lra|lia].
    + exists s. split; [simpl in *; auto|]. intros x [<-|Hx]; auto.
Qed.

Lemma first_top_valid : valid_pick (first_top extR).
Proof.
  intros tick q Hne Hf. destruct (best_exists q Hne Hf) as (s & Hs & Hbest).
  apply In_nth_error in Hs. destruct Hs as [k0 Hk0].
  unfold first_top.
  set (f := fun k => match nth_error q k with Some s => forallb (fun x => negb (after extR s x)) q | None => false end).
  assert (Hin : In k0 (filter f (seq 0 (length q)))).
  { apply filter_In. split.
    - apply in_seq. assert (nth_error q k0 <> None) by congruence. apply nth_error_Some in H. lia.
    - unfold f. rewrite Hk0. apply forallb_forall. intros x Hx. rewrite (Hbest x Hx). auto. }
  destruct (filter f (seq 0 (length q))) as [|k l] eqn:E; [destruct Hin|].
  assert (Hk : In k (filter f (seq 0 (length q)))) by (rewrite E; simpl; auto).
  apply filter_In in Hk. destruct Hk as [Hk1 Hk2]. apply in_seq in Hk1. split; [lia|].
  intros x d Hx. unfold f in Hk2. destruct (nth_error q k) as [s'|] eqn:Ek; [|discriminate].
  rewrite (nth_error_nth q k d Ek). rewrite forallb_forall in Hk2. specialize (Hk2 x Hx).
  apply negb_true_iff in Hk2. auto.
Qed.
