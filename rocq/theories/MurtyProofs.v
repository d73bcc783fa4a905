(** Correctness of Murty's algorithm. *)
From Coq Require Import List Arith Bool Lia Reals Lra Permutation.
Import ListNotations.
From Verif Require Import Res Scalar Lap LapSpec LapBase LapMain Murty MurtyBase MurtySub MurtyDual.
Local Open Scope nat_scope.

(** * Computations that need enough fuel *)
Definition spec {A} (m : nat -> res A) (Q : A -> Prop) : Prop :=
  (forall fuel, wp True (m fuel) Q) /\
  exists f0 a, forall fuel, f0 <= fuel -> m fuel = Ok a.

Lemma spec_bind {A B} (m : nat -> res A) (f : A -> nat -> res B) (P : A -> Prop) (Q : B -> Prop) :
  spec m P -> (forall a, P a -> spec (f a) Q) ->
  spec (fun fuel => bind (m fuel) (fun a => f a fuel)) Q.
Proof.
  intros [H1 (f0 & a & H2)] Hf. split.
  - intros fuel. apply wp_bind. eapply wp_conseq; [apply H1|]. intros b Hb. apply (Hf b Hb).
  - assert (Pa : P a). { specialize (H1 f0). rewrite H2 in H1 by lia. exact H1. }
    destruct (proj2 (Hf a Pa)) as (f1 & b & H3). exists (Nat.max f0 f1), b.
    intros fuel Hfu. rewrite H2 by lia. simpl. apply H3. lia.
Qed.

Lemma spec_pure {A} (m : res A) (Q : A -> Prop) : wp False m Q -> spec (fun _ => m) Q.
Proof.
  intros H. destruct m as [a| |]; simpl in H; try tauto.
  split; [intros; exact H|]. exists 0, a. auto.
Qed.

Lemma spec_conseq {A} (m : nat -> res A) (P Q : A -> Prop) :
  spec m P -> (forall a, P a -> Q a) -> spec m Q.
Proof.
  intros [H1 H2] H. split; auto. intros fuel. eapply wp_conseq; eauto.
Qed.

Lemma rk_ext p p' x : (forall y, p y = p' y) -> rk p x = rk p' x.
Proof. intros H. unfold rk. f_equal. apply filter_ext. auto. Qed.

(** Position of an element after removing others. *)
Lemma rk_removed base N l i : let L := leftover base N in
  NoDup (l ++ [i]) -> (forall k, In k (l ++ [i]) -> k < length L) ->
  rk (notin (rev (map (fun k => nth k L 0) l) ++ base)) (nth i L 0)
  = i - length (filter (fun k => k <? i) l).
Proof.
  intros L. induction l as [|q l IH] using rev_ind; intros Hnd Hlt.
  - simpl. rewrite Nat.sub_0_r. apply rk_nth. apply Hlt. simpl; auto.
  - rewrite map_app, rev_app_distr. simpl.
    rewrite (rk_ext _ (without (notin (rev (map (fun k => nth k L 0) l) ++ base)) (nth q L 0)))
      by (intros; apply notin_cons).
    assert (Hi : i < length L) by (apply Hlt; rewrite in_app_iff; simpl; auto).
    assert (Hq : q < length L) by (apply Hlt; rewrite !in_app_iff; simpl; auto).
    assert (HLnd : NoDup L) by (apply NoDup_filter, seq_NoDup).
    assert (Hbase : forall k, k < length L -> ~ In (nth k L 0) base).
    { intros k Hk. destruct (nth_filter_seq _ _ _ 0 Hk) as [_ H]. apply notin_spec in H. auto. }
    assert (Hnd1 : NoDup (l ++ [i])).
    { rewrite <- app_assoc in Hnd. simpl in Hnd. eapply NoDup_remove_1. exact Hnd. }
    assert (Hql : ~ In q (l ++ [i])).
    { rewrite <- app_assoc in Hnd. simpl in Hnd. apply NoDup_remove_2 in Hnd. exact Hnd. }
    rewrite in_app_iff in Hql.
    rewrite rk_without.
    + rewrite IH; auto.
      * rewrite filter_app, app_length. simpl.
        assert (E : (nth q L 0 <? nth i L 0) = (q <? i)).
        { apply eq_true_iff_eq. rewrite !Nat.ltb_lt.
          rewrite <- (rk_lt_iff (notin base)).
          - unfold L, leftover in *. rewrite !rk_nth by auto. tauto.
          - apply notin_spec; auto.
          - apply notin_spec; auto. }
        rewrite E. destruct (q <? i); simpl; lia.
      * intros k Hk. apply Hlt. rewrite !in_app_iff in *. simpl in *. tauto.
    + apply notin_spec. rewrite in_app_iff, <- in_rev, in_map_iff. intros [(k & E & Hk)|H].
      * assert (k = q).
        { apply (proj1 (NoDup_nth L 0) HLnd); auto. apply Hlt. rewrite !in_app_iff. auto. }
        subst. tauto.
      * apply (Hbase q Hq H).
Qed.

Section Main.
Variable C0 : matrix (ext R).
Hypothesis HC0 : cost_matrix C0.
Hypothesis Hrows : m_rows C0 <= 30.
Hypothesis Hord : m_ord C0 = RowMajor.
Let n := m_rows C0.
Let m := m_cols C0.
Notation state := (mstate (T := ext R)).
Notation e := (e C0).
Notation rl := (rl C0).
Notation cl := (cl C0).
Notation sub := (sub C0).
Notation okB := (okB C0).
Notation sumB := (sumB C0).
Notation agrees := (agrees C0).

Record rep (st : state) (B X : pairs) : Prop := {
  rp_ok : okB B X;
  rp_C : s_C st = sub B X;
  rp_r : s_rmap st = rl B;
  rp_c : s_cmap st = cl B;
  rp_lu : length (s_u st) = length (rl B);
  rp_lv : length (s_v st) = length (cl B);
  rp_ls : length (s_sol st) = n;
  rp_sol : forall r c, In (r, c) B -> nth r (s_sol st) None = Some c;
  rp_bound : s_bound st = Fin (sumB B) }.

Record solvedst (st : state) (B X : pairs) (r : lap_result (T := ext R)) (t sg : list nat) : Prop := {
  ss_good : lap_good (sub B X) r t;
  ss_res : s_res st = l_rowsol r;
  ss_u : s_u st = l_u r;
  ss_v : s_v st = l_v r;
  ss_ag : agrees B t sg;
  ss_sol : s_sol st = map Some sg;
  ss_cost : s_cost st = Fin (total C0 sg) }.

Definition lower (st : state) (g : pairs * pairs) : Prop :=
  exists x, s_cost st = Fin x /\
    forall s, feasible C0 s -> memb g s = true -> (x <= total C0 s)%R.

Definition okst (p : state * (pairs * pairs)) : Prop :=
  let '(st, (B, X)) := p in
  rep st B X /\ lower st (B, X) /\
  (s_solved st = true -> exists r t sg, solvedst st B X r t sg).

Lemma solved_sol st B X r t sg : rep st B X -> solvedst st B X r t sg ->
  feasible C0 sg /\ memb (B, X) sg = true /\
  forall s, feasible C0 s -> memb (B, X) s = true -> (total C0 sg <= total C0 s)%R.
Proof.
  intros Hrep Hs. pose proof (rp_ok _ _ _ Hrep) as HB.
  pose proof (ss_good _ _ _ _ _ _ Hs) as Hg. pose proof (ss_ag _ _ _ _ _ _ Hs) as Hag.
  destruct (local_global C0 Hrows B X t sg HB Hag (lg_feas _ _ _ Hg)) as [H1 H2].
  split; auto. split; auto. intros s Hf Hm.
  destruct (global_local C0 Hrows B X s HB Hf Hm) as [H3 H4].
  rewrite (total_split C0 Hrows B X t sg HB Hag (lg_feas _ _ _ Hg)).
  rewrite (total_split C0 Hrows B X _ s HB H3 H4).
  assert (Hopt : optimal (sub B X) t).
  { eapply lap_optimal; [|reflexivity|exact Hg]. apply sub_rows; auto. }
  apply Rplus_le_compat_l. apply Hopt. exact H4.
Qed.

(** ** solve *)
Lemma solve_spec st B X x : rep st B X -> s_cost st = Fin x ->
  (forall s, feasible C0 s -> memb (B, X) s = true -> (x <= total C0 s)%R) ->
  spec (fun fuel => solve extR fuel st)
    (fun '(st', ok) =>
       if ok : bool then okst (st', (B, X)) /\ s_solved st' = true /\
            exists y, s_cost st' = Fin y /\ (x <= y)%R
       else forall s, feasible C0 s -> memb (B, X) s = false).
Proof.
  intros Hrep Hcost Hlow. unfold solve.
  pose proof (rp_C _ _ _ Hrep) as EC. pose proof (rp_ok _ _ _ Hrep) as HB.
  eapply (spec_bind (fun fuel => lap extR fuel (s_C st)) (fun r _ => _)).
  { rewrite EC. split.
    - intros fuel. apply lap_spec; [apply sub_cost; auto|apply sub_rows; auto|reflexivity].
    - apply lap_total; [apply sub_cost; auto|apply sub_rows; auto|reflexivity]. }
  intros r Hr. apply spec_pure. cbv beta in Hr.
  destruct Hr as [(t & Hg)|(Hbad & Hno & _)].
  - rewrite (lg_ok _ _ _ Hg).
    pose proof (lg_feas _ _ _ Hg) as Hft. pose proof Hft as [(Hlt & Hndt & Hrt) Hfin].
    cbn [m_rows m_cols MurtySub.sub] in Hlt, Hrt, Hfin.
    apply wp_bind. eapply wp_conseq.
    { apply (wp_for False (length (l_rowsol r)) 0 _ (fun k (sc : list (option nat) * ext R) =>
        length (fst sc) = n /\
        (forall r c, In (r, c) B -> nth r (fst sc) None = Some c) /\
        (forall a, a < k -> nth (nth a (rl B) 0) (fst sc) None = Some (nth (nth a t 0) (cl B) 0)) /\
        snd sc = Fin (Rplus (sumB B) (Rsum (map (fun a => val (entry NaN (sub B X) a (nth a t 0))) (seq 0 k)))))).
      - simpl. split; [apply Hrep|]. split; [apply Hrep|]. split; [intros; lia|].
        rewrite (rp_bound _ _ _ Hrep). f_equal. lra.
      - intros k [sol cost] Hk (I1 & I2 & I3 & I4). simpl fst in *. simpl snd in *.
        rewrite (lg_sol _ _ _ Hg) in Hk |- *. rewrite map_length in Hk.
        assert (Hkr : k < length (rl B)) by lia.
        rewrite (get_ok _ _ (Some 0)) by (rewrite map_length; lia). cbn [bind].
        rewrite map_nth. cbn [idx bind].
        assert (Hj : nth k t 0 < length (cl B)) by (apply Hrt, nth_In; lia).
        rewrite (rp_r _ _ _ Hrep), (rp_c _ _ _ Hrep).
        rewrite (get_ok _ _ 0) by auto. cbn [bind]. rewrite (get_ok _ _ 0) by auto. cbn [bind].
        destruct (rl_in C0 B k Hkr) as [Hrn Hrb]. fold n in Hrn.
        rewrite set_ok by lia. cbn [bind]. rewrite EC, at_sub by auto. cbn [bind].
        apply wp_ret. cbn [fst snd].
        split; [rewrite upd_length; auto|]. split; [|split].
        + intros r' c' Hin. rewrite nth_upd_neq; auto. intros E. apply Hrb. rewrite E.
          apply in_map_iff. exists (r', c'); auto.
        + intros a Ha. destruct (Nat.eq_dec a k) as [->|Hne].
          * apply nth_upd_eq. lia.
          * rewrite nth_upd_neq; [apply I3; lia|]. intros E. apply Hne.
            apply (proj1 (NoDup_nth (rl B) 0) (rl_nodup C0 B)); auto; lia.
        + rewrite I4. rewrite <- sub_entry by auto.
          destruct (Hfin k Hkr) as [y Ey]. rewrite Ey, add_FF. f_equal.
          rewrite seq_S, map_app, Rsum_app. simpl. rewrite Ey. simpl. lra. }
    intros [sol cost] (I1 & I2 & I3 & I4). simpl fst in *. simpl snd in *.
    rewrite (lg_sol _ _ _ Hg) in I3, I4. rewrite map_length, Hlt in I3, I4. simpl Nat.add in I3, I4.
    apply wp_ret. rewrite I4. change (nlt extR (Fin _) (ninf extR)) with true. cbv iota.
    set (sg := map (fun o => match o with Some j => j | None => 0 end) sol).
    assert (Hn : forall i, nth i sg 0 = match nth i sol None with Some j => j | None => 0 end).
    { intros i. exact (map_nth (fun o : option nat => match o with Some j => j | None => 0 end) sol None i). }
    assert (Hag : agrees B t sg).
    { split; [unfold sg; rewrite map_length; auto|]. split; auto. split.
      - intros r' c' Hin. rewrite Hn, (I2 _ _ Hin). auto.
      - intros a Ha. split; [apply Hrt, nth_In; lia|]. rewrite Hn, I3; auto. }
    assert (Esol : sol = map Some sg).
    { apply nth_ext with (d := None) (d' := Some 0); [unfold sg; rewrite !map_length; auto|].
      intros i Hi. rewrite map_nth, Hn.
      destruct (row_cases C0 Hrows B i) as [[c Hc]|(a & Ha & Ea)]; [unfold n in I1; lia| |].
      - rewrite (I2 _ _ Hc). auto.
      - rewrite <- Ea, I3 by auto. auto. }
    assert (Etot : Rplus (sumB B) (Rsum (map (fun a => val (entry NaN (sub B X) a (nth a t 0))) (seq 0 (length (rl B))))) = total C0 sg).
    { rewrite (total_split C0 Hrows B X t sg HB Hag Hft). auto. }
    rewrite Etot.
    set (st' := mkSt _ _ _ _ _ _ _ _ _ _).
    assert (Hrep' : rep st' B X).
    { destruct Hrep. constructor; simpl; auto.
      - destruct (lg_solved _ _ _ Hg) as [_ H _]. exact H.
      - destruct (lg_solved _ _ _ Hg) as [(cs & Hcore & _) _ _]. apply (co_v _ _ _ _ _ _ Hcore). }
    assert (Hss : solvedst st' B X r t sg) by (constructor; simpl; auto).
    destruct (solved_sol _ _ _ _ _ _ Hrep' Hss) as (Hsf & Hsm & Hsmin).
    split; [|split; [reflexivity|]].
    + split; auto. split; [|intros _; eauto]. exists (total C0 sg). split; auto.
    + exists (total C0 sg). split; auto.
  - rewrite Hbad. apply wp_ret. intros s Hf. destruct (memb (B, X) s) eqn:E; auto. exfalso.
    destruct (global_local C0 Hrows B X s HB Hf E) as [_ H]. apply (Hno _ H).
Qed.

(** ** Partitioning *)
Lemma with_spec F st B X r c : rep st B X -> In r (rl B) -> In c (cl B) -> is_fin (e r c) -> ~ In (r, c) X ->
  nth r (s_sol st) None = Some c ->
  wp F (partition_with extR st (rk (notin (map fst B)) r) (rk (notin (map snd B)) c))
    (fun st' => rep st' ((r, c) :: B) X /\ s_cost st' = s_cost st /\ s_sol st' = s_sol st).
Proof.
  intros Hrep Hr Hc Hf HX Hsol. unfold partition_with.
  destruct (rk_rl C0 Hrows B r Hr) as [Hi Ei]. destruct (rk_cl C0 Hrows B c Hc) as [Hj Ej].
  rewrite (rp_C _ _ _ Hrep), (rp_r _ _ _ Hrep), (rp_c _ _ _ Hrep).
  rewrite allbut_sub by auto. cbn [bind].
  assert (Hui : rk (notin (map fst B)) r < length (s_u st)) by (rewrite (rp_lu _ _ _ Hrep); auto).
  assert (Hvj : rk (notin (map snd B)) c < length (s_v st)) by (rewrite (rp_lv _ _ _ Hrep); auto).
  destruct (remove_nth_ok _ _ Hui) as (u' & -> & Lu). cbn [bind].
  destruct (remove_nth_ok _ _ Hvj) as (v' & -> & Lv). cbn [bind].
  pose proof (remove_rl C0 Hrows B r c Hr) as Er. pose proof (remove_cl C0 Hrows B r c Hc) as Ec.
  destruct (remove_nth_ok _ _ Hi) as (r' & E1 & L1). rewrite Er in E1. inversion E1; subst r'. clear E1.
  destruct (remove_nth_ok _ _ Hj) as (c' & E1 & L2). rewrite Ec in E1. inversion E1; subst c'. clear E1.
  rewrite Er. cbn [bind]. rewrite Ec. cbn [bind]. rewrite at_sub by auto. cbn [bind].
  rewrite Ei, Ej. apply wp_ret. split; [|split; reflexivity].
  constructor; simpl s_C; simpl s_rmap; simpl s_cmap; simpl s_u; simpl s_v; simpl s_sol; simpl s_bound; auto.
  - apply okB_bind; auto. apply Hrep.
  - rewrite Lu, (rp_lu _ _ _ Hrep). auto.
  - rewrite Lv, (rp_lv _ _ _ Hrep). auto.
  - apply Hrep.
  - intros r' c' [E|Hin]; [inversion E; subst; auto|]. apply Hrep; auto.
  - rewrite (rp_bound _ _ _ Hrep). unfold ecell. cbn [fst snd].
    destruct (inp X r c) eqn:E; [apply inp_spec in E; tauto|].
    destruct Hf as [y Hy]. rewrite Hy. etransitivity; [apply (add_FF (sumB B) y)|]. f_equal. unfold MurtySub.sumB. simpl. rewrite Hy. simpl. lra.
Qed.

Lemma without_spec F st B X r c d : rep st B X -> In r (rl B) -> In c (cl B) ->
  wp F (partition_without extR st (rk (notin (map fst B)) r) (rk (notin (map snd B)) c) d)
    (fun st' => rep st' B ((r, c) :: X) /\ s_cost st' = nadd extR (s_cost st) d /\ s_solved st' = false).
Proof.
  intros Hrep Hr Hc. unfold partition_without.
  rewrite (rp_C _ _ _ Hrep). change (ninf extR) with (@PInf R). rewrite set_sub by auto. cbn [bind].
  apply wp_ret. split; [|split; reflexivity]. destruct Hrep. constructor; simpl s_C; auto.
  apply okB_forbid; auto.
Qed.

Definition cnt (L : list (state * (pairs * pairs))) (s : list nat) : nat :=
  length (filter (fun p => memb (snd p) s) L).

Lemma cnt_app L L' s : cnt (L ++ L') s = cnt L s + cnt L' s.
Proof. unfold cnt. rewrite filter_app, app_length. auto. Qed.
Lemma cnt_cons p L s : cnt (p :: L) s = (if memb (snd p) s then 1 else 0) + cnt L s.
Proof. unfold cnt. simpl. destruct (memb (snd p) s); auto. Qed.

Section Children.
Variables (B X : pairs) (r : lap_result (T := ext R)) (t sg : list nat) (st0 : state).
Hypothesis Hrep0 : rep st0 B X.
Hypothesis Hss : solvedst st0 B X r t sg.

Definition entry_ok (p : ext R * nat * nat) : Prop :=
  let '(h, i, j) := p in
  i < length (rl B) /\ j = nth i t 0 /\ dual_ok (sub B X) t i h.

Definition bp (p : ext R * nat * nat) : nat * nat :=
  (nth (snd (fst p)) (rl B) 0, nth (snd p) (cl B) 0).
Definition Bk (prev : list (ext R * nat * nat)) : pairs := rev (map bp prev) ++ B.

Lemma Bk_snoc prev p : Bk (prev ++ [p]) = bp p :: Bk prev.
Proof. unfold Bk. rewrite map_app, rev_app_distr. auto. Qed.

Lemma local_props : feasible (sub B X) t /\ length t = length (rl B) /\ NoDup t /\
  (forall i, i < length (rl B) -> nth i t 0 < length (cl B)).
Proof.
  pose proof (lg_feas _ _ _ (ss_good _ _ _ _ _ _ Hss)) as Hft.
  pose proof Hft as [(Hlt & Hndt & Hrt) _]. cbn [m_rows m_cols MurtySub.sub] in Hlt, Hrt.
  split; auto. split; auto. split; auto. intros i Hi. apply Hrt, nth_In. lia.
Qed.

Lemma part_index prev h i j rest :
  Forall entry_ok (prev ++ (h, i, j) :: rest) ->
  NoDup (map (fun p => snd (fst p)) (prev ++ (h, i, j) :: rest)) ->
  get_partition_index prev i j =
    (rk (notin (map fst (Bk prev))) (nth i (rl B) 0), rk (notin (map snd (Bk prev))) (nth j (cl B) 0)).
Proof.
  intros Hok Hnd. destruct local_props as (_ & Hlt & Hndt & Hcol).
  assert (Hok' : forall q, In q (prev ++ [(h, i, j)]) -> entry_ok q).
  { intros q Hq. rewrite Forall_forall in Hok. apply Hok. rewrite in_app_iff in *. simpl in *. tauto. }
  assert (Hnd' : NoDup (map (fun p => snd (fst p)) (prev ++ [(h, i, j)]))).
  { replace (prev ++ (h, i, j) :: rest) with ((prev ++ [(h, i, j)]) ++ rest) in Hnd by (rewrite <- app_assoc; auto).
    rewrite map_app in Hnd. clear -Hnd. induction (map (fun p => snd (fst p)) (prev ++ [(h, i, j)])); [constructor|].
    simpl in Hnd. inversion Hnd; subst. constructor; auto. rewrite in_app_iff in H1. tauto. }
  unfold get_partition_index. f_equal.
  - unfold Bk. rewrite map_app, map_rev, map_map.
    replace (map (fun x => fst (bp x)) prev) with (map (fun k => nth k (rl B) 0) (map (fun p => snd (fst p)) prev))
      by (rewrite map_map; auto).
    unfold MurtySub.rl. rewrite rk_removed.
    + f_equal. clear. induction prev as [|q prev IH]; simpl; auto. destruct (snd (fst q) <? i); simpl; auto.
    + rewrite map_app in Hnd'. exact Hnd'.
    + intros k Hk. change [i] with (map (fun p => snd (fst p)) [(h, i, j)]) in Hk. rewrite <- map_app in Hk.
      apply in_map_iff in Hk. destruct Hk as ([[h' i'] j'] & <- & Hq). apply Hok' in Hq. apply Hq.
  - unfold Bk. rewrite map_app, map_rev, map_map.
    replace (map (fun x => snd (bp x)) prev) with (map (fun k => nth k (cl B) 0) (map snd prev))
      by (rewrite map_map; auto).
    unfold MurtySub.cl. rewrite rk_removed.
    + f_equal. clear. induction prev as [|q prev IH]; simpl; auto. destruct (snd q <? j); simpl; auto.
    + change [j] with (map snd [(h, i, j)]). rewrite <- map_app.
      apply (NoDup_nth _ 0). intros a b Ha Hb E. rewrite map_length in Ha, Hb.
      set (L := prev ++ [(h, i, j)]) in *. set (d := (h, i, j)).
      assert (Hs : forall a, a < length L -> nth a (map snd L) 0 = nth (snd (fst (nth a L d))) t 0 /\
                                         snd (fst (nth a L d)) < length t).
      { intros a' Ha'. rewrite nth_indep with (d' := snd d) by (rewrite map_length; auto). rewrite map_nth.
        assert (Hin : In (nth a' L d) L) by (apply nth_In; auto). apply Hok' in Hin.
        destruct (nth a' L d) as [[h' i'] j']. simpl in *. rewrite Hlt. tauto. }
      destruct (Hs a Ha) as [E1 L1]. destruct (Hs b Hb) as [E2 L2]. rewrite E1, E2 in E.
      apply (proj1 (NoDup_nth t 0) Hndt) in E; auto.
      apply (proj1 (NoDup_nth _ (snd (fst d))) Hnd'); try (rewrite map_length; auto).
      rewrite !(map_nth (fun p => snd (fst p))). auto.
    + intros k Hk. change [j] with (map snd [(h, i, j)]) in Hk. rewrite <- map_app in Hk.
      apply in_map_iff in Hk. destruct Hk as ([[h' i'] j'] & <- & Hq). apply Hok' in Hq.
      destruct Hq as (H1 & H2 & _). simpl. subst j'. apply Hcol; auto.
Qed.

(** A member of the solved problem that differs from the solution in row [i]. *)
Lemma differs i s h : i < length (rl B) -> dual_ok (sub B X) t i h ->
  feasible C0 s -> memb (B, X) s = true ->
  nth (nth i (rl B) 0) s 0 <> nth (nth i t 0) (cl B) 0 ->
  exists d, h = Fin d /\ (0 <= d)%R /\ (total C0 sg + d <= total C0 s)%R.
Proof.
  intros Hi Hd Hf Hm Hne. pose proof (rp_ok _ _ _ Hrep0) as HB.
  destruct (global_local C0 Hrows B X s HB Hf Hm) as [Hag Hfl].
  assert (Hne' : nth i (localize C0 B s) 0 <> nth i t 0).
  { intros E. apply Hne. destruct Hag as (_ & _ & _ & H). destruct (H i Hi) as [_ H1]. rewrite H1, E. auto. }
  destruct Hd as [[_ H]|(d & -> & Hd & H)].
  - elim Hne'. apply H; auto.
  - exists d. split; auto. split; auto. specialize (H _ Hfl Hne').
    destruct local_props as (Hft & _).
    rewrite (total_split C0 Hrows B X t sg HB (ss_ag _ _ _ _ _ _ Hss) Hft).
    rewrite (total_split C0 Hrows B X _ s HB Hag Hfl). lra.
Qed.

Definition differ (s : list nat) (p : ext R * nat * nat) : bool :=
  negb (nth (fst (bp p)) s 0 =? snd (bp p)).

Lemma push_children_spec F rest : forall prev node q,
  Forall entry_ok (prev ++ rest) ->
  NoDup (map (fun p => snd (fst p)) (prev ++ rest)) ->
  rep node (Bk prev) X -> s_cost node = Fin (total C0 sg) -> s_sol node = map Some sg ->
  wp F (push_children extR prev rest node q)
    (fun q' => exists L, q' = q ++ map fst L /\ Forall okst L /\
       (forall p, In p L -> s_solved (fst p) = false /\
          exists x, s_cost (fst p) = Fin x /\ (total C0 sg <= x)%R) /\
       forall s, feasible C0 s ->
         cnt L s = if memb (Bk prev, X) s && existsb (differ s) rest then 1 else 0).
Proof.
  induction rest as [|[[h i] j] rest IH]; intros prev node q Hok Hnd Hrep Hcost Hsol.
  - simpl. exists []. simpl. rewrite app_nil_r. split; auto. split; auto. split; [tauto|].
    intros s Hs. rewrite andb_false_r. auto.
  - cbn [push_children]. rewrite (part_index prev h i j rest) by auto.
    assert (Hp : entry_ok (h, i, j)).
    { rewrite Forall_forall in Hok. apply Hok. rewrite in_app_iff. simpl; auto. }
    destruct Hp as (Hi & Hj & Hdual).
    destruct local_props as (Hft & Hlt & Hndt & Hcol).
    pose proof (Hcol i Hi) as Hjc. rewrite <- Hj in Hjc.
    set (rr := nth i (rl B) 0). set (cc := nth j (cl B) 0).
    assert (Hdist : forall p, In p prev -> snd (fst p) <> i /\ snd p <> j /\ snd (fst p) < length (rl B) /\ snd p < length (cl B)).
    { intros [[h' i'] j'] Hin. simpl.
      assert (Hq : entry_ok (h', i', j')).
      { rewrite Forall_forall in Hok. apply Hok. rewrite in_app_iff. auto. }
      destruct Hq as (Hi' & Hj' & _).
      assert (i' <> i).
      { intros ->. rewrite map_app in Hnd. simpl in Hnd. apply NoDup_remove_2 in Hnd. apply Hnd.
        rewrite in_app_iff. left. apply in_map_iff. exists (h', i, j'). auto. }
      split; auto. split; [|split; auto].
      - intros E. apply H. apply (proj1 (NoDup_nth t 0) Hndt); lia.
      - subst j'. auto. }
    assert (Hrr : In rr (rl (Bk prev))).
    { apply (in_rl C0 Hrows). destruct (rl_in C0 B i Hi) as [H1 H2]. split; auto. unfold Bk.
      rewrite map_app, in_app_iff, map_rev, <- in_rev. intros [Hin|Hin]; auto.
      rewrite map_map in Hin. apply in_map_iff in Hin. destruct Hin as (p & E & Hin).
      destruct (Hdist p Hin) as (H3 & _ & H4 & _). apply H3. simpl in E.
      apply (proj1 (NoDup_nth (rl B) 0) (rl_nodup C0 B)); auto. }
    assert (Hcc : In cc (cl (Bk prev))).
    { apply (in_cl C0 Hrows). destruct (cl_in C0 B j Hjc) as [H1 H2]. split; auto. unfold Bk.
      rewrite map_app, in_app_iff, map_rev, <- in_rev. intros [Hin|Hin]; auto.
      rewrite map_map in Hin. apply in_map_iff in Hin. destruct Hin as (p & E & Hin).
      destruct (Hdist p Hin) as (_ & H3 & _ & H4). apply H3. simpl in E.
      apply (proj1 (NoDup_nth (cl B) 0) (cl_nodup C0 B)); auto. }
    assert (Hfin : is_fin (e rr cc) /\ ~ In (rr, cc) X).
    { apply (sub_fin C0 B X); auto. rewrite Hj. apply Hft. auto. }
    assert (Esg : nth rr sg 0 = cc).
    { destruct (ss_ag _ _ _ _ _ _ Hss) as (_ & _ & _ & H). unfold rr. rewrite (proj2 (H i Hi)).
      rewrite <- Hj. auto. }
    assert (Hlsg : length sg = n) by apply (ss_ag _ _ _ _ _ _ Hss).
    assert (Hmono : forall s, memb (Bk prev, X) s = true -> memb (B, X) s = true).
    { intros s Hs. apply memb_spec in Hs. apply memb_spec. destruct Hs as [H1 H2]. split; auto.
      intros r' c' Hin. apply H1. unfold Bk. rewrite in_app_iff. auto. }
    (* the excluded part *)
    assert (Hwith : wp F (partition_with extR node (rk (notin (map fst (Bk prev))) rr) (rk (notin (map snd (Bk prev))) cc))
      (fun st' => rep st' (Bk (prev ++ [(h, i, j)])) X /\ s_cost st' = Fin (total C0 sg) /\ s_sol st' = map Some sg)).
    { eapply wp_conseq; [apply (with_spec F node (Bk prev) X rr cc); auto; try tauto|].
      - rewrite Hsol. rewrite nth_indep with (d' := Some 0).
        + rewrite map_nth, Esg. auto.
        + rewrite map_length, Hlsg. apply (in_rl C0 Hrows) in Hrr. apply Hrr.
      - intros st' (H1 & H2 & H3). rewrite Bk_snoc. split; [exact H1|]. split; congruence. }
    assert (Hok' : Forall entry_ok ((prev ++ [(h, i, j)]) ++ rest)) by (rewrite <- app_assoc; auto).
    assert (Hnd' : NoDup (map (fun p => snd (fst p)) ((prev ++ [(h, i, j)]) ++ rest))) by (rewrite <- app_assoc; auto).
    assert (Ediff : forall s, differ s (h, i, j) = negb (nth rr s 0 =? cc)) by reflexivity.
    assert (Ebind : forall s, memb (Bk (prev ++ [(h, i, j)]), X) s = (nth rr s 0 =? cc) && memb (Bk prev, X) s).
    { intros s. rewrite Bk_snoc. apply memb_bind. }
    destruct Hdual as [[-> Hforced]|(d & -> & Hd & Hdual)].
    + change (nlt extR PInf (ninf extR)) with false. cbv iota. cbn [bind].
      apply wp_bind. eapply wp_conseq; [apply Hwith|]. intros node' (H1 & H2 & H3).
      eapply wp_conseq; [apply (IH (prev ++ [(PInf, i, j)]) node' q); auto|].
      intros q' (L & Eq & HL & HL2 & HL3). exists L. split; auto. split; auto. split; auto.
      intros s Hs. rewrite (HL3 s Hs), Ebind. simpl existsb. rewrite Ediff.
      destruct (memb (Bk prev, X) s) eqn:Em; [|rewrite andb_false_r; auto].
      destruct (Nat.eqb_spec (nth rr s 0) cc) as [E|Hne]; auto. exfalso.
      destruct (differs i s PInf) as (d & Hd & _); auto; [|unfold rr, cc in Hne; rewrite Hj in Hne; exact Hne|discriminate].
      left. auto.
    + change (nlt extR (Fin d) (ninf extR)) with true. cbv iota.
      apply wp_bind. apply wp_bind.
      eapply wp_conseq; [apply (without_spec F node (Bk prev) X rr cc); auto|].
      intros ch (Hch & Hcc' & Hcs). apply wp_ret. cbn [bind].
      apply wp_bind. eapply wp_conseq; [apply Hwith|]. intros node' (H1 & H2 & H3).
      eapply wp_conseq; [apply (IH (prev ++ [(Fin d, i, j)]) node' (q ++ [ch])); auto|].
      intros q' (L & Eq & HL & HL2 & HL3).
      rewrite Hcost, add_FF in Hcc'.
      exists ((ch, (Bk prev, (rr, cc) :: X)) :: L). split; [|split; [|split]].
      * rewrite Eq, <- app_assoc. auto.
      * constructor; auto. split; auto. split; [|rewrite Hcs; discriminate].
        exists (total C0 sg + d)%R. split; auto. intros s Hs Hm.
        rewrite memb_forbid in Hm. apply andb_true_iff in Hm. destruct Hm as [Hm1 Hm2].
        apply negb_true_iff, Nat.eqb_neq in Hm1.
        destruct (differs i s (Fin d)) as (d' & Ed & _ & H); auto.
        -- right. exists d. auto.
        -- unfold rr, cc in Hm1. rewrite Hj in Hm1. exact Hm1.
        -- inversion Ed; subst. auto.
      * intros p [<-|Hp]; [|apply HL2; auto]. simpl fst. split; auto. eexists. split; [exact Hcc'|]. lra.
      * intros s Hs. rewrite cnt_cons, (HL3 s Hs), Ebind. simpl existsb. rewrite Ediff. simpl snd.
        rewrite memb_forbid.
        assert (Hb : exists b, memb (Bk prev, X) s = b) by eauto. destruct Hb as [b Hb]. unfold pairs in *. rewrite !Hb. destruct b; [|rewrite !andb_false_r; auto].
        destruct (nth rr s 0 =? cc); simpl; destruct (existsb (differ s) rest); reflexivity.
Qed.

(** A member without a difference is the solution. *)
Lemma no_difference order s :
  Permutation (map (fun p => snd (fst p)) order) (seq 0 (length (rl B))) ->
  Forall entry_ok order ->
  feasible C0 s -> memb (B, X) s = true ->
  existsb (differ s) order = false -> s = sg.
Proof.
  intros Hp Hok [(Hl & _) _] Hm Hd.
  destruct (ss_ag _ _ _ _ _ _ Hss) as (Hlsg & _ & Hb & Ha).
  apply nth_ext with (d := 0) (d' := 0); [unfold n in *; congruence|].
  intros i Hi. apply memb_spec in Hm. destruct Hm as [Hm _].
  destruct (row_cases C0 Hrows B i) as [[c Hc]|(a & Hla & Ea)]; [lia| |].
  - rewrite (Hm _ _ Hc), (Hb _ _ Hc). auto.
  - assert (Hin : In a (map (fun p => snd (fst p)) order)).
    { apply (Permutation_in a (Permutation_sym Hp)). apply in_seq. lia. }
    apply in_map_iff in Hin. destruct Hin as ([[h a'] j] & Ea' & Hin). simpl in Ea'. subst a'.
    assert (Hdf : differ s (h, a, j) = false).
    { destruct (differ s (h, a, j)) eqn:E; auto. rewrite <- Hd. symmetry. apply existsb_exists. eauto. }
    unfold differ in Hdf. apply negb_false_iff, Nat.eqb_eq in Hdf. simpl in Hdf.
    rewrite Forall_forall in Hok. destruct (Hok _ Hin) as (_ & -> & _).
    destruct (Ha a Hla) as [_ E]. rewrite Ea in *. congruence.
Qed.

Lemma sol_no_difference order : Forall entry_ok order -> existsb (differ sg) order = false.
Proof.
  intros Hok. destruct (existsb (differ sg) order) eqn:E; auto. exfalso.
  apply existsb_exists in E. destruct E as ([[h i] j] & Hin & E). unfold differ in E. simpl in E.
  rewrite Forall_forall in Hok. destruct (Hok _ Hin) as (Hi & -> & _).
  destruct (ss_ag _ _ _ _ _ _ Hss) as (_ & _ & _ & H). destruct (H i Hi) as [_ E'].
  rewrite E', Nat.eqb_refl in E. discriminate.
Qed.
End Children.
End Main.
