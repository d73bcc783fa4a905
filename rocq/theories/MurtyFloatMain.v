(** Murty's algorithm in IEEE doubles: the queue and the draws. *)
From Coq Require Import List Arith Bool Lia ZArith Reals Lra Permutation.
From Flocq Require Import Core BinarySingleNaN IEEE754.PrimFloat.
From Coq Require Import Floats.
Import ListNotations.
From Verif Require Import Res Scalar Lap LapSpec LapBase LapMain LapHom Murty MurtyBase MurtySub MurtyProofs MurtyMain.
From Verif Require Import FloatBase FloatExt LapRnd LapRndArr LapFloatMain LapErrMain MurtyHom MurtyRnd.
Local Open Scope nat_scope.
Notation fval := FloatBase.val.
Notation val := LapSpec.val.

Lemma spec_rmap {A B} (m : nat -> res A) (g : A -> B) Q :
  (forall f f' a, f <= f' -> m f = Ok a -> m f' = Ok a) ->
  spec (fun fuel => rmap g (m fuel)) Q -> spec m (fun a => Q (g a)).
Proof.
  intros Hm [H1 (f0 & b & H2)]. split.
  - intros fuel. specialize (H1 fuel). destruct (m fuel); exact H1.
  - specialize (H2 f0 (le_n _)). destruct (m f0) as [a| |] eqn:E; try discriminate.
    exists f0, a. intros fuel Hf. eapply Hm; eauto.
Qed.
Lemma wp_rmap {A B} F (m : res A) (g : A -> B) Q : wp F (rmap g m) Q -> wp F m (fun a => Q (g a)).
Proof. destruct m; auto. Qed.

Lemma wp_and_eq {A} (m : res A) Q : wp False m Q -> wp False m (fun a => m = Ok a /\ Q a).
Proof. destruct m; simpl; auto. Qed.
Lemma spec_ext {A} (m m' : nat -> res A) Q : (forall f, m f = m' f) -> spec m' Q -> spec m Q.
Proof.
  intros E [H1 (f0 & a & H2)]. split; [intros f; rewrite E; auto|]. exists f0, a. intros f Hf. rewrite E. auto.
Qed.

Lemma solve_more {T} (N : Num T) s f f' a : f <= f' -> solve N f s = Ok a -> solve N f' s = Ok a.
Proof.
  intros Hf. unfold solve. destruct (lap N f (s_C s)) as [r| |] eqn:E; try discriminate.
  apply (lap_build_more N false f f' _ _ Hf) in E. change (lap_build N false f' (s_C s)) with (lap N f' (s_C s)) in E. rewrite E. auto.
Qed.

Lemma push_prefix {T} (N : Num T) rest : forall prev node q q',
  push_children N prev rest node q = Ok q' -> exists l, q' = q ++ l.
Proof.
  induction rest as [|[[d i] j] rest IH]; intros prev node q q' H.
  - inversion H. exists []. rewrite app_nil_r. auto.
  - cbn [push_children] in H. destruct (get_partition_index prev i j) as [i' j'].
    destruct (nlt N d (ninf N)).
    + destruct (partition_without N node i' j' d) as [c| |]; try discriminate. cbn [bind] in H.
      destruct (partition_with N node i' j') as [node'| |]; try discriminate. cbn [bind] in H.
      destruct (IH _ _ _ _ H) as [l ->]. exists (c :: l). rewrite <- app_assoc. auto.
    + cbn [bind] in H. destruct (partition_with N node i' j') as [node'| |]; try discriminate. cbn [bind] in H.
      eapply IH; eauto.
Qed.

Notation fstate := (mstate (T := float)).
Notation P := (pst proj).

Lemma fsolve_map fuel s : solve roundN fuel (P s) = rmap (fun r => (P (fst r), snd r)) (solve floatN fuel s).
Proof. apply solve_map; [apply proj_0|apply proj_inf|apply proj_add|apply proj_sub|apply proj_lt|apply proj_le|apply proj_eq|apply proj_isinf]. Qed.
Lemma fsort_map s : sort_by_dual roundN (P s) = rmap (map (pt proj)) (sort_by_dual floatN s).
Proof. apply sort_by_dual_map; first [apply proj_0|apply proj_inf|apply proj_add|apply proj_sub|apply proj_lt|apply proj_le|apply proj_eq|apply proj_isinf]. Qed.
Lemma fpush_map rest prev node q :
  push_children roundN (map (pt proj) prev) (map (pt proj) rest) (P node) (map P q) = rmap (map P) (push_children floatN prev rest node q).
Proof. apply push_map; first [apply proj_0|apply proj_inf|apply proj_add|apply proj_sub|apply proj_lt|apply proj_le|apply proj_eq|apply proj_isinf]. Qed.

(** What std::priority_queue guarantees of its top: no other element comes before
    it.  As in [valid_pick] this is asked for queues whose costs are numbers. *)
Definition top_pick (pick : nat -> list fstate -> nat) : Prop :=
  forall tick q, q <> [] -> (forall x, In x q -> fin (s_cost x)) ->
    forall x d, In x q -> after floatN (nth (pick tick q) q d) x = false.

Lemma fafter_false (a b : fstate) x y : proj (s_cost a) = Fin x -> proj (s_cost b) = Fin y ->
  after floatN a b = false -> (x <= y)%R.
Proof.
  unfold after. intros Ea Eb H. apply orb_false_iff in H. destruct H as [H _].
  rewrite <- proj_lt, Ea, Eb in H. change (Rltb y x = false) in H. destruct (Rltb_spec y x); [discriminate|lra].
Qed.

Section Queue.
Variable C0 : matrix (ext R).
Hypothesis HC0 : cost_matrix C0.
Hypothesis Hrows : m_rows C0 <= 30.
Hypothesis Hcols : (Z.of_nat (m_cols C0) < 100000)%Z.
Hypothesis Hord : m_ord C0 = RowMajor.
Variable b : Z.
Hypothesis Hb : (-900 <= b <= 300)%Z.
Hypothesis Hcost : forall x, In (Fin x) (m_data C0) -> (Rabs x <= bpow radix2 b)%R.
Hypothesis Hpos : forall x, In (Fin x) (m_data C0) -> (0 <= x)%R.
Variables (dl et : R) (grid : R -> Prop).
Hypothesis Hsums : sums (m_cols C0) b dl et grid.
Hypothesis Hgrid : forall x, In (Fin x) (m_data C0) -> grid x.
Variable pick : nat -> list fstate -> nat.
Hypothesis Hpick : forall tick q, q <> [] -> pick tick q < length q.
Notation wokst := (wokst C0 b dl et grid).
Notation kerr := (kerr C0 dl et).
Notation cnt := MurtyRnd.cnt.

(** The queue, each state with the pairs it binds and forbids. *)
Definition flist := list (fstate * (pairs * pairs)).
Definition PL (L : flist) := map (fun p => (P (fst p), snd p)) L.

Record winv (L : flist) (D : list (list nat)) : Prop := {
  wi_ok : Forall wokst (PL L);
  wi_f : forall d, In d D -> feasible C0 d;
  wi_cnt : forall s, feasible C0 s -> count_occ (list_eq_dec Nat.eq_dec) D s + cnt (PL L) s = 1 }.

Definition funsolved (q : list fstate) : nat := length (filter (fun s => negb (s_solved s)) q).

Lemma wcnt_perm L L' s : Permutation L L' -> cnt L s = cnt L' s.
Proof.
  unfold MurtyRnd.cnt. induction 1; simpl; auto.
  - destruct (memb (snd x) s); simpl; auto.
  - destruct (memb (snd x) s), (memb (snd y) s); auto.
  - congruence.
Qed.

Lemma winv_perm L L' D : Permutation L L' -> winv L D -> winv L' D.
Proof.
  intros Hp [H1 H2 H3]. assert (Hp' : Permutation (PL L) (PL L')) by (apply Permutation_map; auto). constructor; auto.
  - eapply Permutation_Forall; eauto.
  - intros s Hs. rewrite <- (wcnt_perm _ _ s Hp'). auto.
Qed.

Definition wdrawn (D : list (list nat)) (a : option fstate * list fstate * nat) : Prop :=
  let '(o, q, _) := a in
  match o with
  | None => q = [] /\ winv [] D
  | Some st => exists g L, q = map fst L /\ winv ((st, g) :: L) D /\ s_solved st = true /\
      (top_pick pick -> forall p x y, In p L -> proj (s_cost st) = Fin x -> proj (s_cost (fst p)) = Fin y -> (x <= y)%R)
  end.

Lemma winv_fin L D : winv L D -> forall x, In x (map fst L) -> fin (s_cost x).
Proof.
  intros [H _ _] x Hx. apply in_map_iff in Hx. destruct Hx as (p & <- & Hp).
  rewrite Forall_forall in H. specialize (H (P (fst p), snd p)).
  destruct (wokst_cost C0 Hrows b dl et grid Hsums (P (fst p), snd p)) as (y & Ey & _).
  { apply H. unfold PL. apply in_map_iff. eauto. }
  apply proj_Fin in Ey. apply Ey.
Qed.

Lemma wdraw_loop_spec D rounds : forall L tick, winv L D -> L <> [] ->
  funsolved (map fst L) < rounds ->
  spec (fun fuel => draw_loop floatN pick rounds fuel (map fst L) tick) (wdrawn D).
Proof.
  induction rounds as [|rounds IH]; intros L tick HI Hne Hr; [lia|].
  assert (HkL : pick tick (map fst L) < length L).
  { rewrite <- (map_length fst). apply Hpick. destruct L; simpl; congruence. }
  destruct L as [|p0 L0] eqn:EL0; [congruence|]. rewrite <- EL0 in *.
  destruct (mapfst_split L _ (fst p0) HkL) as (L1 & [st g] & L2 & EL & Ek & Eg). simpl fst in Eg. clear EL0 L0.
  cbn [draw_loop].
  assert (Hget : get (map fst L) (pick tick (map fst L)) = Ok st).
  { rewrite (get_ok _ _ st) by (rewrite map_length; auto). f_equal. rewrite <- Eg. apply nth_indep. rewrite map_length; auto. }
  assert (Hrem : remove_nth (map fst L) (pick tick (map fst L)) = Ok (map fst (L1 ++ L2))).
  { rewrite <- Ek. rewrite EL at 1. rewrite map_app. simpl.
    replace (length L1) with (length (map fst L1)) by apply map_length.
    rewrite remove_nth_app, map_app. auto. }
  rewrite Hget. cbn [bind]. rewrite Hrem. cbn [bind].
  assert (Hp : Permutation L ((st, g) :: L1 ++ L2)) by (rewrite EL; symmetry; apply Permutation_middle).
  pose proof (winv_perm _ _ _ Hp HI) as HI'.
  destruct (s_solved st) eqn:Es.
  - apply spec_pure. simpl. exists g, (L1 ++ L2). split; auto. split; auto. split; auto.
    intros Ht p x y Hin Ex Ey. apply (fafter_false st (fst p)); auto. rewrite <- Eg. apply Ht.
    + intros E. apply map_eq_nil in E. rewrite E in HkL. simpl in HkL. lia.
    + apply (winv_fin L D HI).
    + apply in_map. rewrite EL. apply in_app_iff in Hin. apply in_app_iff. simpl. tauto.
  - destruct g as [B X]. pose proof HI' as [Hok Hf Hc].
    pose proof (Forall_inv_tail Hok) as Hok2. destruct (Forall_inv Hok) as (Hrep & _).
    eapply (spec_bind (fun fuel => solve floatN fuel st) (fun a fuel => let '(s, ok) := a in _)).
    { apply (spec_rmap _ (fun r => (P (fst r), snd r))).
      - intros f f' a. apply solve_more.
      - eapply spec_ext; [|apply (wsolve_spec C0 HC0 Hrows Hcols Hord b Hb Hcost dl et grid Hsums Hgrid (P st) B X Hrep)].
        intros fuel. symmetry. apply fsolve_map. }
    intros [st' ok] Hst. cbv beta iota in Hst. cbn [fst snd] in Hst.
    assert (Hun : funsolved (map fst (L1 ++ L2)) < rounds).
    { clear -Hr Es EL. rewrite EL in Hr. unfold funsolved in *. rewrite !map_app in *. simpl in Hr.
      rewrite filter_app, app_length in *. simpl in Hr. rewrite Es in Hr. simpl in Hr. lia. }
    destruct ok.
    + destruct Hst as (Hok' & Hs').
      assert (HI2 : winv ((L1 ++ L2) ++ [(st', (B, X))]) D).
      { apply (winv_perm ((st', (B, X)) :: L1 ++ L2)); [apply Permutation_cons_append|].
        constructor; auto; [constructor; auto|]. intros s Hs; specialize (Hc s Hs).
        unfold PL in *. cbn [map fst snd] in *. rewrite MurtyRnd.cnt_cons in *. exact Hc. }
      assert (E : map fst (L1 ++ L2) ++ [st'] = map fst ((L1 ++ L2) ++ [(st', (B, X))]))
        by (rewrite !map_app; auto).
      rewrite E. destruct (map fst ((L1 ++ L2) ++ [(st', (B, X))])) eqn:Em.
      { apply map_eq_nil in Em. destruct (L1 ++ L2); discriminate. }
      rewrite <- Em. apply IH; auto.
      * intros Hn. destruct (L1 ++ L2); discriminate.
      * unfold funsolved in *. rewrite map_app. simpl. rewrite filter_app. simpl.
        change (s_solved st') with (s_solved (P st')). rewrite Hs'. simpl.
        rewrite app_nil_r. auto.
    + assert (HI2 : winv (L1 ++ L2) D).
      { constructor; auto. intros s Hs. specialize (Hc s Hs).
        change (PL ((st, (B, X)) :: L1 ++ L2)) with ((P st, (B, X)) :: PL (L1 ++ L2)) in Hc.
        rewrite MurtyRnd.cnt_cons in Hc. simpl snd in Hc. rewrite (Hst s Hs) in Hc. auto. }
      destruct (L1 ++ L2) as [|p L3] eqn:E12.
      * simpl. apply spec_pure. simpl. auto.
      * cbn [map]. change (fst p :: map fst L3) with (map fst (p :: L3)). apply IH; auto. discriminate.
Qed.

(** A draw: the assignment, and its cost up to rounding. *)
Definition wanswer (off : float) (o : option (float * list (option nat))) (sg : list nat) : Prop :=
  exists cst y, o = Some (nadd floatN cst off, map Some sg) /\ proj cst = Fin y /\
    grid y /\ (Rabs (y - total C0 sg) <= INR (m_rows C0) * et)%R.

(** How far a draw can be from the best assignment not drawn before. *)
Definition terr : R := kerr + INR (m_rows C0) * et.

Definition wdraw_post (off : float) (D : list (list nat))
    (a : option (float * list (option nat)) * murty (T := float)) : Prop :=
  let '(o, M) := a in
  mu_offset M = off /\
  match o with
  | None => mu_queue M = [] /\ winv [] D
  | Some _ => exists sg L, wanswer off o sg /\ feasible C0 sg /\ ~ In sg D /\
      (top_pick pick -> forall s, feasible C0 s -> ~ In s D -> (total C0 sg <= total C0 s + terr)%R) /\
      mu_queue M = map fst L /\ winv L (D ++ [sg])
  end.

Lemma combine_map {A B} (l : list A) (g : list B) : length l = length g ->
  map fst (combine l g) = l /\ map snd (combine l g) = g.
Proof.
  revert g. induction l as [|a l IH]; destruct g as [|x g]; simpl; try discriminate; auto.
  intros H. injection H as H. destruct (IH g H) as [-> ->]. auto.
Qed.

Lemma wdraw_spec L D M : winv L D -> mu_queue M = map fst L ->
  spec (fun fuel => draw floatN pick fuel M) (wdraw_post (mu_offset M) D).
Proof.
  intros HI Eq. unfold draw. rewrite Eq. destruct (map fst L) as [|q0 q1] eqn:Em.
  - apply map_eq_nil in Em. subst L. apply spec_pure. simpl. auto.
  - rewrite <- Em.
    eapply (spec_bind (fun fuel => draw_loop floatN pick (S (length (map fst L))) fuel (map fst L) (mu_tick M))
              (fun a fuel => let '(s, q, tick) := a in _)).
    { apply (wdraw_loop_spec D); eauto.
      - intros ->. discriminate.
      - unfold funsolved. apply Nat.lt_succ_r. apply filter_length_le. }
    intros [[o q] tick] Hdr. simpl in Hdr. destruct o as [st|].
    + destruct Hdr as ([B X] & L' & -> & HI' & Hs & Htop).
      pose proof HI' as [Hok Hf Hc].
      pose proof (Forall_inv_tail Hok) as Hok2. destruct (Forall_inv Hok) as (Hrep & Hsol & _). cbn [fst snd] in Hrep, Hsol.
      destruct (Hsol Hs) as (t & sg & Hss). clear Hsol.
      destruct (wsolved_sol C0 Hrows b dl et grid (P st) B X t sg Hrep Hss) as (Hsf & Hsm).
      destruct (ws_cost _ _ _ _ _ _ _ _ _ _ Hss) as (y & Ey & Gy & Hy).
      apply spec_pure. apply wp_bind.
      eapply wp_conseq.
      { apply (wp_rmap _ _ (map (pt proj))). rewrite <- fsort_map. apply (wsort_spec C0 HC0 Hrows Hord b Hb Hcost dl et grid Hsums Hgrid False (P st) B X t sg Hrep Hss). }
      intros order [Hperm Hord'].
      assert (Hent : Forall (wentry_ok C0 b dl grid B X t) (map (pt proj) order)).
      { apply Forall_forall. intros [[h i] j] Hin. apply (Hord' h i j Hin). }
      apply wp_bind. eapply wp_conseq.
      { apply wp_and_eq. apply (wp_rmap _ _ (map P)). rewrite <- fpush_map.
        apply (wpush_children_spec C0 HC0 Hrows Hord b Hb Hcost dl et grid Hsums Hgrid B X t sg (P st) Hrep Hss False (map (pt proj) order) [] (P st) (map P (map fst L'))); auto.
        - simpl. apply (Permutation_NoDup (Permutation_sym Hperm)). apply seq_NoDup.
        - apply Hss. }
      intros q' (Epush & Lc & Eq' & HLok & HLs & HLcnt). apply wp_ret. cbn.
      split; auto.
      destruct (push_prefix _ _ _ _ _ _ Epush) as [lc ->]. rewrite map_app in Eq'. apply app_inv_head in Eq'.
      assert (Hlen : length lc = length (map snd Lc)).
      { apply (f_equal (@length _)) in Eq'. rewrite !map_length in *. auto. }
      destruct (combine_map lc (map snd Lc) Hlen) as [C1 C2].
      set (Lf := combine lc (map snd Lc)) in *.
      assert (EL : PL Lf = Lc).
      { clear -Eq' C1 C2. clearbody Lf. unfold PL. rewrite <- C1 in Eq'. clear C1. rewrite map_map in Eq'. revert Lc Eq' C2.
        induction Lf as [|a l IH]; intros [|c Lc] E1 E2; try discriminate; auto.
        simpl in *. inversion E1. inversion E2. rewrite IH with (Lc := Lc) by auto. rewrite H0, H2. destruct c; auto. }
      exists sg, (L' ++ Lf).
      assert (EPL : PL ((st, (B, X)) :: L') = (P st, (B, X)) :: PL L') by reflexivity. rewrite EPL in Hc.
      assert (HnotD : ~ In sg D).
      { intros Hin. specialize (Hc sg Hsf). rewrite MurtyRnd.cnt_cons in Hc. simpl snd in Hc. rewrite Hsm in Hc.
        apply (count_occ_In (list_eq_dec Nat.eq_dec)) in Hin. lia. }
      split.
      { exists (s_cost st), y. split; [|split; auto]. f_equal. f_equal. apply (ws_sol _ _ _ _ _ _ _ _ _ _ Hss). }
      split; auto. split; auto. split.
      { intros Ht s Hsf' Hns. specialize (Hc s Hsf'). rewrite MurtyRnd.cnt_cons in Hc. simpl snd in Hc.
        apply (count_occ_not_In (list_eq_dec Nat.eq_dec)) in Hns. rewrite Hns in Hc. unfold terr.
        destruct (ar_dl _ _ _ _ (su_ar _ _ _ _ _ Hsums)) as [D0 _]. destruct (su_et _ _ _ _ _ Hsums) as [T0 _].
        assert (T1 : (0 <= INR (m_rows C0) * et)%R) by (apply Rmult_le_pos; auto; apply pos_INR).
        destruct (memb (B, X) s) eqn:Ems.
        { pose proof (wsolved_near C0 Hrows b dl et grid Hsums (P st) B X t sg s Hrep Hss Hsf' Ems).
          unfold MurtyRnd.kerr. lra. }
        assert (Hc' : cnt (PL L') s = 1) by lia. unfold MurtyRnd.cnt in Hc'.
        destruct (filter (fun p => memb (snd p) s) (PL L')) as [|p l] eqn:El; [discriminate|].
        assert (Hin : In p (filter (fun p => memb (snd p) s) (PL L'))) by (rewrite El; simpl; auto).
        apply filter_In in Hin. destruct Hin as [Hin Hmp].
        rewrite Forall_forall in Hok2. destruct (wokst_cost C0 Hrows b dl et grid Hsums p (Hok2 p Hin)) as (z & Ez & Hz).
        specialize (Hz s Hsf' Hmp). unfold PL in Hin. apply in_map_iff in Hin. destruct Hin as (p' & <- & Hin').
        pose proof (Htop Ht p' y z Hin' Ey Ez). apply Rabs_le_inv in Hy. lra. }
      split; [rewrite map_app, C1; auto|].
      assert (Eapp : PL (L' ++ Lf) = PL L' ++ Lc) by (unfold PL in *; rewrite map_app, EL; auto).
      constructor.
      * rewrite Eapp. apply Forall_app; auto.
      * intros d Hin. apply in_app_iff in Hin. destruct Hin as [Hin|[<-|[]]]; auto.
      * intros s Hsf'. specialize (Hc s Hsf'). rewrite MurtyRnd.cnt_cons in Hc. simpl snd in Hc.
        rewrite Eapp, MurtyRnd.cnt_app, (HLcnt s Hsf'). change (MurtyRnd.Bk C0 B []) with B.
        rewrite count_occ_app. simpl count_occ.
        destruct (memb (B, X) s) eqn:Ems.
        -- destruct (existsb (MurtyRnd.differ C0 B s) (map (pt proj) order)) eqn:Ex.
           ++ destruct (list_eq_dec Nat.eq_dec sg s) as [<-|Hne].
              ** rewrite (wsol_no_difference C0 b dl et grid B X t sg (P st) Hss _ Hent) in Ex. discriminate.
              ** simpl. lia.
           ++ assert (s = sg).
              { apply (wno_difference C0 Hrows b dl et grid B X t sg (P st) Hss (map (pt proj) order) s); auto. }
              subst s. destruct (list_eq_dec Nat.eq_dec sg sg); [|congruence]. simpl. lia.
        -- destruct (list_eq_dec Nat.eq_dec sg s) as [<-|Hne]; [congruence|]. simpl. lia.
    + destruct Hdr as [-> HI']. apply spec_pure. simpl. auto.
Qed.

(** ** Successive draws *)
Record wranked (D0 ds : list (list nat)) : Prop := {
  wk_f : forall d, In d ds -> feasible C0 d;
  wk_nd : NoDup ds;
  wk_new : forall d, In d ds -> ~ In d D0;
  wk_best : top_pick pick -> forall i s, i < length ds -> feasible C0 s -> ~ In s D0 -> ~ In s (firstn i ds) ->
    (total C0 (nth i ds []) <= total C0 s + terr)%R }.

Lemma wdraws_spec k : forall L D M, winv L D -> mu_queue M = map fst L ->
  spec (fun fuel => draws floatN pick fuel k M)
    (fun outs => exists ds os, length ds <= k /\
       outs = os ++ repeat None (k - length ds) /\ Forall2 (wanswer (mu_offset M)) os ds /\
       wranked D ds /\
       (length ds < k -> forall s, feasible C0 s -> In s D \/ In s ds)).
Proof.
  induction k as [|k IH]; intros L D M HI Eq.
  - cbn [draws]. apply spec_pure. apply wp_ret. exists [], []. split; auto. split; auto. split; auto.
    split; [constructor; simpl; [tauto|constructor|tauto|intros; lia]|]. simpl. lia.
  - cbn [draws].
    eapply (spec_bind (fun fuel => draw floatN pick fuel M) (fun a fuel => let '(r, m) := a in _)).
    { apply (wdraw_spec L D M HI Eq). }
    intros [o M'] [Eoff Ho].
    destruct o as [o|].
    + destruct Ho as (sg & L' & Hans & Hf & Hnew & Hbest & Eq' & HI').
      eapply (spec_bind (fun fuel => draws floatN pick fuel k M') (fun rs fuel => _)).
      { apply (IH L' (D ++ [sg]) M' HI' Eq'). }
      intros outs (ds & os & Hlen & -> & Hos & [R1 R2 R3 R4] & Hall). apply spec_pure. apply wp_ret.
      exists (sg :: ds), (Some o :: os). simpl length. split; [lia|]. split; [auto|]. split.
      { constructor; auto. rewrite Eoff in Hos. auto. }
      split; [constructor|].
      * intros d [<-|Hin]; auto.
      * constructor; auto. intros Hin. apply (R3 sg Hin). rewrite in_app_iff. simpl; auto.
      * intros d [<-|Hin]; auto. intros HD. apply (R3 d Hin). rewrite in_app_iff. auto.
      * intros Ht [|i] s Hi Hs HD Hns; [apply Hbest; auto|]. simpl in Hns. apply R4; auto.
        -- simpl in Hi. lia.
        -- rewrite in_app_iff. simpl. tauto.
      * intros Hlt s Hs. destruct (Hall ltac:(lia) s Hs) as [H|H]; simpl; auto.
        rewrite in_app_iff in H. simpl in H. tauto.
    + destruct Ho as [Eq' HI'].
      eapply (spec_bind (fun fuel => draws floatN pick fuel k M') (fun rs fuel => _)).
      { apply (IH [] D M' HI' Eq'). }
      intros outs (ds & os & Hlen & -> & Hos & [R1 R2 R3 R4] & Hall). apply spec_pure. apply wp_ret.
      assert (HallD : forall s, feasible C0 s -> In s D).
      { intros s Hs. pose proof (wi_cnt _ _ HI' s Hs) as Hc. unfold MurtyRnd.cnt in Hc. simpl in Hc.
        apply (count_occ_In (list_eq_dec Nat.eq_dec)). lia. }
      assert (ds = []).
      { destruct ds as [|d ds]; auto. exfalso. apply (R3 d); simpl; auto. apply HallD, R1. simpl; auto. }
      subst ds. inversion Hos. subst os. exists [], []. simpl. split; [lia|]. split; [rewrite Nat.sub_0_r; auto|]. split; auto.
      split; [constructor; simpl; [tauto|constructor|tauto|intros; lia]|]. auto.
Qed.

Lemma wroot_inv C : pm proj C = C0 -> winv [(root_state floatN C, ([], []))] [].
Proof.
  intros E. constructor.
  - constructor; auto. cbn [fst snd].
    assert (Er : m_rows C = m_rows C0) by (rewrite <- E; reflexivity).
    assert (Ec : m_cols C = m_cols C0) by (rewrite <- E; reflexivity).
    split.
    + constructor; simpl; auto.
      * constructor; simpl; try tauto; constructor.
      * change (mkMat _ _ _ _) with (pm proj C). rewrite E. symmetry. apply sub_nil; auto.
      * unfold rl. simpl. rewrite leftover_nil. congruence.
      * unfold cl. simpl. rewrite leftover_nil. congruence.
      * unfold rl. simpl. rewrite leftover_nil, map_length, repeat_length, seq_length. auto.
      * unfold cl. simpl. rewrite leftover_nil, map_length, repeat_length, seq_length. auto.
      * rewrite repeat_length. auto.
      * tauto.
      * exists 0%R. split; [symmetry; apply proj_0|]. split; [apply (su_ar _ _ _ _ _ Hsums)|].
        unfold sumB. simpl. rewrite !Rmult_0_l, Rminus_0_r, Rabs_R0. lra.
    + split; [discriminate|]. intros _. exists 0%R. split; [apply proj_0|]. intros s Hs _.
      assert (0 <= total C0 s)%R.
      { destruct Hs as [(Hl & _ & Hlt) Hs]. unfold total.
        assert (G : forall l, (forall i, In i l -> i < m_rows C0) ->
          (0 <= Rsum (map (fun i => val (entry NaN C0 i (nth i s O))) l))%R).
        { induction l as [|i l IH]; intros Hi; [simpl; lra|]. unfold Rsum in *. simpl.
          assert (0 <= val (entry NaN C0 i (nth i s O)))%R.
          { destruct (Hs i) as [x Ex]; [apply Hi; simpl; auto|]. rewrite Ex. cbn [LapSpec.val]. apply Hpos.
            rewrite <- Ex. unfold entry. rewrite Hord. apply nth_In. rewrite (proj1 HC0).
            assert (i < m_rows C0) by (apply Hi; simpl; auto). apply index_lt; auto. apply Hlt, nth_In. lia. }
          specialize (IH ltac:(intros; apply Hi; simpl; auto)). lra. }
        apply G. intros i Hi. apply in_seq in Hi. lia. }
      destruct (ar_dl _ _ _ _ (su_ar _ _ _ _ _ Hsums)) as [D0 _]. destruct (su_et _ _ _ _ _ Hsums) as [T0 _].
      assert (T1 : (0 <= INR (m_rows C0) * et)%R) by (apply Rmult_le_pos; auto; apply pos_INR).
      destruct (lap_err_mono (m_rows C0) (m_rows C0) dl D0 (le_n _)). unfold MurtyRnd.kerr. lra.
  - simpl. tauto.
  - intros s _. reflexivity.
Qed.

Lemma wrun_spec C off k : pm proj C = C0 ->
  spec (fun fuel => draws floatN pick fuel k (mkMurty off [root_state floatN C] 0))
    (fun outs => exists ds os, length ds <= k /\
       outs = os ++ repeat None (k - length ds) /\ Forall2 (wanswer off) os ds /\
       (forall d, In d ds -> feasible C0 d) /\ NoDup ds /\
       (length ds < k -> forall s, feasible C0 s -> In s ds) /\
       (top_pick pick -> forall i s, i < length ds -> feasible C0 s -> ~ In s (firstn i ds) ->
          (total C0 (nth i ds []) <= total C0 s + terr)%R)).
Proof.
  intros E. eapply spec_conseq.
  { apply (wdraws_spec k [(root_state floatN C, ([], []))] []); [apply wroot_inv; auto|reflexivity]. }
  intros outs (ds & os & H1 & H2 & H3 & [R1 R2 R3 R4] & H4). exists ds, os. do 5 (split; auto). split.
  - intros Hlt s Hs. destruct (H4 Hlt s Hs) as [[]|H]; auto.
  - intros Ht i s Hi Hs Hns. apply R4; auto.
Qed.
End Queue.

(** ** The shift by the smallest entry *)
Lemma min_in {T} (N : Num T) l mn : min_coeff N l = Ok mn -> In mn l.
Proof.
  destruct l as [|a l]; [discriminate|]. cbn [min_coeff]. intros H. inversion H. clear H H1.
  assert (G : forall l a, In (fold_left (fun m y => if nlt N y m then y else m) l a) (a :: l)).
  { clear. induction l as [|b l IH]; intros a; [simpl; auto|]. cbn [fold_left].
    destruct (IH (if nlt N b a then b else a)) as [<-|H]; [destruct (nlt N b a)|]; simpl; auto. }
  apply G.
Qed.

Lemma val_ofnat k : k <= 30 -> fin (nofnat floatN k) /\ fval (nofnat floatN k) = INR k.
Proof.
  intros Hk.
  assert (Q : forall (x : float) m e v, Prim2SF x = S754_finite false m e ->
    (IZR (Z.pos m) * bpow radix2 e = v)%R -> fin x /\ fval x = v).
  { intros x m e v E Hv. split; [apply fin_SF; rewrite E; reflexivity|]. rewrite val_SF, E. exact Hv. }
  do 31 (destruct k as [|k];
    [try (split; [apply fin_SF; reflexivity|rewrite val_SF; reflexivity]);
     (eapply Q; [vm_compute; reflexivity|]);
     (rewrite INR_IZR_INZ; cbn [Z.of_nat Pos.of_succ_nat Pos.succ bpow]; rewrite Z.pow_pos_fold;
      cbn [radix_val radix2]; match goal with |- context [IZR (?a ^ ?b)%Z] => let v := eval vm_compute in (a ^ b)%Z in change (a ^ b)%Z with v end; field)|]).
  lia.
Qed.

Lemma min_facts (l : list float) mn : (forall x, In x l -> fin x \/ x = infinity) -> min_coeff floatN l = Ok mn ->
  forall x, In x l -> fin x -> fin mn /\ (fval mn <= fval x)%R.
Proof.
  destruct l as [|h l]; [discriminate|]. intros Hl H. cbn [min_coeff] in H. injection H as <-.
  revert h Hl. induction l as [|y l IH]; intros h Hl x Hx Fx.
  - simpl in *. destruct Hx as [->|[]]. split; auto. lra.
  - cbn [fold_left]. set (m0 := if nlt floatN y h then y else h).
    assert (Hm0 : m0 = y \/ m0 = h) by (unfold m0; destruct (nlt floatN y h); auto).
    assert (Hl' : forall z, In z (m0 :: l) -> fin z \/ z = infinity).
    { intros z [<-|Hz]; apply Hl; simpl; auto. destruct Hm0 as [-> | ->]; auto. }
    assert (Hyh : forall z, z = y \/ z = h -> fin z -> fin m0 /\ (fval m0 <= fval z)%R).
    { intros z Hz Fz. assert (Fpi : forall u, fin u -> nlt floatN u infinity = true /\ nlt floatN infinity u = false).
      { intros u Fu. rewrite <- !proj_lt, (proj_fin u), <- proj_inf by auto. split; reflexivity. }
      assert (Fh : fin h \/ h = infinity) by (apply Hl; simpl; auto).
      assert (Fy : fin y \/ y = infinity) by (apply Hl; simpl; auto).
      assert (Ninf : ~ fin infinity) by (intros Q; apply fin_SF_iff in Q; discriminate).
      unfold m0. destruct Fh as [Fh| ->], Fy as [Fy| ->].
      - rewrite <- proj_lt, !proj_fin by auto. change (nlt roundN (Fin (fval y)) (Fin (fval h))) with (Rltb (fval y) (fval h)).
        destruct (Rltb_spec (fval y) (fval h)); destruct Hz as [-> | ->]; split; auto; lra.
      - destruct (Fpi h Fh) as [_ ->]. destruct Hz as [-> | ->]; [tauto|]. split; auto; lra.
      - destruct (Fpi y Fy) as [-> _]. destruct Hz as [-> | ->]; [|tauto]. split; auto; lra.
      - destruct Hz as [-> | ->]; tauto. }
    destruct Hx as [->|[->|Hx]].
    + destruct (Hyh x) as [F V]; auto. destruct (IH m0 Hl' m0) as [F' V']; simpl; auto. split; auto. eapply Rle_trans; [exact V'|exact V].
    + destruct (Hyh x) as [F V]; auto. destruct (IH m0 Hl' m0) as [F' V']; simpl; auto. split; auto. eapply Rle_trans; [exact V'|exact V].
    + apply (IH m0 Hl' x); simpl; auto.
Qed.
Lemma min_least l mn x : (forall x, In x l -> fin x \/ x = infinity) -> min_coeff floatN l = Ok mn ->
  In x l -> fin x -> (fval mn <= fval x)%R.
Proof. intros Hl E Hx Fx. apply (min_facts l mn Hl E x Hx Fx). Qed.
Lemma min_fin l mn x : (forall x, In x l -> fin x \/ x = infinity) -> min_coeff floatN l = Ok mn ->
  In x l -> fin x -> mn <> infinity.
Proof.
  intros Hl E Hx Fx -> . destruct (min_facts l _ Hl E x Hx Fx) as [F _]. apply fin_SF_iff in F. discriminate.
Qed.

(** Entries: +infinity, or finite and at most 2^a in size. *)
Definition bounded_matrix (a : Z) (C : matrix float) : Prop :=
  length (m_data C) = m_rows C * m_cols C /\
  forall x, In x (m_data C) -> (fin x /\ (Rabs (fval x) <= bpow radix2 a)%R) \/ x = infinity.

Section Doubles.
Variable C : matrix float.
Variable a : Z.
Hypothesis Ha : (-900 <= a <= 299)%Z.
Hypothesis HC : bounded_matrix a C.
Hypothesis Hrows : m_rows C <= 30.
Hypothesis Hcols : (Z.of_nat (m_cols C) < 100000)%Z.
Hypothesis Hord : m_ord C = RowMajor.
Hypothesis Hr0 : 0 < m_rows C.
Hypothesis Hc0 : 0 < m_cols C.
Variable pick : nat -> list fstate -> nat.
Hypothesis Hpick : forall tick q, q <> [] -> pick tick q < length q.

Lemma bounded_double : double_matrix C.
Proof.
  destruct HC as [H1 H2]. split; auto. intros x Hx. destruct (H2 x Hx) as [[Hf Hv]|]; auto. left.
  assert (F1 : fin (-0x1p+300)%float) by (apply fin_SF; reflexivity).
  assert (F2 : fin (0x1p+300)%float) by (apply fin_SF; reflexivity).
  assert (E2 : fval (0x1p+300)%float = bpow radix2 300).
  { rewrite val_SF. change (Prim2SF (0x1p+300)%float) with (S754_finite false 4503599627370496 248). unfold SF2R, F2R, cond_Zopp, Fnum, Fexp.
    replace (IZR (Z.pos 4503599627370496)) with (bpow radix2 52) by reflexivity. rewrite <- bpow_plus. reflexivity. }
  assert (E1 : fval (-0x1p+300)%float = (- bpow radix2 300)%R).
  { rewrite <- E2, !val_SF. change (Prim2SF (0x1p+300)%float) with (S754_finite false 4503599627370496 248).
    change (Prim2SF (-0x1p+300)%float) with (S754_finite true 4503599627370496 248). unfold SF2R, F2R, cond_Zopp, Fnum, Fexp.
    change (- Z.pos 4503599627370496)%Z with (- (4503599627370496))%Z. rewrite opp_IZR. ring. }
  assert (Hle : (bpow radix2 a <= bpow radix2 300)%R) by (apply bpow_le; lia).
  apply Rabs_le_inv in Hv.
  pose proof (f_le (-0x1p+300)%float x F1 Hf) as L1. pose proof (f_le x (0x1p+300)%float Hf F2) as L2.
  change (nle floatN) with PrimFloat.leb in L1, L2. rewrite E1 in L1. rewrite E2 in L2. split.
  - rewrite L1. apply Rle_bool_true. lra.
  - rewrite L2. apply Rle_bool_true. lra.
Qed.

Definition M := pm proj C.
Lemma MC : cost_matrix M.
Proof. exact (M_cost C bounded_double). Qed.
Lemma M_a x : In (Fin x) (m_data M) -> (Rabs x <= bpow radix2 a)%R.
Proof.
  simpl. intros Hx. apply in_map_iff in Hx. destruct Hx as (y & E & Hy). destruct (proj2 HC y Hy) as [[Hf Hv]| ->].
  - rewrite proj_fin in E by auto. inversion E; subst; auto.
  - discriminate.
Qed.

(** What a run returns. *)
Definition danswer (o : option (float * list (option nat))) (sg : list nat) : Prop :=
  exists x, o = Some (x, map Some sg) /\ fin x /\ (Rabs (fval x - total M sg) <= bpow radix2 (a - 42))%R.

Definition dranking (k : nat) (outs : list (option (float * list (option nat)))) : Prop :=
  exists ds os, length ds <= k /\ outs = os ++ repeat None (k - length ds) /\ Forall2 danswer os ds /\
    (forall d, In d ds -> feasible M d) /\ NoDup ds /\
    (length ds < k -> forall s, feasible M s -> In s ds).

Lemma INR30 : (0 <= INR (m_rows C) <= 30)%R.
Proof. split; [apply pos_INR|]. replace 30%R with (INR 30) by (simpl; lra). apply le_INR. auto. Qed.

(** The last sum: cost plus offset. *)
Lemma answer_close cst off y z w t0 sg :
  proj cst = Fin y -> fin off -> fval off = z ->
  (Rabs (y - t0) <= INR (m_rows C) * eta (a + 1))%R ->
  (Rabs (t0 + w - total M sg) <= 30 * bpow radix2 (a - 52))%R ->
  (Rabs (z - w) <= bpow radix2 (a - 48))%R ->
  feasible M sg ->
  exists x, nadd floatN cst off = x /\ fin x /\ (Rabs (fval x - total M sg) <= bpow radix2 (a - 42))%R.
Proof.
  intros Ec Hf <- H1 H2 H3 Hs. apply proj_Fin in Ec. destruct Ec as [Fc <-].
  set (u := bpow radix2 (a - 52)) in *.
  assert (Up : (0 < u)%R) by apply bpow_gt_0.
  assert (U : forall k, (0 <= k)%Z -> bpow radix2 (a - 52 + k) = (u * IZR (2 ^ k))%R).
  { intros k Hk. rewrite bpow_plus. unfold u. f_equal. rewrite <- IZR_Zpower by auto. reflexivity. }
  assert (Ee : eta (a + 1) = (u * 32)%R).
  { unfold eta. replace (a + 1 - 48)%Z with (a - 52 + 5)%Z by lia. rewrite U by lia. reflexivity. }
  assert (E48 : bpow radix2 (a - 48) = (u * 16)%R) by (replace (a - 48)%Z with (a - 52 + 4)%Z by lia; rewrite U by lia; reflexivity).
  assert (E42 : bpow radix2 (a - 42) = (u * 1024)%R) by (replace (a - 42)%Z with (a - 52 + 10)%Z by lia; rewrite U by lia; reflexivity).
  assert (E0 : bpow radix2 a = (u * 4503599627370496)%R) by (replace a with (a - 52 + 52)%Z at 1 by lia; rewrite U by lia; reflexivity).
  assert (E5 : bpow radix2 (a + 5) = (u * 144115188075855872)%R) by (replace (a + 5)%Z with (a - 52 + 57)%Z by lia; rewrite U by lia; reflexivity).
  pose proof INR30 as [I0 I1].
  pose proof (total_abs M (bpow radix2 a) sg Hord MC M_a Hs) as HT. change (m_rows M) with (m_rows C) in HT.
  assert (HT' : (Rabs (total M sg) <= 30 * bpow radix2 a)%R).
  { eapply Rle_trans; [exact HT|]. apply Rmult_le_compat_r; [apply bpow_ge_0|auto]. }
  assert (H1' : (Rabs (fval cst - t0) <= 30 * (u * 32))%R).
  { rewrite <- Ee. eapply Rle_trans; [exact H1|]. apply Rmult_le_compat_r; [apply bpow_ge_0|auto]. }
  rewrite E48 in H3. rewrite E0 in HT'.
  apply Rabs_le_inv in H1'. apply Rabs_le_inv in H2. apply Rabs_le_inv in H3. apply Rabs_le_inv in HT'.
  assert (Hm : (Rabs (fval cst + fval off) <= bpow radix2 (a + 5))%R).
  { rewrite E5. apply Rabs_le. lra. }
  destruct (f_add cst off (a + 5)) as [F V]; auto; [lia|].
  eexists. split; [reflexivity|]. split; [exact F|]. change (nadd floatN cst off) with (cst + off)%float. rewrite V.
  pose proof (rnd_err _ (a + 5) ltac:(lia) Hm) as He. replace (a + 5 - 53)%Z with (a - 48)%Z in He by lia. rewrite E48 in He.
  apply Rabs_le_inv in He. rewrite E42. apply Rabs_le. lra.
Qed.

(** The roundings of the shift and of the offset. *)
Section Rounded.
Variables (dl et sh so : R) (grid : R -> Prop).
Hypothesis Hsums : sums (m_cols C) (a + 1) dl et grid.
Hypothesis Hgr : forall x, In (Fin x) (m_data M) -> grid x.
Hypothesis Hsh : forall r mn, In (Fin r) (m_data M) -> In (Fin mn) (m_data M) ->
  grid (rnd (r - mn)) /\ (Rabs (rnd (r - mn) - (r - mn)) <= sh)%R.
Hypothesis Hsh0 : (0 <= sh)%R.
Hypothesis Hso : forall mn, In mn (m_data C) -> fin mn ->
  (Rabs (fval (nmul floatN mn (nofnat floatN (m_rows C))) - fval mn * INR (m_rows C)) <= so)%R.
Hypothesis Hso0 : (0 <= so)%R.

Section Shifted.
Variable mn : float.
Hypothesis Fmn : fin mn.
Hypothesis Imn : In mn (m_data C).
Hypothesis Lmn : forall x, In (Fin x) (m_data M) -> (fval mn <= x)%R.
Definition dshift : matrix float := mkMat (m_rows C) (m_cols C) (m_ord C) (map (fun x => nsub floatN x mn) (m_data C)).
Let S0 := pm proj dshift.

Lemma mn_in : In (Fin (fval mn)) (m_data M).
Proof. simpl. rewrite <- proj_fin by auto. apply in_map. auto. Qed.

Lemma shift_sub x : In x (m_data M) -> x = PInf \/
  exists r, x = Fin r /\ nsub roundN x (proj mn) = Fin (rnd (r - fval mn)) /\
    (0 <= rnd (r - fval mn) <= bpow radix2 (a + 1))%R /\ grid (rnd (r - fval mn)) /\
    (Rabs (rnd (r - fval mn) - (r - fval mn)) <= sh)%R.
Proof.
  intros Hx. destruct (proj2 MC x Hx) as [[r ->]|]; auto. right. exists r. split; auto.
  assert (Hm : (Rabs (r - fval mn) <= bpow radix2 (a + 1))%R).
  { pose proof (M_a r Hx) as Hr. pose proof (M_a _ mn_in) as Bmn. rewrite bpow_plus. change (bpow radix2 1) with 2%R.
    apply Rabs_le_inv in Hr. apply Rabs_le_inv in Bmn. apply Rabs_le. lra. }
  rewrite proj_fin by auto. split; [apply (rsub_FF _ _ (a + 1)); [lia|auto]|]. split; [split|].
  - apply rnd_pos. pose proof (Lmn r Hx). lra.
  - eapply Rle_trans; [apply Rle_abs|]. apply rnd_abs; [lia|auto].
  - apply Hsh; auto. apply mn_in.
Qed.

Lemma shift_data : m_data S0 = map (fun x => nsub roundN x (proj mn)) (m_data M).
Proof. unfold S0, M, dshift, pm. cbn [m_data]. rewrite !map_map. apply map_ext. intros x. symmetry. apply proj_sub. Qed.

Lemma shift_entry i j : i < m_rows C -> j < m_cols C ->
  entry NaN S0 i j = nsub roundN (entry NaN M i j) (proj mn) /\ In (entry NaN M i j) (m_data M).
Proof.
  intros Hi Hj. unfold entry. cbn [S0 M dshift pm m_ord m_rows m_cols]. rewrite Hord.
  fold S0 M. change (m_data (pm proj dshift)) with (m_data S0). change (m_data (pm proj C)) with (m_data M).
  assert (Hl : i * m_cols C + j < length (m_data M)) by (rewrite (proj1 MC); apply index_lt; auto).
  split; [|apply nth_In; auto].
  rewrite shift_data. rewrite nth_indep with (d' := nsub roundN NaN (proj mn)) by (rewrite map_length; auto).
  exact (map_nth (fun x => nsub roundN x (proj mn)) _ NaN _).
Qed.

Lemma shift_cost : cost_matrix S0.
Proof.
  split; [unfold S0, dshift; simpl; rewrite !map_length; apply HC|].
  rewrite shift_data. intros x Hx. apply in_map_iff in Hx. destruct Hx as (y & <- & Hy).
  destruct (shift_sub y Hy) as [->|(r & -> & -> & _)].
  - right. rewrite proj_fin by auto. reflexivity.
  - left. eexists. reflexivity.
Qed.

Lemma shift_a x : In (Fin x) (m_data S0) -> (0 <= x <= bpow radix2 (a + 1))%R /\ grid x.
Proof.
  rewrite shift_data. intros Hx. apply in_map_iff in Hx. destruct Hx as (y & E & Hy).
  destruct (shift_sub y Hy) as [->|(r & -> & E' & H & G & _)].
  - rewrite proj_fin in E by auto. discriminate.
  - rewrite E' in E. inversion E; subst; auto.
Qed.

Lemma shift_feasible s : feasible S0 s <-> feasible M s.
Proof.
  unfold feasible. change (m_rows S0) with (m_rows C). change (m_cols S0) with (m_cols C).
  change (m_rows M) with (m_rows C). change (m_cols M) with (m_cols C).
  split; intros [H1 H2]; split; auto; intros i Hi; specialize (H2 i Hi).
  all: assert (Hj : nth i s 0 < m_cols C) by (apply H1, nth_In; destruct H1 as (-> & _); auto).
  all: destruct (shift_entry i (nth i s 0) Hi Hj) as [E Hin].
  - destruct (shift_sub _ Hin) as [Ep|(r & Ep & _)]; [|rewrite Ep; eexists; reflexivity].
    rewrite E, Ep, proj_fin in H2 by auto. destruct H2 as [x Hx]. discriminate Hx.
  - destruct (shift_sub _ Hin) as [Ep|(r & Ep & Es & _)].
    + rewrite Ep in H2. destruct H2 as [x Hx]. discriminate Hx.
    + rewrite E, Es. eexists; reflexivity.
Qed.

Lemma shift_total s : feasible M s ->
  (Rabs (total S0 s + fval mn * INR (m_rows C) - total M s) <= 30 * sh)%R.
Proof.
  intros Hs. pose proof Hs as [Hc _].
  assert (G : forall k, k <= m_rows C ->
    (Rabs (Rsum (map (fun i => val (entry NaN S0 i (nth i s O))) (seq 0 k)) + fval mn * INR k -
           Rsum (map (fun i => val (entry NaN M i (nth i s O))) (seq 0 k))) <= INR k * sh)%R).
  { induction k as [|k IH]; intros Hk; [simpl; rewrite Rmult_0_r, Rplus_0_l, Rminus_0_r, Rabs_R0; lra|].
    rewrite seq_S, !map_app, !Rsum_app, S_INR. simpl map.
    assert (Hj : nth k s 0 < m_cols C) by (apply Hc, nth_In; destruct Hc as (-> & _); auto).
    destruct (shift_entry k (nth k s 0) ltac:(lia) Hj) as [E Hin].
    destruct (proj2 Hs k ltac:(auto)) as [x Ex].
    destruct (shift_sub _ Hin) as [Ep|(r & Ep & Es & _ & _ & Hr)]; [congruence|].
    rewrite E, Es, Ep. cbn [Rsum fold_right LapSpec.val]. 
    specialize (IH ltac:(lia)). apply Rabs_le_inv in IH. apply Rabs_le_inv in Hr. apply Rabs_le.
    unfold Rsum in *. cbn [fold_right]. cbn [LapSpec.val]. lra. }
  eapply Rle_trans; [apply (G (m_rows C)); auto|]. apply Rmult_le_compat_r; [auto|apply INR30].
Qed.

Lemma shift_fin : fin (nmul floatN mn (nofnat floatN (m_rows C))).
Proof.
  destruct (val_ofnat (m_rows C) Hrows) as [Fn Vn]. pose proof INR30 as [I0 I1].
  apply (f_mul mn (nofnat floatN (m_rows C)) (a + 5)); auto; [lia|].
  rewrite Vn, Rabs_mult, (Rabs_pos_eq (INR _)) by auto. rewrite bpow_plus. change (bpow radix2 5) with 32%R.
  apply Rmult_le_compat; auto; [apply Rabs_pos|apply M_a, mn_in|lra].
Qed.
End Shifted.

(** What a run returns: for each assignment the cost [cst] without the offset [off],
    its exact value [t0] and the exact offset [w]. *)
Definition ranswer (o : option (float * list (option nat))) (sg : list nat) : Prop :=
  exists cst off y t0 w, o = Some (nadd floatN cst off, map Some sg) /\
    proj cst = Fin y /\ grid y /\ (Rabs (y - t0) <= INR (m_rows C) * et)%R /\
    (Rabs (t0 + w - total M sg) <= 30 * sh)%R /\ fin off /\ (Rabs (fval off - w) <= so)%R /\
    (off = 0%float \/ exists mn, In mn (m_data C) /\ fin mn /\ off = nmul floatN mn (nofnat floatN (m_rows C))).

Definition rerr : R := lap_err (m_rows C) dl + 4 * dl + 2 * INR (m_rows C) * et + 60 * sh.

Definition rranking (k : nat) (outs : list (option (float * list (option nat)))) : Prop :=
  exists ds os, length ds <= k /\ outs = os ++ repeat None (k - length ds) /\ Forall2 ranswer os ds /\
    (forall d, In d ds -> feasible M d) /\ NoDup ds /\
    (length ds < k -> forall s, feasible M s -> In s ds) /\
    (top_pick pick -> forall i s, i < length ds -> feasible M s -> ~ In s (firstn i ds) ->
       (total M (nth i ds []) <= total M s + rerr)%R).

Lemma murty_rounded k : spec (fun fuel => murty_run floatN pick fuel k C) (rranking k).
Proof.
  unfold murty_run, murty_new.
  destruct (min_coeff floatN (m_data C)) as [mn| |] eqn:Emin.
  2, 3: exfalso; destruct (m_data C) eqn:E; [|discriminate]; destruct HC as [H _]; rewrite E in H; simpl in H; nia.
  cbn [bind]. pose proof (min_in _ _ _ Emin) as Hin.
  assert (Hle : fin mn -> forall x, In (Fin x) (m_data M) -> (fval mn <= x)%R).
  { intros Fm x Hx. simpl in Hx. apply in_map_iff in Hx. destruct Hx as (y & Ey & Hy). apply proj_Fin in Ey. destruct Ey as [Fy <-].
    apply (min_least (m_data C)); auto. intros z Hz. destruct (proj2 HC z Hz) as [[Fz _]|]; auto. }
  destruct (nlt floatN mn (n0 floatN)) eqn:Elt.
  - destruct (proj2 HC mn Hin) as [[Fmn Bmn]| ->]; [|discriminate]. cbn [bind].
    change (mkMat _ _ _ _) with (dshift mn). specialize (Hle Fmn).
    pose proof (shift_fin mn Fmn Hin) as Fo. pose proof (Hso mn Hin Fmn) as Vo.
    eapply spec_conseq.
    { apply (wrun_spec (pm proj (dshift mn)) (shift_cost mn Fmn Hin Hle) Hrows Hcols Hord (a + 1) ltac:(lia)) with (dl := dl) (et := et) (grid := grid) (pick := pick); auto.
      - intros x Hx. destruct (shift_a mn Fmn Hin Hle x Hx) as [X _]. rewrite Rabs_pos_eq; apply X.
      - intros x Hx. apply (shift_a mn Fmn Hin Hle x Hx).
      - intros x Hx. apply (shift_a mn Fmn Hin Hle x Hx). }
    intros outs (ds & os & H1 & H2 & H3 & H4 & H5 & H6 & H7). exists ds, os.
    assert (Hf : forall d, In d ds -> feasible M d) by (intros d Hd; apply (shift_feasible mn Fmn Hin Hle); auto).
    split; auto. split; auto. split; [|split; auto; split; auto; split].
    + clear H1 H2 H4 H5 H6 H7. induction H3 as [|o sg os ds (cst & y & -> & Ey & Gy & Hy) _ IH]; constructor.
      * exists cst, (nmul floatN mn (nofnat floatN (m_rows C))), y, (total (pm proj (dshift mn)) sg), (fval mn * INR (m_rows C))%R.
        split; auto. split; auto. split; auto. split; auto. split; [apply shift_total; auto; apply Hf; simpl; auto|].
        split; auto. split; auto. right. exists mn. auto.
      * apply IH. intros; apply Hf; simpl; auto.
    + intros Hl s Hs. apply H6; auto. apply (shift_feasible mn Fmn Hin Hle); auto.
    + intros Ht i s Hi Hs Hns. specialize (H7 Ht i s Hi (proj2 (shift_feasible mn Fmn Hin Hle s) Hs) Hns).
      pose proof (shift_total mn Fmn Hin Hle s Hs) as T1. pose proof (shift_total mn Fmn Hin Hle _ (Hf _ (nth_In ds [] Hi))) as T2.
      unfold terr, kerr in H7. change (m_rows (pm proj (dshift mn))) with (m_rows C) in H7.
      apply Rabs_le_inv in T1. apply Rabs_le_inv in T2. unfold rerr. lra.
  - cbn [bind].
    assert (Hge : forall x, In (Fin x) (m_data M) -> (0 <= x)%R).
    { intros x Hx. destruct (proj2 HC mn Hin) as [[Fmn _]|E].
      - specialize (Hle Fmn x Hx). assert (F0 : fin (n0 floatN)) by (apply fin_SF; reflexivity).
        assert (V0 : fval (n0 floatN) = 0%R) by (rewrite val_SF; reflexivity).
        rewrite <- proj_lt, !proj_fin in Elt by auto. change (Rltb (fval mn) (fval (n0 floatN)) = false) in Elt.
        destruct (Rltb_spec (fval mn) (fval (n0 floatN))); [discriminate|lra].
      - exfalso. simpl in Hx. apply in_map_iff in Hx. destruct Hx as (y & Ey & Hy). apply proj_Fin in Ey. destruct Ey as [Fy _].
        revert E. apply (min_fin (m_data C) mn y); auto. intros z Hz. destruct (proj2 HC z Hz) as [[Fz _]|]; auto. }
    eapply spec_conseq.
    { apply (wrun_spec M MC Hrows Hcols Hord (a + 1) ltac:(lia)) with (dl := dl) (et := et) (grid := grid) (pick := pick); auto.
      intros x Hx. eapply Rle_trans; [apply M_a; auto|]. apply bpow_le. lia. }
    intros outs (ds & os & H1 & H2 & H3 & H4 & H5 & H6 & H7). exists ds, os.
    split; auto. split; auto. split; [|split; auto; split; auto; split; auto].
    + clear H1 H2 H5 H6 H7 H4. induction H3 as [|o sg os ds (cst & y & -> & Ey & Gy & Hy) _ IH]; constructor; auto.
      assert (F0 : fin (n0 floatN)) by (apply fin_SF; reflexivity).
      assert (V0 : fval (n0 floatN) = 0%R) by (rewrite val_SF; reflexivity).
      exists cst, (n0 floatN), y, (total M sg), 0%R. split; auto. split; auto. split; auto. split; auto. split.
      * rewrite Rplus_0_r. replace (_ - _)%R with 0%R by lra. rewrite Rabs_R0. lra.
      * split; auto. rewrite V0, Rminus_0_r, Rabs_R0. auto.
    + intros Ht i s Hi Hs Hns. specialize (H7 Ht i s Hi Hs Hns). unfold terr, kerr in H7.
      change (m_rows M) with (m_rows C) in H7. unfold rerr. lra.
Qed.
End Rounded.

(** Any costs. *)
Definition near_err : R := rerr (unit_err (m_cols C) (bpow radix2 (a + 1))) (eta (a + 1)) (bpow radix2 (a - 52)).
Lemma murty_near k : spec (fun fuel => murty_run floatN pick fuel k C)
  (rranking (unit_err (m_cols C) (bpow radix2 (a + 1))) (eta (a + 1)) (bpow radix2 (a - 52)) (bpow radix2 (a - 48)) (fun _ => True) k).
Proof.
  apply murty_rounded; try apply bpow_ge_0; auto.
  - apply sums_any; auto. lia.
  - intros r mn H1 H2. split; auto. replace (a - 52)%Z with (a + 1 - 53)%Z by lia. apply rnd_err; [lia|].
    pose proof (M_a r H1) as B1. pose proof (M_a mn H2) as B2. rewrite bpow_plus. change (bpow radix2 1) with 2%R.
    apply Rabs_le_inv in B1. apply Rabs_le_inv in B2. apply Rabs_le. lra.
  - intros mn Hmn Fmn. destruct (val_ofnat (m_rows C) Hrows) as [Fn Vn]. pose proof INR30 as [I0 I1].
    assert (Bmn : (Rabs (fval mn) <= bpow radix2 a)%R).
    { apply M_a. simpl. rewrite <- proj_fin by auto. apply in_map. auto. }
    assert (Hm : (Rabs (fval mn * fval (nofnat floatN (m_rows C))) <= bpow radix2 (a + 5))%R).
    { rewrite Vn, Rabs_mult, (Rabs_pos_eq (INR _)) by auto. rewrite bpow_plus. change (bpow radix2 5) with 32%R.
      apply Rmult_le_compat; auto; [apply Rabs_pos|lra]. }
    destruct (f_mul mn (nofnat floatN (m_rows C)) (a + 5)) as [F V]; auto; [lia|].
    change (nmul floatN) with PrimFloat.mul. rewrite V, Vn in *.
    replace (a - 48)%Z with (a + 5 - 53)%Z by lia. apply rnd_err; [lia|auto].
Qed.

Lemma murty_double k : spec (fun fuel => murty_run floatN pick fuel k C) (dranking k).
Proof.
  eapply spec_conseq; [apply murty_near|].
  intros outs (ds & os & H1 & H2 & H3 & H4 & H5 & H6 & _). exists ds, os.
  split; auto. split; auto. split; [|split; auto].
  clear H1 H2 H5 H6. induction H3 as [|o sg os ds (cst & off & y & t0 & w & -> & Ey & _ & Hy & Ht & Fo & Ho & _) _ IH]; constructor.
  - destruct (answer_close cst off y _ w t0 sg Ey Fo eq_refl Hy) as (x & Ex & Fx & Vx); auto.
    + apply H4; simpl; auto.
    + exists x. rewrite Ex. auto.
  - apply IH. intros; apply H4; simpl; auto.
Qed.

(** ** Facts about answers *)
Lemma drun_returns k :
  (forall fuel, murty_run floatN pick fuel k C <> UB) /\
  exists fuel0 outs, forall fuel, fuel0 <= fuel -> murty_run floatN pick fuel k C = Ok outs.
Proof.
  destruct (murty_double k) as [H1 H2]. split; auto. intros fuel E. specialize (H1 fuel). rewrite E in H1. exact H1.
Qed.

Variables (fuel k : nat) (outs : list (option (float * list (option nat)))).
Hypothesis Hrun : murty_run floatN pick fuel k C = Ok outs.

Lemma drun_ranking : dranking k outs.
Proof. destruct (murty_double k) as [H _]. specialize (H fuel). rewrite Hrun in H. exact H. Qed.

Lemma Forall2_len {A B} (Q : A -> B -> Prop) l l' : Forall2 Q l l' -> length l = length l'.
Proof. induction 1; simpl; auto. Qed.
Lemma Forall2_nth {A B} (Q : A -> B -> Prop) l l' d d' : Forall2 Q l l' ->
  forall i, i < length l -> Q (nth i l d) (nth i l' d').
Proof. induction 1; intros i Hi; simpl in *; [lia|]. destruct i; auto. apply IHForall2. lia. Qed.

Lemma douts_cases i o : nth_error outs i = Some o -> exists ds os, length ds <= k /\ outs = os ++ repeat None (k - length ds) /\
  length os = length ds /\ Forall2 danswer os ds /\ NoDup ds /\ (forall d, In d ds -> feasible M d) /\
  (length ds < k -> forall s, feasible M s -> In s ds) /\ i < k /\
  ((i < length ds /\ danswer o (nth i ds [])) \/ (length ds <= i /\ o = None)).
Proof.
  intros Hi. destruct drun_ranking as (ds & os & H1 & H2 & H3 & H4 & H5 & H6). exists ds, os.
  pose proof (Forall2_len _ _ _ H3) as Hl.
  assert (Hik : i < k).
  { assert (H : nth_error outs i <> None) by congruence. apply nth_error_Some in H. rewrite H2 in H.
    rewrite app_length, repeat_length in H. lia. }
  do 8 (split; auto). destruct (Nat.lt_ge_cases i (length ds)) as [H|H].
  - left. split; auto. rewrite H2, nth_error_app1 in Hi by lia.
    rewrite (nth_error_nth' os None) in Hi by lia. inversion Hi. apply (Forall2_nth _ _ _ None []); auto. lia.
  - right. split; auto. rewrite H2, nth_error_app2 in Hi by lia.
    rewrite (nth_error_nth' _ None) in Hi by (rewrite repeat_length; lia). inversion Hi. apply nth_repeat.
Qed.

Lemma drun_length : length outs = k.
Proof.
  destruct drun_ranking as (ds & os & H1 & -> & H3 & _). rewrite app_length, repeat_length, (Forall2_len _ _ _ H3). lia.
Qed.

Lemma drun_cost cst sol : In (Some (cst, sol)) outs ->
  exists s, sol = map Some s /\ feasible_double C s /\ fin cst /\
    (Rabs (fval cst - total (pm proj C) s) <= bpow radix2 (a - 42))%R.
Proof.
  intros Hin. apply In_nth_error in Hin. destruct Hin as [i Hi].
  destruct (douts_cases i _ Hi) as (ds & os & _ & _ & _ & _ & _ & Hf & _ & _ & [[H (x & E & Hx)]|[_ E]]); [|discriminate].
  inversion E; subst. eexists. split; [reflexivity|]. split; auto.
  apply (M_feasible C bounded_double Hrows Hord). apply Hf, nth_In. auto.
Qed.

Lemma drun_distinct i j ci cj s :
  nth_error outs i = Some (Some (ci, s)) -> nth_error outs j = Some (Some (cj, s)) -> i = j.
Proof.
  intros Hi Hj. destruct (douts_cases i _ Hi) as (ds & os & _ & E & Hl & HA & Hnd & _ & _ & Hik & [[H (x & Ex & _)]|[_ Ex]]); [|discriminate].
  assert (Hjl : j < length ds /\ danswer (Some (cj, s)) (nth j ds [])).
  { destruct (Nat.lt_ge_cases j (length ds)) as [H'|H'].
    - split; auto. rewrite E, nth_error_app1 in Hj by lia. rewrite (nth_error_nth' os None) in Hj by lia. inversion Hj as [Hj'].
      rewrite Hj'. rewrite <- Hj'. apply (Forall2_nth _ _ _ None []); auto. lia.
    - exfalso. rewrite E, nth_error_app2 in Hj by lia. 
      apply nth_error_In, repeat_spec in Hj. discriminate. }
  destruct Hjl as [Hj' (y & Ey & _)]. inversion Ex. inversion Ey. subst.
  apply (proj1 (NoDup_nth ds []) Hnd); auto. apply map_Some_inj. congruence.
Qed.

Lemma drun_none_stays i j : i <= j -> j < k -> nth_error outs i = Some None -> nth_error outs j = Some None.
Proof.
  intros Hij Hj Hi. destruct (douts_cases i _ Hi) as (ds & os & Hk & E & Hl & _ & _ & _ & _ & _ & [[_ (x & Ex & _)]|[H _]]); [discriminate|].
  rewrite E, nth_error_app2 by lia. rewrite (nth_error_nth' _ None) by (rewrite repeat_length; lia). f_equal. apply nth_repeat.
Qed.

Lemma drun_complete s : In None outs -> feasible_double C s -> exists cst, In (Some (cst, map Some s)) outs.
Proof.
  intros Hin Hs. apply In_nth_error in Hin. destruct Hin as [i Hi].
  destruct (douts_cases i _ Hi) as (ds & os & Hk & E & Hl & HA & _ & _ & Hall & Hik & [[_ (x & Ex & _)]|[H _]]); [discriminate|].
  assert (Hd : In s ds) by (apply Hall; [lia|apply (M_feasible C bounded_double Hrows Hord); auto]).
  apply In_nth with (d := []) in Hd. destruct Hd as (j & Hj & <-).
  pose proof (Forall2_nth _ _ _ None [] HA j ltac:(lia)) as (x & Ex & _).
  exists x. rewrite E. apply in_app_iff. left. rewrite <- Ex. apply nth_In. lia.
Qed.

Lemma drun_ends : m_cols C ^ m_rows C < k -> In None outs.
Proof.
  intros Hk. destruct drun_ranking as (ds & os & H1 & -> & H3 & H4 & H5 & _).
  assert (Hl : length ds <= m_cols C ^ m_rows C).
  { rewrite <- (all_lists_length M Hrows Hr0 Hc0). apply NoDup_incl_length; auto.
    intros d Hd. destruct (H4 d Hd) as [(X1 & _ & X2) _]. change (m_rows M) with (m_rows C) in X1. rewrite <- X1. apply (all_lists_in M Hrows Hr0 Hc0). auto. }
  apply in_app_iff. right. replace (k - length ds) with (S (k - length ds - 1)) by lia. simpl. auto.
Qed.

(** ** How close a draw is to the best *)
(** The assignment [s] is not among the first [i] answers. *)
Definition not_before (i : nat) (s : list nat) : Prop :=
  forall j cj, j < i -> nth_error outs j <> Some (Some (cj, map Some s)).

Lemma routs_cases dl et sh so grid i cst sol : rranking dl et sh so grid k outs -> nth_error outs i = Some (Some (cst, sol)) ->
  exists sg, sol = map Some sg /\ feasible M sg /\ ranswer et sh so grid (Some (cst, sol)) sg /\
    (top_pick pick -> forall s, feasible M s -> not_before i s -> (total M sg <= total M s + rerr dl et sh)%R).
Proof.
  intros (ds & os & H1 & H2 & H3 & H4 & H5 & H6 & H7) Hi. pose proof (Forall2_len _ _ _ H3) as Hl.
  assert (Hio : i < length os).
  { destruct (Nat.lt_ge_cases i (length os)) as [|H]; auto. exfalso. rewrite H2, nth_error_app2 in Hi by auto.
    apply nth_error_In, repeat_spec in Hi. discriminate. }
  assert (Ei : nth i os None = Some (cst, sol)).
  { rewrite H2, nth_error_app1 in Hi by auto. rewrite (nth_error_nth' os None) in Hi by auto. congruence. }
  pose proof (Forall2_nth _ _ _ None [] H3 i Hio) as Hans. rewrite Ei in Hans.
  exists (nth i ds []). split; [|split; [|split]]; auto.
  - destruct Hans as (c & o & y & t0 & w & E & _). congruence.
  - apply H4, nth_In. lia.
  - intros Ht s Hs Hnb. apply H7; auto; [lia|]. intros Hin.
    apply In_nth with (d := []) in Hin. destruct Hin as (j & Hj & Ej). rewrite firstn_length in Hj.
    assert (Hji : j < i) by lia.
    assert (Ed : nth j ds [] = s).
    { rewrite <- Ej. rewrite <- (firstn_skipn i ds) at 1. apply app_nth1. rewrite firstn_length. lia. }
    pose proof (Forall2_nth _ _ _ None [] H3 j ltac:(lia)) as (c & o & y & t0 & w & E & _). rewrite Ed in E.
    apply (Hnb j (nadd floatN c o) Hji). rewrite H2, nth_error_app1 by lia. rewrite (nth_error_nth' os None) by lia. congruence.
Qed.

Lemma near_err_bound : (near_err <= INR (m_rows C) * (INR (m_rows C) + 1) ^ m_rows C * INR (m_cols C) * bpow radix2 (a - 40))%R.
Proof.
  unfold near_err, rerr, lap_err, unit_err, eta. set (n := INR (m_rows C)). set (m := INR (m_cols C)).
  assert (Hn : (1 <= n)%R) by (change 1%R with (INR 1); apply le_INR; lia).
  assert (Hm : (1 <= m)%R) by (change 1%R with (INR 1); apply le_INR; lia).
  set (u := bpow radix2 (a - 52)).
  assert (Up : (0 < u)%R) by apply bpow_gt_0.
  assert (U : forall k, (0 <= k)%Z -> bpow radix2 (a - 52 + k) = (u * IZR (2 ^ k))%R).
  { intros j Hj. rewrite bpow_plus. unfold u. f_equal. rewrite <- IZR_Zpower by auto. reflexivity. }
  assert (E1 : (m * bpow radix2 (a + 1) * bpow radix2 (-47) = m * (u * 64))%R).
  { rewrite Rmult_assoc, <- bpow_plus. f_equal. replace (a + 1 + -47)%Z with (a - 52 + 6)%Z by lia. rewrite U by lia. reflexivity. }
  rewrite E1. replace (a + 1 - 48)%Z with (a - 52 + 5)%Z by lia. replace (a - 40)%Z with (a - 52 + 12)%Z by lia. rewrite !U by lia.
  change (2 ^ 5)%Z with 32%Z. change (2 ^ 12)%Z with 4096%Z.
  assert (Hp : (1 <= (n + 1) ^ m_rows C)%R) by (apply pow_R1_Rle; lra).
  set (w := ((n + 1) ^ m_rows C)%R) in *.
  assert (Hnw : (n <= n * w)%R) by (rewrite <- (Rmult_1_r n) at 1; apply Rmult_le_compat_l; lra).
  assert (Hnwm : (n * w <= n * w * m)%R) by (rewrite <- (Rmult_1_r (n * w)) at 1; apply Rmult_le_compat_l; lra).
  assert (Hmm : (m <= n * w * m)%R) by (rewrite <- (Rmult_1_l m) at 1; apply Rmult_le_compat_r; lra).
  set (z := (n * w * m)%R) in *.
  replace (36 * n * w * (m * (u * 64)))%R with (2304 * z * u)%R by (unfold z; ring).
  apply Rle_trans with (2304 * z * u + 256 * z * u + 64 * z * u + 60 * z * u)%R.
  - assert (m * u <= z * u)%R by (apply Rmult_le_compat_r; lra).
    assert (n * u <= z * u)%R by (apply Rmult_le_compat_r; lra).
    assert (1 * u <= z * u)%R by (apply Rmult_le_compat_r; lra).
    lra.
  - replace (z * (u * 4096))%R with (4096 * (z * u))%R by ring. assert (0 <= z * u)%R by (apply Rmult_le_pos; lra). lra.
Qed.

Lemma drun_near i cst s s' : top_pick pick -> nth_error outs i = Some (Some (cst, map Some s)) ->
  feasible_double C s' -> not_before i s' ->
  (total M s <= total M s' + INR (m_rows C) * (INR (m_rows C) + 1) ^ m_rows C * INR (m_cols C) * bpow radix2 (a - 40))%R.
Proof.
  intros Ht Hi Hs Hnb. destruct (murty_near k) as [H _]. specialize (H fuel). rewrite Hrun in H. cbn [wp] in H.
  destruct (routs_cases _ _ _ _ _ i cst _ H Hi) as (sg & E & _ & _ & Hbest). apply map_Some_inj in E. subst sg.
  eapply Rle_trans; [apply (Hbest Ht s'); auto; apply (M_feasible C bounded_double Hrows Hord); auto|].
  apply Rplus_le_compat_l. apply near_err_bound.
Qed.

(** Costs that are multiples of [2^q]. *)
Section Grid.
Variable q : Z.
Hypothesis Hq : (-1074 <= q <= 247)%Z.
Hypothesis Hqa : (q <= a)%Z.
Hypothesis Hk : (32 * Z.of_nat (m_cols C) * 2 ^ (a + 1 - q) < 2 ^ 53)%Z.
Hypothesis Hz : forall x, In x (m_data C) -> x = infinity \/ exists z, proj x = Fin (IZR z * bpow radix2 q)%R.
Let G (x : R) : Prop := exists z, x = (IZR z * bpow radix2 q)%R.

Lemma grid_rnd x : G x -> (Rabs x <= bpow radix2 (a + 6))%R -> rnd x = x.
Proof.
  intros [z ->] Hx. apply round_generic; [apply valid_rnd_N|].
  apply (generic_format_FLT radix2 (-1074) 53). exists (Float radix2 z q); [reflexivity| |simpl; lia].
  simpl. assert (Hz' : (Z.abs z <= 2 ^ (a + 6 - q))%Z).
  { apply le_IZR. rewrite abs_IZR. rewrite (IZR_Zpower radix2) by lia. pose proof (bpow_gt_0 radix2 q).
    apply Rmult_le_reg_r with (bpow radix2 q); auto. rewrite <- bpow_plus. replace (a + 6 - q + q)%Z with (a + 6)%Z by lia.
    rewrite Rabs_mult, (Rabs_pos_eq (bpow radix2 q)) in Hx by lra. auto. }
  replace (a + 6 - q)%Z with (5 + (a + 1 - q))%Z in Hz' by lia. rewrite Z.pow_add_r in Hz' by lia. change (2 ^ 5)%Z with 32%Z in Hz'.
  assert (0 < 2 ^ (a + 1 - q))%Z by (apply Z.pow_pos_nonneg; lia). change (2 ^ 53)%Z with 9007199254740992%Z in Hk. nia.
Qed.

Lemma M_grid x : In (Fin x) (m_data M) -> G x.
Proof.
  simpl. intros Hx. apply in_map_iff in Hx. destruct Hx as (y & E & Hy). destruct (Hz y Hy) as [->|[z Ez]]; [discriminate|].
  exists z. congruence.
Qed.

Lemma grid_le x : (Rabs x <= 32 * bpow radix2 a)%R -> (Rabs x <= bpow radix2 (a + 6))%R.
Proof.
  intros H. rewrite bpow_plus. change (bpow radix2 6) with 64%R. pose proof (bpow_ge_0 radix2 a). lra.
Qed.

Lemma grid_offset mn : In mn (m_data C) -> fin mn ->
  fval (nmul floatN mn (nofnat floatN (m_rows C))) = (fval mn * INR (m_rows C))%R /\ G (fval mn * INR (m_rows C))%R.
Proof.
  intros Hmn Fmn. destruct (val_ofnat (m_rows C) Hrows) as [Fn Vn]. pose proof INR30 as [I0 I1].
  assert (Imn : In (Fin (fval mn)) (m_data M)) by (simpl; rewrite <- proj_fin by auto; apply in_map; auto).
  pose proof (M_a _ Imn) as Bmn.
  assert (Hm : (Rabs (fval mn * INR (m_rows C)) <= 32 * bpow radix2 a)%R).
  { rewrite Rabs_mult, (Rabs_pos_eq (INR _)) by auto. rewrite Rmult_comm. apply Rmult_le_compat; auto; [apply Rabs_pos|lra]. }
  assert (Gm : G (fval mn * INR (m_rows C))%R).
  { destruct (M_grid _ Imn) as [z ->]. exists (z * Z.of_nat (m_rows C))%Z. rewrite mult_IZR, <- INR_IZR_INZ. ring. }
  split; auto. destruct (f_mul mn (nofnat floatN (m_rows C)) (a + 6)) as [F V]; auto; [lia|rewrite Vn; apply grid_le; auto|].
  change (nmul floatN) with PrimFloat.mul. rewrite V, Vn. apply grid_rnd; auto. apply grid_le. auto.
Qed.

Lemma murty_grid : rranking 0 0 0 0 G k outs.
Proof.
  assert (H : spec (fun fuel => murty_run floatN pick fuel k C) (rranking 0 0 0 0 G k)).
  { apply murty_rounded; try lra.
    - apply sums_grid; auto; lia.
    - apply M_grid.
    - intros r mn H1 H2. assert (Gd : G (r - mn)%R).
      { destruct (M_grid r H1) as [z1 ->], (M_grid mn H2) as [z2 ->]. exists (z1 - z2)%Z. rewrite minus_IZR. ring. }
      assert (B : (Rabs (r - mn) <= bpow radix2 (a + 6))%R).
      { apply grid_le. pose proof (M_a r H1) as B1. pose proof (M_a mn H2) as B2. pose proof (bpow_ge_0 radix2 a).
        apply Rabs_le_inv in B1. apply Rabs_le_inv in B2. apply Rabs_le. lra. }
      rewrite (grid_rnd _ Gd B). split; auto. rewrite Rminus_diag_eq, Rabs_R0 by auto. lra.
    - intros mn Hmn Fmn. destruct (grid_offset mn Hmn Fmn) as [-> _]. rewrite Rminus_diag_eq, Rabs_R0 by auto. lra. }
  destruct H as [H _]. specialize (H fuel). rewrite Hrun in H. exact H.
Qed.

Lemma abs_0 x y : (Rabs (x - y) <= 0)%R -> x = y.
Proof. intros H. apply Rabs_le_inv in H. lra. Qed.

Lemma drun_grid i cst sol : nth_error outs i = Some (Some (cst, sol)) ->
  exists s, sol = map Some s /\ feasible_double C s /\ fin cst /\ fval cst = total M s /\
    (top_pick pick -> forall s', feasible_double C s' -> not_before i s' -> (total M s <= total M s')%R).
Proof.
  intros Hi. destruct (routs_cases _ _ _ _ _ i cst sol murty_grid Hi) as (sg & E & Hf & Hans & Hbest).
  exists sg. split; auto. split; [apply (M_feasible C bounded_double Hrows Hord); auto|].
  destruct Hans as (c & off & y & t0 & w & Eo & Ey & Gy & H1 & H2 & Fo & H3 & H4).
  rewrite Rmult_0_r in H1, H2. apply abs_0 in H1. apply abs_0 in H2. apply abs_0 in H3. subst y.
  inversion Eo as [[Ec Es]]. clear Es. apply proj_Fin in Ey. destruct Ey as [Fc Vc].
  assert (Goff : G (fval off)).
  { destruct H4 as [->|(mn & Hmn & Fmn & ->)].
    - exists 0%Z. rewrite Rmult_0_l. rewrite val_SF. reflexivity.
    - destruct (grid_offset mn Hmn Fmn) as [-> Gm]. auto. }
  assert (Esum : (fval c + fval off)%R = total M sg) by lra.
  assert (Gs : G (total M sg)).
  { rewrite <- Esum, Vc. destruct Gy as [z1 ->], Goff as [z2 ->]. exists (z1 + z2)%Z. rewrite plus_IZR. ring. }
  pose proof INR30 as [I0 I1].
  assert (B : (Rabs (total M sg) <= bpow radix2 (a + 6))%R).
  { apply grid_le. eapply Rle_trans; [apply (total_abs M (bpow radix2 a) sg Hord MC M_a Hf)|].
    apply Rmult_le_compat_r; [apply bpow_ge_0|]. change (m_rows M) with (m_rows C). lra. }
  destruct (f_add c off (a + 6)) as [F V]; auto; [lia|rewrite Esum; auto|].
  change (nadd floatN c off) with (c + off)%float. split; auto. split; [rewrite V, Esum; apply grid_rnd; auto|].
  intros Ht s' Hs' Hnb. eapply Rle_trans; [apply (Hbest Ht s'); auto; apply (M_feasible C bounded_double Hrows Hord); auto|].
  unfold rerr, lap_err. apply Req_le. ring.
Qed.

Lemma drun_grid_sorted i j ci cj si sj : top_pick pick -> i <= j ->
  nth_error outs i = Some (Some (ci, si)) -> nth_error outs j = Some (Some (cj, sj)) -> nle floatN ci cj = true.
Proof.
  intros Ht Hij Hi Hj. destruct (drun_grid i ci si Hi) as (s & -> & Hs & Fi & Vi & Hb).
  destruct (drun_grid j cj sj Hj) as (s' & -> & Hs' & Fj & Vj & _).
  pose proof (f_le ci cj Fi Fj) as L. rewrite L. apply Rle_bool_true. rewrite Vi, Vj. apply Hb; auto.
  intros j' c' Hj' E. pose proof (drun_distinct j' j c' cj _ E Hj). lia.
Qed.
End Grid.
End Doubles.

(** ** A queue that takes the first best element *)
Lemma after_P (x y : fstate) : after floatN x y = after extR (P x) (P y).
Proof.
  unfold after. simpl s_cost. simpl s_C. simpl m_rows. rewrite <- proj_lt, <- proj_eq. reflexivity.
Qed.

Lemma first_top_ftop : top_pick (first_top floatN).
Proof.
  intros tick q Hne Hf. destruct (best_exists (map P q)) as (s & Hs & Hbest).
  - destruct q; simpl; congruence.
  - intros x Hx. apply in_map_iff in Hx. destruct Hx as (y & <- & Hy). exists (fval (s_cost y)). simpl. apply proj_fin. auto.
  - apply in_map_iff in Hs. destruct Hs as (s0 & <- & Hs). apply In_nth_error in Hs. destruct Hs as [k0 Hk0].
    unfold first_top.
    set (f := fun k => match nth_error q k with Some s => forallb (fun x => negb (after floatN s x)) q | None => false end).
    assert (Hin : In k0 (filter f (seq 0 (length q)))).
    { apply filter_In. split.
      - apply in_seq. assert (nth_error q k0 <> None) by congruence. apply nth_error_Some in H. lia.
      - unfold f. rewrite Hk0. apply forallb_forall. intros x Hx. rewrite after_P, (Hbest (P x)); auto. apply in_map. auto. }
    destruct (filter f (seq 0 (length q))) as [|k l] eqn:E; [destruct Hin|].
    assert (Hk : In k (filter f (seq 0 (length q)))) by (rewrite E; simpl; auto).
    apply filter_In in Hk. destruct Hk as [Hk1 Hk2]. intros x d Hx. unfold f in Hk2.
    destruct (nth_error q k) as [s'|] eqn:Ek; [|discriminate].
    rewrite (nth_error_nth q k d Ek). rewrite forallb_forall in Hk2. specialize (Hk2 x Hx).
    apply negb_true_iff in Hk2. auto.
Qed.
