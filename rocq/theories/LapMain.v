(** Correctness of [rlap], of Hall's check and of [lap]. *)
From Coq Require Import List Arith Bool Lia Reals Lra.
Import ListNotations.
From Verif Require Import Res Scalar Lap LapSpec LapBase LapArr LapDij LapTerm.
Open Scope R_scope.

(** * rlap *)
Section Rlap.
Variables (n m : nat) (C : list (ext R)).
Hypothesis HC : wfC n m C.
Hypothesis Hhall : hall n m C.

Record solved (rowsol : list (option nat)) (u v : list (ext R)) : Prop := {
  so_core : exists colsol, core n m C rowsol colsol v /\
     forall i, (i < n)%nat -> assigned m colsol i;
  so_lu : length u = n;
  so_u : forall i j, (i < n)%nat -> nth i rowsol None = Some j ->
     nth i u NaN = nsub extR (c m C i j) (nth j v NaN) }.

Definition rlap_tail (s : arr (T := ext R)) (u : list (ext R)) :=
  '(rowsol, colsol, v) <-
    for_loop (a_numfree s) 0
      (fun f st => i <- get (a_free s) f;; augment extR n m C i st)
      (a_rowsol s, a_colsol s, a_v s);;
  '(u, c) <-
    for_loop n 0
      (fun i (st : list (ext R) * ext R) =>
         let '(u, c) := st in
         j <- get rowsol i;;
         match j with
         | Some j =>
             cij <- get C (i * m + j);;
             vj <- get v j;;
             u <- set u i (nsub extR cij vj);;
             Ok (u, nadd extR c cij)
         | None => Ok (u, c)
         end)
      (u, n0 extR);;
  Ok (rowsol, colsol, u, v, c).

Lemma skipn_nth_in {A} (l : list A) k x d : In x (skipn k l) -> exists p, (k <= p < length l)%nat /\ nth p l d = x.
Proof.
  intros H. apply (In_nth _ _ d) in H. destruct H as (p & Hp & E).
  rewrite skipn_length in Hp. exists (k + p)%nat. split; [lia|].
  rewrite <- E. clear. revert k. induction l; intros [|k]; simpl; auto. destruct p; auto.
Qed.

Lemma rlap_tail_spec F s u : passinv n m C s -> length u = n ->
  wp F (rlap_tail s u) (fun r => let '(rowsol, _, u, v, _) := r in solved rowsol u v).
Proof.
  intros [Hc Hl Hnf Hnd Hfree] Hlu. unfold rlap_tail.
  set (fl := firstn (a_numfree s) (a_free s)) in *.
  assert (Hfl : length fl = a_numfree s) by (unfold fl; rewrite firstn_length; lia).
  apply wp_bind. eapply wp_conseq.
  { apply (wp_for F (a_numfree s) 0 _ (fun t st => let '(rs, cs, v) := st in
      core n m C rs cs v /\
      forall i, In i (skipn t fl) <-> (i < n)%nat /\ ~ assigned m cs i)).
    - split; auto.
    - intros t [[rs cs] v] Ht (Hcore & Hin).
      rewrite (get_ok _ _ 0%nat) by lia. cbn [bind].
      assert (Ei : nth t (a_free s) 0%nat = nth t fl 0%nat) by (unfold fl; rewrite nth_firstn; auto; lia).
      assert (Hsk : skipn t fl = nth t fl 0%nat :: skipn (S t) fl) by (apply skipn_cons_nth; lia).
      rewrite Ei. set (i := nth t fl 0%nat) in *.
      assert (Hi : (i < n)%nat /\ ~ assigned m cs i) by (apply Hin; rewrite Hsk; simpl; auto).
      destruct Hi as [Hi Hna].
      eapply wp_conseq; [apply (augment_spec n m C HC Hhall); auto|].
      intros [[rs' cs'] v'] (Hc' & Has). split; auto.
      intros i'. rewrite Has. specialize (Hin i'). rewrite Hsk in Hin. simpl in Hin.
      assert (Hnin : ~ In i (skipn (S t) fl)).
      { assert (NoDup (skipn t fl)) as X.
        { rewrite <- (firstn_skipn t fl) in Hnd. clear -Hnd. induction (firstn t fl); auto.
          simpl in Hnd. inversion Hnd; auto. }
        rewrite Hsk in X. inversion X; auto. }
      split.
      + intros H. destruct (proj1 Hin (or_intror H)) as [A B]. split; auto.
        intros [->|X]; auto.
      + intros [A B]. assert (X : i = i' \/ In i' (skipn (S t) fl)).
        { apply Hin. split; auto. }
        destruct X as [X|X]; auto. exfalso. apply B. left; auto. }
  intros [[rs cs] v] (Hcore & Hin). simpl in Hin.
  rewrite skipn_all2 in Hin by lia.
  assert (Hall : forall i, (i < n)%nat -> assigned m cs i).
  { intros i Hi. destruct (existsb (fun j => match nth j cs None with Some i' => (i' =? i)%nat | None => false end) (seq 0 m)) eqn:E.
    - apply existsb_exists in E. destruct E as (j & Hj & E). apply in_seq in Hj. exists j.
      split; [lia|]. destruct (nth j cs None); [|discriminate]. apply Nat.eqb_eq in E. congruence.
    - exfalso. apply (Hin i). split; auto. intros (j & Hj & Ej).
      assert (existsb (fun j => match nth j cs None with Some i' => (i' =? i)%nat | None => false end) (seq 0 m) = true); [|congruence].
      apply existsb_exists. exists j. split; [apply in_seq; lia|]. rewrite Ej. apply Nat.eqb_refl. }
  apply wp_bind. eapply wp_conseq.
  { apply (wp_for F n 0 _ (fun t (st : list (ext R) * ext R) =>
      length (fst st) = n /\
      forall i j, (i < t)%nat -> nth i rs None = Some j ->
        nth i (fst st) NaN = nsub extR (c m C i j) (nth j v NaN))).
    - split; auto. intros; lia.
    - intros t [u' c'] Ht (Hlu' & Hu'). simpl in Hlu', Hu'.
      rewrite (get_ok _ _ None) by (rewrite (co_lr _ _ _ _ _ _ Hcore); lia). cbn [bind].
      destruct (Hall t) as (j & Hj & Ej); [lia|].
      destruct (co_a1 _ _ _ _ _ _ Hcore _ _ Hj Ej) as [_ Er]. rewrite Er.
      rewrite (get_c n m C HC) by (auto; lia). cbn [bind].
      rewrite (get_v m) by (auto; apply Hcore). cbn [bind].
      rewrite set_ok by lia. cbn [bind]. apply wp_ret. simpl fst. split.
      + rewrite upd_length; auto.
      + intros i' j' Hi' E'. rewrite nth_upd by lia. destruct (Nat.eqb_spec t i') as [<-|Hne].
        * assert (j' = j) by congruence. subst j'. reflexivity.
        * apply Hu'; auto; lia. }
  intros [u' c'] (Hlu' & Hu'). apply wp_ret. constructor; auto.
  exists cs. auto.
Qed.

Lemma start_pass : passinv n m C (mkArr (seq 0 n) (repeat None n) (repeat None m) (repeat (n0 extR) m) 0 n).
Proof.
  assert (Hr : forall j, nth j (repeat (@None nat) m) None = None) by (intros; apply nth_repeat).
  assert (Hz : forall j, (j < m)%nat -> nth j (repeat (n0 extR) m) NaN = Fin 0).
  { intros j Hj. rewrite nth_indep with (d' := n0 extR) by (rewrite repeat_length; auto). apply nth_repeat. }
  constructor; simpl.
  - constructor; try apply repeat_length.
    + split; [apply repeat_length|]. intros j Hj. right. exists 0. split; [apply Hz; auto|lra].
    + intros j i Hj E. rewrite Hr in E. discriminate.
    + intros; apply Hz; auto.
    + intros j i Hj E. rewrite Hr in E. discriminate.
  - apply seq_length.
  - lia.
  - rewrite firstn_all2 by (rewrite seq_length; lia). apply seq_NoDup.
  - rewrite firstn_all2 by (rewrite seq_length; lia). intros i. rewrite in_seq. split.
    + intros H. split; [lia|]. intros (j & _ & E). rewrite Hr in E. discriminate.
    + intros [H _]. lia.
Qed.

Lemma rlap_spec simd fuel :
  wp True (rlap extR simd fuel n m C (repeat (n0 extR) n) (repeat (n0 extR) m))
    (fun r => let '(rowsol, _, u, v, _) := r in solved rowsol u v).
Proof.
  unfold rlap. apply wp_bind. eapply wp_conseq; [apply (arr_pass_spec n m C HC Hhall), start_pass|].
  intros s1 H1. apply wp_bind. eapply wp_conseq; [apply (arr_pass_spec n m C HC Hhall); exact H1|].
  intros s2 H2. apply (rlap_tail_spec True s2); auto. apply repeat_length.
Qed.

Lemma rlap_total simd : exists fuel0 r, forall fuel, (fuel0 <= fuel)%nat ->
  rlap extR simd fuel n m C (repeat (n0 extR) n) (repeat (n0 extR) m) = Ok r.
Proof.
  destruct (arr_pass_halts n m C HC Hhall simd _ start_pass) as (f1 & s1 & H1 & E1).
  destruct (arr_pass_halts n m C HC Hhall simd _ H1) as (f2 & s2 & H2 & E2).
  pose proof (rlap_tail_spec False s2 (repeat (n0 extR) n) H2 (repeat_length _ _)) as X.
  destruct (rlap_tail s2 (repeat (n0 extR) n)) as [r| |] eqn:E; simpl in X; try tauto.
  exists (Nat.max f1 f2), r. intros fuel Hf. unfold rlap.
  rewrite E1 by lia. cbn [bind]. rewrite E2 by lia. cbn [bind]. exact E.
Qed.

(** ** Optimality *)
Lemma Rsum_app l1 l2 : Rsum (l1 ++ l2) = Rsum l1 + Rsum l2.
Proof. induction l1; simpl; lra. Qed.

Lemma Rsum_le (f g : nat -> R) l : (forall x, In x l -> f x <= g x) -> Rsum (map f l) <= Rsum (map g l).
Proof.
  induction l; simpl; intros H; [lra|].
  assert (f a <= g a) by (apply H; auto).
  assert (Rsum (map f l) <= Rsum (map g l)) by (apply IHl; auto). lra.
Qed.

Lemma Rsum_minus (f g : nat -> R) l : Rsum (map (fun x => f x - g x) l) = Rsum (map f l) - Rsum (map g l).
Proof. induction l; simpl; lra. Qed.

(** Sum of non-positive values over distinct members is at least the total. *)
Lemma Rsum_sub (g : nat -> R) l big :
  NoDup l -> incl l big -> (forall x, In x big -> g x <= 0) ->
  Rsum (map g big) <= Rsum (map g l).
Proof.
  revert l. induction big as [|a big IH]; intros l Hn Hi Hg.
  - destruct l as [|b l]; [simpl; lra|]. exfalso. apply (Hi b). simpl; auto.
  - simpl. destruct (in_dec Nat.eq_dec a l) as [Ha|Ha].
    + apply in_split in Ha. destruct Ha as (l1 & l2 & ->).
      rewrite map_app, Rsum_app. simpl.
      assert (Rsum (map g big) <= Rsum (map g (l1 ++ l2))).
      { apply IH.
        - eapply NoDup_remove_1; eauto.
        - intros x Hx. assert (x <> a). { intros ->. apply NoDup_remove_2 in Hn. auto. }
          destruct (Hi x); auto. { rewrite in_app_iff in *. simpl. tauto. } congruence.
        - intros; apply Hg; simpl; auto. }
      rewrite map_app, Rsum_app in H. lra.
    + assert (Rsum (map g big) <= Rsum (map g l)).
      { apply IH; auto.
        - intros x Hx. destruct (Hi x Hx); auto. congruence.
        - intros; apply Hg; simpl; auto. }
      assert (g a <= 0) by (apply Hg; simpl; auto). lra.
Qed.

Lemma Rsum_same (g : nat -> R) l big :
  NoDup l -> NoDup big -> incl l big -> (forall x, In x big -> ~ In x l -> g x = 0) ->
  Rsum (map g big) = Rsum (map g l).
Proof.
  revert l. induction big as [|a big IH]; intros l Hn Hb Hi Hg.
  - destruct l as [|b l]; [simpl; lra|]. exfalso. apply (Hi b). simpl; auto.
  - inversion Hb; subst. simpl. destruct (in_dec Nat.eq_dec a l) as [Ha|Ha].
    + apply in_split in Ha. destruct Ha as (l1 & l2 & ->).
      rewrite map_app, Rsum_app. simpl.
      assert (Rsum (map g big) = Rsum (map g (l1 ++ l2))).
      { apply IH; auto.
        - eapply NoDup_remove_1; eauto.
        - intros x Hx. assert (x <> a). { intros ->. apply NoDup_remove_2 in Hn. auto. }
          destruct (Hi x); auto. { rewrite in_app_iff in *. simpl. tauto. } congruence.
        - intros x Hx Hnx. apply Hg; simpl; auto. rewrite in_app_iff in *. simpl.
          intros [?|[?|?]]; subst; tauto. }
      rewrite map_app, Rsum_app in H. lra.
    + rewrite (Hg a) by (simpl; auto).
      assert (Rsum (map g big) = Rsum (map g l)); [|lra].
      apply IH; auto.
      * intros x Hx. destruct (Hi x Hx); auto. congruence.
      * intros; apply Hg; simpl; auto.
Qed.

(** The slack of any feasible assignment against a solved one, row by row. *)
Lemma solved_bound rowsol u v (s sg : nat -> nat) :
  solved rowsol u v -> (forall i, (i < n)%nat -> nth i rowsol None = Some (s i)) ->
  feas n m C sg ->
  (forall i, (i < n)%nat -> rc m C v i (s i) <= rc m C v i (sg i)) /\
  Rsum (map (fun i => rc m C v i (sg i) - rc m C v i (s i)) (seq 0 n)) <=
  Rsum (map (fun i => cr m C i (sg i)) (seq 0 n)) - Rsum (map (fun i => cr m C i (s i)) (seq 0 n)).
Proof.
  intros [(cs & Hcore & Hall) _ _] Hs Hsg.
  pose proof (co_v _ _ _ _ _ _ Hcore) as Hv.
  assert (Hsol : forall i, (i < n)%nat -> (s i < m)%nat /\ nth (s i) cs None = Some i).
  { intros i Hi. destruct (Hall i Hi) as (j & Hj & Ej).
    destruct (co_a1 _ _ _ _ _ _ Hcore _ _ Hj Ej) as [_ E].
    rewrite Hs in E by auto. inversion E; subst; auto. }
  pose proof Hsg as [Hsg1 Hsg2].
  assert (Hrow : forall i, (i < n)%nat -> rc m C v i (s i) <= rc m C v i (sg i)).
  { intros i Hi. destruct (Hsol i Hi) as [Hj Ej]. destruct (Hsg1 i Hi) as [Hk Hfk].
    pose proof (co_pair _ _ _ _ _ _ Hcore _ _ Hj Ej) as P.
    destruct (lk v (s i)) eqn:El.
    - rewrite (po_forced _ _ _ _ _ _ P El sg Hsg). lra.
    - apply (po_min _ _ _ _ _ _ P El); auto. unfold av. rewrite Hfk. simpl.
      destruct (lk v (sg i)) eqn:El'; auto. exfalso.
      destruct (locked_assigned n m C _ _ _ _ Hcore Hk El') as [i' Ei'].
      pose proof (co_pair _ _ _ _ _ _ Hcore _ _ Hk Ei') as P'.
      assert (sg i' = sg i) by (apply (po_forced _ _ _ _ _ _ P'); auto).
      destruct (co_a1 _ _ _ _ _ _ Hcore _ _ Hk Ei') as [Hi' _].
      assert (i' = i) by (apply Hsg2; auto). subst i'.
      assert (s i = sg i) by (eapply core_inj; eauto). congruence. }
  split; auto.
  (* column prices: the solution uses every non-zero price *)
  assert (Hnd : forall s : nat -> nat, (forall i i', (i < n)%nat -> (i' < n)%nat -> s i = s i' -> i = i') -> NoDup (map s (seq 0 n))).
  { intros s' H. apply (NoDup_nth _ (s' 0%nat)). intros p q Hp Hq E. rewrite map_length, seq_length in *.
    rewrite !map_nth, !seq_nth in E by auto. apply H; auto. }
  assert (Hsinj : forall i i', (i < n)%nat -> (i' < n)%nat -> s i = s i' -> i = i').
  { intros i i' Hi Hi' E. destruct (Hsol i Hi) as [_ A]. destruct (Hsol i' Hi') as [_ B]. congruence. }
  assert (H1 : Rsum (map (vr v) (seq 0 m)) <= Rsum (map (vr v) (map sg (seq 0 n)))).
  { apply Rsum_sub.
    - apply Hnd; auto.
    - intros x Hx. apply in_map_iff in Hx. destruct Hx as (i & <- & Hi). apply in_seq in Hi.
      apply in_seq. destruct (Hsg1 i); lia.
    - intros x Hx. apply in_seq in Hx. destruct (v_cases m v x Hv) as [(_ & _ & ?)|(_ & _ & ->)]; auto; try lra; lia. }
  assert (H2 : Rsum (map (vr v) (seq 0 m)) = Rsum (map (vr v) (map s (seq 0 n)))).
  { apply Rsum_same.
    - apply Hnd; auto.
    - apply seq_NoDup.
    - intros x Hx. apply in_map_iff in Hx. destruct Hx as (i & <- & Hi). apply in_seq in Hi.
      apply in_seq. destruct (Hsol i); lia.
    - intros x Hx Hnx. apply in_seq in Hx.
      destruct (nth x cs None) as [i|] eqn:E.
      + exfalso. apply Hnx. destruct (co_a1 _ _ _ _ _ _ Hcore x i) as [Hi Er]; auto; [lia|].
        rewrite Hs in Er by auto. inversion Er. apply in_map_iff. exists i. split; auto. apply in_seq; lia.
      + pose proof (co_a3 _ _ _ _ _ _ Hcore x) as E0. unfold vr. rewrite E0; auto; lia. }
  rewrite !map_map in *. unfold rc.
  rewrite (Rsum_minus (fun i => cr m C i (sg i) - vr v (sg i)) (fun i => cr m C i (s i) - vr v (s i))).
  rewrite (Rsum_minus (fun i => cr m C i (sg i)) (fun i => vr v (sg i))).
  rewrite (Rsum_minus (fun i => cr m C i (s i)) (fun i => vr v (s i))).
  lra.
Qed.

Lemma Rsum_nonneg (f : nat -> R) l : (forall x, In x l -> 0 <= f x) -> 0 <= Rsum (map f l).
Proof.
  induction l; simpl; intros H; [lra|].
  assert (0 <= f a) by auto. assert (0 <= Rsum (map f l)) by auto. lra.
Qed.

Lemma Rsum_one (f : nat -> R) l x : (forall x, In x l -> 0 <= f x) -> In x l -> f x <= Rsum (map f l).
Proof.
  induction l; simpl; intros H; [tauto|]. intros [->|Hx].
  - assert (0 <= Rsum (map f l)) by (apply Rsum_nonneg; auto). lra.
  - assert (0 <= f a) by auto. assert (f x <= Rsum (map f l)) by auto. lra.
Qed.
End Rlap.

(** * Hall's check *)
Section HallCheck.
Variable C : matrix (ext R).
Hypothesis HC : cost_matrix C.
Let rows := m_rows C.
Let cols := m_cols C.

Definition efin (i j : nat) : bool :=
  match entry NaN C i j with Fin _ => true | _ => false end.

Lemma data_index i j : (i < rows)%nat -> (j < cols)%nat ->
  (match m_ord C with RowMajor => i * m_cols C + j | ColMajor => j * m_rows C + i end < length (m_data C))%nat.
Proof.
  intros Hi Hj. destruct HC as [Hl _]. rewrite Hl. destruct (m_ord C).
  - apply index_lt; auto.
  - rewrite (Nat.mul_comm (m_rows C) (m_cols C)). apply index_lt; auto.
Qed.

Lemma at_entry i j : (i < rows)%nat -> (j < cols)%nat -> at_ C i j = Ok (entry NaN C i j).
Proof.
  intros Hi Hj. unfold at_. fold rows cols.
  apply Nat.ltb_lt in Hi as Hi'. apply Nat.ltb_lt in Hj as Hj'. rewrite Hi', Hj'. simpl.
  apply get_ok. apply data_index; auto.
Qed.

Lemma entry_cases i j : (i < rows)%nat -> (j < cols)%nat ->
  (is_fin (entry NaN C i j) /\ efin i j = true) \/ (entry NaN C i j = PInf /\ efin i j = false).
Proof.
  intros Hi Hj. destruct HC as [_ Hv].
  assert (In (entry NaN C i j) (m_data C)) as Hin by (apply nth_In, data_index; auto).
  unfold efin. destruct (Hv _ Hin) as [[r E]|E]; rewrite E; auto. left. split; auto. exists r; auto.
Qed.

Lemma notinf_efin i j : (i < rows)%nat -> (j < cols)%nat ->
  negb (nisinf extR (entry NaN C i j)) = efin i j.
Proof.
  intros Hi Hj. destruct (entry_cases i j Hi Hj) as [[[r ->] ->]|[-> ->]]; auto.
Qed.

Hypothesis Hrows : (rows <= 31)%nat.

(** Is column [col] adjacent to the rows in the bit set [n]? *)
Definition adj (n col : nat) : bool :=
  existsb (fun row => Nat.testbit n row && efin row col) (seq 0 rows).

Lemma hall_col_spec F n popsize col nb : (col < cols)%nat -> (nb < popsize)%nat ->
  wp F (hall_col extR C n popsize col nb)
    (fun s => s = if adj n col then (S nb, (S nb =? popsize)%nat) else (nb, false)).
Proof.
  intros Hcol Hnb. unfold hall_col. fold rows.
  eapply wp_conseq.
  { apply (wp_for_break F rows 0 _
      (fun k s => s = (nb, false) /\ existsb (fun row => Nat.testbit n row && efin row col) (seq 0 k) = false)
      (fun s => adj n col = true /\ s = (S nb, (S nb =? popsize)%nat))).
    - split; auto.
    - intros k s Hk [-> Hno]. unfold bit_of.
      destruct (Nat.leb_spec 32 k); [lia|]. cbn [bind].
      destruct (Nat.eqb_spec k 31); [lia|].
      destruct (Nat.testbit n k) eqn:Eb.
      + rewrite at_entry by (unfold rows in *; auto; lia). cbn [bind].
        rewrite notinf_efin by (unfold rows in *; auto; lia).
        destruct (efin k col) eqn:Ef.
        * assert (adj n col = true) as Ha.
          { apply existsb_exists. exists k. rewrite Eb, Ef. split; auto. apply in_seq; lia. }
          cbv zeta. destruct (Nat.ltb_spec (S nb) popsize).
          -- apply wp_ret. cbn [fst snd]. split; auto. destruct (Nat.eqb_spec (S nb) popsize); auto; lia.
          -- destruct (Nat.eqb_spec (S nb) popsize); [|lia].
             apply wp_ret. cbn [fst snd]. split; auto.
        * apply wp_ret. cbn [fst snd]. split; auto. rewrite seq_S, existsb_app, Hno. simpl.
          rewrite Ef, andb_false_r. auto.
      + apply wp_ret. cbn [fst snd]. split; auto. rewrite seq_S, existsb_app, Hno. simpl.
        rewrite Eb. auto. }
  intros s [[Ha ->]|[-> Hno]].
  - rewrite Ha. auto.
  - unfold adj. simpl in Hno. rewrite Hno. auto.
Qed.

Definition nadj (n k : nat) : nat := length (filter (adj n) (seq 0 k)).

Lemma nadj_S n k : nadj n (S k) = (nadj n k + if adj n k then 1 else 0)%nat.
Proof.
  unfold nadj. rewrite seq_S, filter_app, app_length. simpl. destruct (adj n k); auto.
Qed.

Lemma nadj_mono n k k' : (k <= k')%nat -> (nadj n k <= nadj n k')%nat.
Proof. induction 1; auto. rewrite nadj_S. lia. Qed.

Lemma hall_subset_spec F n : (0 < popcount n)%nat ->
  wp F (hall_subset extR C n) (fun b => b = (popcount n <=? nadj n cols)%nat).
Proof.
  intros Hpop. unfold hall_subset. apply wp_bind. eapply wp_conseq.
  { apply (wp_for_break F (m_cols C) 0 _
      (fun k (s : nat * bool) => s = (nadj n k, false) /\ (nadj n k < popcount n)%nat)
      (fun s => snd s = true /\ (popcount n <= nadj n cols)%nat)).
    - split; auto.
    - intros k s Hk [-> Hlt]. simpl fst. apply wp_bind.
      eapply wp_conseq; [apply (hall_col_spec F n (popcount n) k); auto; apply Hk|].
      intros s ->. apply wp_ret. cbn [fst snd].
      pose proof (nadj_S n k) as ES.
      destruct (adj n k); cbn [fst snd].
      + destruct (Nat.eqb_spec (S (nadj n k)) (popcount n)) as [E|Hne].
        * split; auto.
          assert (nadj n (S k) <= nadj n cols)%nat by (apply nadj_mono; unfold cols; lia). lia.
        * rewrite ES. rewrite Nat.add_1_r. split; [auto|lia].
      + rewrite ES, Nat.add_0_r. split; auto. }
  intros s [[Hs Hle]|[-> Hlt]].
  - apply wp_ret. rewrite Hs. symmetry. apply Nat.leb_le. auto.
  - apply wp_ret. cbn [snd]. symmetry. apply Nat.leb_gt. exact Hlt.
Qed.

(** Bit sets of rows. *)
Lemma testbit_high n k : (n < 2 ^ k)%nat -> forall i, (k <= i)%nat -> Nat.testbit n i = false.
Proof.
  intros Hn i Hi. destruct (Nat.eq_dec n 0) as [->|Hz]; [apply Nat.bits_0|].
  apply Nat.bits_above_log2. apply Nat.log2_lt_pow2; [lia|].
  eapply Nat.lt_le_trans; [exact Hn|]. apply Nat.pow_le_mono_r; lia.
Qed.

Lemma bound_of_bits n k : (forall i, Nat.testbit n i = true -> (i < k)%nat) -> (n < 2 ^ k)%nat.
Proof.
  intros H. destruct (Nat.eq_dec n 0) as [->|Hz].
  - assert (2 ^ k <> 0)%nat by (apply Nat.pow_nonzero; lia). lia.
  - apply Nat.log2_lt_pow2; [lia|]. apply H. apply Nat.bit_log2; auto.
Qed.

Definition bits_of (n : nat) : list nat := filter (Nat.testbit n) (seq 0 31).

Lemma popcount_bits n : popcount n = length (bits_of n).
Proof. unfold popcount, bits_of. generalize (seq 0 31). reflexivity. Qed.

Lemma bits_in n x : In x (bits_of n) <-> (x < 31)%nat /\ Nat.testbit n x = true.
Proof. unfold bits_of. rewrite filter_In, in_seq. intuition lia. Qed.

Lemma bits_nodup n : NoDup (bits_of n).
Proof. apply NoDup_filter, seq_NoDup. Qed.
Local Opaque bits_of popcount.

Lemma pop_pos n : (0 < n < 2 ^ rows)%nat -> (0 < popcount n)%nat.
Proof.
  intros Hn. assert (In (Nat.log2 n) (bits_of n)) as Hin.
  { apply bits_in. split; [|apply Nat.bit_log2; lia].
    assert (Nat.log2 n < rows)%nat by (apply Nat.log2_lt_pow2; lia). lia. }
  rewrite popcount_bits.
  destruct (bits_of n); [destruct Hin|simpl; lia].
Qed.

Definition mask (S : list nat) : nat := fold_right (fun i a => Nat.setbit a i) 0%nat S.

Lemma mask_bit S i : Nat.testbit (mask S) i = true <-> In i S.
Proof.
  induction S as [|a S IH]; cbn [mask fold_right].
  - rewrite Nat.bits_0. split; [discriminate|intros []].
  - rewrite Nat.setbit_eqb, orb_true_iff, Nat.eqb_eq. cbn [In]. fold (mask S). tauto.
Qed.

Lemma mask_pop S : NoDup S -> (forall i, In i S -> (i < rows)%nat) -> popcount (mask S) = length S.
Proof.
  intros Hn Hb. rewrite popcount_bits.
  assert (Hin : forall x, In x (bits_of (mask S)) <-> In x S).
  { intros x. rewrite bits_in, mask_bit. split; [tauto|].
    intros H. specialize (Hb x H). split; auto; lia. }
  pose proof (bits_nodup (mask S)).
  apply Nat.le_antisymm; apply NoDup_incl_length; auto; intros x Hx; apply Hin; auto.
Qed.

(** All subsets have enough neighbours. *)
Definition subsets_ok : Prop :=
  forall n, (0 < n < 2 ^ rows)%nat -> (popcount n <= nadj n cols)%nat.

Definition hall_loop : res bool :=
  for_break (2 ^ (Nat.min (m_rows C) 31) - 1) 1
    (fun n (_ : bool) =>
       b <- hall_subset extR C n;;
       Ok (b, negb b))
    true.

Lemma hall_loop_spec F :
  wp F hall_loop (fun b => b = true <-> subsets_ok).
Proof.
  unfold hall_loop. fold rows.
  assert (Hmin : Nat.min rows 31 = rows) by lia. rewrite Hmin.
  assert (Hpow : (2 ^ rows <> 0)%nat) by (apply Nat.pow_nonzero; lia).
  eapply wp_conseq.
  { apply (wp_for_break F (2 ^ rows - 1) 1 _
      (fun k b => b = true /\ forall n, (0 < n < k)%nat -> (popcount n <= nadj n cols)%nat)
      (fun b => b = false /\ exists n, (0 < n < 2 ^ rows)%nat /\ (nadj n cols < popcount n)%nat)).
    - split; auto. intros; lia.
    - intros k b Hk [-> Hall]. apply wp_bind.
      assert (0 < k < 2 ^ rows)%nat by lia.
      eapply wp_conseq; [apply hall_subset_spec, pop_pos; auto|].
      intros b ->. apply wp_ret. cbn [fst snd].
      destruct (Nat.leb_spec (popcount k) (nadj k cols)); cbn [negb].
      + split; auto. intros n Hn. destruct (Nat.eq_dec n k) as [->|]; auto. apply Hall; lia.
      + split; eauto. }
  intros b [[-> (n & Hn & Hlt)]|[-> Hall]].
  - split; [discriminate|]. intros H. specialize (H n Hn). lia.
  - split; auto. intros _ n Hn. apply Hall. lia.
Qed.

Lemma hall_check_loop : hall_check extR C =
  (ok <- hall_loop;; if ok then if (31 <=? m_rows C)%nat then UB else Ok true else Ok false).
Proof. reflexivity. Qed.

Lemma hall_check_spec F : (rows <= 30)%nat ->
  wp F (hall_check extR C) (fun b => b = true <-> subsets_ok).
Proof.
  intros H30. rewrite hall_check_loop. apply wp_bind. eapply wp_conseq; [apply hall_loop_spec|].
  intros b Hb. fold rows. destruct (Nat.leb_spec 31 rows); [lia|].
  destruct b; apply wp_ret; auto.
Qed.

Lemma hall_check_31 : rows = 31%nat -> subsets_ok -> hall_check extR C = UB.
Proof.
  intros H31 Hok. rewrite hall_check_loop.
  pose proof (hall_loop_spec False) as X.
  destruct hall_loop as [b| |]; simpl in X; try tauto.
  replace b with true by (symmetry; tauto). cbn [bind]. fold rows.
  destruct (Nat.leb_spec 31 rows); [auto|lia].
Qed.

Lemma subsets_hall : subsets_ok -> forall (S L : list nat), NoDup S ->
  (forall i, In i S -> (i < rows)%nat) ->
  (forall i j, In i S -> (j < cols)%nat -> efin i j = true -> In j L) ->
  (length S <= length L)%nat.
Proof.
  intros H S L Hn Hb HL. destruct S as [|a S]; [simpl; lia|].
  set (SS := a :: S) in *.
  assert (Hm : (0 < mask SS < 2 ^ rows)%nat).
  { split.
    - destruct (Nat.eq_dec (mask SS) 0) as [E|]; [|lia]. exfalso.
      assert (Nat.testbit (mask SS) a = true) by (apply mask_bit; simpl; auto).
      rewrite E, Nat.bits_0 in H0. discriminate.
    - apply bound_of_bits. intros i Hi. apply Hb, mask_bit; auto. }
  specialize (H _ Hm). rewrite mask_pop in H by auto.
  eapply Nat.le_trans; [exact H|]. unfold nadj.
  apply NoDup_incl_length; [apply NoDup_filter, seq_NoDup|].
  intros j Hj. apply filter_In in Hj. destruct Hj as [Hj Ha]. apply in_seq in Hj.
  apply existsb_exists in Ha. destruct Ha as (i & Hi & Ha). apply andb_true_iff in Ha.
  destruct Ha as [Hbit Hf]. apply (HL i j); auto; [apply mask_bit; auto|lia].
Qed.

Lemma feasible_subsets s : feasible C s -> subsets_ok.
Proof.
  intros [(Hl & Hnd & Hlt) Hf] n Hn. fold rows in Hl.
  assert (Hb : forall i, In i (bits_of n) -> (i < rows)%nat).
  { intros i Hi. apply bits_in in Hi. destruct Hi as [_ Hi].
    destruct (Nat.lt_ge_cases i rows); auto. rewrite (testbit_high n rows) in Hi by (auto; lia). discriminate. }
  rewrite popcount_bits.
  rewrite <- (map_length (fun i => nth i s 0%nat)). unfold nadj.
  apply NoDup_incl_length.
  - pose proof (bits_nodup n) as Hnb.
    revert Hb Hnb. generalize (bits_of n). intros l. induction l as [|a l IH]; intros Hb Hnb; simpl; [constructor|].
    inversion Hnb; subst. constructor; [|apply IH; auto; intros; apply Hb; simpl; auto].
    intros Hin. apply in_map_iff in Hin. destruct Hin as (i & E & Hi).
    assert (i = a). { apply (proj1 (NoDup_nth s 0%nat) Hnd); auto; rewrite Hl; apply Hb; simpl; auto. }
    subst; auto.
  - intros j Hj. apply in_map_iff in Hj. destruct Hj as (i & <- & Hi).
    pose proof (Hb i Hi) as Hir. apply bits_in in Hi. destruct Hi as [_ Hbit].
    assert (Hjc : (nth i s 0 < cols)%nat) by (apply Hlt, nth_In; lia).
    apply filter_In. split; [apply in_seq; lia|].
    apply existsb_exists. exists i. split; [apply in_seq; lia|].
    rewrite Hbit. simpl. destruct (Hf i Hir) as [r E]. unfold efin. rewrite E. auto.
Qed.
End HallCheck.

(** * lap *)
Section LapMain.
Variable C : matrix (ext R).
Hypothesis HC : cost_matrix C.
Hypothesis Hrows : (m_rows C <= 30)%nat.
Hypothesis Hord : m_ord C = RowMajor.
Let n := m_rows C.
Let m := m_cols C.
Let D := m_data C.
Let Hrows' : (m_rows C <= 31)%nat.
Proof. lia. Qed.

Lemma wfD : wfC n m D.
Proof.
  destruct HC as [Hl Hv]. split; auto.
Qed.

Lemma c_entry i j : c m D i j = entry NaN C i j.
Proof. unfold c, entry. rewrite Hord. auto. Qed.

Lemma cr_entry i j : cr m D i j = val (entry NaN C i j).
Proof. unfold cr, val. rewrite c_entry. auto. Qed.

Lemma finb_efin i j : finb m D i j = efin C i j.
Proof. unfold finb, efin. rewrite c_entry. auto. Qed.

Lemma finb_is i j : finb m D i j = true <-> is_fin (entry NaN C i j).
Proof.
  rewrite finb_efin. unfold efin, is_fin. destruct (entry NaN C i j); split; intros H; try discriminate; eauto.
  all: destruct H; discriminate.
Qed.

Lemma subsets_hall' : subsets_ok C -> hall n m D.
Proof.
  intros H S L Hn Hb HL. eapply (subsets_hall C Hrows' H); eauto.
  intros i j Hi Hj Hf. apply (HL i j); auto. rewrite finb_efin; auto.
Qed.

Lemma feasible_feas s : feasible C s -> feas n m D (fun i => nth i s 0%nat).
Proof.
  intros [(Hl & Hnd & Hlt) Hf]. split.
  - intros i Hi. split; [apply Hlt, nth_In; lia|]. apply finb_is. apply Hf. auto.
  - intros i i' Hi Hi' E. eapply NoDup_nth; eauto; lia.
Qed.

(** The result of a successful run. *)
Record lap_good (r : lap_result (T := ext R)) (s : list nat) : Prop := {
  lg_ok : l_ok r = true;
  lg_sol : l_rowsol r = map Some s;
  lg_feas : feasible C s;
  lg_solved : solved n m D (l_rowsol r) (l_u r) (l_v r) }.

Lemma solved_list rowsol u v : solved n m D rowsol u v ->
  exists s, rowsol = map Some s /\ feasible C s.
Proof.
  intros [(cs & Hcore & Hall) _ _].
  pose proof (co_lr _ _ _ _ _ _ Hcore) as Hlr.
  assert (Hex : forall i, (i < n)%nat -> exists j, nth i rowsol None = Some j /\ (j < m)%nat /\ nth j cs None = Some i).
  { intros i Hi. destruct (Hall i Hi) as (j & Hj & Ej). exists j.
    destruct (co_a1 _ _ _ _ _ _ Hcore _ _ Hj Ej). auto. }
  set (s := map (fun o => match o with Some j => j | None => 0%nat end) rowsol).
  assert (Hn : forall i, (i < n)%nat -> nth i rowsol None = Some (nth i s 0%nat)).
  { intros i Hi. destruct (Hex i Hi) as (j & E & _). rewrite E. f_equal. unfold s.
    symmetry. etransitivity; [exact (map_nth _ rowsol None i)|]. rewrite E. auto. }
  assert (Hls : length s = n) by (unfold s; rewrite map_length; auto).
  exists s. split; [|split; [split; [auto|split]|]].
  - apply nth_ext with (d := None) (d' := Some 0%nat); [rewrite map_length; congruence|].
    intros i Hi. rewrite Hn by lia. rewrite map_nth. auto.
  - apply (NoDup_nth _ 0%nat). intros p q Hp Hq E.
    destruct (Hex p) as (j & E1 & _ & E2); [lia|]. destruct (Hex q) as (j' & E1' & _ & E2'); [lia|].
    rewrite Hn in E1, E1' by lia. congruence.
  - intros j Hj. apply (In_nth _ _ 0%nat) in Hj. destruct Hj as (i & Hi & E).
    destruct (Hex i) as (j' & E1 & Hj' & _); [lia|]. rewrite Hn in E1 by lia.
    assert (j = j') by congruence. subst. auto.
  - intros i Hi. destruct (Hex i) as (j & E1 & Hj & E2); auto.
    rewrite Hn in E1 by auto. inversion E1 as [E]. rewrite E in *.
    apply finb_is. apply (po_fin _ _ _ _ _ _ (co_pair _ _ _ _ _ _ Hcore _ _ Hj E2)).
Qed.

Lemma lap_spec simd fuel :
  wp True (lap_build extR simd fuel C)
    (fun r => (exists s, lap_good r s) \/
              (l_ok r = false /\ (forall s, ~ feasible C s) /\ length (l_rowsol r) = n)).
Proof.
  unfold lap_build. apply wp_bind. eapply wp_conseq; [apply (hall_check_spec C HC Hrows' _ Hrows)|].
  intros [|] Hb.
  - apply wp_bind. eapply wp_conseq.
    { apply (rlap_spec n m D wfD). apply subsets_hall'. apply Hb; auto. }
    intros [[[[rowsol colsol] u] v] cst] Hs. apply wp_ret. left.
    destruct (solved_list _ _ _ Hs) as (s & E & Hf). exists s. constructor; simpl; auto.
    rewrite E. apply forallb_forall. intros x Hx. apply in_map_iff in Hx. destruct Hx as (? & <- & _). auto.
  - apply wp_ret. right. simpl. split; auto. split; [|apply repeat_length].
    intros s Hf. apply (feasible_subsets C Hrows') in Hf. apply Hb in Hf. discriminate.
Qed.

Lemma lap_total simd : exists fuel0 r, forall fuel, (fuel0 <= fuel)%nat -> lap_build extR simd fuel C = Ok r.
Proof.
  pose proof (hall_check_spec C HC Hrows' False Hrows) as X.
  destruct (hall_check extR C) as [[|]| |] eqn:E; simpl in X; try tauto.
  - destruct (rlap_total n m D wfD) with (simd := simd) as (fuel0 & r & H); [apply subsets_hall'; tauto|].
    destruct r as [[[[rowsol colsol] u] v] cst].
    eexists fuel0, _. intros fuel Hf. unfold lap_build. rewrite E. cbn [bind].
    fold n m D. rewrite H by auto. cbn [bind]. reflexivity.
  - eexists 0%nat, _. intros fuel _. unfold lap_build. rewrite E. cbn [bind]. reflexivity.
Qed.

Lemma sum_total s : Rsum (map (fun i => cr m D i (nth i s 0%nat)) (seq 0 n)) = total C s.
Proof. unfold total. fold n. f_equal. apply map_ext. intros i. apply cr_entry. Qed.

Lemma lap_good_opt r s s' : lap_good r s -> feasible C s' ->
  (forall i, (i < n)%nat -> rc m D (l_v r) i (nth i s 0%nat) <= rc m D (l_v r) i (nth i s' 0%nat)) /\
  Rsum (map (fun i => rc m D (l_v r) i (nth i s' 0%nat) - rc m D (l_v r) i (nth i s 0%nat)) (seq 0 n))
    <= total C s' - total C s.
Proof.
  intros [_ Hsol Hf Hs] Hf'.
  destruct (solved_bound n m D _ _ _ (fun i => nth i s 0%nat) (fun i => nth i s' 0%nat) Hs) as [A B].
  - intros i Hi. rewrite Hsol. destruct Hf as [(Hl & _) _].
    rewrite nth_indep with (d' := Some 0%nat) by (rewrite map_length, Hl; auto). apply map_nth.
  - apply feasible_feas; auto.
  - split; auto. rewrite !sum_total in B. exact B.
Qed.

Lemma lap_optimal r s : lap_good r s -> optimal C s.
Proof.
  intros Hg. split; [apply Hg|]. intros s' Hf'.
  destruct (lap_good_opt r s s' Hg Hf') as [A B].
  assert (0 <= Rsum (map (fun i => rc m D (l_v r) i (nth i s' 0%nat) - rc m D (l_v r) i (nth i s 0%nat)) (seq 0 n))).
  { apply Rsum_nonneg. intros i Hi. apply in_seq in Hi. specialize (A i). lapply A; [lra|lia]. }
  lra.
Qed.

(** The dual variables. *)
Lemma lap_duals r s : lap_good r s ->
  length (l_u r) = n /\ length (l_v r) = m /\
  (forall j, (j < m)%nat -> nth j (l_v r) NaN = NInf \/ exists x, nth j (l_v r) NaN = Fin x /\ x <= 0) /\
  (forall j, (j < m)%nat -> ~ In j s -> nth j (l_v r) NaN = Fin 0) /\
  (forall i, (i < n)%nat ->
     (exists x, nth i (l_u r) NaN = Fin x /\
        nsub extR (nsub extR (entry NaN C i (nth i s 0%nat)) (nth (nth i s 0%nat) (l_v r) NaN)) (Fin x) = Fin 0 /\
        forall j, (j < m)%nat ->
          nle extR (Fin 0) (nsub extR (nsub extR (entry NaN C i j) (nth j (l_v r) NaN)) (Fin x)) = true)
     \/ (nth i (l_u r) NaN = PInf /\ forall s', feasible C s' -> nth i s' 0%nat = nth i s 0%nat)).
Proof.
  intros [_ Hsol Hf [(cs & Hcore & Hall) Hlu Hu]].
  pose proof (co_v _ _ _ _ _ _ Hcore) as Hv.
  destruct (proj1 Hf) as (Hls & _ & Hlt).
  assert (Hs : forall i, (i < n)%nat -> nth i (l_rowsol r) None = Some (nth i s 0%nat)).
  { intros i Hi. rewrite Hsol.
    rewrite nth_indep with (d' := Some 0%nat) by (rewrite map_length, Hls; auto). apply map_nth. }
  split; auto. split; [apply Hv|]. split; [apply Hv|]. split.
  - intros j Hj Hnin. destruct (nth j cs None) as [i|] eqn:E.
    + exfalso. apply Hnin. destruct (co_a1 _ _ _ _ _ _ Hcore _ _ Hj E) as [Hi Er].
      rewrite Hs in Er by auto. inversion Er. apply nth_In. fold n in Hls. lia.
    + apply (co_a3 _ _ _ _ _ _ Hcore); auto.
  - intros i Hi. set (j := nth i s 0%nat).
    assert (Hj : (j < m)%nat) by (apply Hlt, nth_In; fold n in Hls; lia).
    assert (Ej : nth j cs None = Some i).
    { destruct (Hall i Hi) as (j' & Hj' & E'). destruct (co_a1 _ _ _ _ _ _ Hcore _ _ Hj' E') as [_ Er].
      rewrite Hs in Er by auto. inversion Er. subst j'. exact E'. }
    pose proof (co_pair _ _ _ _ _ _ Hcore _ _ Hj Ej) as P.
    rewrite (Hu i j) by (auto; apply Hs; auto).
    assert (Hh : forall k, (k < m)%nat -> nsub extR (entry NaN C i k) (nth k (l_v r) NaN) = hh m D (l_v r) i k).
    { intros k Hk. rewrite <- c_entry. apply (h_val n m D wfD); auto. }
    rewrite (c_entry i j). rewrite (Hh j Hj). unfold hh at 1. unfold av. rewrite (po_fin _ _ _ _ _ _ P). simpl andb.
    destruct (lk (l_v r) j) eqn:El; simpl negb; cbv iota.
    + right. split.
      * unfold hh, av. rewrite El, andb_false_r. auto.
      * intros s' Hs'. apply (po_forced _ _ _ _ _ _ P El _ (feasible_feas s' Hs')).
    + left. exists (rc m D (l_v r) i j).
      assert (Ea : av m D (l_v r) i j = true) by (unfold av; rewrite (po_fin _ _ _ _ _ _ P), El; auto).
      unfold hh at 1. rewrite Ea. split; auto. split.
      * rewrite sub_FF. f_equal. lra.
      * intros k Hk. rewrite (Hh k Hk). unfold hh. destruct (av m D (l_v r) i k) eqn:Eak; auto.
        rewrite sub_FF, le_FF. apply (po_min _ _ _ _ _ _ P El) in Eak; auto.
        destruct (Rleb_spec 0 (rc m D (l_v r) i k - rc m D (l_v r) i j)); auto; lra.
Qed.
End LapMain.

(** 31 rows: the subset counter overflows. *)
Lemma lap_31 simd C fuel s : cost_matrix C -> m_rows C = 31%nat -> feasible C s -> lap_build extR simd fuel C = UB.
Proof.
  intros HC H31 Hf. unfold lap_build.
  assert (H : (m_rows C <= 31)%nat) by lia.
  rewrite (hall_check_31 C HC H H31 (feasible_subsets C H s Hf)). reflexivity.
Qed.

(** * Statements used for the property theorems *)
Section Final.
Variable C : matrix (ext R).
Hypothesis HC : cost_matrix C.
Hypothesis Hrows : (m_rows C <= 30)%nat.
Hypothesis Hord : m_ord C = RowMajor.

Lemma lap_result_cases simd fuel r : lap_build extR simd fuel C = Ok r ->
  (exists s, lap_good C r s) \/
  (l_ok r = false /\ (forall s, ~ feasible C s) /\ length (l_rowsol r) = m_rows C).
Proof.
  intros E. pose proof (lap_spec C HC Hrows Hord simd fuel) as X. rewrite E in X. exact X.
Qed.

Lemma lap_decides simd fuel r : lap_build extR simd fuel C = Ok r -> (l_ok r = true <-> exists s, feasible C s).
Proof.
  intros E. destruct (lap_result_cases _ _ _ E) as [(s & H)|(H1 & H2 & _)].
  - split; [intros _; exists s; apply H|intros _; apply H].
  - rewrite H1. split; [discriminate|]. intros (s & Hs). elim (H2 s Hs).
Qed.

Lemma lap_is_optimal simd fuel r : lap_build extR simd fuel C = Ok r -> l_ok r = true ->
  exists s, l_rowsol r = map Some s /\ optimal C s.
Proof.
  intros E Hok. destruct (lap_result_cases _ _ _ E) as [(s & H)|(H1 & _)]; [|congruence].
  exists s. split; [apply H|]. eapply lap_optimal; eauto.
Qed.

Lemma lap_dual_certificate simd fuel r s : lap_build extR simd fuel C = Ok r -> l_ok r = true -> l_rowsol r = map Some s ->
  length (l_u r) = m_rows C /\ length (l_v r) = m_cols C /\
  (forall j, (j < m_cols C)%nat ->
     nth j (l_v r) NaN = NInf \/ exists x, nth j (l_v r) NaN = Fin x /\ x <= 0) /\
  (forall j, (j < m_cols C)%nat -> ~ In j s -> nth j (l_v r) NaN = Fin 0) /\
  (forall i, (i < m_rows C)%nat ->
     (exists x, nth i (l_u r) NaN = Fin x /\
        nsub extR (nsub extR (entry NaN C i (nth i s 0%nat)) (nth (nth i s 0%nat) (l_v r) NaN)) (Fin x) = Fin 0 /\
        forall j, (j < m_cols C)%nat ->
          nle extR (Fin 0) (nsub extR (nsub extR (entry NaN C i j) (nth j (l_v r) NaN)) (Fin x)) = true)
     \/ (nth i (l_u r) NaN = PInf /\ forall s', feasible C s' -> nth i s' 0%nat = nth i s 0%nat)).
Proof.
  intros E Hok Es. destruct (lap_result_cases _ _ _ E) as [(s' & H)|(H1 & _)]; [|congruence].
  assert (s' = s).
  { pose proof (lg_sol _ _ _ H) as E'. rewrite Es in E'. clear -E'. revert s' E'.
    induction s as [|a s IH]; intros [|b s'] E'; try discriminate; auto.
    simpl in E'. inversion E'. f_equal; auto. }
  subst s'. eapply lap_duals; eauto.
Qed.

Lemma lap_safe simd fuel : lap_build extR simd fuel C <> UB.
Proof. intros E. pose proof (lap_spec C HC Hrows Hord simd fuel) as X. rewrite E in X. exact X. Qed.
End Final.
