(** The solver [lap] with rounding arithmetic: how far from the least total cost
    the assignment it returns can be. *)
From Coq Require Import List Arith ZArith Bool Reals Lra Lia.
Import ListNotations.
From Flocq Require Import Core BinarySingleNaN.
From Coq Require Import Floats.
From Verif Require Import Res Scalar Lap LapSpec LapBase LapArr LapDij LapTerm LapMain.
From Verif Require Import FloatBase FloatExt LapHom LapRnd LapRndArr LapRndDij LapErrDij LapFloatMain.
Local Open Scope R_scope.

(** The slack after [t] searches. *)
Fixpoint epsn (n : nat) (dl : R) (t : nat) : R :=
  match t with 0%nat => 6 * dl | S t => eps' n dl (epsn n dl t) end.

Lemma epsn_pos n dl t : 0 <= dl -> 0 <= epsn n dl t.
Proof.
  intros Hd. pose proof (pos_INR n). induction t; cbn [epsn]; [lra|]. unfold eps', eta.
  assert (0 <= INR n * (epsn n dl t + 4 * dl)) by (apply Rmult_le_pos; lra). lra.
Qed.
Lemma epsn_S n dl t : 0 <= dl -> epsn n dl t <= epsn n dl (S t).
Proof.
  intros Hd. pose proof (pos_INR n). pose proof (epsn_pos n dl t Hd). cbn [epsn]. unfold eps', eta.
  assert (0 <= INR n * (epsn n dl t + 4 * dl)) by (apply Rmult_le_pos; lra). lra.
Qed.
Lemma epsn_mono n dl t t' : 0 <= dl -> (t <= t')%nat -> epsn n dl t <= epsn n dl t'.
Proof.
  intros Hd. induction 1; [lra|]. eapply Rle_trans; [exact IHle|apply epsn_S; auto].
Qed.
Lemma epsn_bound n dl t : 0 <= dl -> (t <= n)%nat -> epsn n dl t <= 18 * (INR n + 1) ^ t * dl.
Proof.
  intros Hd Ht. destruct (Nat.eq_dec n 0) as [->|Hn].
  { replace t with 0%nat by lia. simpl. lra. }
  assert (Hn1 : 1 <= INR n) by (change 1 with (INR 1); apply le_INR; lia).
  assert (H : epsn n dl t + 12 * dl <= 18 * (INR n + 1) ^ t * dl); [|lra].
  clear Ht. induction t as [|t IH]; [simpl; lra|]. cbn [epsn pow]. unfold eps', eta.
  apply Rle_trans with ((INR n + 1) * (epsn n dl t + 12 * dl)).
  - assert (1 * dl <= INR n * dl) by (apply Rmult_le_compat_r; lra). lra.
  - replace (18 * ((INR n + 1) * (INR n + 1) ^ t) * dl) with ((INR n + 1) * (18 * (INR n + 1) ^ t * dl)) by ring.
    apply Rmult_le_compat_l; [lra|auto].
Qed.

Section Rlap.
Variables (n m : nat) (C : list (ext R)).
Hypothesis HC : wfC n m C.
Hypothesis Hhall : hall n m C.
Hypothesis Hm : (Z.of_nat m < 100000)%Z.
Variables (B dl : R) (grid : R -> Prop).
Hypothesis HA : arith m B dl grid.
Hypothesis Hcost : forall i j, (i < n)%nat -> (j < m)%nat -> finb m C i j = true -> Rabs (cr m C i j) <= B.
Hypothesis Hgrid : forall i j, (i < n)%nat -> (j < m)%nat -> finb m C i j = true -> grid (cr m C i j).

Let Hdl : 0 <= dl := proj1 (ar_dl _ _ _ _ HA).
Let HB : 0 < B := proj1 (ar_B _ _ _ _ HA).

Lemma start_any : apass n m C B dl grid (mkArr (seq 0 n) (repeat None n) (repeat None m) (repeat (n0 roundN) m) 0 n).
Proof.
  assert (Hr : forall j, nth j (repeat (@None nat) m) None = None) by (intros; apply nth_repeat).
  assert (Hz : forall j, (j < m)%nat -> nth j (repeat (n0 roundN) m) NaN = Fin 0).
  { intros j Hj. rewrite nth_indep with (d' := n0 roundN) by (rewrite repeat_length; auto). apply nth_repeat. }
  assert (Hvr : forall j, (j < m)%nat -> vr (repeat (n0 roundN) m) j = 0) by (intros j Hj; unfold vr; rewrite Hz; auto).
  assert (Hlk : forall j, (j < m)%nat -> lk (repeat (n0 roundN) m) j = false) by (intros j Hj; unfold lk; rewrite Hz; auto).
  constructor; simpl.
  - constructor.
    + constructor; try apply repeat_length.
      * intros j Hj. right. exists 0. auto.
      * intros j i Hj E. rewrite Hr in E. discriminate.
      * intros; apply Hlk; auto.
      * intros j i Hj E. rewrite Hr in E. discriminate.
      * intros j i k Hj E. rewrite Hr in E. discriminate.
      * intros j i s Hj E. rewrite Hr in E. discriminate.
    + intros. rewrite Hvr; auto. lra.
    + intros; apply Hvr; auto.
    + intros j i k Hj E. rewrite Hr in E. discriminate.
    + intros j Hj _. rewrite Hvr by auto. apply (ar_0 _ _ _ _ HA).
    + intros j Hj _. rewrite Hvr by auto. pose proof (pos_INR m). pose proof (pos_INR (deep m B (repeat (n0 roundN) m))).
      rewrite Ropp_0. apply Rmult_le_pos; [lra|]. apply Rplus_le_le_0_compat; apply pos_INR.
    + intros j Hj _. rewrite Hvr by auto. apply generic_format_0.
  - apply seq_length.
  - lia.
  - rewrite firstn_all2 by (rewrite seq_length; lia). apply seq_NoDup.
  - rewrite firstn_all2 by (rewrite seq_length; lia). intros i. rewrite in_seq. split.
    + intros H. split; [lia|]. intros (j & _ & E). rewrite Hr in E. discriminate.
    + intros [H _]. lia.
Qed.

Lemma acore_ecore rs cs v : acore n m C B dl grid rs cs v -> ecore n m C B grid (6 * dl) rs cs v.
Proof.
  intros H. constructor; try apply H.
  - intros j Hj Hl. pose proof (ac_neg _ _ _ _ _ _ _ _ _ H j Hj Hl). lra.
  - intros j Hj Hl. pose proof (vbound n m C Hm B dl grid HA rs cs v j H Hj Hl).
    assert (0 <= INR m * B) by (apply Rmult_le_pos; [apply pos_INR|lra]). lra.
Qed.

Lemma ecore_le e e' rs cs v : e <= e' -> ecore n m C B grid e rs cs v -> ecore n m C B grid e' rs cs v.
Proof.
  intros Hle [H1 H2 H3 H4 H5 H6]. constructor; auto.
  - intros j Hj Hl. specialize (H2 j Hj Hl). lra.
  - intros j i k Hj E Hl Hk Ha. specialize (H4 j i k Hj E Hl Hk Ha). lra.
Qed.

(** What the searches leave. *)
Definition esolved (rowsol : list (option nat)) (v : list (ext R)) : Prop :=
  exists cs, ecore n m C B grid (epsn n dl n) rowsol cs v /\ forall i, (i < n)%nat -> assigned m cs i.

Lemma etail_spec F s u : apass n m C B dl grid s -> length u = n ->
  wp F (rtail n m C s u) (fun r => let '(rowsol, _, _, v, _) := r in esolved rowsol v).
Proof.
  intros [Hc Hl Hnf Hnd Hfree] Hlu. unfold rtail.
  set (fl := firstn (a_numfree s) (a_free s)) in *.
  assert (Hfl : length fl = a_numfree s) by (unfold fl; rewrite firstn_length; lia).
  apply wp_bind. eapply wp_conseq.
  { apply (wp_for F (a_numfree s) 0 _ (fun t st => let '(rs, cs, v) := st in
      ecore n m C B grid (epsn n dl t) rs cs v /\
      forall i, In i (skipn t fl) <-> (i < n)%nat /\ ~ assigned m cs i)).
    - split; auto. apply acore_ecore; auto.
    - intros t [[rs cs] v] Ht (Hcore & Hin).
      rewrite (get_ok _ _ 0%nat) by lia. cbn [bind].
      assert (Ei : nth t (a_free s) 0%nat = nth t fl 0%nat) by (unfold fl; rewrite nth_firstn; auto; lia).
      assert (Hsk : skipn t fl = nth t fl 0%nat :: skipn (S t) fl) by (apply skipn_cons_nth; lia).
      rewrite Ei. set (i := nth t fl 0%nat) in *.
      assert (Hi : (i < n)%nat /\ ~ assigned m cs i) by (apply Hin; rewrite Hsk; simpl; auto).
      destruct Hi as [Hi Hna].
      eapply wp_conseq.
      { apply (augment_e n m C HC Hhall Hm B dl grid HA Hcost Hgrid rs cs v i (epsn n dl t)); auto. apply epsn_pos; auto. }
      intros [[rs' cs'] v'] (Hc' & Has). split; auto.
      intros i'. rewrite Has. specialize (Hin i'). rewrite Hsk in Hin. simpl in Hin.
      assert (Hnin : ~ In i (skipn (S t) fl)).
      { assert (NoDup (skipn t fl)) as X.
        { rewrite <- (firstn_skipn t fl) in Hnd. clear -Hnd. induction (firstn t fl); auto.
          simpl in Hnd. inversion Hnd; auto. }
        rewrite Hsk in X. inversion X; auto. }
      split.
      + intros H. destruct (proj1 Hin (or_intror H)) as [A B']. split; auto.
        intros [->|X]; auto.
      + intros [A B']. assert (X : i = i' \/ In i' (skipn (S t) fl)).
        { apply Hin. split; auto. }
        destruct X as [X|X]; auto. exfalso. apply B'. left; auto. }
  intros [[rs cs] v] (Hcore & Hin). simpl in Hin.
  rewrite skipn_all2 in Hin by lia.
  assert (Hall : forall i, (i < n)%nat -> assigned m cs i).
  { intros i Hi. destruct (existsb (fun j => match nth j cs None with Some i' => (i' =? i)%nat | None => false end) (seq 0 m)) eqn:E.
    - apply existsb_exists in E. destruct E as (j & Hj & E). apply in_seq in Hj. exists j.
      split; [lia|]. destruct (nth j cs None); [|discriminate]. apply Nat.eqb_eq in E. congruence.
    - exfalso. apply (Hin i). split; auto. intros (j & Hj & Ej).
      assert (existsb (fun j => match nth j cs None with Some i' => (i' =? i)%nat | None => false end) (seq 0 m) = true); [|congruence].
      apply existsb_exists. exists j. split; [apply in_seq; lia|]. rewrite Ej. apply Nat.eqb_refl. }
  pose proof (ec_w _ _ _ _ _ _ _ _ _ Hcore) as Hw.
  apply wp_bind. eapply wp_conseq.
  { apply (wp_for F n 0 _ (fun t (st : list (ext R) * ext R) => length (fst st) = n)); auto.
    intros t [u' c'] Ht Hlu'. simpl in Hlu'.
    rewrite (get_ok _ _ None) by (rewrite (wc_lr _ _ _ _ _ _ Hw); lia). cbn [bind].
    destruct (Hall t) as (j & Hj & Ej); [lia|].
    destruct (wc_a1 _ _ _ _ _ _ Hw _ _ Hj Ej) as [_ Er]. rewrite Er.
    rewrite (get_c n m C HC) by (auto; lia). cbn [bind].
    rewrite (get_ok v _ NaN) by (rewrite (wc_lv _ _ _ _ _ _ Hw); lia). cbn [bind].
    rewrite set_ok by lia. cbn [bind]. apply wp_ret. simpl fst. rewrite upd_length; auto. }
  intros [u' c'] Hlu'. apply wp_ret. exists cs. split; auto.
  eapply ecore_le; [|exact Hcore]. apply epsn_mono; auto.
Qed.

Lemma rlap_e simd fuel :
  wp True (rlap roundN simd fuel n m C (repeat (n0 roundN) n) (repeat (n0 roundN) m))
    (fun r => let '(rowsol, _, _, v, _) := r in esolved rowsol v).
Proof.
  unfold rlap. apply wp_bind. eapply wp_conseq; [apply (a_pass_safe n m C HC Hhall Hm B dl _ HA Hcost Hgrid), start_any|].
  intros s1 H1. apply wp_bind. eapply wp_conseq; [apply (a_pass_safe n m C HC Hhall Hm B dl _ HA Hcost Hgrid); exact H1|].
  intros s2 H2. apply (etail_spec True s2); auto. apply repeat_length.
Qed.

(** Weak duality: the total of the solution and of any other assignment, if row
    by row the reduced costs differ at least by [gap]. *)
Lemma esolved_row rowsol v (s sg : nat -> nat) :
  esolved rowsol v -> (forall i, (i < n)%nat -> nth i rowsol None = Some (s i)) -> feas n m C sg ->
  forall i, (i < n)%nat -> rc m C v i (s i) - epsn n dl n <= rc m C v i (sg i).
Proof.
  intros (cs & Hcore & Hall) Hs Hsg. set (e := epsn n dl n) in *.
  assert (He : 0 <= e) by (apply epsn_pos; auto).
  pose proof (ec_w _ _ _ _ _ _ _ _ _ Hcore) as Hw.
  assert (Hsol : forall i, (i < n)%nat -> (s i < m)%nat /\ nth (s i) cs None = Some i).
  { intros i Hi. destruct (Hall i Hi) as (j & Hj & Ej).
    destruct (wc_a1 _ _ _ _ _ _ Hw _ _ Hj Ej) as [_ E].
    rewrite Hs in E by auto. inversion E; subst; auto. }
  pose proof Hsg as [Hsg1 Hsg2].
  intros i Hi. destruct (Hsol i Hi) as [Hj Ej]. destruct (Hsg1 i Hi) as [Hk Hfk].
  destruct (lk v (s i)) eqn:El.
  - rewrite (wc_forced _ _ _ _ _ _ Hw _ _ _ Hj Ej El Hsg). lra.
  - assert (rc m C v i (s i) <= rc m C v i (sg i) + e); [|lra].
    apply (ec_near _ _ _ _ _ _ _ _ _ Hcore _ _ _ Hj Ej El Hk). unfold av. rewrite Hfk. simpl.
    destruct (lk v (sg i)) eqn:El'; auto. exfalso.
    destruct (nth (sg i) cs None) as [i'|] eqn:Ei'; [|rewrite (wc_un _ _ _ _ _ _ Hw _ Hk Ei') in El'; discriminate].
    assert (sg i' = sg i) by (apply (wc_forced _ _ _ _ _ _ Hw _ _ _ Hk Ei' El' Hsg)).
    destruct (wc_a1 _ _ _ _ _ _ Hw _ _ Hk Ei') as [Hi' _].
    assert (i' = i) by (apply Hsg2; auto). subst i'.
    assert (s i = sg i) by (eapply w_inj; eauto). congruence.
Qed.

Lemma esolved_gap rowsol v (s sg : nat -> nat) gap :
  esolved rowsol v -> (forall i, (i < n)%nat -> nth i rowsol None = Some (s i)) -> feas n m C sg ->
  (forall i, (i < n)%nat -> rc m C v i (s i) + gap i <= rc m C v i (sg i)) ->
  Rsum (map (fun i => cr m C i (s i)) (seq 0 n)) + Rsum (map gap (seq 0 n)) <=
  Rsum (map (fun i => cr m C i (sg i)) (seq 0 n)) + INR n * epsn n dl n.
Proof.
  intros (cs & Hcore & Hall) Hs Hsg Hrow. set (e := epsn n dl n) in *.
  assert (He : 0 <= e) by (apply epsn_pos; auto).
  pose proof (ec_w _ _ _ _ _ _ _ _ _ Hcore) as Hw.
  assert (Hsol : forall i, (i < n)%nat -> (s i < m)%nat /\ nth (s i) cs None = Some i).
  { intros i Hi. destruct (Hall i Hi) as (j & Hj & Ej).
    destruct (wc_a1 _ _ _ _ _ _ Hw _ _ Hj Ej) as [_ E].
    rewrite Hs in E by auto. inversion E; subst; auto. }
  pose proof Hsg as [Hsg1 Hsg2].
  assert (Hnd : forall s : nat -> nat, (forall i i', (i < n)%nat -> (i' < n)%nat -> s i = s i' -> i = i') -> NoDup (map s (seq 0 n))).
  { intros s' H. apply (NoDup_nth _ (s' 0%nat)). intros p q Hp Hq E. rewrite map_length, seq_length in *.
    rewrite !map_nth, !seq_nth in E by auto. apply H; auto. }
  assert (Hsinj : forall i i', (i < n)%nat -> (i' < n)%nat -> s i = s i' -> i = i').
  { intros i i' Hi Hi' E. destruct (Hsol i Hi) as [_ A]. destruct (Hsol i' Hi') as [_ B']. congruence. }
  set (g := fun j => match nth j cs None with Some _ => vr v j - e | None => 0 end).
  assert (Hle : forall j, (j < m)%nat -> vr v j <= e).
  { intros j Hj. destruct (w_cases n m C _ _ _ j Hw Hj) as [[_ L]|[E _]].
    - apply (ec_pos _ _ _ _ _ _ _ _ _ Hcore j Hj L).
    - unfold vr. rewrite E. auto. }
  assert (H1 : Rsum (map g (seq 0 m)) <= Rsum (map g (map sg (seq 0 n)))).
  { apply Rsum_sub.
    - apply Hnd; auto.
    - intros x Hx. apply in_map_iff in Hx. destruct Hx as (i & <- & Hi). apply in_seq in Hi.
      apply in_seq. destruct (Hsg1 i); lia.
    - intros x Hx. apply in_seq in Hx. unfold g. specialize (Hle x). destruct (nth x cs None); [|lra].
      lapply Hle; [lra|lia]. }
  assert (H2 : Rsum (map g (seq 0 m)) = Rsum (map g (map s (seq 0 n)))).
  { apply Rsum_same.
    - apply Hnd; auto.
    - apply seq_NoDup.
    - intros x Hx. apply in_map_iff in Hx. destruct Hx as (i & <- & Hi). apply in_seq in Hi.
      apply in_seq. destruct (Hsol i); lia.
    - intros x Hx Hnx. apply in_seq in Hx. unfold g.
      destruct (nth x cs None) as [i|] eqn:E; auto.
      exfalso. apply Hnx. destruct (wc_a1 _ _ _ _ _ _ Hw x i) as [Hi Er]; auto; [lia|].
      rewrite Hs in Er by auto. inversion Er. apply in_map_iff. exists i. split; auto. apply in_seq; lia. }
  rewrite !map_map in *.
  assert (Hcst : forall l : list nat, Rsum (map (fun _ => e) l) = INR (length l) * e).
  { induction l as [|x l IH]; [simpl; lra|]. cbn [length]. rewrite S_INR. simpl. rewrite IH. lra. }
  assert (H3 : Rsum (map (fun i => g (s i)) (seq 0 n)) = Rsum (map (fun i => vr v (s i)) (seq 0 n)) - INR n * e).
  { rewrite <- (seq_length n 0) at 3. rewrite <- Hcst, <- Rsum_minus. f_equal. apply map_ext_in. intros i Hi. apply in_seq in Hi.
    unfold g. destruct (Hsol i) as [_ ->]; auto. lia. }
  assert (H4 : Rsum (map (fun i => g (sg i)) (seq 0 n)) <= Rsum (map (fun i => vr v (sg i)) (seq 0 n))).
  { apply Rsum_le. intros i Hi. apply in_seq in Hi. unfold g. destruct (nth (sg i) cs None) eqn:E; [lra|].
    rewrite (ec_un _ _ _ _ _ _ _ _ _ Hcore _ (proj1 (Hsg1 i (proj2 Hi))) E). lra. }
  assert (H5 : Rsum (map gap (seq 0 n)) <= Rsum (map (fun i => rc m C v i (sg i) - rc m C v i (s i)) (seq 0 n))).
  { apply Rsum_le. intros i Hi. apply in_seq in Hi. specialize (Hrow i (proj2 Hi)). lra. }
  rewrite (Rsum_minus (fun i => rc m C v i (sg i)) (fun i => rc m C v i (s i))) in H5. unfold rc in H5.
  rewrite (Rsum_minus (fun i => cr m C i (s i)) (fun i => vr v (s i))) in H5.
  rewrite (Rsum_minus (fun i => cr m C i (sg i)) (fun i => vr v (sg i))) in H5.
  lra.
Qed.

Lemma sum_gap i0 g e k : 0 <= e -> (i0 < k)%nat ->
  g - INR k * e <= Rsum (map (fun i => if (i =? i0)%nat then g else - e) (seq 0 k)).
Proof.
  intros He. assert (L : forall k, (k <= i0)%nat -> Rsum (map (fun i => if (i =? i0)%nat then g else - e) (seq 0 k)) = - (INR k * e)).
  { induction k0 as [|k0 IH]; intros Hk; [simpl; lra|]. rewrite seq_S, map_app, Rsum_app, IH, S_INR by lia. cbn.
    destruct (Nat.eqb_spec k0 i0); [lia|lra]. }
  induction k as [|k IH]; intros Hk; [lia|]. rewrite seq_S, map_app, Rsum_app, S_INR. cbn.
  destruct (Nat.eqb_spec k i0) as [->|].
  - rewrite L by lia. lra.
  - assert (i0 < k)%nat by lia. specialize (IH H). lra.
Qed.

(** One row differs by [g]. *)
Lemma esolved_dual rowsol v (s sg : nat -> nat) i0 g :
  esolved rowsol v -> (forall i, (i < n)%nat -> nth i rowsol None = Some (s i)) -> feas n m C sg ->
  (i0 < n)%nat -> rc m C v i0 (s i0) + g <= rc m C v i0 (sg i0) ->
  Rsum (map (fun i => cr m C i (s i)) (seq 0 n)) + g <=
  Rsum (map (fun i => cr m C i (sg i)) (seq 0 n)) + 2 * INR n * epsn n dl n.
Proof.
  intros He Hs Hsg Hi0 Hg. pose proof (epsn_pos n dl n Hdl) as Hp.
  pose proof (esolved_gap rowsol v s sg (fun i => if (i =? i0)%nat then g else - epsn n dl n) He Hs Hsg) as X.
  pose proof (sum_gap i0 g (epsn n dl n) n Hp Hi0) as Y. lapply X; [intros X'; lra|].
  intros i Hi. destruct (Nat.eqb_spec i i0) as [->|]; auto. pose proof (esolved_row rowsol v s sg He Hs Hsg i Hi). lra.
Qed.

Lemma esolved_bound rowsol v (s sg : nat -> nat) :
  esolved rowsol v -> (forall i, (i < n)%nat -> nth i rowsol None = Some (s i)) -> feas n m C sg ->
  Rsum (map (fun i => cr m C i (s i)) (seq 0 n)) <=
  Rsum (map (fun i => cr m C i (sg i)) (seq 0 n)) + 2 * INR n * epsn n dl n.
Proof.
  intros He Hs Hsg. destruct (Nat.eq_dec n 0) as [E|Hn]; [rewrite E; simpl; lra|].
  pose proof (esolved_row rowsol v s sg He Hs Hsg) as Hr. pose proof (epsn_pos n dl n Hdl) as Hp.
  pose proof (esolved_gap rowsol v s sg (fun _ => - epsn n dl n) He Hs Hsg) as X. lapply X; [clear X; intros X|intros i Hi; specialize (Hr i Hi); lra].
  assert (Hc : forall l : list nat, Rsum (map (fun _ => - epsn n dl n) l) = - (INR (length l) * epsn n dl n)).
  { induction l as [|x l IH]; [simpl; lra|]. cbn [length]. rewrite S_INR. simpl. rewrite IH. lra. }
  rewrite Hc, seq_length in X. lra.
Qed.
End Rlap.

(** Bound on the distance to the optimum. *)
Definition lap_err (n : nat) (dl : R) : R := 36 * INR n * (INR n + 1) ^ n * dl.
Lemma lap_err_mono n n' dl : 0 <= dl -> (n <= n')%nat -> 0 <= lap_err n dl <= lap_err n' dl.
Proof.
  intros Hd Hn. unfold lap_err. pose proof (pos_INR n). apply le_INR in Hn as Hr.
  assert (0 <= (INR n + 1) ^ n <= (INR n' + 1) ^ n').
  { split; [apply pow_le; lra|]. apply Rle_trans with ((INR n' + 1) ^ n); [apply pow_incr; lra|apply Rle_pow; [lra|auto]]. }
  assert (0 <= INR n * (INR n + 1) ^ n) by (apply Rmult_le_pos; lra).
  assert (INR n * (INR n + 1) ^ n <= INR n' * (INR n' + 1) ^ n') by (apply Rmult_le_compat; lra).
  replace (36 * INR n * (INR n + 1) ^ n * dl) with (36 * (INR n * (INR n + 1) ^ n * dl)) by ring.
  replace (36 * INR n' * (INR n' + 1) ^ n' * dl) with (36 * (INR n' * (INR n' + 1) ^ n' * dl)) by ring.
  assert (0 <= INR n * (INR n + 1) ^ n * dl) by (apply Rmult_le_pos; lra).
  assert (INR n * (INR n + 1) ^ n * dl <= INR n' * (INR n' + 1) ^ n' * dl) by (apply Rmult_le_compat_r; lra). lra.
Qed.
Lemma arith_le m m' B dl grid : (m' <= m)%nat -> arith m B dl grid -> arith m' B dl grid.
Proof.
  intros Hm [A1 A2 A3 A4 A5]. apply le_INR in Hm. assert (H : 32 * INR m' * B <= 32 * INR m * B) by (apply Rmult_le_compat_r; lra).
  constructor; auto.
  - intros x y Hx Hy Hs. apply A4; auto. lra.
  - intros x y Hx Hy Hs. apply A5; auto. lra.
Qed.

Section LapR.
Variable C : matrix (ext R).
Hypothesis HC : cost_matrix C.
Hypothesis Hrows : (m_rows C <= 30)%nat.
Hypothesis Hcols : (Z.of_nat (m_cols C) < 100000)%Z.
Hypothesis Hord : m_ord C = RowMajor.
Variables (B dl : R) (grid : R -> Prop).
Hypothesis HA : arith (m_cols C) B dl grid.
Hypothesis Hcost : forall x, In (Fin x) (m_data C) -> Rabs x <= B /\ grid x.
Let n := m_rows C.
Let m := m_cols C.
Let D := m_data C.
Let Hrows' : (m_rows C <= 31)%nat.
Proof. lia. Qed.

Lemma costE i j : (i < n)%nat -> (j < m)%nat -> finb m D i j = true -> Rabs (cr m D i j) <= B /\ grid (cr m D i j).
Proof.
  intros Hi Hj Hf. apply Hcost. assert (X : In (c m D i j) D).
  { apply nth_In. unfold D. rewrite (proj1 HC). apply index_lt; auto. }
  unfold finb, cr in *. destruct (c m D i j); try discriminate. exact X.
Qed.

Lemma elap_build simd fuel : wp True (lap_build roundN simd fuel C)
  (fun r => l_ok r = true -> esolved n m D B dl grid (l_rowsol r) (l_v r)).
Proof.
  unfold lap_build. apply wp_bind. eapply wp_conseq; [exact (hall_check_spec C HC Hrows' _ Hrows)|].
  intros [|] Hb.
  - apply wp_bind. eapply wp_conseq.
    { apply (rlap_e n m D (wfD C HC)) with (B := B) (dl := dl) (grid := grid); auto;
        [apply (subsets_hall' C Hrows Hord); apply Hb; auto|intros; apply costE; auto|intros; apply costE; auto]. }
    intros [[[[rowsol colsol] u] v] cst] Hs. apply wp_ret. intros _. exact Hs.
  - apply wp_ret. simpl. discriminate.
Qed.

Lemma esolved_lap v s s' g i0 : esolved n m D B dl grid (map Some s) v -> feasible C s -> feasible C s' ->
  (i0 < n)%nat -> rc m D v i0 (nth i0 s 0%nat) + g <= rc m D v i0 (nth i0 s' 0%nat) ->
  total C s + g <= total C s' + lap_err n dl.
Proof.
  intros X Hf Hf' Hi0 Hg. assert (Hdl : 0 <= dl) by apply HA.
  pose proof (esolved_dual n m D B dl grid HA _ _ (fun i => nth i s 0%nat) (fun i => nth i s' 0%nat) i0 g X) as Y.
  cbv beta in Y. unfold n, m, D in Y. rewrite !(sum_total C Hord) in Y. eapply Rle_trans; [apply Y; auto|].
  - intros i Hi. destruct Hf as [(Hl & _) _].
    rewrite nth_indep with (d' := Some 0%nat) by (rewrite map_length, Hl; auto). apply map_nth.
  - apply (feasible_feas C Hrows Hord); auto.
  - fold n. unfold lap_err. pose proof (epsn_bound n dl n Hdl (le_n _)). pose proof (pos_INR n).
    assert (INR n * epsn n dl n <= INR n * (18 * (INR n + 1) ^ n * dl)) by (apply Rmult_le_compat_l; auto).
    replace (36 * INR n * (INR n + 1) ^ n * dl) with (2 * (INR n * (18 * (INR n + 1) ^ n * dl))) by ring. lra.
Qed.

Lemma esolved_near v s s' : esolved n m D B dl grid (map Some s) v -> feasible C s -> feasible C s' ->
  total C s <= total C s' + lap_err n dl.
Proof.
  intros X Hf Hf'. assert (Hdl : 0 <= dl) by apply HA.
  pose proof (esolved_bound n m D B dl grid HA _ _ (fun i => nth i s 0%nat) (fun i => nth i s' 0%nat) X) as Y.
  cbv beta in Y. unfold n, m, D in Y. rewrite !(sum_total C Hord) in Y. eapply Rle_trans; [apply Y|].
  - intros i Hi. destruct Hf as [(Hl & _) _].
    rewrite nth_indep with (d' := Some 0%nat) by (rewrite map_length, Hl; auto). apply map_nth.
  - apply (feasible_feas C Hrows Hord); auto.
  - fold n. unfold lap_err. pose proof (epsn_bound n dl n Hdl (le_n _)). pose proof (pos_INR n).
    assert (INR n * epsn n dl n <= INR n * (18 * (INR n + 1) ^ n * dl)) by (apply Rmult_le_compat_l; auto).
    replace (36 * INR n * (INR n + 1) ^ n * dl) with (2 * (INR n * (18 * (INR n + 1) ^ n * dl))) by ring. lra.
Qed.

Lemma elap_near simd fuel r s s' : lap_build roundN simd fuel C = Ok r -> l_ok r = true -> l_rowsol r = map Some s ->
  feasible C s -> feasible C s' -> total C s <= total C s' + lap_err n dl.
Proof.
  intros E Hok Hs Hf Hf'. pose proof (elap_build simd fuel) as X. rewrite E in X. cbn [wp] in X. specialize (X Hok).
  rewrite Hs in X. eapply esolved_near; eauto.
Qed.
End LapR.

(** Multiples of [2^q], small enough for their sums and differences to be exact. *)
Lemma arith_grid m K q : (0 < K)%Z -> (32 * Z.of_nat m * K < 2 ^ 53)%Z -> (K <= 2 ^ 53)%Z -> (-1074 <= q <= 247)%Z ->
  arith m (IZR K * bpow radix2 q) 0 (fun x => exists z, x = IZR z * bpow radix2 q).
Proof.
  intros HK Hs HK' Hq. pose proof (bpow_gt_0 radix2 q) as Pq.
  assert (PK : 0 < IZR K) by (apply IZR_lt; auto).
  assert (Hr : forall z, Rabs (IZR z * bpow radix2 q) <= 32 * INR m * (IZR K * bpow radix2 q) ->
    rnd (IZR z * bpow radix2 q) = IZR z * bpow radix2 q /\ rfin (IZR z * bpow radix2 q) = Fin (rnd (IZR z * bpow radix2 q))).
  { intros z Hz. assert (Hz' : (Z.abs z <= 32 * Z.of_nat m * K)%Z).
    { apply le_IZR. rewrite abs_IZR, !mult_IZR, <- INR_IZR_INZ.
      rewrite Rabs_mult, (Rabs_pos_eq (bpow radix2 q)) in Hz by lra. apply Rmult_le_reg_r with (bpow radix2 q); auto.
      eapply Rle_trans; [exact Hz|]. apply Req_le. ring. }
    assert (E : rnd (IZR z * bpow radix2 q) = IZR z * bpow radix2 q).
    { apply round_generic; [apply valid_rnd_N|]. apply (generic_format_FLT radix2 (-1074) 53). exists (Float radix2 z q); [reflexivity| |simpl; lia].
      simpl. change (2 ^ 53)%Z with 9007199254740992%Z in Hs. lia. }
    split; auto. unfold rfin. rewrite (rnd_lt_emax _ 300); [reflexivity|lia|].
    rewrite Rabs_mult, (Rabs_pos_eq (bpow radix2 q)) by lra. rewrite <- abs_IZR.
    apply Rle_trans with (bpow radix2 53 * bpow radix2 q).
    - apply Rmult_le_compat_r; [lra|]. change (bpow radix2 53) with (IZR (2 ^ 53)). apply IZR_le. lia.
    - rewrite <- bpow_plus. apply bpow_le. lia. }
  constructor.
  - split; [apply Rmult_lt_0_compat; auto|]. apply Rle_trans with (bpow radix2 53 * bpow radix2 q).
    + apply Rmult_le_compat_r; [lra|]. change (bpow radix2 53) with (IZR (2 ^ 53)). apply IZR_le. lia.
    + rewrite <- bpow_plus. unfold Bd. apply bpow_le. lia.
  - assert (0 < IZR K * bpow radix2 q) by (apply Rmult_lt_0_compat; auto). lra.
  - exists 0%Z. lra.
  - intros x y [a ->] [b ->] H. replace (IZR a * bpow radix2 q - IZR b * bpow radix2 q) with (IZR (a - b) * bpow radix2 q) in * by (rewrite minus_IZR; ring).
    destruct (Hr _ H) as [E1 E2]. split; [|split].
    + rewrite <- E2. transitivity (rfin (IZR a * bpow radix2 q - IZR b * bpow radix2 q)); [reflexivity|].
      f_equal. rewrite minus_IZR. ring.
    + exists (a - b)%Z. auto.
    + rewrite E1, Rminus_diag_eq, Rabs_R0; auto. lra.
  - intros x y [a ->] [b ->] H. replace (IZR a * bpow radix2 q + IZR b * bpow radix2 q) with (IZR (a + b) * bpow radix2 q) in * by (rewrite plus_IZR; ring).
    destruct (Hr _ H) as [E1 E2]. split; [|split].
    + rewrite <- E2. transitivity (rfin (IZR a * bpow radix2 q + IZR b * bpow radix2 q)); [reflexivity|].
      f_equal. rewrite plus_IZR. ring.
    + exists (a + b)%Z. auto.
    + rewrite E1, Rminus_diag_eq, Rabs_R0; auto. lra.
Qed.

(** * Doubles *)
(** An integer of absolute value at most [K], times [2^q]. *)
Definition multiple (K q : Z) (x : float) : Prop := exists z, (Z.abs z <= K)%Z /\ proj x = Fin (IZR z * bpow radix2 q).
(** A finite double of absolute value at most [B]. *)
Definition at_most (B : R) (x : float) : Prop := exists r, proj x = Fin r /\ Rabs r <= B.

Section Doubles.
Variable C : matrix float.
Hypothesis HC : double_matrix C.
Hypothesis Hrows : (m_rows C <= 30)%nat.
Hypothesis Hcols : (Z.of_nat (m_cols C) < 100000)%Z.
Hypothesis Hord : m_ord C = RowMajor.

Lemma double_any B dl grid simd fuel r :
  arith (m_cols C) B dl grid -> (forall x y, In x (m_data C) -> proj x = Fin y -> Rabs y <= B /\ grid y) ->
  lap_build floatN simd fuel C = Ok r -> l_ok r = true ->
  exists s, l_rowsol r = map Some s /\ feasible_double C s /\
    forall s', feasible_double C s' -> total (pm proj C) s <= total (pm proj C) s' + lap_err (m_rows C) dl.
Proof.
  intros HA Hc E Hok. destruct (double_assigns C HC Hrows Hcols Hord simd fuel r E Hok) as (s & Hs & Hf).
  exists s. split; auto. split; auto. intros s' Hf'.
  pose proof (M_run C simd fuel) as X. rewrite E in X. cbn [rmap] in X.
  apply (elap_near (pm proj C) (M_cost C HC) Hrows Hcols Hord B dl grid HA) with (simd := simd) (fuel := fuel) (r := pl proj r); auto.
  - intros x Hx. simpl in Hx. apply in_map_iff in Hx. destruct Hx as (y & Ey & Hy). eapply Hc; eauto.
  - apply M_feasible; auto.
  - apply M_feasible; auto.
Qed.

Lemma double_near B simd fuel r : bpow radix2 (-900) <= B <= bpow radix2 300 ->
  (forall x, In x (m_data C) -> x = infinity \/ at_most B x) ->
  lap_build floatN simd fuel C = Ok r -> l_ok r = true ->
  exists s, l_rowsol r = map Some s /\ feasible_double C s /\
    forall s', feasible_double C s' -> total (pm proj C) s <= total (pm proj C) s' +
      36 * INR (m_rows C) * (INR (m_rows C) + 1) ^ m_rows C * INR (m_cols C) * B * bpow radix2 (-47).
Proof.
  intros HB Hx E Hok. destruct (double_any B _ _ simd fuel r (arith_any (m_cols C) B Hcols HB)) as (s & H1 & H2 & H3); auto.
  - intros x y Hin Ey. split; auto. destruct (Hx x Hin) as [-> |(y' & Ey' & Hy')]; [discriminate|].
    rewrite Ey in Ey'. inversion Ey'; subst. auto.
  - exists s. split; auto. split; auto. intros s' Hs'. specialize (H3 s' Hs'). unfold lap_err, unit_err in H3.
    eapply Rle_trans; [exact H3|]. apply Req_le. ring.
Qed.

Lemma double_exact K q simd fuel r : (-1074 <= q <= 247)%Z -> (32 * Z.of_nat (m_cols C) * K < 2 ^ 53)%Z ->
  (forall x, In x (m_data C) -> x = infinity \/ multiple K q x) ->
  lap_build floatN simd fuel C = Ok r -> l_ok r = true ->
  exists s, l_rowsol r = map Some s /\ optimal (pm proj C) s.
Proof.
  intros Hq HK Hx E Hok. set (K' := if (m_cols C =? 0)%nat then 1%Z else Z.max 1 K).
  assert (HK1 : (0 < K')%Z /\ (32 * Z.of_nat (m_cols C) * K' < 2 ^ 53)%Z /\ (K' <= 2 ^ 53)%Z).
  { unfold K'. change (2 ^ 53)%Z with 9007199254740992%Z in *. destruct (m_cols C =? 0)%nat eqn:E0.
    - apply Nat.eqb_eq in E0. rewrite E0. lia.
    - apply Nat.eqb_neq in E0. split; [lia|]. assert (32 * 1 * Z.max 1 K <= 32 * Z.of_nat (m_cols C) * Z.max 1 K)%Z by (apply Z.mul_le_mono_nonneg_r; lia).
      assert (32 * Z.of_nat (m_cols C) * Z.max 1 K < 9007199254740992)%Z; [|lia].
      destruct (Z.max_spec 1 K) as [[_ ->]|[_ ->]]; lia. }
  destruct HK1 as (K1 & K2 & K3).
  destruct (double_any _ _ _ simd fuel r (arith_grid (m_cols C) K' q K1 K2 K3 Hq)) as (s & H1 & H2 & H3); auto.
  - intros x y Hin Ey. destruct (Hx x Hin) as [-> |(z & Hz & Ez)]; [discriminate|].
    rewrite Ey in Ez. inversion Ez; subst y. split; [|exists z; auto].
    pose proof (bpow_gt_0 radix2 q). rewrite Rabs_mult, (Rabs_pos_eq (bpow radix2 q)) by lra. apply Rmult_le_compat_r; [lra|].
    rewrite <- abs_IZR. apply IZR_le. unfold K'. destruct (m_cols C =? 0)%nat eqn:E0; [|lia].
    apply Nat.eqb_eq in E0. destruct HC as [Hl _]. rewrite E0, Nat.mul_0_r in Hl. apply length_zero_iff_nil in Hl. rewrite Hl in Hin. destruct Hin.
  - exists s. split; auto. split; [apply M_feasible; auto|]. intros s' Hs'. apply (M_feasible C HC Hrows Hord) in Hs'. specialize (H3 s' Hs').
    unfold lap_err in H3. rewrite Rmult_0_r, Rplus_0_r in H3. exact H3.
Qed.
End Doubles.
