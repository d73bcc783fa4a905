(** The solver [lap] with rounding arithmetic, and hence with doubles. *)
From Coq Require Import List Arith ZArith Bool Reals Lra Lia.
Import ListNotations.
From Flocq Require Import Core BinarySingleNaN.
From Flocq Require Import IEEE754.PrimFloat.
From Coq Require Import Floats.
From Verif Require Import Res Scalar Lap LapSpec LapBase LapArr LapDij LapTerm LapMain.
From Verif Require Import FloatBase FloatExt LapHom LapRnd LapRndArr LapRndDij.
Local Open Scope R_scope.

(** More fuel does not change a result. *)
Section Fuel.
Context {T : Type} (N : Num T) (simd : bool).
Lemma arr_loop_more k fuel fuel' m C prev : forall s s', (fuel <= fuel')%nat -> fuel = k ->
  arr_loop N simd fuel m C prev s = Ok s' -> arr_loop N simd fuel' m C prev s = Ok s'.
Proof.
  revert fuel fuel'. induction k as [|k IH]; intros fuel fuel' s s' Hle -> H; destruct fuel' as [|fuel']; try lia; simpl in *;
    destruct (a_k s <? prev)%nat; auto; try discriminate.
  destruct (arr_step N simd m C s) as [s1| |]; cbn [bind] in *; try discriminate. eapply IH; [|reflexivity|exact H]. lia.
Qed.
Lemma arr_pass_more fuel fuel' m C s s' : (fuel <= fuel')%nat ->
  arr_pass N simd fuel m C s = Ok s' -> arr_pass N simd fuel' m C s = Ok s'.
Proof. intros Hle H. unfold arr_pass in *. eapply arr_loop_more; eauto. Qed.
Lemma lap_build_more fuel fuel' C r : (fuel <= fuel')%nat ->
  lap_build N simd fuel C = Ok r -> lap_build N simd fuel' C = Ok r.
Proof.
  intros Hle. unfold lap_build. destruct (hall_check N C) as [[|]| |]; cbn [bind]; auto.
  assert (E : forall x, rlap N simd fuel (m_rows C) (m_cols C) (m_data C) (repeat (n0 N) (m_rows C)) (repeat (n0 N) (m_cols C)) = Ok x ->
    rlap N simd fuel' (m_rows C) (m_cols C) (m_data C) (repeat (n0 N) (m_rows C)) (repeat (n0 N) (m_cols C)) = Ok x).
  { intros x. unfold rlap. match goal with |- context [arr_pass N simd fuel ?a ?b ?c] => destruct (arr_pass N simd fuel a b c) as [s1| |] eqn:E1 end;
      try discriminate. rewrite (arr_pass_more _ _ _ _ _ _ Hle E1). cbn [bind].
    destruct (arr_pass N simd fuel (m_cols C) (m_data C) s1) as [s2| |] eqn:E2; try discriminate.
    rewrite (arr_pass_more _ _ _ _ _ _ Hle E2). auto. }
  destruct (rlap N simd fuel (m_rows C) (m_cols C) (m_data C) (repeat (n0 N) (m_rows C)) (repeat (n0 N) (m_cols C))) as [x| |]; try discriminate.
  rewrite (E x eq_refl). auto.
Qed.
End Fuel.

Section Rlap.
Variables (n m : nat) (C : list (ext R)).
Hypothesis HC : wfC n m C.
Hypothesis Hhall : hall n m C.
Hypothesis Hn : (n <= 30)%nat.
Hypothesis Hm : (Z.of_nat m < 100000)%Z.
Hypothesis Hcost : forall i j, (i < n)%nat -> (j < m)%nat -> finb m C i j = true -> Rabs (cr m C i j) <= Bd.

Definition rtail (s : arr (T := ext R)) (u : list (ext R)) :=
  '(rowsol, colsol, v) <-
    for_loop (a_numfree s) 0
      (fun f st => i <- get (a_free s) f;; augment roundN n m C i st)
      (a_rowsol s, a_colsol s, a_v s);;
  '(u, c) <-
    for_loop n 0
      (fun i (st : list (ext R) * ext R) =>
         let '(u, c) := st in
         j <- get rowsol i;;
         match j with
         | Some j =>
             cij <- get C (i * m + j);;
             vj <- get v j;;
             u <- set u i (nsub roundN cij vj);;
             Ok (u, nadd roundN c cij)
         | None => Ok (u, c)
         end)
      (u, n0 roundN);;
  Ok (rowsol, colsol, u, v, c).

Record wsolved (rowsol : list (option nat)) (u v : list (ext R)) : Prop := {
  ws_core : exists colsol, wcore n m C rowsol colsol v /\ forall i, (i < n)%nat -> assigned m colsol i;
  ws_v : forall j, (j < m)%nat -> lk v j = false -> bnd 920 1 (vr v j);
  ws_lu : length u = n;
  ws_u : forall i j, (i < n)%nat -> nth i rowsol None = Some j -> nth i u NaN = nsub roundN (c m C i j) (nth j v NaN) }.

Lemma cost_bnd a i j : (300 <= a)%Z -> (i < n)%nat -> (j < m)%nat -> finb m C i j = true -> bnd a 1 (cr m C i j).
Proof.
  intros Ha Hi Hj Hf. unfold bnd. rewrite Rmult_1_l. eapply Rle_trans; [apply Hcost; auto|]. unfold Bd. apply bpow_le. lia.
Qed.

Let dl := unit_err m Bd.
Let Har : arith m Bd dl (fun _ => True).
Proof.
  apply arith_any; auto. split; [|apply Rle_refl]. unfold Bd. apply bpow_le. lia.
Qed.
Let Hany : forall i j, (i < n)%nat -> (j < m)%nat -> finb m C i j = true -> True.
Proof. auto. Qed.

Lemma deep_bnd rs cs v j : acore n m C Bd dl (fun _ => True) rs cs v -> (j < m)%nat -> lk v j = false -> bnd 320 1 (vr v j).
Proof.
  intros Hc Hj Hl. pose proof (vbound n m C Hm Bd dl _ Har rs cs v j Hc Hj Hl) as H. unfold bnd. rewrite Rmult_1_l.
  assert (8 * INR m * Bd <= 1048576 * Bd).
  { apply Rmult_le_compat_r; [apply Rlt_le, Bd_pos|]. pose proof (INR_m m Hm). lra. }
  eapply Rle_trans; [exact H|]. eapply Rle_trans; [exact H0|]. unfold Bd. change 320%Z with (20 + 300)%Z. rewrite bpow_plus. apply Rmult_le_compat_r; [apply bpow_ge_0|].
  simpl. lra.
Qed.

Lemma rtail_spec F s u : apass n m C Bd dl (fun _ => True) s -> length u = n ->
  wp F (rtail s u) (fun r => let '(rowsol, _, u, v, _) := r in wsolved rowsol u v).
Proof.
  intros [Hc Hl Hnf Hnd Hfree] Hlu. unfold rtail.
  set (fl := firstn (a_numfree s) (a_free s)) in *.
  assert (Hfl : length fl = a_numfree s) by (unfold fl; rewrite firstn_length; lia).
  apply wp_bind. eapply wp_conseq.
  { apply (wp_for F (a_numfree s) 0 _ (fun t st => let '(rs, cs, v) := st in
      wcore n m C rs cs v /\
      (forall j, (j < m)%nat -> lk v j = false -> bnd (320 + 20 * Z.of_nat t) 1 (vr v j)) /\
      forall i, In i (skipn t fl) <-> (i < n)%nat /\ ~ assigned m cs i)).
    - split; [apply Hc|]. split; auto. intros j Hj Hlk. eapply deep_bnd; eauto.
    - intros t [[rs cs] v] Ht (Hcore & Hb & Hin).
      rewrite (get_ok _ _ 0%nat) by lia. cbn [bind].
      assert (Ei : nth t (a_free s) 0%nat = nth t fl 0%nat) by (unfold fl; rewrite nth_firstn; auto; lia).
      assert (Hsk : skipn t fl = nth t fl 0%nat :: skipn (S t) fl) by (apply skipn_cons_nth; lia).
      rewrite Ei. set (i := nth t fl 0%nat) in *.
      assert (Hi : (i < n)%nat /\ ~ assigned m cs i) by (apply Hin; rewrite Hsk; simpl; auto).
      destruct Hi as [Hi Hna].
      eapply wp_conseq.
      { apply (augment_w n m C HC Hhall Hm rs cs v i (320 + 20 * Z.of_nat t) Hcore Hi Hna); auto; [lia|].
        intros; apply cost_bnd; auto; lia. }
      intros [[rs' cs'] v'] (Hc' & Has & Hb'). split; auto. split.
      { replace (320 + 20 * Z.of_nat (S t))%Z with (320 + 20 * Z.of_nat t + 20)%Z by lia. exact Hb'. }
      intros i'. rewrite Has. specialize (Hin i'). rewrite Hsk in Hin. simpl in Hin.
      assert (Hnin : ~ In i (skipn (S t) fl)).
      { assert (NoDup (skipn t fl)) as X.
        { rewrite <- (firstn_skipn t fl) in Hnd. clear -Hnd. induction (firstn t fl); auto.
          simpl in Hnd. inversion Hnd; auto. }
        rewrite Hsk in X. inversion X; auto. }
      split.
      + intros H. destruct (proj1 Hin (or_intror H)) as [A B]. split; auto.
        intros [->|X]; auto.
      + intros [A B]. assert (X : i = i' \/ In i' (skipn (S t) fl)).
        { apply Hin. split; auto. }
        destruct X as [X|X]; auto. exfalso. apply B. left; auto. }
  intros [[rs cs] v] (Hcore & Hvb & Hin). simpl in Hin.
  rewrite skipn_all2 in Hin by lia.
  assert (Hall : forall i, (i < n)%nat -> assigned m cs i).
  { intros i Hi. destruct (existsb (fun j => match nth j cs None with Some i' => (i' =? i)%nat | None => false end) (seq 0 m)) eqn:E.
    - apply existsb_exists in E. destruct E as (j & Hj & E). apply in_seq in Hj. exists j.
      split; [lia|]. destruct (nth j cs None); [|discriminate]. apply Nat.eqb_eq in E. congruence.
    - exfalso. apply (Hin i). split; auto. intros (j & Hj & Ej).
      assert (existsb (fun j => match nth j cs None with Some i' => (i' =? i)%nat | None => false end) (seq 0 m) = true); [|congruence].
      apply existsb_exists. exists j. split; [apply in_seq; lia|]. rewrite Ej. apply Nat.eqb_refl. }
  apply wp_bind. eapply wp_conseq.
  { apply (wp_for F n 0 _ (fun t (st : list (ext R) * ext R) => length (fst st) = n /\
      forall i j, (i < t)%nat -> nth i rs None = Some j -> nth i (fst st) NaN = nsub roundN (c m C i j) (nth j v NaN))).
    { split; auto. intros; lia. }
    intros t [u' c'] Ht [Hlu' Hu]. simpl in Hlu', Hu.
    rewrite (get_ok _ _ None) by (rewrite (wc_lr _ _ _ _ _ _ Hcore); lia). cbn [bind].
    destruct (Hall t) as (j & Hj & Ej); [lia|].
    destruct (wc_a1 _ _ _ _ _ _ Hcore _ _ Hj Ej) as [_ Er]. rewrite Er.
    rewrite (get_c n m C HC) by (auto; lia). cbn [bind].
    rewrite (get_ok v _ NaN) by (rewrite (wc_lv _ _ _ _ _ _ Hcore); lia). cbn [bind].
    rewrite set_ok by lia. cbn [bind]. apply wp_ret. simpl fst. split; [rewrite upd_length; auto|].
    intros i j' Hi Ei. destruct (Nat.eq_dec t i) as [<-|Hne].
    - rewrite nth_upd_eq by lia. rewrite Er in Ei. inversion Ei; subst j'. reflexivity.
    - rewrite nth_upd_neq by auto. apply Hu; auto. lia. }
  intros [u' c'] [Hlu' Hu]. apply wp_ret. constructor; auto.
  - exists cs. auto.
  - intros j Hj Hlk. specialize (Hvb j Hj Hlk). unfold bnd in *. rewrite Rmult_1_l in *.
    eapply Rle_trans; [exact Hvb|]. apply bpow_le. lia.
Qed.

Lemma start_apass : apass n m C Bd dl (fun _ => True) (mkArr (seq 0 n) (repeat None n) (repeat None m) (repeat (n0 roundN) m) 0 n).
Proof.
  pose proof Bd_pos as HB.
  assert (Hr : forall j, nth j (repeat (@None nat) m) None = None) by (intros; apply nth_repeat).
  assert (Hz : forall j, (j < m)%nat -> nth j (repeat (n0 roundN) m) NaN = Fin 0).
  { intros j Hj. rewrite nth_indep with (d' := n0 roundN) by (rewrite repeat_length; auto). apply nth_repeat. }
  assert (Hvr : forall j, (j < m)%nat -> vr (repeat (n0 roundN) m) j = 0) by (intros j Hj; unfold vr; rewrite Hz; auto).
  assert (Hlk : forall j, (j < m)%nat -> lk (repeat (n0 roundN) m) j = false) by (intros j Hj; unfold lk; rewrite Hz; auto).
  constructor; simpl.
  - constructor.
    + constructor; try apply repeat_length.
      * intros j Hj. right. exists 0. auto.
      * intros j i Hj E. rewrite Hr in E. discriminate.
      * intros; apply Hlk; auto.
      * intros j i Hj E. rewrite Hr in E. discriminate.
      * intros j i k Hj E. rewrite Hr in E. discriminate.
      * intros j i s Hj E. rewrite Hr in E. discriminate.
    + intros. rewrite Hvr; auto. lra.
    + intros; apply Hvr; auto.
    + intros j i k Hj E. rewrite Hr in E. discriminate.
    + auto.
    + intros j Hj _. rewrite Hvr by auto. pose proof (pos_INR m). pose proof (pos_INR (deep m Bd (repeat (n0 roundN) m))).
      rewrite Ropp_0. apply Rmult_le_pos; [lra|]. apply Rplus_le_le_0_compat; apply pos_INR.
    + intros j Hj _. rewrite Hvr by auto. apply generic_format_0.
  - apply seq_length.
  - lia.
  - rewrite firstn_all2 by (rewrite seq_length; lia). apply seq_NoDup.
  - rewrite firstn_all2 by (rewrite seq_length; lia). intros i. rewrite in_seq. split.
    + intros H. split; [lia|]. intros (j & _ & E). rewrite Hr in E. discriminate.
    + intros [H _]. lia.
Qed.

Lemma rlap_w simd fuel :
  wp True (rlap roundN simd fuel n m C (repeat (n0 roundN) n) (repeat (n0 roundN) m))
    (fun r => let '(rowsol, _, u, v, _) := r in wsolved rowsol u v).
Proof.
  unfold rlap. apply wp_bind. eapply wp_conseq; [apply (a_pass_safe n m C HC Hhall Hm Bd dl _ Har Hcost Hany), start_apass|].
  intros s1 H1. apply wp_bind. eapply wp_conseq; [apply (a_pass_safe n m C HC Hhall Hm Bd dl _ Har Hcost Hany); exact H1|].
  intros s2 H2. apply (rtail_spec True s2); auto. apply repeat_length.
Qed.

Lemma rlap_w_total simd : exists fuel0 r, forall fuel, (fuel0 <= fuel)%nat ->
  rlap roundN simd fuel n m C (repeat (n0 roundN) n) (repeat (n0 roundN) m) = Ok r.
Proof.
  destruct (a_pass n m C HC Hhall Hm Bd dl _ Har Hcost Hany simd _ start_apass) as (f1 & s1 & H1 & E1).
  destruct (a_pass n m C HC Hhall Hm Bd dl _ Har Hcost Hany simd _ H1) as (f2 & s2 & H2 & E2).
  pose proof (rtail_spec False s2 (repeat (n0 roundN) n) H2 (repeat_length _ _)) as X.
  destruct (rtail s2 (repeat (n0 roundN) n)) as [r| |] eqn:E; simpl in X; try tauto.
  exists (Nat.max f1 f2), r. intros fuel Hf. unfold rlap.
  rewrite E1 by lia. cbn [bind]. rewrite E2 by lia. cbn [bind]. exact E.
Qed.
End Rlap.

Section LapR.
Variable C : matrix (ext R).
Hypothesis HC : cost_matrix C.
Hypothesis Hrows : (m_rows C <= 30)%nat.
Hypothesis Hcols : (Z.of_nat (m_cols C) < 100000)%Z.
Hypothesis Hord : m_ord C = RowMajor.
Hypothesis Hcost : forall x, In (Fin x) (m_data C) -> Rabs x <= Bd.
Let n := m_rows C.
Let m := m_cols C.
Let D := m_data C.
Let Hrows' : (m_rows C <= 31)%nat.
Proof. lia. Qed.

Lemma costD i j : (i < n)%nat -> (j < m)%nat -> finb m D i j = true -> Rabs (cr m D i j) <= Bd.
Proof.
  intros Hi Hj Hf. apply Hcost. assert (X : In (c m D i j) D).
  { apply nth_In. unfold D. rewrite (proj1 HC). apply index_lt; auto. }
  unfold finb, cr in *. destruct (c m D i j); try discriminate. exact X.
Qed.

Lemma wsolved_list rowsol u v : wsolved n m D rowsol u v -> exists s, rowsol = map Some s /\ feasible C s.
Proof.
  intros [(cs & Hcore & Hall) _ _ _].
  pose proof (wc_lr _ _ _ _ _ _ Hcore) as Hlr.
  assert (Hex : forall i, (i < n)%nat -> exists j, nth i rowsol None = Some j /\ (j < m)%nat /\ nth j cs None = Some i).
  { intros i Hi. destruct (Hall i Hi) as (j & Hj & Ej). exists j.
    destruct (wc_a1 _ _ _ _ _ _ Hcore _ _ Hj Ej). auto. }
  set (s := map (fun o => match o with Some j => j | None => 0%nat end) rowsol).
  assert (Hn : forall i, (i < n)%nat -> nth i rowsol None = Some (nth i s 0%nat)).
  { intros i Hi. destruct (Hex i Hi) as (j & E & _). rewrite E. f_equal. unfold s.
    symmetry. etransitivity; [exact (map_nth _ rowsol None i)|]. rewrite E. auto. }
  assert (Hls : length s = n) by (unfold s; rewrite map_length; auto).
  exists s. split; [|split; [split; [auto|split]|]].
  - apply nth_ext with (d := None) (d' := Some 0%nat); [rewrite map_length; congruence|].
    intros i Hi. rewrite Hn by lia. rewrite map_nth. auto.
  - apply (NoDup_nth _ 0%nat). intros p q Hp Hq E.
    destruct (Hex p) as (j & E1 & _ & E2); [lia|]. destruct (Hex q) as (j' & E1' & _ & E2'); [lia|].
    rewrite Hn in E1, E1' by lia. congruence.
  - intros j Hj. apply (In_nth _ _ 0%nat) in Hj. destruct Hj as (i & Hi & E).
    destruct (Hex i) as (j' & E1 & Hj' & _); [lia|]. rewrite Hn in E1 by lia.
    assert (j = j') by congruence. subst. auto.
  - intros i Hi. destruct (Hex i) as (j & E1 & Hj & E2); auto.
    rewrite Hn in E1 by auto. inversion E1 as [E]. rewrite E in *.
    apply (finb_is C Hord). apply (wc_fin _ _ _ _ _ _ Hcore _ _ Hj E2).
Qed.

Definition rgood (r : lap_result (T := ext R)) : Prop :=
  (exists s, l_ok r = true /\ l_rowsol r = map Some s /\ feasible C s /\ wsolved n m D (l_rowsol r) (l_u r) (l_v r)) \/
  (l_ok r = false /\ forall s, ~ feasible C s).

Lemma rlap_build_spec simd fuel : wp True (lap_build roundN simd fuel C) rgood.
Proof.
  unfold lap_build. apply wp_bind. eapply wp_conseq; [exact (hall_check_spec C HC Hrows' _ Hrows)|].
  intros [|] Hb.
  - apply wp_bind. eapply wp_conseq.
    { apply (rlap_w n m D (wfD C HC)); auto; [apply (subsets_hall' C Hrows Hord); apply Hb; auto|apply costD]. }
    intros [[[[rowsol colsol] u] v] cst] Hs. apply wp_ret. left.
    destruct (wsolved_list _ _ _ Hs) as (s & E & Hf). exists s. split; [|split; [|split]]; simpl; auto.
    rewrite E. apply forallb_forall. intros x Hx. apply in_map_iff in Hx. destruct Hx as (? & <- & _). auto.
  - apply wp_ret. right. simpl. split; auto.
    intros s Hf. apply (feasible_subsets C Hrows') in Hf. apply Hb in Hf. discriminate.
Qed.

Lemma rlap_build_total simd : exists fuel0 r, forall fuel, (fuel0 <= fuel)%nat -> lap_build roundN simd fuel C = Ok r.
Proof.
  pose proof (hall_check_spec C HC Hrows' False Hrows) as X. change (hall_check extR C) with (hall_check roundN C) in X.
  destruct (hall_check roundN C) as [[|]| |] eqn:E; simpl in X; try tauto.
  - destruct (rlap_w_total n m D (wfD C HC)) with (simd := simd) as (fuel0 & r & H); auto;
      [apply (subsets_hall' C Hrows Hord); tauto|apply costD|].
    destruct r as [[[[rowsol colsol] u] v] cst].
    eexists fuel0, _. intros fuel Hf. unfold lap_build. rewrite E. cbn [bind].
    fold n m D. rewrite H by auto. cbn [bind]. reflexivity.
  - eexists 0%nat, _. intros fuel _. unfold lap_build. rewrite E. cbn [bind]. reflexivity.
Qed.
End LapR.

(** * Doubles *)
(** A matrix of doubles: each entry +infinity or of absolute value at most 2^300. *)
Definition moderate (x : float) : Prop := PrimFloat.leb (-0x1p+300)%float x = true /\ PrimFloat.leb x (0x1p+300)%float = true.
Definition double_matrix (C : matrix float) : Prop :=
  length (m_data C) = (m_rows C * m_cols C)%nat /\ forall x, In x (m_data C) -> moderate x \/ x = infinity.
(** An assignment of all rows to distinct columns with no infinite cost. *)
Definition feasible_double (C : matrix float) (s : list nat) : Prop :=
  complete (m_rows C) (m_cols C) s /\
  forall i, (i < m_rows C)%nat -> PrimFloat.ltb (entry nan C i (nth i s 0%nat)) infinity = true.

Lemma moderate_proj x : moderate x -> exists r, proj x = Fin r /\ Rabs r <= Bd.
Proof.
  intros [H1 H2].
  assert (F1 : fin (-0x1p+300)%float) by (apply fin_SF; reflexivity).
  assert (F2 : fin (0x1p+300)%float) by (apply fin_SF; reflexivity).
  destruct (between_fin _ _ _ F1 F2 H1 H2) as (F & V). exists (FloatBase.val x). split; [apply proj_fin; auto|].
  assert (E2 : FloatBase.val (0x1p+300)%float = Bd).
  { rewrite val_SF. change (Prim2SF (0x1p+300)%float) with (S754_finite false 4503599627370496 248). unfold SF2R, F2R, Bd, cond_Zopp, Fnum, Fexp.
    replace (IZR (Z.pos 4503599627370496)) with (bpow radix2 52) by reflexivity. rewrite <- bpow_plus. reflexivity. }
  assert (E1 : FloatBase.val (-0x1p+300)%float = - Bd).
  { rewrite <- E2, !val_SF. change (Prim2SF (0x1p+300)%float) with (S754_finite false 4503599627370496 248).
    change (Prim2SF (-0x1p+300)%float) with (S754_finite true 4503599627370496 248). unfold SF2R, F2R, cond_Zopp, Fnum, Fexp.
    change (- Z.pos 4503599627370496)%Z with (- (4503599627370496))%Z. rewrite opp_IZR. ring. }
  rewrite E1, E2 in V. apply Rabs_le. lra.
Qed.

Section Doubles.
Variable C : matrix float.
Hypothesis HC : double_matrix C.
Hypothesis Hrows : (m_rows C <= 30)%nat.
Hypothesis Hcols : (Z.of_nat (m_cols C) < 100000)%Z.
Hypothesis Hord : m_ord C = RowMajor.
Let M := pm proj C.

Lemma M_cost : cost_matrix M.
Proof.
  destruct HC as [Hl Hv]. split; [simpl; rewrite map_length; auto|].
  intros x Hx. simpl in Hx. apply in_map_iff in Hx. destruct Hx as (y & <- & Hy).
  destruct (Hv y Hy) as [Hm| ->]; [|right; reflexivity]. left. destruct (moderate_proj y Hm) as (r & E & _). exists r; auto.
Qed.
Lemma M_bound x : In (Fin x) (m_data M) -> Rabs x <= Bd.
Proof.
  simpl. intros Hx. apply in_map_iff in Hx. destruct Hx as (y & E & Hy). destruct (proj2 HC y Hy) as [Hm| ->].
  - destruct (moderate_proj y Hm) as (r & E' & Hr). rewrite E' in E. inversion E; subst; auto.
  - discriminate.
Qed.
Lemma proj_inf_iff x : moderate x \/ x = infinity -> (PrimFloat.ltb x infinity = true <-> is_fin (proj x)).
Proof.
  intros [H| ->].
  - destruct (moderate_proj x H) as (r & E & _). split; [intros _; exists r; auto|]. intros _.
    pose proof (proj_lt x infinity) as L. change (nlt floatN x infinity) with (PrimFloat.ltb x infinity) in L. rewrite <- L, E. reflexivity.
  - split; [discriminate|]. intros [r E]. discriminate.
Qed.
Lemma M_feasible s : feasible M s <-> feasible_double C s.
Proof.
  unfold feasible, feasible_double. cbn [M pm m_rows m_cols]. split; intros [Hc Hf]; split; auto; intros i Hi; specialize (Hf i Hi).
  all: destruct Hc as (Hls & _ & Hlt).
  all: assert (Hj : (nth i s 0 < m_cols C)%nat) by (apply Hlt, nth_In; lia).
  all: unfold entry in *; cbn [M pm m_ord m_cols m_rows m_data] in *; rewrite Hord in *.
  all: assert (Hlen : (i * m_cols C + nth i s 0 < length (m_data C))%nat) by (rewrite (proj1 HC); apply index_lt; auto).
  all: assert (E : nth (i * m_cols C + nth i s 0%nat) (map proj (m_data C)) NaN = proj (nth (i * m_cols C + nth i s 0%nat) (m_data C) nan))
    by (rewrite nth_indep with (d' := proj nan) by (rewrite map_length; auto); apply map_nth).
  all: assert (Hin : In (nth (i * m_cols C + nth i s 0%nat) (m_data C) nan) (m_data C)) by (apply nth_In; auto).
  - apply proj_inf_iff; [apply HC; auto|]. rewrite <- E. exact Hf.
  - rewrite E. apply proj_inf_iff; [apply HC; auto|]. exact Hf.
Qed.

Lemma M_run simd fuel : lap_build roundN simd fuel M = rmap (pl proj) (lap_build floatN simd fuel C).
Proof. apply lap_build_map; [apply proj_0|apply proj_inf|apply proj_add|apply proj_sub|apply proj_lt|apply proj_le|apply proj_eq|apply proj_isinf]. Qed.

Lemma double_cases simd fuel :
  lap_build floatN simd fuel C = OutOfFuel \/
  exists r, lap_build floatN simd fuel C = Ok r /\
    ((exists s, l_ok r = true /\ l_rowsol r = map Some s /\ feasible_double C s) \/
     (l_ok r = false /\ forall s, ~ feasible_double C s)).
Proof.
  pose proof (rlap_build_spec M M_cost Hrows Hcols Hord M_bound simd fuel) as X. rewrite M_run in X.
  destruct (lap_build floatN simd fuel C) as [r| |]; cbn [rmap wp] in X; [right|tauto|left; auto].
  exists r. split; auto. destruct X as [(s & H1 & H2 & H3 & _)|(H1 & H2)].
  - left. exists s. split; auto. split; auto. apply M_feasible; auto.
  - right. split; auto. intros s Hs. apply (H2 s). apply M_feasible; auto.
Qed.

Lemma double_safe simd fuel : lap_build floatN simd fuel C <> UB.
Proof. destruct (double_cases simd fuel) as [E|(r & E & _)]; rewrite E; discriminate. Qed.
Lemma double_total simd : exists fuel0 r, forall fuel, (fuel0 <= fuel)%nat -> lap_build floatN simd fuel C = Ok r.
Proof.
  destruct (rlap_build_total M M_cost Hrows Hcols Hord M_bound simd) as (fuel0 & r & H).
  specialize (H fuel0 (le_n _)). rewrite M_run in H. destruct (lap_build floatN simd fuel0 C) as [r'| |] eqn:E; try discriminate.
  exists fuel0, r'. intros fuel Hf. exact (lap_build_more floatN simd fuel0 fuel C r' Hf E).
Qed.

Lemma double_decides simd fuel r : lap_build floatN simd fuel C = Ok r -> (l_ok r = true <-> exists s, feasible_double C s).
Proof.
  intros E. destruct (double_cases simd fuel) as [E'|(r' & E' & H)]; rewrite E in E'; [discriminate|]. inversion E'; subst r'.
  destruct H as [(s & H1 & _ & H3)|(H1 & H2)].
  - split; [intros _; exists s; auto|auto].
  - rewrite H1. split; [discriminate|]. intros (s & Hs). elim (H2 s Hs).
Qed.
Lemma double_assigns simd fuel r : lap_build floatN simd fuel C = Ok r -> l_ok r = true ->
  exists s, l_rowsol r = map Some s /\ feasible_double C s.
Proof.
  intros E Hok. destruct (double_cases simd fuel) as [E'|(r' & E' & H)]; rewrite E in E'; [discriminate|]. inversion E'; subst r'.
  destruct H as [(s & _ & H2 & H3)|(H1 & _)]; [exists s; auto|congruence].
Qed.
End Doubles.
