(** The augmenting row reduction with rounded arithmetic. *)
From Coq Require Import List Arith Bool Lia ZArith Reals Lra Classical.
From Flocq Require Import Core Relative.
Import ListNotations.
From Verif Require Import Res Scalar Lap LapBase LapArr LapDij LapTerm FloatBase FloatExt.
Local Open Scope nat_scope.
Local Open Scope R_scope.

#[local] Instance valid64' : Valid_exp fexp64 := valid64.

(** * Rounding *)
Lemma rnd_mono x y : x <= y -> rnd x <= rnd y.
Proof. apply rnd_le. Qed.

Lemma rnd_format x : generic_format radix2 fexp64 (rnd x).
Proof. apply generic_format_round; auto with typeclass_instances. Qed.

Lemma mul_format q k : (0 <= q < 2 ^ 53)%Z -> (-1074 <= k)%Z ->
  generic_format radix2 fexp64 (IZR q * bpow radix2 k).
Proof.
  intros Hq Hk. apply (generic_format_FLT radix2 (-1074) 53).
  exists (Float radix2 q k); simpl; auto. rewrite Z.abs_eq; lia.
Qed.

Lemma rnd_mul x q k : (0 <= q < 2 ^ 53)%Z -> (-1074 <= k)%Z ->
  Rabs x <= IZR q * bpow radix2 k -> Rabs (rnd x) <= IZR q * bpow radix2 k.
Proof.
  intros Hq Hk H. apply abs_round_le_generic; auto with typeclass_instances. apply mul_format; auto.
Qed.

Lemma rnd_err x k : (-1000 <= k)%Z -> Rabs x <= bpow radix2 k -> Rabs (rnd x - x) <= bpow radix2 (k - 53).
Proof.
  intros Hk H. unfold rnd.
  eapply Rle_trans; [apply error_le_half_ulp; auto with typeclass_instances|].
  assert (U : ulp radix2 fexp64 x <= ulp radix2 fexp64 (bpow radix2 k)).
  { apply ulp_le; auto with typeclass_instances.
    - exact (@FLT_exp_monotone (-1074) 53).
    - rewrite (Rabs_pos_eq (bpow radix2 k)) by apply bpow_ge_0. exact H. }
  rewrite ulp_bpow in U.
  assert (E : fexp64 (k + 1) = (k - 52)%Z) by (unfold SpecFloat.fexp, SpecFloat.emin, FloatOps.prec, FloatOps.emax; lia).
  rewrite E in U. replace (k - 52)%Z with (k - 53 + 1)%Z in U by lia. rewrite bpow_plus in U.
  change (bpow radix2 1) with 2 in U. lra.
Qed.

Lemma rel_err x : Rabs (rnd x - x) <= bpow radix2 (-53) * Rabs x + bpow radix2 (-1075).
Proof.
  destruct (error_N_FLT radix2 (-1074) 53 eq_refl (fun n => negb (Z.even n)) x) as (e & d & He & Hd & _ & E).
  change (round radix2 (FLT_exp (-1074) 53) ZnearestE x) with (rnd x) in E. rewrite E.
  replace (x * (1 + e) + d - x) with (e * x + d) by ring.
  eapply Rle_trans; [apply Rabs_triang|]. rewrite Rabs_mult.
  apply Rplus_le_compat.
  - apply Rmult_le_compat_r; [apply Rabs_pos|]. eapply Rle_trans; [exact He|].
    change (/ 2) with (bpow radix2 (-1)). rewrite <- bpow_plus. apply bpow_le. lia.
  - eapply Rle_trans; [exact Hd|]. change (/ 2) with (bpow radix2 (-1)). rewrite <- bpow_plus. apply bpow_le. lia.
Qed.

Lemma rsub_FF a b k : (-1074 <= k < 1024)%Z -> Rabs (a - b) <= bpow radix2 k ->
  nsub roundN (Fin a) (Fin b) = Fin (rnd (a - b)).
Proof. intros Hk H. cbn [nsub roundN rnd_sub]. unfold rfin. rewrite (rnd_lt_emax _ k Hk H). reflexivity. Qed.

Lemma radd_FF a b k : (-1074 <= k < 1024)%Z -> Rabs (a + b) <= bpow radix2 k ->
  nadd roundN (Fin a) (Fin b) = Fin (rnd (a + b)).
Proof. intros Hk H. cbn [nadd roundN rnd_add]. unfold rfin. rewrite (rnd_lt_emax _ k Hk H). reflexivity. Qed.

(** * Partial assignments *)
Section Weak.
Variables (n m : nat) (C : list (ext R)).
Hypothesis HC : wfC n m C.

Notation av := (av m C).
Notation rc := (rc m C).
Notation assigned := (assigned m).

(** The part of the invariant [core] that does not depend on exact arithmetic. *)
Record wcore (rowsol colsol : list (option nat)) (v : list (ext R)) : Prop := {
  wc_lr : length rowsol = n;
  wc_lc : length colsol = m;
  wc_lv : length v = m;
  wc_v : forall j, (j < m)%nat -> nth j v NaN = NInf \/ exists x, nth j v NaN = Fin x;
  wc_a1 : forall j i, (j < m)%nat -> nth j colsol None = Some i ->
            (i < n)%nat /\ nth i rowsol None = Some j;
  wc_un : forall j, (j < m)%nat -> nth j colsol None = None -> lk v j = false;
  wc_fin : forall j i, (j < m)%nat -> nth j colsol None = Some i -> finb m C i j = true;
  wc_alt : forall j i k, (j < m)%nat -> nth j colsol None = Some i -> lk v j = true ->
             (k < m)%nat -> k <> j -> finb m C i k = true -> lk v k = true;
  wc_forced : forall j i s, (j < m)%nat -> nth j colsol None = Some i -> lk v j = true ->
                feas n m C s -> s i = j }.

Lemma w_cases rs cs v j : wcore rs cs v -> (j < m)%nat ->
  (nth j v NaN = Fin (vr v j) /\ lk v j = false) \/ (nth j v NaN = NInf /\ lk v j = true).
Proof.
  intros H Hj. unfold lk, vr. destruct (wc_v _ _ _ H j Hj) as [E|[x E]]; rewrite E; auto.
Qed.

Lemma w_inj rs cs v j j' i : wcore rs cs v -> (j < m)%nat -> (j' < m)%nat ->
  nth j cs None = Some i -> nth j' cs None = Some i -> j = j'.
Proof.
  intros H Hj Hj' E E'. destruct (wc_a1 _ _ _ H _ _ Hj E) as [_ X].
  destruct (wc_a1 _ _ _ H _ _ Hj' E') as [_ Y]. congruence.
Qed.

Lemma w_locked rs cs v j : wcore rs cs v -> (j < m)%nat -> lk v j = true ->
  exists i, nth j cs None = Some i.
Proof.
  intros H Hj Hl. destruct (nth j cs None) as [i|] eqn:E; eauto.
  apply (wc_un _ _ _ H) in E; auto. congruence.
Qed.

Lemma w_rows_nodup rs cs v cols : wcore rs cs v -> NoDup cols -> (forall j, In j cols -> (j < m)%nat) ->
  NoDup (rows_of cs cols).
Proof.
  intros Hc. induction cols as [|j cols IH]; intros Hnd Hlt; simpl; [constructor|].
  inversion Hnd; subst.
  assert (NoDup (rows_of cs cols)) by (apply IH; auto; intros; apply Hlt; right; auto).
  destruct (nth j cs None) as [i|] eqn:E; simpl; auto.
  constructor; auto. rewrite rows_of_in. intros (j' & Hj' & E').
  assert (j = j') by (eapply w_inj; eauto; apply Hlt; simpl; auto). subst. auto.
Qed.

Hypothesis Hhall : hall n m C.

(** As [hall_escape]. *)
Lemma w_escape rs cs v cols f :
  wcore rs cs v -> NoDup cols ->
  (forall j, In j cols -> (j < m)%nat /\ lk v j = false /\
     exists i, nth j cs None = Some i /\ forall k, (k < m)%nat -> av v i k = true -> In k cols) ->
  (f < n)%nat -> ~ assigned cs f ->
  exists k, (k < m)%nat /\ av v f k = true /\ ~ In k cols.
Proof.
  intros Hc Hnd Hcl Hf Hna. apply NNPP. intros Hno0.
  assert (Hno : forall k, (k < m)%nat -> av v f k = true -> In k cols).
  { intros k Hk Ha. apply NNPP. intros X. apply Hno0. eauto. }
  set (all := cols ++ lockedcols m v).
  assert (NoDup all) as Hnda.
  { unfold all.
    assert (NoDup (lockedcols m v)) by (apply NoDup_filter, seq_NoDup).
    assert (forall x, In x cols -> ~ In x (lockedcols m v)).
    { intros x Hx Hl. apply lockedcols_in in Hl. destruct (Hcl _ Hx) as (_ & X & _). destruct Hl; congruence. }
    clear -Hnd H H0. induction cols as [|a l IH]; simpl; auto.
    inversion Hnd; subst. constructor.
    - rewrite in_app_iff. intros [X|X]; [auto|]. apply (H0 a); simpl; auto.
    - apply IH; auto. intros; apply H0; simpl; auto. }
  assert (Hall : forall j, In j all -> (j < m)%nat /\ exists i, nth j cs None = Some i).
  { intros j Hj. unfold all in Hj. apply in_app_iff in Hj. destruct Hj as [Hj|Hj].
    - destruct (Hcl _ Hj) as (? & _ & i & E1 & _); eauto.
    - apply lockedcols_in in Hj. split; [tauto|]. eapply w_locked; eauto; tauto. }
  assert (length (f :: rows_of cs all) <= length all)%nat as X.
  { apply Hhall.
    - constructor.
      + rewrite rows_of_in. intros (j & Hj & Ej). apply Hna. exists j; split; auto. apply Hall; auto.
      + eapply w_rows_nodup; eauto. intros; apply Hall; auto.
    - intros i [<-|Hi]; auto. apply rows_of_in in Hi. destruct Hi as (j & Hj & Ej).
      eapply wc_a1; eauto. apply Hall; auto.
    - intros i j Hi Hj Hfin. unfold all. apply in_app_iff.
      destruct (lk v j) eqn:El; [right; apply lockedcols_in; auto|]. left.
      assert (av v i j = true) as Hav by (unfold LapBase.av; rewrite Hfin, El; auto).
      destruct Hi as [<-|Hi]; [auto|].
      apply rows_of_in in Hi. destruct Hi as (j' & Hj' & Ej').
      unfold all in Hj'. apply in_app_iff in Hj'. destruct Hj' as [Hj'|Hj'].
      + destruct (Hcl _ Hj') as (_ & _ & i' & E1 & E2).
        assert (i' = i) by congruence. subst. auto.
      + exfalso. apply lockedcols_in in Hj'. destruct Hj' as [Hm' Hl'].
        assert (lk v j = true); [|congruence].
        apply (wc_alt _ _ _ Hc j' i j); auto. congruence. }
  simpl in X. rewrite rows_of_length in X by (intros; apply Hall; auto). lia.
Qed.

Lemma w_avail rs cs v f : wcore rs cs v -> (f < n)%nat -> ~ assigned cs f ->
  exists k, (k < m)%nat /\ av v f k = true.
Proof.
  intros Hc Hf Hna. destruct (w_escape rs cs v [] f Hc) as (k & ? & ? & _); auto.
  - constructor.
  - intros j [].
  - eauto.
Qed.

Lemma w_free rs cs v f : wcore rs cs v -> (f < n)%nat -> ~ assigned cs f ->
  exists k, (k < m)%nat /\ nth k cs None = None.
Proof.
  intros Hc Hf Hna. apply NNPP. intros Hno.
  assert (Hall : forall j, In j (seq 0 m) -> exists i, nth j cs None = Some i).
  { intros j Hj. destruct (nth j cs None) eqn:X; eauto. exfalso. apply Hno. exists j. apply in_seq in Hj. split; auto; lia. }
  assert (length (f :: rows_of cs (seq 0 m)) <= length (seq 0 m))%nat as X.
  { apply Hhall.
    - constructor.
      + rewrite rows_of_in. intros (j & Hj & Ej). apply Hna. apply in_seq in Hj. exists j; split; auto; lia.
      + eapply w_rows_nodup; eauto; [apply seq_NoDup|]. intros j Hj; apply in_seq in Hj; lia.
    - intros i [<-|Hi]; auto. apply rows_of_in in Hi. destruct Hi as (j & Hj & Ej).
      apply in_seq in Hj. eapply wc_a1; eauto; lia.
    - intros i j _ Hj _. apply in_seq; lia. }
  simpl in X. rewrite rows_of_length in X by auto. lia.
Qed.

Lemma w_assigned_upd rs cs v i j i' : wcore rs cs v -> (j < m)%nat -> ~ assigned cs i ->
  (assigned (upd cs j (Some i)) i' <-> i' = i \/ (assigned cs i' /\ nth j cs None <> Some i')).
Proof.
  intros Hc Hj Hna. unfold LapBase.assigned. split.
  - intros (j' & Hj' & E). destruct (Nat.eq_dec j j') as [<-|Hne].
    + rewrite nth_upd_eq in E by (rewrite (wc_lc _ _ _ Hc); auto). left; congruence.
    + rewrite nth_upd_neq in E by auto. right. split; [eauto|].
      intros E'. apply Hne. eapply w_inj; eauto.
  - intros [->|[(j' & Hj' & E) Hne]].
    + exists j. split; auto. apply nth_upd_eq. rewrite (wc_lc _ _ _ Hc); auto.
    + exists j'. split; auto. rewrite nth_upd_neq; auto. congruence.
Qed.

(** Giving an unlocked column [j] to the free row [i]. *)
Lemma w_assign rs cs v v' i j :
  wcore rs cs v -> (i < n)%nat -> ~ assigned cs i -> (j < m)%nat -> lk v j = false ->
  finb m C i j = true ->
  length v' = m -> (nth j v' NaN = NInf \/ exists x, nth j v' NaN = Fin x) ->
  (forall k, (k < m)%nat -> k <> j -> nth k v' NaN = nth k v NaN) ->
  (lk v' j = true -> forall k, (k < m)%nat -> k <> j -> finb m C i k = true -> lk v k = true) ->
  wcore (upd rs i (Some j)) (upd cs j (Some i)) v'.
Proof.
  intros Hc Hi Hna Hj Hl Hfin Hlv Hvj Hsame Halt.
  destruct Hc as [Hlr Hlc Hlv0 Hv Ha1 Hun Hf Ha Hfo].
  constructor; auto.
  - rewrite upd_length; auto.
  - rewrite upd_length; auto.
  - intros k Hk. destruct (Nat.eq_dec k j) as [->|]; auto. rewrite Hsame by auto. auto.
  - intros j' i' Hj' E. destruct (Nat.eq_dec j j') as [<-|Hne].
    + rewrite nth_upd_eq in E by lia. inversion E; subst i'. split; auto. apply nth_upd_eq; lia.
    + rewrite nth_upd_neq in E by auto. destruct (Ha1 _ _ Hj' E) as [? E'].
      split; auto. rewrite nth_upd_neq; auto. intros <-. apply Hna. exists j'; auto.
  - intros j' Hj' E. destruct (Nat.eq_dec j j') as [<-|Hne].
    + rewrite nth_upd_eq in E by lia. discriminate.
    + rewrite nth_upd_neq in E by auto. rewrite (lk_eq v v') by (apply Hsame; auto). auto.
  - intros j' i' Hj' E. destruct (Nat.eq_dec j j') as [<-|Hne].
    + rewrite nth_upd_eq in E by lia. inversion E; subst i'. auto.
    + rewrite nth_upd_neq in E by auto. auto.
  - intros j' i' k Hj' E Hlk Hk Hkj Hfk. destruct (Nat.eq_dec j j') as [<-|Hne].
    + rewrite nth_upd_eq in E by lia. inversion E; subst i'.
      rewrite (lk_eq v v') by (apply Hsame; auto). auto.
    + rewrite nth_upd_neq in E by auto. rewrite (lk_eq v v') in Hlk by (apply Hsame; auto).
      assert (X : lk v k = true) by (apply (Ha j' i' k); auto).
      destruct (Nat.eq_dec k j) as [->|]; [congruence|]. rewrite (lk_eq v v') by (apply Hsame; auto). auto.
  - intros j' i' s Hj' E Hlk Hs. destruct (Nat.eq_dec j j') as [<-|Hne].
    + rewrite nth_upd_eq in E by lia. inversion E; subst i'. pose proof Hs as [Hs1 Hs2].
      destruct (Hs1 i Hi) as [Hk Hfk]. destruct (Nat.eq_dec (s i) j) as [|Hkj]; auto. exfalso.
      assert (X : lk v (s i) = true) by (apply Halt; auto).
      destruct (nth (s i) cs None) as [i1|] eqn:Ec; [|apply Hun in Ec; auto; congruence].
      pose proof (Hfo _ _ s Hk Ec X Hs) as Y. destruct (Ha1 _ _ Hk Ec) as [Hi1 _].
      apply Hs2 in Y; auto. subst i1. apply Hna. exists (s i). auto.
    + rewrite nth_upd_neq in E by auto. rewrite (lk_eq v v') in Hlk by (apply Hsame; auto). eauto.
Qed.
End Weak.
