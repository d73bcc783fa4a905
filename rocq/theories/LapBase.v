(** Basic facts used by the assignment solver's proofs: reduced costs,
    [find_umins], Hall's condition, invariants of a partial assignment. *)
From Coq Require Import List Arith Bool Lia Reals Lra.
Import ListNotations.
From Verif Require Import Res Scalar Lap.
Open Scope R_scope.

Lemma index_lt (n m i j : nat) : (i < n)%nat -> (j < m)%nat -> (i * m + j < n * m)%nat.
Proof.
  intros Hi Hj. assert (S i * m <= n * m)%nat by (apply Nat.mul_le_mono_r; lia).
  simpl in H. lia.
Qed.

(** The operations of [extR] on finite values. *)
Lemma lt_FF a b : nlt extR (Fin a) (Fin b) = Rltb a b.
Proof. reflexivity. Qed.
Lemma le_FF a b : nle extR (Fin a) (Fin b) = Rleb a b.
Proof.
  change (Rltb a b || Reqb a b = Rleb a b).
  destruct (Rltb_spec a b), (Reqb_spec a b), (Rleb_spec a b); simpl; auto; lra.
Qed.
Lemma eq_FF a b : neq extR (Fin a) (Fin b) = Reqb a b.
Proof. reflexivity. Qed.
Lemma lt_FP a : nlt extR (Fin a) PInf = true.
Proof. reflexivity. Qed.
Lemma lt_Px x : nlt extR PInf x = false.
Proof. destruct x; reflexivity. Qed.
Lemma le_PF a : nle extR PInf (Fin a) = false.
Proof. reflexivity. Qed.
Lemma le_xP a : nle extR (Fin a) PInf = true.
Proof. reflexivity. Qed.
Lemma sub_FF a b : nsub extR (Fin a) (Fin b) = Fin (a - b).
Proof. reflexivity. Qed.
Lemma add_FF a b : nadd extR (Fin a) (Fin b) = Fin (a + b).
Proof. reflexivity. Qed.

Ltac rb := repeat match goal with
  | |- context [Rltb ?a ?b] => destruct (Rltb_spec a b)
  | |- context [Reqb ?a ?b] => destruct (Reqb_spec a b)
  | H : context [Rltb ?a ?b] |- _ => destruct (Rltb_spec a b)
  | H : context [Reqb ?a ?b] |- _ => destruct (Reqb_spec a b)
  end.

Section Base.
Variables (n m : nat) (C : list (ext R)).

Definition c (i j : nat) : ext R := nth (i * m + j) C NaN.
Definition finb (i j : nat) : bool :=
  match c i j with Fin _ => true | _ => false end.
Definition cr (i j : nat) : R := match c i j with Fin r => r | _ => 0 end.
Definition lk (v : list (ext R)) (j : nat) : bool :=
  match nth j v NaN with Fin _ => false | _ => true end.
Definition vr (v : list (ext R)) (j : nat) : R :=
  match nth j v NaN with Fin r => r | _ => 0 end.
Definition av v i j : bool := finb i j && negb (lk v j).
Definition rc v i j : R := cr i j - vr v j.

Definition vok (v : list (ext R)) : Prop :=
  length v = m /\
  forall j, (j < m)%nat ->
    nth j v NaN = NInf \/ exists x, nth j v NaN = Fin x /\ x <= 0.

Definition wfC : Prop :=
  length C = (n * m)%nat /\
  forall x, In x C -> (exists r, x = Fin r) \/ x = PInf.

Hypothesis HC : wfC.

Lemma c_cases i j : (i < n)%nat -> (j < m)%nat ->
  (c i j = Fin (cr i j) /\ finb i j = true) \/ (c i j = PInf /\ finb i j = false).
Proof.
  intros Hi Hj. destruct HC as [Hl Hv].
  assert (In (c i j) C) as Hin.
  { apply nth_In. rewrite Hl. apply index_lt; auto. }
  unfold finb, cr. destruct (Hv _ Hin) as [[r E]|E]; rewrite E; auto.
Qed.

Lemma get_c i j : (i < n)%nat -> (j < m)%nat -> get C (i * m + j) = Ok (c i j).
Proof.
  intros Hi Hj. apply get_ok. destruct HC as [-> _]. apply index_lt; auto.
Qed.

Lemma v_cases v j : vok v -> (j < m)%nat ->
  (nth j v NaN = Fin (vr v j) /\ lk v j = false /\ vr v j <= 0) \/
  (nth j v NaN = NInf /\ lk v j = true /\ vr v j = 0).
Proof.
  intros [_ H] Hj. unfold lk, vr. destruct (H j Hj) as [E|[x [E Hx]]]; rewrite E; auto.
Qed.

Lemma get_v v j : vok v -> (j < m)%nat -> get v j = Ok (nth j v NaN).
Proof. intros [Hl _] Hj. apply get_ok. lia. Qed.

Definition hh v i j : ext R := if av v i j then Fin (rc v i j) else PInf.

Lemma h_val v i j : vok v -> (i < n)%nat -> (j < m)%nat ->
  nsub extR (c i j) (nth j v NaN) = hh v i j.
Proof.
  intros Hv Hi Hj. unfold hh, av, rc.
  destruct (c_cases i j Hi Hj) as [[-> ->]|[-> ->]];
  destruct (v_cases v j Hv Hj) as [(-> & -> & _)|(-> & -> & _)]; simpl; auto.
Qed.

(** What the row scan knows after columns [0..k). *)
Definition umins_inv v i (k : nat) (s : ext R * ext R * nat * option nat) : Prop :=
  let '(umin, usubmin, j1, j2) := s in
  (j1 < k)%nat /\ umin = hh v i j1 /\
  (forall j, (j < k)%nat -> av v i j = true ->
     av v i j1 = true /\ rc v i j1 <= rc v i j) /\
  ((usubmin = PInf /\ forall j, (j < k)%nat -> j <> j1 -> av v i j = false) \/
   (exists j2', j2 = Some j2' /\ (j2' < k)%nat /\ j2' <> j1 /\
      av v i j2' = true /\ av v i j1 = true /\ usubmin = Fin (rc v i j2') /\
      rc v i j1 <= rc v i j2' /\
      forall j, (j < k)%nat -> j <> j1 -> av v i j = true ->
        rc v i j2' <= rc v i j)).

(** Feasible assignments and Hall's condition. *)
Definition feas (s : nat -> nat) : Prop :=
  (forall i, (i < n)%nat -> (s i < m)%nat /\ finb i (s i) = true) /\
  (forall i i', (i < n)%nat -> (i' < n)%nat -> s i = s i' -> i = i').

(** Every set of rows has at least as many columns with a finite entry. *)
Definition hall : Prop :=
  forall (S L : list nat), NoDup S -> (forall i, In i S -> (i < n)%nat) ->
    (forall i j, In i S -> (j < m)%nat -> finb i j = true -> In j L) ->
    (length S <= length L)%nat.

(** Condition on an assigned pair under prices [v]. *)
Record pairok (v : list (ext R)) (i j : nat) : Prop := {
  po_fin : finb i j = true;
  po_min : lk v j = false -> forall k, (k < m)%nat -> av v i k = true ->
             rc v i j <= rc v i k;
  po_alt : lk v j = true -> forall k, (k < m)%nat -> k <> j ->
             finb i k = true -> lk v k = true;
  po_forced : lk v j = true -> forall s, feas s -> s i = j }.

(** Invariant of a partial assignment. *)
Record core (rowsol colsol : list (option nat)) (v : list (ext R)) : Prop := {
  co_lr : length rowsol = n;
  co_lc : length colsol = m;
  co_v : vok v;
  co_a1 : forall j i, (j < m)%nat -> nth j colsol None = Some i ->
            (i < n)%nat /\ nth i rowsol None = Some j;
  co_a3 : forall j, (j < m)%nat -> nth j colsol None = None -> nth j v NaN = Fin 0;
  co_pair : forall j i, (j < m)%nat -> nth j colsol None = Some i -> pairok v i j }.

Definition assigned (colsol : list (option nat)) (i : nat) : Prop :=
  exists j, (j < m)%nat /\ nth j colsol None = Some i.

Lemma core_inj rowsol colsol v j j' i :
  core rowsol colsol v -> (j < m)%nat -> (j' < m)%nat ->
  nth j colsol None = Some i -> nth j' colsol None = Some i -> j = j'.
Proof.
  intros H Hj Hj' E E'. destruct (co_a1 _ _ _ H _ _ Hj E) as [_ X].
  destruct (co_a1 _ _ _ H _ _ Hj' E') as [_ Y]. congruence.
Qed.

Lemma locked_assigned rowsol colsol v j :
  core rowsol colsol v -> (j < m)%nat -> lk v j = true ->
  exists i, nth j colsol None = Some i.
Proof.
  intros H Hj Hl. destruct (nth j colsol None) as [i|] eqn:E; eauto.
  apply (co_a3 _ _ _ H) in E; auto. unfold lk in Hl. rewrite E in Hl. discriminate.
Qed.

(** Rows of a list of assigned columns. *)
Definition rows_of (colsol : list (option nat)) (cols : list nat) : list nat :=
  flat_map (fun j => match nth j colsol None with Some i => [i] | None => [] end) cols.

Lemma rows_of_in colsol cols i :
  In i (rows_of colsol cols) <-> exists j, In j cols /\ nth j colsol None = Some i.
Proof.
  unfold rows_of. rewrite in_flat_map. split; intros (j & Hj & H); exists j; split; auto.
  - destruct (nth j colsol None); simpl in H; intuition congruence.
  - rewrite H; simpl; auto.
Qed.

Lemma rows_of_length colsol cols :
  (forall j, In j cols -> exists i, nth j colsol None = Some i) ->
  length (rows_of colsol cols) = length cols.
Proof.
  induction cols as [|j cols IH]; intros H; simpl; auto.
  destruct (H j) as [i E]; [left; auto|]. rewrite E. simpl. f_equal.
  apply IH. intros; apply H; right; auto.
Qed.

Lemma rows_of_nodup rowsol colsol v cols :
  core rowsol colsol v -> NoDup cols -> (forall j, In j cols -> (j < m)%nat) ->
  NoDup (rows_of colsol cols).
Proof.
  intros Hc. induction cols as [|j cols IH]; intros Hnd Hlt; simpl; [constructor|].
  inversion Hnd; subst.
  assert (NoDup (rows_of colsol cols)) by (apply IH; auto; intros; apply Hlt; right; auto).
  destruct (nth j colsol None) as [i|] eqn:E; simpl; auto.
  constructor; auto. rewrite rows_of_in. intros (j' & Hj' & E').
  assert (j = j') by (eapply core_inj; eauto; apply Hlt; simpl; auto). subst. auto.
Qed.

Definition lockedcols (v : list (ext R)) : list nat := filter (lk v) (seq 0 m).

Lemma lockedcols_in v j : In j (lockedcols v) <-> ((j < m)%nat /\ lk v j = true).
Proof. unfold lockedcols. rewrite filter_In, in_seq. intuition lia. Qed.

(** Hall's condition with a set of assigned unlocked columns that is closed:
    an extra unassigned row must have an available column outside the set. *)
Lemma hall_escape rowsol colsol v cols f :
  hall -> core rowsol colsol v ->
  NoDup cols ->
  (forall j, In j cols -> (j < m)%nat /\ lk v j = false /\
     exists i, nth j colsol None = Some i /\
       forall k, (k < m)%nat -> av v i k = true -> In k cols) ->
  (f < n)%nat -> ~ assigned colsol f ->
  exists k, (k < m)%nat /\ av v f k = true /\ ~ In k cols.
Proof.
  intros Hh Hc Hnd Hcl Hf Hna.
  destruct (existsb (fun k => av v f k && negb (existsb (Nat.eqb k) cols)) (seq 0 m)) eqn:E.
  - apply existsb_exists in E. destruct E as (k & Hk & E). apply in_seq in Hk.
    apply andb_true_iff in E. destruct E as [E1 E2]. exists k. repeat split; auto; try lia.
    intros Hin. apply negb_true_iff in E2.
    assert (existsb (Nat.eqb k) cols = true); [|congruence].
    apply existsb_exists. exists k. split; auto. apply Nat.eqb_refl.
  - exfalso.
    assert (Hno : forall k, (k < m)%nat -> av v f k = true -> In k cols).
    { intros k Hk Ha. destruct (in_dec Nat.eq_dec k cols); auto. exfalso.
      assert (existsb (fun k => av v f k && negb (existsb (Nat.eqb k) cols)) (seq 0 m) = true);
        [|congruence].
      apply existsb_exists. exists k. split; [apply in_seq; lia|].
      rewrite Ha. simpl. apply negb_true_iff.
      destruct (existsb (Nat.eqb k) cols) eqn:X; auto.
      apply existsb_exists in X. destruct X as (y & Hy & Ey). apply Nat.eqb_eq in Ey. congruence. }
    set (all := cols ++ lockedcols v).
    assert (NoDup all) as Hnda.
    { unfold all.
      assert (NoDup (lockedcols v)) by (apply NoDup_filter, seq_NoDup).
      assert (forall x, In x cols -> ~ In x (lockedcols v)).
      { intros x Hx Hl. apply lockedcols_in in Hl. destruct (Hcl _ Hx) as (_ & X & _). destruct Hl; congruence. }
      clear -Hnd H H0. induction cols as [|a l IH]; simpl; auto.
      inversion Hnd; subst. constructor.
      - rewrite in_app_iff. intros [X|X]; [auto|]. apply (H0 a); simpl; auto.
      - apply IH; auto. intros; apply H0; simpl; auto. }
    assert (Hall : forall j, In j all -> exists i, nth j colsol None = Some i).
    { intros j Hj. unfold all in Hj. apply in_app_iff in Hj. destruct Hj as [Hj|Hj].
      - destruct (Hcl _ Hj) as (_ & _ & i & E1 & _); eauto.
      - apply lockedcols_in in Hj. eapply locked_assigned; eauto; tauto. }
    assert (Hallm : forall j, In j all -> (j < m)%nat).
    { intros j Hj. unfold all in Hj. apply in_app_iff in Hj. destruct Hj as [Hj|Hj].
      - apply (Hcl _ Hj).
      - apply lockedcols_in in Hj. tauto. }
    assert (length (f :: rows_of colsol all) <= length all)%nat as X.
    { apply Hh.
      - constructor.
        + rewrite rows_of_in. intros (j & Hj & Ej). apply Hna. exists j; split; auto.
        + eapply rows_of_nodup; eauto.
      - intros i [<-|Hi]; auto. apply rows_of_in in Hi. destruct Hi as (j & Hj & Ej).
        eapply co_a1; eauto.
      - intros i j Hi Hj Hfin. unfold all. apply in_app_iff.
        destruct (lk v j) eqn:El; [right; apply lockedcols_in; auto|]. left.
        assert (av v i j = true) as Hav by (unfold av; rewrite Hfin, El; auto).
        destruct Hi as [<-|Hi]; [auto|].
        apply rows_of_in in Hi. destruct Hi as (j' & Hj' & Ej').
        unfold all in Hj'. apply in_app_iff in Hj'. destruct Hj' as [Hj'|Hj'].
        + destruct (Hcl _ Hj') as (_ & _ & i' & E1 & E2).
          assert (i' = i) by congruence. subst. auto.
        + exfalso. apply lockedcols_in in Hj'. destruct Hj' as [Hm' Hl'].
          pose proof (co_pair _ _ _ Hc _ _ Hm' Ej') as P.
          assert (lk v j = true); [|congruence].
          apply (po_alt _ _ _ P); auto. congruence. }
    simpl in X. rewrite rows_of_length in X by auto. lia.
Qed.

(** A free row always has an available column. *)
Lemma hall_avail rowsol colsol v f :
  hall -> core rowsol colsol v -> (f < n)%nat -> ~ assigned colsol f ->
  exists k, (k < m)%nat /\ av v f k = true.
Proof.
  intros Hh Hc Hf Hna.
  destruct (hall_escape rowsol colsol v [] f) as (k & ? & ? & _); auto.
  - constructor.
  - intros j [].
  - eauto.
Qed.

(** An assigned count argument: while a row is free some column is free. *)
Lemma free_column rowsol colsol v f :
  hall -> core rowsol colsol v -> (f < n)%nat -> ~ assigned colsol f ->
  exists k, (k < m)%nat /\ nth k colsol None = None.
Proof.
  intros Hh Hc Hf Hna.
  destruct (existsb (fun k => match nth k colsol None with None => true | _ => false end) (seq 0 m)) eqn:E.
  - apply existsb_exists in E. destruct E as (k & Hk & E). apply in_seq in Hk.
    exists k. split; [lia|]. destruct (nth k colsol None); congruence.
  - exfalso.
    assert (Hall : forall j, In j (seq 0 m) -> exists i, nth j colsol None = Some i).
    { intros j Hj. destruct (nth j colsol None) eqn:X; eauto. exfalso.
      assert (existsb (fun k => match nth k colsol None with None => true | _ => false end) (seq 0 m) = true); [|congruence].
      apply existsb_exists. exists j. rewrite X. auto. }
    assert (length (f :: rows_of colsol (seq 0 m)) <= length (seq 0 m))%nat as X.
    { apply Hh.
      - constructor.
        + rewrite rows_of_in. intros (j & Hj & Ej). apply Hna. apply in_seq in Hj. exists j; split; auto; lia.
        + eapply rows_of_nodup; eauto; [apply seq_NoDup|]. intros j Hj; apply in_seq in Hj; lia.
      - intros i [<-|Hi]; auto. apply rows_of_in in Hi. destruct Hi as (j & Hj & Ej).
        apply in_seq in Hj. eapply co_a1; eauto; lia.
      - intros i j _ Hj _. apply in_seq; lia. }
    simpl in X. rewrite rows_of_length in X by auto. lia.
Qed.

End Base.
