(** Sub-problems given by bound pairs [B] and forbidden pairs [X]. *)
From Coq Require Import List Arith Bool Lia Reals Lra Permutation.
Import ListNotations.
From Verif Require Import Res Scalar Lap LapSpec LapBase LapMain Murty MurtyBase.
Local Open Scope nat_scope.

Definition pairs := list (nat * nat).
Definition inp (X : pairs) (r c : nat) : bool :=
  existsb (fun p => (fst p =? r) && (snd p =? c)) X.

Lemma inp_spec X r c : inp X r c = true <-> In (r, c) X.
Proof.
  unfold inp. rewrite existsb_exists. split.
  - intros ([r' c'] & H & E). simpl in E. apply andb_true_iff in E. destruct E as [E1 E2].
    apply Nat.eqb_eq in E1, E2. subst. auto.
  - intros H. exists (r, c). simpl. rewrite !Nat.eqb_refl. auto.
Qed.

(** Does the assignment [s] respect the bound and forbidden pairs? *)
Definition memb (g : pairs * pairs) (s : list nat) : bool :=
  forallb (fun p => nth (fst p) s 0 =? snd p) (fst g) &&
  forallb (fun p => negb (nth (fst p) s 0 =? snd p)) (snd g).

Lemma memb_spec B X s : memb (B, X) s = true <->
  (forall r c, In (r, c) B -> nth r s 0 = c) /\ (forall r c, In (r, c) X -> nth r s 0 <> c).
Proof.
  unfold memb. simpl. rewrite andb_true_iff, !forallb_forall. split.
  - intros [H1 H2]. split; intros r c H.
    + apply Nat.eqb_eq. apply (H1 (r, c) H).
    + apply Nat.eqb_neq. apply negb_true_iff. apply (H2 (r, c) H).
  - intros [H1 H2]. split; intros [r c] H; simpl.
    + apply Nat.eqb_eq; auto.
    + apply negb_true_iff, Nat.eqb_neq; auto.
Qed.

Lemma memb_bind r c B X s :
  memb ((r, c) :: B, X) s = (nth r s 0 =? c) && memb (B, X) s.
Proof. unfold memb. simpl. rewrite andb_assoc. auto. Qed.

Lemma memb_forbid r c B X s :
  memb (B, (r, c) :: X) s = negb (nth r s 0 =? c) && memb (B, X) s.
Proof.
  unfold memb. simpl.
  destruct (negb (nth r s 0 =? c)), (forallb (fun p => nth (fst p) s 0 =? snd p) B); auto.
Qed.

Section Sub.
Variable C0 : matrix (ext R).
Hypothesis HC0 : cost_matrix C0.
Hypothesis Hrows : m_rows C0 <= 30.
Hypothesis Hord : m_ord C0 = RowMajor.
Let n := m_rows C0.
Let m := m_cols C0.
Definition e (r c : nat) : ext R := entry NaN C0 r c.

Definition ecell (X : pairs) (rc : nat * nat) : ext R :=
  if inp X (fst rc) (snd rc) then PInf else e (fst rc) (snd rc).

Definition rl (B : pairs) : list nat := leftover (map fst B) n.
Definition cl (B : pairs) : list nat := leftover (map snd B) m.

Definition sub (B X : pairs) : matrix (ext R) :=
  mkMat (length (rl B)) (length (cl B)) RowMajor (map (ecell X) (list_prod (rl B) (cl B))).

Record okB (B X : pairs) : Prop := {
  ob_r : NoDup (map fst B);
  ob_c : NoDup (map snd B);
  ob_range : forall r c, In (r, c) B -> r < n /\ c < m /\ is_fin (e r c);
  ob_X : forall r c, In (r, c) B -> ~ In (r, c) X;
  ob_X_range : forall r c, In (r, c) X -> r < n }.

Lemma rl_in B a : a < length (rl B) -> nth a (rl B) 0 < n /\ ~ In (nth a (rl B) 0) (map fst B).
Proof. intros Ha. destruct (nth_filter_seq _ _ _ 0 Ha) as [H1 H2]. apply notin_spec in H2. auto. Qed.
Lemma cl_in B a : a < length (cl B) -> nth a (cl B) 0 < m /\ ~ In (nth a (cl B) 0) (map snd B).
Proof. intros Ha. destruct (nth_filter_seq _ _ _ 0 Ha) as [H1 H2]. apply notin_spec in H2. auto. Qed.
Lemma rl_nodup B : NoDup (rl B).
Proof. apply NoDup_filter, seq_NoDup. Qed.
Lemma cl_nodup B : NoDup (cl B).
Proof. apply NoDup_filter, seq_NoDup. Qed.
Lemma in_rl B r : In r (rl B) <-> r < n /\ ~ In r (map fst B).
Proof. unfold rl, leftover. rewrite filter_In, notin_spec, in_seq. intuition lia. Qed.
Lemma in_cl B c : In c (cl B) <-> c < m /\ ~ In c (map snd B).
Proof. unfold cl, leftover. rewrite filter_In, notin_spec, in_seq. intuition lia. Qed.
Lemma rl_length B : length (rl B) <= n.
Proof.
  unfold rl, leftover. rewrite <- (seq_length n 0) at 2. generalize (seq 0 n). intros l.
  induction l; simpl; auto. destruct (notin (map fst B) a); simpl; lia.
Qed.

Lemma rk_rl B r : In r (rl B) -> rk (notin (map fst B)) r < length (rl B) /\
  nth (rk (notin (map fst B)) r) (rl B) 0 = r.
Proof.
  intros H. apply in_rl in H. destruct H as [H1 H2]. apply notin_spec in H2. split.
  - apply rk_lt; auto.
  - apply nth_rk; auto.
Qed.
Lemma rk_cl B c : In c (cl B) -> rk (notin (map snd B)) c < length (cl B) /\
  nth (rk (notin (map snd B)) c) (cl B) 0 = c.
Proof.
  intros H. apply in_cl in H. destruct H as [H1 H2]. apply notin_spec in H2. split.
  - apply rk_lt; auto.
  - apply nth_rk; auto.
Qed.

Lemma sub_entry B X a b : a < length (rl B) -> b < length (cl B) ->
  entry NaN (sub B X) a b = ecell X (nth a (rl B) 0, nth b (cl B) 0).
Proof.
  intros Ha Hb. unfold entry, sub. cbn [m_ord m_cols m_data]. apply nth_prod; auto.
Qed.

Lemma e_cases r c : r < n -> c < m -> is_fin (e r c) \/ e r c = PInf.
Proof.
  intros Hr Hc. destruct HC0 as [Hl Hv]. apply Hv. unfold e, entry. rewrite Hord.
  apply nth_In. rewrite Hl. apply index_lt; auto.
Qed.

Lemma sub_cost B X : cost_matrix (sub B X).
Proof.
  split.
  - unfold sub. cbn [m_data m_rows m_cols]. rewrite map_length, prod_length. auto.
  - unfold sub. cbn [m_data]. intros x Hx. apply in_map_iff in Hx. destruct Hx as ([r c] & <- & Hin).
    apply in_prod_iff in Hin. destruct Hin as [Hr Hc]. apply in_rl in Hr. apply in_cl in Hc.
    unfold ecell. simpl. destruct (inp X r c); auto. apply e_cases; tauto.
Qed.

Lemma sub_rows B X : m_rows (sub B X) <= 30.
Proof. simpl. pose proof (rl_length B). unfold n in *. lia. Qed.

Lemma sub_fin B X a b : a < length (rl B) -> b < length (cl B) ->
  (is_fin (entry NaN (sub B X) a b) <->
   is_fin (e (nth a (rl B) 0) (nth b (cl B) 0)) /\ ~ In (nth a (rl B) 0, nth b (cl B) 0) X).
Proof.
  intros Ha Hb. rewrite sub_entry by auto. unfold ecell. simpl.
  destruct (inp X _ _) eqn:E.
  - apply inp_spec in E. split; [intros [x H]; discriminate|tauto].
  - split; [|tauto]. intros H. split; auto. intros Hin. apply inp_spec in Hin. congruence.
Qed.

(** [s] is the global assignment that [t] stands for. *)
Definition agrees (B : pairs) (t s : list nat) : Prop :=
  length s = n /\ length t = length (rl B) /\
  (forall r c, In (r, c) B -> nth r s 0 = c) /\
  (forall a, a < length (rl B) -> nth a t 0 < length (cl B) /\
     nth (nth a (rl B) 0) s 0 = nth (nth a t 0) (cl B) 0).

Lemma row_cases B r : r < n -> (exists c, In (r, c) B) \/ (exists a, a < length (rl B) /\ nth a (rl B) 0 = r).
Proof.
  intros Hr. destruct (in_dec Nat.eq_dec r (map fst B)) as [H|H].
  - left. apply in_map_iff in H. destruct H as ([r' c] & <- & H). eauto.
  - right. exists (rk (notin (map fst B)) r). apply rk_rl. apply in_rl. auto.
Qed.

Lemma In_B_inj B X r c c' : okB B X -> In (r, c) B -> In (r, c') B -> c = c'.
Proof.
  intros [H _ _ _]. induction B as [|[r0 c0] B IH]; simpl in *; [tauto|].
  inversion H; subst. intros [E|E] [E'|E']; try congruence; auto.
  - inversion E; subst. elim H2. apply in_map_iff. exists (r, c'); auto.
  - inversion E'; subst. elim H2. apply in_map_iff. exists (r, c); auto.
Qed.
Lemma In_B_inj2 B X r r' c : okB B X -> In (r, c) B -> In (r', c) B -> r = r'.
Proof.
  intros [_ H _ _]. induction B as [|[r0 c0] B IH]; simpl in *; [tauto|].
  inversion H; subst. intros [E|E] [E'|E']; try congruence; auto.
  - inversion E; subst. elim H2. apply in_map_iff. exists (r', c); auto.
  - inversion E'; subst. elim H2. apply in_map_iff. exists (r, c); auto.
Qed.

(** Local feasible assignments are global ones respecting [B] and [X]. *)
Lemma local_global B X t s : okB B X -> agrees B t s -> feasible (sub B X) t ->
  feasible C0 s /\ memb (B, X) s = true.
Proof.
  intros HB (Hls & Hlt & Hb & Ha) [(Hl & Hnd & Hr) Hf]. cbn [m_rows m_cols sub] in *.
  assert (Hfin : forall a, a < length (rl B) -> is_fin (e (nth a (rl B) 0) (nth (nth a (rl B) 0) s 0)) /\
    ~ In (nth a (rl B) 0, nth (nth a (rl B) 0) s 0) X).
  { intros a Hla. destruct (Ha a Hla) as [H1 H2]. rewrite H2. apply sub_fin; auto. }
  split.
  - split.
    + split; auto. split.
      * apply (NoDup_nth _ 0). intros r r' Hr1 Hr2 E. rewrite Hls in *.
        destruct (row_cases B r Hr1) as [[c Hc]|(a & Hla & Ea)];
        destruct (row_cases B r' Hr2) as [[c' Hc']|(a' & Hla' & Ea')].
        -- rewrite (Hb _ _ Hc), (Hb _ _ Hc') in E. subst c'. eapply In_B_inj2; eauto.
        -- exfalso. rewrite (Hb _ _ Hc) in E. destruct (Ha a' Hla') as [H1 H2]. rewrite Ea' in H2.
           rewrite H2 in E. destruct (cl_in B _ H1) as [_ H3]. apply H3. rewrite <- E.
           apply in_map_iff. exists (r, c); auto.
        -- exfalso. rewrite (Hb _ _ Hc') in E. destruct (Ha a Hla) as [H1 H2]. rewrite Ea in H2.
           rewrite H2 in E. destruct (cl_in B _ H1) as [_ H3]. apply H3. rewrite E.
           apply in_map_iff. exists (r', c'); auto.
        -- destruct (Ha a Hla) as [H1 H2]. destruct (Ha a' Hla') as [H1' H2'].
           rewrite Ea in H2. rewrite Ea' in H2'. rewrite H2, H2' in E.
           apply (proj1 (NoDup_nth (cl B) 0) (cl_nodup B)) in E; auto.
           apply (proj1 (NoDup_nth t 0) Hnd) in E; try lia. congruence.
      * intros j Hj. apply (In_nth _ _ 0) in Hj. destruct Hj as (r & Hr1 & <-). rewrite Hls in Hr1.
        destruct (row_cases B r Hr1) as [[c Hc]|(a & Hla & Ea)].
        -- rewrite (Hb _ _ Hc). apply HB in Hc. tauto.
        -- destruct (Ha a Hla) as [H1 H2]. rewrite Ea in H2. rewrite H2. apply cl_in; auto.
    + intros r Hr1. destruct (row_cases B r Hr1) as [[c Hc]|(a & Hla & Ea)].
      * rewrite (Hb _ _ Hc). apply HB in Hc. unfold e in Hc. tauto.
      * rewrite <- Ea. apply Hfin; auto.
  - apply memb_spec. split; auto. intros r c Hin Hc.
    pose proof (ob_X_range _ _ HB _ _ Hin) as Hr1.
    destruct (row_cases B r Hr1) as [[c' Hc']|(a & Hla & Ea)].
    + assert (c' = c) by (rewrite (Hb _ _ Hc') in Hc; auto). subst c'.
      exact (ob_X _ _ HB _ _ Hc' Hin).
    + destruct (Hfin a Hla) as [_ H]. apply H. rewrite Ea, Hc. auto.
Qed.

Definition localize (B : pairs) (s : list nat) : list nat :=
  map (fun r => rk (notin (map snd B)) (nth r s 0)) (rl B).

Lemma global_local B X s : okB B X -> feasible C0 s -> memb (B, X) s = true ->
  agrees B (localize B s) s /\ feasible (sub B X) (localize B s).
Proof.
  intros HB [(Hls & Hnd & Hlt) Hf] Hm. apply memb_spec in Hm. destruct Hm as [Hb HX].
  fold n in Hls, Hf. fold m in Hlt.
  assert (Hn : forall a, a < length (rl B) -> nth a (localize B s) 0 = rk (notin (map snd B)) (nth (nth a (rl B) 0) s 0)).
  { intros a Ha. unfold localize.
    rewrite (nth_indep _ 0 ((fun r => rk (notin (map snd B)) (nth r s 0)) 0)) by (rewrite map_length; auto).
    apply (map_nth (fun r => rk (notin (map snd B)) (nth r s 0))). }
  assert (Hcl : forall a, a < length (rl B) -> In (nth (nth a (rl B) 0) s 0) (cl B)).
  { intros a Ha. destruct (rl_in B a Ha) as [H1 H2]. apply in_cl. split.
    - apply Hlt, nth_In. lia.
    - intros Hin. apply in_map_iff in Hin. destruct Hin as ([r c] & E & Hin). simpl in E.
      pose proof (Hb _ _ Hin) as E2. apply H2.
      assert (r = nth a (rl B) 0).
      { apply (proj1 (NoDup_nth s 0) Hnd); try lia. destruct (ob_range _ _ HB _ _ Hin); lia. }
      subst r. apply in_map_iff. exists (nth a (rl B) 0, c). auto. }
  assert (Hag : forall a, a < length (rl B) -> nth a (localize B s) 0 < length (cl B) /\
     nth (nth a (rl B) 0) s 0 = nth (nth a (localize B s) 0) (cl B) 0).
  { intros a Ha. rewrite Hn by auto. destruct (rk_cl B _ (Hcl a Ha)) as [H1 H2]. split; auto. }
  assert (Hll : length (localize B s) = length (rl B)) by (unfold localize; apply map_length).
  split; [split; auto|]. split.
  - split; [auto|]. split.
    + apply (NoDup_nth _ 0). intros a a' Ha Ha' E. rewrite Hll in *.
      destruct (Hag a Ha) as [_ E1]. destruct (Hag a' Ha') as [_ E2].
      apply (proj1 (NoDup_nth (rl B) 0) (rl_nodup B)); auto.
      apply (proj1 (NoDup_nth s 0) Hnd); try (rewrite Hls; apply rl_in; auto). congruence.
    + intros j Hj. apply (In_nth _ _ 0) in Hj. destruct Hj as (a & Ha & <-). apply Hag. lia.
  - intros a Ha. cbn [m_rows sub] in Ha. destruct (Hag a Ha) as [H1 H2].
    apply sub_fin; auto. rewrite <- H2. destruct (rl_in B a Ha) as [H3 _]. split.
    + apply Hf; auto.
    + intros Hin. apply (HX _ _ Hin). auto.
Qed.

Definition sumB (B : pairs) : R := Rsum (map (fun rc => val (e (fst rc) (snd rc))) B).

Lemma Rsum_perm l l' : Permutation l l' -> Rsum l = Rsum l'.
Proof. induction 1; simpl; lra. Qed.

Lemma seq_nth_map {D} (f : nat -> D) l : map f l = map (fun a => f (nth a l 0)) (seq 0 (length l)).
Proof.
  induction l as [|x l IH] using rev_ind; simpl; auto.
  rewrite app_length. simpl. rewrite Nat.add_1_r, seq_S, !map_app. simpl. f_equal.
  - rewrite IH. apply map_ext_in. intros a Ha. apply in_seq in Ha. rewrite app_nth1 by lia. auto.
  - rewrite app_nth2, Nat.sub_diag by lia. auto.
Qed.

Lemma total_split B X t s : okB B X -> agrees B t s -> feasible (sub B X) t ->
  total C0 s = (sumB B + total (sub B X) t)%R.
Proof.
  intros HB (Hls & Hlt & Hb & Ha) [_ Hf]. cbn [m_rows sub] in Hf.
  unfold total. fold n.
  assert (Hp : Permutation (seq 0 n) (map fst B ++ rl B)).
  { apply leftover_perm; [apply HB|]. intros r Hr. apply in_map_iff in Hr.
    destruct Hr as ([r' c] & <- & Hr). apply HB in Hr. tauto. }
  rewrite (Rsum_perm _ _ (Permutation_map (fun i => val (entry NaN C0 i (nth i s 0))) Hp)).
  rewrite map_app, Rsum_app. f_equal.
  - unfold sumB. rewrite map_map. f_equal. apply map_ext_in. intros [r c] Hin. simpl.
    rewrite (Hb _ _ Hin). auto.
  - rewrite seq_nth_map. cbn [m_rows sub]. f_equal. apply map_ext_in. intros a Hin. apply in_seq in Hin.
    destruct (Ha a) as [H1 H2]; [lia|]. rewrite H2.
    rewrite sub_entry by (auto; lia). unfold ecell. simpl.
    destruct (inp X _ _) eqn:E; auto. exfalso.
    assert (is_fin (entry NaN (sub B X) a (nth a t 0))) as Hfin by (apply Hf; lia).
    apply sub_fin in Hfin; auto; [|lia]. apply inp_spec in E. tauto.
Qed.

(** Binding a pair. *)
Lemma rl_bind r c B : rl ((r, c) :: B) = filter (without (notin (map fst B)) r) (seq 0 n).
Proof. apply leftover_cons. Qed.
Lemma cl_bind r c B : cl ((r, c) :: B) = filter (without (notin (map snd B)) c) (seq 0 m).
Proof. apply leftover_cons. Qed.

Lemma remove_rl B r c : In r (rl B) ->
  remove_nth (rl B) (rk (notin (map fst B)) r) = Ok (rl ((r, c) :: B)).
Proof.
  intros H. rewrite rl_bind. apply in_rl in H. apply remove_rk; [tauto|]. apply notin_spec. tauto.
Qed.
Lemma remove_cl B r c : In c (cl B) ->
  remove_nth (cl B) (rk (notin (map snd B)) c) = Ok (cl ((r, c) :: B)).
Proof.
  intros H. rewrite cl_bind. apply in_cl in H. apply remove_rk; [tauto|]. apply notin_spec. tauto.
Qed.

Lemma okB_bind B X r c : okB B X -> In r (rl B) -> In c (cl B) -> is_fin (e r c) -> ~ In (r, c) X ->
  okB ((r, c) :: B) X.
Proof.
  intros [H1 H2 H3 H4 H5] Hr Hc Hf HX. apply in_rl in Hr. apply in_cl in Hc. constructor; simpl; auto.
  - constructor; tauto.
  - constructor; tauto.
  - intros r' c' [E|Hin]; auto. inversion E; subst. tauto.
  - intros r' c' [E|Hin]; auto. inversion E; subst. tauto.
Qed.

Lemma okB_forbid B X r c : okB B X -> In r (rl B) -> okB B ((r, c) :: X).
Proof.
  intros [H1 H2 H3 H4 H5] Hr. apply in_rl in Hr. constructor; auto.
  - intros r' c' Hin [E|Hin']; [|eapply H4; eauto]. inversion E; subst. apply Hr.
    apply in_map_iff. exists (r', c'). auto.
  - intros r' c' [E|Hin]; eauto. inversion E; subst. tauto.
Qed.

Lemma at_sub B X a b : a < length (rl B) -> b < length (cl B) ->
  at_ (sub B X) a b = Ok (ecell X (nth a (rl B) 0, nth b (cl B) 0)).
Proof.
  intros Ha Hb. rewrite <- sub_entry by auto. apply at_entry; auto. apply sub_cost.
Qed.

Lemma list_as_map {A} (l : list A) (d : A) : l = map (fun a => nth a l d) (seq 0 (length l)).
Proof.
  induction l as [|x l IH] using rev_ind; simpl; auto.
  rewrite app_length. simpl. rewrite Nat.add_1_r, seq_S, map_app. simpl. f_equal.
  - rewrite IH at 1. apply map_ext_in. intros a Ha. apply in_seq in Ha. rewrite app_nth1 by lia. auto.
  - rewrite app_nth2, Nat.sub_diag by lia. auto.
Qed.

Lemma allbut_sub B X r c : In r (rl B) -> In c (cl B) ->
  allbut (sub B X) (rk (notin (map fst B)) r) (rk (notin (map snd B)) c) = Ok (sub ((r, c) :: B) X).
Proof.
  intros Hr Hc. unfold allbut.
  pose proof (remove_rl B r c Hr) as Er. pose proof (remove_cl B r c Hc) as Ec.
  destruct (rk_rl B r Hr) as [Hi _]. destruct (rk_cl B c Hc) as [Hj _].
  set (i := rk (notin (map fst B)) r) in *. set (j := rk (notin (map snd B)) c) in *.
  destruct (remove_nth_ok _ _ Hi) as (l1 & E1 & L1). rewrite Er in E1. inversion E1; subst l1. clear E1.
  destruct (remove_nth_ok _ _ Hj) as (l2 & E2 & L2). rewrite Ec in E2. inversion E2; subst l2. clear E2.
  cbn [m_rows m_cols sub].
  apply Nat.ltb_lt in Hi as Hi'. apply Nat.ltb_lt in Hj as Hj'. rewrite Hi', Hj'. cbn [andb].
  rewrite mapM_ok with (g := fun ab => ecell X (nth (fst ab) (rl ((r, c) :: B)) 0, nth (snd ab) (cl ((r, c) :: B)) 0)).
  - cbn [bind]. f_equal. unfold sub. rewrite <- L1, <- L2. f_equal.
    set (rr := rl ((r, c) :: B)). set (cc := cl ((r, c) :: B)).
    transitivity (map (ecell X) (list_prod (map (fun a => nth a rr 0) (seq 0 (length rr)))
                                           (map (fun a => nth a cc 0) (seq 0 (length cc))))).
    + rewrite prod_map, map_map. auto.
    + rewrite <- !list_as_map. auto.
  - intros [a b] Hab. apply in_prod_iff in Hab. destruct Hab as [Ha Hb]. apply in_seq in Ha, Hb. simpl fst. simpl snd.
    rewrite at_sub.
    + rewrite (remove_nth_nth _ _ _ 0 a Er) by lia. rewrite (remove_nth_nth _ _ _ 0 b Ec) by lia. auto.
    + destruct (Nat.ltb_spec a i); lia.
    + destruct (Nat.ltb_spec b j); lia.
Qed.

Lemma set_sub B X r c : In r (rl B) -> In c (cl B) ->
  set_at (sub B X) (rk (notin (map fst B)) r) (rk (notin (map snd B)) c) PInf = Ok (sub B ((r, c) :: X)).
Proof.
  intros Hr Hc. unfold set_at.
  destruct (rk_rl B r Hr) as [Hi Er]. destruct (rk_cl B c Hc) as [Hj Ec].
  set (i := rk (notin (map fst B)) r) in *. set (j := rk (notin (map snd B)) c) in *.
  cbn [m_rows m_cols m_ord m_data sub].
  apply Nat.ltb_lt in Hi as Hi'. apply Nat.ltb_lt in Hj as Hj'. rewrite Hi', Hj'. cbn [andb].
  rewrite set_ok by (rewrite map_length, prod_length; apply index_lt; auto). cbn [bind].
  f_equal. unfold sub. f_equal.
  apply upd_map_prod; auto using rl_nodup, cl_nodup.
  - rewrite Er, Ec. unfold ecell. simpl. rewrite !Nat.eqb_refl. auto.
  - rewrite Er, Ec. intros r' c' Hne. unfold ecell. simpl.
    destruct (Nat.eqb_spec r r'), (Nat.eqb_spec c c'); simpl; auto. congruence.
Qed.
End Sub.
