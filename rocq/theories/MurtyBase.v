(** Sub-problems of Murty's algorithm: lemmas about lists, sub-matrices and the
    correspondence between assignments of a sub-problem and of the problem. *)
From Coq Require Import List Arith Bool Lia Reals Lra Permutation.
Import ListNotations.
From Verif Require Import Res Scalar Lap LapSpec LapBase LapMain Murty.
Local Open Scope nat_scope.

(** * Ranks in a filtered range *)
Definition rk (p : nat -> bool) (x : nat) : nat := length (filter p (seq 0 x)).

Lemma filter_seq_split (p : nat -> bool) n x : x < n -> p x = true ->
  filter p (seq 0 n) = filter p (seq 0 x) ++ x :: filter p (seq (S x) (n - S x)).
Proof.
  intros Hx Hp. replace n with (x + S (n - S x)) at 1 by lia.
  rewrite seq_app, filter_app. simpl. rewrite Hp. auto.
Qed.

Lemma rk_lt p n x : x < n -> p x = true -> rk p x < length (filter p (seq 0 n)).
Proof.
  intros Hx Hp. rewrite (filter_seq_split p n x Hx Hp), app_length. simpl. unfold rk. lia.
Qed.

Lemma nth_rk p n x d : x < n -> p x = true -> nth (rk p x) (filter p (seq 0 n)) d = x.
Proof.
  intros Hx Hp. rewrite (filter_seq_split p n x Hx Hp).
  rewrite app_nth2 by (unfold rk; lia). unfold rk. rewrite Nat.sub_diag. auto.
Qed.

Lemma nth_filter_seq p n a d : a < length (filter p (seq 0 n)) ->
  nth a (filter p (seq 0 n)) d < n /\ p (nth a (filter p (seq 0 n)) d) = true.
Proof.
  intros Ha. assert (H : In (nth a (filter p (seq 0 n)) d) (filter p (seq 0 n))) by (apply nth_In; auto).
  apply filter_In in H. destruct H as [H1 H2]. apply in_seq in H1. split; auto. lia.
Qed.

Lemma rk_nth p n a d : a < length (filter p (seq 0 n)) -> rk p (nth a (filter p (seq 0 n)) d) = a.
Proof.
  intros Ha. destruct (nth_filter_seq p n a d Ha) as [H1 H2].
  assert (Hnd : NoDup (filter p (seq 0 n))) by (apply NoDup_filter, seq_NoDup).
  apply (proj1 (NoDup_nth _ d) Hnd); auto.
  - apply rk_lt; auto.
  - apply nth_rk; auto.
Qed.

Lemma rk_S p x : rk p (S x) = rk p x + if p x then 1 else 0.
Proof.
  unfold rk. rewrite seq_S, filter_app, app_length. simpl. destruct (p x); auto.
Qed.

Lemma rk_mono p x y : x <= y -> rk p x <= rk p y.
Proof. induction 1; auto. rewrite rk_S. lia. Qed.

Lemma rk_strict p x y : x < y -> p x = true -> rk p x < rk p y.
Proof.
  intros H Hp. assert (rk p (S x) <= rk p y) by (apply rk_mono; auto).
  rewrite rk_S, Hp in H0. lia.
Qed.

Lemma rk_lt_iff p x y : p x = true -> p y = true -> (rk p x < rk p y <-> x < y).
Proof.
  intros Hx Hy. split; [|intros; apply rk_strict; auto].
  intros H. destruct (Nat.lt_ge_cases x y); auto. pose proof (rk_mono p y x H0). lia.
Qed.

Definition without (p : nat -> bool) (y : nat) : nat -> bool := fun x => negb (x =? y) && p x.

Lemma rk_without p y x : p y = true ->
  rk (without p y) x = rk p x - if y <? x then 1 else 0.
Proof.
  intros Hp. induction x as [|x IH].
  - auto.
  - rewrite !rk_S, IH. unfold without at 1.
    destruct (Nat.ltb_spec y x), (Nat.ltb_spec y (S x)), (Nat.eqb_spec x y); simpl; try lia.
    + destruct (p x); try lia. pose proof (rk_strict p y x H Hp). lia.
      all: pose proof (rk_strict p y x H Hp); lia.
    + subst x. rewrite Hp. lia.
Qed.

Lemma remove_rk p n y : y < n -> p y = true ->
  remove_nth (filter p (seq 0 n)) (rk p y) = Ok (filter (without p y) (seq 0 n)).
Proof.
  intros Hy Hp. unfold remove_nth.
  pose proof (rk_lt p n y Hy Hp) as Hl. apply Nat.ltb_lt in Hl. rewrite Hl. f_equal.
  rewrite (filter_seq_split p n y Hy Hp).
  assert (H1 : firstn (rk p y) (filter p (seq 0 y) ++ y :: filter p (seq (S y) (n - S y))) = filter p (seq 0 y)).
  { unfold rk. rewrite firstn_app, Nat.sub_diag, firstn_all. simpl. apply app_nil_r. }
  assert (H2 : skipn (S (rk p y)) (filter p (seq 0 y) ++ y :: filter p (seq (S y) (n - S y))) = filter p (seq (S y) (n - S y))).
  { rewrite skipn_app. rewrite skipn_all2 by (unfold rk; lia).
    replace (S (rk p y) - length (filter p (seq 0 y))) with 1 by (unfold rk; lia). auto. }
  rewrite H1, H2.
  replace n with (y + S (n - S y)) at 2 by lia.
  rewrite seq_app, filter_app. simpl. unfold without at 2. rewrite Nat.eqb_refl. simpl.
  f_equal; apply filter_ext_in; intros a Ha; apply in_seq in Ha; unfold without;
    destruct (Nat.eqb_spec a y); simpl; auto; lia.
Qed.

Lemma remove_nth_ok {A} (l : list A) k : k < length l ->
  exists l', remove_nth l k = Ok l' /\ length l' = length l - 1.
Proof.
  intros Hk. unfold remove_nth. apply Nat.ltb_lt in Hk as Hk'. rewrite Hk'.
  eexists; split; [reflexivity|]. rewrite app_length, firstn_length, skipn_length. lia.
Qed.

Lemma remove_nth_map {A B} (f : A -> B) l k l' :
  remove_nth l k = Ok l' -> remove_nth (map f l) k = Ok (map f l').
Proof.
  unfold remove_nth. rewrite map_length. destruct (k <? length l); [|discriminate].
  intros H. inversion H. rewrite map_app, firstn_map, skipn_map. auto.
Qed.

(** The list with one element removed, entry by entry. *)
Lemma remove_nth_nth {A} (l l' : list A) k d a : remove_nth l k = Ok l' -> a < length l - 1 ->
  nth a l' d = nth (if a <? k then a else S a) l d.
Proof.
  unfold remove_nth. destruct (Nat.ltb_spec k (length l)); [|discriminate].
  intros H1 Ha. inversion H1. destruct (Nat.ltb_spec a k).
  - rewrite app_nth1 by (rewrite firstn_length; lia).
    clear - H0. revert k a H0. induction l; intros [|k] [|a'] H; simpl; auto; try lia.
    apply IHl. lia.
  - rewrite app_nth2 by (rewrite firstn_length; lia). rewrite firstn_length.
    replace (a - Nat.min k (length l)) with (a - k) by lia.
    rewrite <- (firstn_skipn (S k) l) at 2.
    rewrite app_nth2 by (rewrite firstn_length; lia). rewrite firstn_length.
    f_equal. lia.
Qed.

(** * mapM and products *)
Lemma mapM_ok {A B} (f : A -> res B) (g : A -> B) l :
  (forall x, In x l -> f x = Ok (g x)) -> mapM f l = Ok (map g l).
Proof.
  induction l as [|a l IH]; intros H; simpl; auto.
  rewrite H by (simpl; auto). simpl. rewrite IH; auto. intros; apply H; simpl; auto.
Qed.

Lemma wp_mapM {A B} (F : Prop) (f : A -> res B) (Q : A -> B -> Prop) l :
  (forall x, In x l -> wp F (f x) (Q x)) ->
  wp F (mapM f l) (fun r => Forall2 Q l r).
Proof.
  induction l as [|a l IH]; intros H; simpl.
  - constructor.
  - apply wp_bind. eapply wp_conseq; [apply H; simpl; auto|]. intros y Hy.
    apply wp_bind. eapply wp_conseq; [apply IH; intros; apply H; simpl; auto|].
    intros r Hr. apply wp_ret. constructor; auto.
Qed.

Lemma nth_prod {A B D} (f : A * B -> D) l l' a b da db dd :
  a < length l -> b < length l' ->
  nth (a * length l' + b) (map f (list_prod l l')) dd = f (nth a l da, nth b l' db).
Proof.
  revert a. induction l as [|x l IH]; intros a Ha Hb; simpl in Ha; [lia|].
  simpl. rewrite map_app. destruct a as [|a].
  - simpl. rewrite app_nth1 by (rewrite !map_length; auto).
    rewrite map_map.
    rewrite nth_indep with (d' := (fun y => f (x, y)) db) by (rewrite map_length; auto).
    apply (map_nth (fun y => f (x, y))).
  - rewrite app_nth2 by (rewrite !map_length; simpl; lia).
    rewrite !map_length. replace (S a * length l' + b - length l') with (a * length l' + b) by (simpl; lia).
    simpl nth at 2. apply IH; auto. lia.
Qed.

Lemma prod_map {A A' B B'} (f : A -> A') (g : B -> B') l l' :
  list_prod (map f l) (map g l') = map (fun p => (f (fst p), g (snd p))) (list_prod l l').
Proof.
  induction l; simpl; auto. rewrite map_app, IHl. f_equal. rewrite !map_map. auto.
Qed.

Lemma upd_map_prod {D} (f g : nat * nat -> D) l l' a b y :
  a < length l -> b < length l' -> NoDup l -> NoDup l' ->
  g (nth a l 0, nth b l' 0) = y ->
  (forall r c, (r, c) <> (nth a l 0, nth b l' 0) -> g (r, c) = f (r, c)) ->
  upd (map f (list_prod l l')) (a * length l' + b) y = map g (list_prod l l').
Proof.
  intros Ha Hb Hn Hn' Hg Hf.
  apply nth_ext with (d := y) (d' := y).
  - rewrite upd_length, !map_length. auto.
  - intros k Hk. rewrite upd_length, map_length, prod_length in Hk.
    rewrite nth_upd by (rewrite map_length, prod_length; apply index_lt; auto).
    set (w := length l') in *. assert (w <> 0) by lia.
    pose proof (Nat.div_mod k w H) as Ek.
    pose proof (Nat.mod_upper_bound k w H) as Hm.
    assert (Hd : k / w < length l) by (apply Nat.div_lt_upper_bound; auto; lia).
    assert (Ek' : k = k / w * w + k mod w) by lia.
    assert (HN : forall h : nat * nat -> D,
      nth k (map h (list_prod l l')) y = h (nth (k / w) l 0, nth (k mod w) l' 0)).
    { intros h. rewrite Ek' at 1. apply nth_prod; auto. }
    rewrite !HN.
    destruct (Nat.eqb_spec (a * w + b) k) as [E|Hne].
    + assert (k / w = a). { rewrite <- E. rewrite Nat.div_add_l by auto. rewrite Nat.div_small by auto. lia. }
      assert (k mod w = b). { rewrite <- E. rewrite Nat.add_comm, Nat.mod_add by auto. apply Nat.mod_small; auto. }
      rewrite H0, H1. auto.
    + symmetry. apply Hf. intros Hp. apply Hne. inversion Hp.
      apply (proj1 (NoDup_nth l 0) Hn) in H1; auto. apply (proj1 (NoDup_nth l' 0) Hn') in H2; auto. lia.
Qed.

Lemma NoDup_app_intro {A} (l l' : list A) :
  NoDup l -> NoDup l' -> (forall x, In x l -> ~ In x l') -> NoDup (l ++ l').
Proof.
  induction l; simpl; intros H1 H2 H3; auto. inversion H1; subst. constructor.
  - rewrite in_app_iff. intros [H|H]; auto. apply (H3 a); auto.
  - apply IHl; auto.
Qed.

(** * Sub-problems *)
Definition notin (l : list nat) : nat -> bool := fun x => negb (existsb (Nat.eqb x) l).

Lemma notin_spec l x : notin l x = true <-> ~ In x l.
Proof.
  unfold notin. rewrite negb_true_iff, <- not_true_iff_false, existsb_exists. split.
  - intros H Hin. apply H. exists x. rewrite Nat.eqb_refl. auto.
  - intros H (y & Hy & E). apply Nat.eqb_eq in E. subst. auto.
Qed.

Lemma notin_cons l y x : notin (y :: l) x = without (notin l) y x.
Proof. unfold notin, without. simpl. apply negb_orb. Qed.

Definition leftover (l : list nat) (n : nat) : list nat := filter (notin l) (seq 0 n).

Lemma leftover_cons l y n : leftover (y :: l) n = filter (without (notin l) y) (seq 0 n).
Proof. apply filter_ext. intros; apply notin_cons. Qed.

Lemma leftover_perm l n : NoDup l -> (forall x, In x l -> x < n) ->
  Permutation (seq 0 n) (l ++ leftover l n).
Proof.
  intros Hn Hl. apply NoDup_Permutation.
  - apply seq_NoDup.
  - apply NoDup_app_intro; auto.
    + apply NoDup_filter, seq_NoDup.
    + intros x Hx Hx'. apply filter_In in Hx'. destruct Hx' as [_ Hx']. apply notin_spec in Hx'. auto.
  - intros x. rewrite in_app_iff. unfold leftover. rewrite filter_In, notin_spec, in_seq. split.
    + intros H. destruct (in_dec Nat.eq_dec x l); auto.
    + intros [H|H]; [apply Hl in H; lia|lia].
Qed.
