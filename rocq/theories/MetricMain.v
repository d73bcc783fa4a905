(** From assignments to matchings, and the statements about the metrics. *)
From Coq Require Import List Arith Bool Reals Lia Lra Permutation.
Import ListNotations.
From Verif Require Import Res Scalar Lap LapSpec LapBase LapMain Metric MetricSpec MetricProofs.
Local Open Scope nat_scope.

(** * Sums *)
Lemma Rsum_perm l l' : Permutation l l' -> Rsum l = Rsum l'.
Proof. induction 1; cbn [Rsum]; lra. Qed.

Lemma Rsum_plus {A} (f g : A -> R) l : Rsum (map (fun x => (f x + g x)%R) l) = (Rsum (map f l) + Rsum (map g l))%R.
Proof. induction l; cbn [map Rsum]; lra. Qed.

Lemma Rsum_scal {A} k (f : A -> R) l : Rsum (map (fun x => (k * f x)%R) l) = (k * Rsum (map f l))%R.
Proof. induction l; cbn [map Rsum]; lra. Qed.

Definition ind (b : bool) : R := if b then 1%R else 0%R.

Lemma Rsum_filter {A} (b : A -> bool) (f : A -> R) l :
  Rsum (map (fun x => (ind (b x) * f x)%R) l) = Rsum (map f (filter b l)).
Proof.
  induction l as [|a l IH]; cbn [map Rsum filter]; auto. rewrite IH. unfold ind.
  destruct (b a); cbn [map Rsum]; lra.
Qed.

Lemma Rsum_count {A} (b : A -> bool) l : Rsum (map (fun x => ind (b x)) l) = INR (length (filter b l)).
Proof.
  induction l as [|a l IH]; cbn [map Rsum filter]; auto. rewrite IH. unfold ind.
  destruct (b a); cbn [length]; [rewrite S_INR; lra|lra].
Qed.

Lemma Rsum_const k n : Rsum (map (fun _ : nat => k) (seq 0%nat n)) = (INR n * k)%R.
Proof.
  induction n.
  - cbn. lra.
  - rewrite seq_S, map_app, Rsum_app, IHn, S_INR. cbn [map Rsum]. lra.
Qed.

Lemma count_below M n : M <= n -> length (filter (fun i => i <? M) (seq 0%nat n)) = M.
Proof.
  intros H. replace n with (M + (n - M)) by lia. rewrite seq_app, filter_app, app_length.
  assert (A : filter (fun i => i <? M) (seq 0 M) = seq 0 M).
  { assert (B : forall l, (forall x, In x l -> x < M) -> filter (fun i => i <? M) l = l).
    { induction l as [|a l IH]; cbn [filter]; intros Hl; auto.
      destruct (Nat.ltb_spec a M).
      - f_equal. apply IH. intros; apply Hl; right; auto.
      - specialize (Hl a (or_introl eq_refl)). lia. }
    apply B. intros x Hx. apply in_seq in Hx. lia. }
  assert (B : filter (fun i => i <? M) (seq (0 + M) (n - M)) = []).
  { assert (B : forall l, (forall x, In x l -> M <= x) -> filter (fun i => i <? M) l = []).
    { induction l as [|a l IH]; cbn [filter]; intros Hl; auto.
      destruct (Nat.ltb_spec a M).
      - specialize (Hl a (or_introl eq_refl)). lia.
      - apply IH. intros; apply Hl; right; auto. }
    apply B. intros x Hx. apply in_seq in Hx. lia. }
  rewrite A, B, seq_length. cbn. lia.
Qed.

(** * Assignments and matchings *)
Lemma complete_perm n s : complete n n s -> Permutation s (seq 0%nat n).
Proof.
  intros (Hl & Hnd & Hlt). apply NoDup_Permutation_bis; auto.
  - rewrite seq_length. lia.
  - intros j Hj. apply in_seq. specialize (Hlt j Hj). lia.
Qed.

Lemma map_nth_seq {A} (l : list A) d : map (fun i => nth i l d) (seq 0 (length l)) = l.
Proof.
  induction l as [|a l IH]; cbn [length seq map nth]; auto. f_equal.
  rewrite <- seq_shift, map_map. exact IH.
Qed.

Lemma complete_sum n s (g : nat -> R) : complete n n s ->
  Rsum (map (fun i => g (nth i s 0%nat)) (seq 0%nat n)) = Rsum (map g (seq 0%nat n)).
Proof.
  intros H. transitivity (Rsum (map g s)).
  - transitivity (Rsum (map g (map (fun i => nth i s 0%nat) (seq 0 (length s))))).
    + rewrite map_map. destruct H as [-> _]. reflexivity.
    + rewrite map_nth_seq. reflexivity.
  - apply Rsum_perm, Permutation_map, complete_perm; auto.
Qed.

Lemma complete_inj n s i i' : complete n n s -> i < n -> i' < n -> nth i s 0 = nth i' s 0 -> i = i'.
Proof. intros (Hl & Hnd & _) Hi Hi' E. eapply (proj1 (NoDup_nth s 0)); eauto; lia. Qed.

(** The pairs of an assignment whose row is selected by [b]. *)
Definition chosen (n : nat) (s : list nat) (b : nat -> bool) : list (nat * nat) :=
  map (fun i => (i, nth i s 0%nat)) (filter b (seq 0%nat n)).

Lemma chosen_matching n s b M N : complete n n s ->
  (forall i, i < n -> b i = true -> i < M /\ nth i s 0%nat < N) -> matching M N (chosen n s b).
Proof.
  intros Hs Hb. unfold chosen. split; [|split].
  - rewrite map_map. cbn [fst]. rewrite map_id. apply NoDup_filter, seq_NoDup.
  - rewrite map_map. cbn [snd].
    assert (A : forall l, NoDup l -> (forall i, In i l -> i < n) -> NoDup (map (fun i => nth i s 0%nat) l)).
    { induction l as [|a l IH]; intros Hnd Hl; cbn [map]; constructor.
      - intros Hin. apply in_map_iff in Hin. destruct Hin as (x & E & Hx).
        apply complete_inj with (n := n) in E; auto; [|apply Hl; right; auto|apply Hl; left; auto].
        inversion Hnd; subst; auto.
      - inversion Hnd; subst. apply IH; auto. intros; apply Hl; right; auto. }
    apply A; [apply NoDup_filter, seq_NoDup|].
    intros i Hi. apply filter_In in Hi. destruct Hi as [Hi _]. apply in_seq in Hi. lia.
  - intros a Ha. apply in_map_iff in Ha. destruct Ha as (i & <- & Hi).
    apply filter_In in Hi. destruct Hi as [Hi Hbi]. apply in_seq in Hi. cbn [fst snd]. apply Hb; [lia|exact Hbi].
Qed.

Lemma chosen_sum n s b (h : nat * nat -> R) :
  Rsum (map h (chosen n s b)) = Rsum (map (fun i => (ind (b i) * h (i, nth i s 0%nat))%R) (seq 0%nat n)).
Proof. unfold chosen. rewrite map_map. symmetry. apply (Rsum_filter b (fun i => h (i, nth i s 0%nat))). Qed.

Lemma chosen_length n s b : INR (length (chosen n s b)) = Rsum (map (fun i => ind (b i)) (seq 0%nat n)).
Proof. unfold chosen. rewrite map_length. symmetry. apply Rsum_count. Qed.

Lemma free_index n (l : list nat) : length l < n -> exists i, i < n /\ ~ In i l.
Proof.
  intros H. destruct (filter (fun i => negb (existsb (Nat.eqb i) l)) (seq 0%nat n)) as [|i t] eqn:E.
  - exfalso. assert (incl (seq 0%nat n) l).
    { intros i Hi. destruct (existsb (Nat.eqb i) l) eqn:Ex.
      - apply existsb_exists in Ex. destruct Ex as (x & Hx & Ei). apply Nat.eqb_eq in Ei. subst; auto.
      - assert (In i []) as []. rewrite <- E. apply filter_In. rewrite Ex. auto. }
    apply NoDup_incl_length in H0; [|apply seq_NoDup]. rewrite seq_length in H0. lia.
  - assert (Hi : In i (i :: t)) by (left; auto). rewrite <- E in Hi.
    apply filter_In in Hi. destruct Hi as [Hi Hb]. apply in_seq in Hi.
    exists i. split; [lia|]. intros Hin. apply negb_true_iff in Hb.
    assert (existsb (Nat.eqb i) l = true); [|congruence].
    apply existsb_exists. exists i. split; auto. apply Nat.eqb_refl.
Qed.

Fixpoint lookup (g : list (nat * nat)) (i : nat) : nat :=
  match g with [] => 0 | a :: g => if fst a =? i then snd a else lookup g i end.

Lemma lookup_in g a : NoDup (map fst g) -> In a g -> lookup g (fst a) = snd a.
Proof.
  induction g as [|b g IH]; cbn [map lookup]; intros Hnd Ha; [destruct Ha|destruct Ha as [->|Ha]].
  - rewrite Nat.eqb_refl. auto.
  - inversion Hnd; subst. destruct (Nat.eqb_spec (fst b) (fst a)) as [E|]; auto.
    elim H1. rewrite E. apply in_map; auto.
Qed.

(** Every matching is part of an assignment. *)
Lemma matching_extend n g : matching n n g ->
  exists s, complete n n s /\ forall a, In a g -> nth (fst a) s 0 = snd a.
Proof.
  remember (n - length g) as k eqn:Ek. revert g Ek. induction k as [|k IH]; intros g Ek (Hf & Hs & Hb).
  - assert (Hlen : length g <= n).
    { rewrite <- (map_length fst). rewrite <- (seq_length n 0). apply NoDup_incl_length; auto.
      intros i Hi. apply in_map_iff in Hi. destruct Hi as (a & <- & Ha). apply in_seq.
      specialize (Hb a Ha). lia. }
    assert (Hin : forall i, i < n -> In i (map fst g)).
    { assert (incl (seq 0%nat n) (map fst g)).
      { apply NoDup_length_incl; auto.
        - rewrite map_length, seq_length. lia.
        - intros i Hi. apply in_map_iff in Hi. destruct Hi as (a & <- & Ha). apply in_seq.
          specialize (Hb a Ha). lia. }
      intros i Hi. apply H. apply in_seq. lia. }
    assert (Hex : forall i, i < n -> exists a, In a g /\ fst a = i).
    { intros i Hi. apply Hin in Hi. apply in_map_iff in Hi. destruct Hi as (a & E & Ha). eauto. }
    exists (map (lookup g) (seq 0%nat n)).
    assert (Hnth : forall i, i < n -> nth i (map (lookup g) (seq 0%nat n)) 0 = lookup g i).
    { intros i Hi. rewrite nth_indep with (d' := lookup g 0) by (rewrite map_length, seq_length; auto).
      rewrite map_nth, seq_nth by auto. auto. }
    split; [split; [|split]|].
    + rewrite map_length, seq_length. auto.
    + apply (NoDup_nth _ 0). rewrite map_length, seq_length. intros i i' Hi Hi' E.
      rewrite !Hnth in E by auto.
      destruct (Hex i Hi) as (a & Ha & <-). destruct (Hex i' Hi') as (a' & Ha' & <-).
      rewrite !lookup_in in E by auto.
      assert (a = a'); [|congruence].
      clear -Hs Ha Ha' E. induction g as [|b g IH]; [destruct Ha|]. cbn [map] in Hs. inversion Hs; subst.
      destruct Ha as [->|Ha]; destruct Ha' as [->|Ha']; auto.
      * elim H1. rewrite E. apply in_map; auto.
      * elim H1. rewrite <- E. apply in_map; auto.
    + intros j Hj. apply in_map_iff in Hj. destruct Hj as (i & <- & Hi). apply in_seq in Hi.
      destruct (Hex i) as (a & Ha & <-); [lia|]. rewrite lookup_in by auto. apply Hb; auto.
    + intros a Ha. rewrite Hnth by (apply Hb; auto). apply lookup_in; auto.
  - assert (Hlen : length g < n) by lia.
    destruct (free_index n (map fst g)) as (i & Hi & Hni); [rewrite map_length; auto|].
    destruct (free_index n (map snd g)) as (j & Hj & Hnj); [rewrite map_length; auto|].
    destruct (IH ((i, j) :: g)) as (s & Hsc & Hsg).
    + cbn [length]. lia.
    + split; [|split]; cbn [map fst snd].
      * constructor; auto.
      * constructor; auto.
      * intros a [<-|Ha]; auto.
    + exists s. split; auto. intros a Ha. apply Hsg. right; auto.
Qed.

(** A matching as selected rows of an assignment that contains it. *)
Lemma matching_chosen n s g : complete n n s -> matching n n g ->
  (forall a, In a g -> nth (fst a) s 0 = snd a) ->
  Permutation g (chosen n s (fun i => existsb (Nat.eqb i) (map fst g))).
Proof.
  intros Hs (Hf & Hnd & Hb) Hg.
  assert (NoDup g).
  { clear -Hf. induction g as [|a g IH]; constructor; cbn [map] in Hf; inversion Hf; subst; auto.
    intros Ha. apply H1. apply in_map; auto. }
  assert (NoDup (chosen n s (fun i => existsb (Nat.eqb i) (map fst g)))).
  { unfold chosen. apply (NoDup_map_inv fst). rewrite map_map. cbn [fst]. rewrite map_id.
    apply NoDup_filter, seq_NoDup. }
  apply NoDup_Permutation; auto. intros a. unfold chosen. rewrite in_map_iff. split.
  - intros Ha. exists (fst a). rewrite Hg by auto. split; [destruct a; auto|].
    apply filter_In. split; [apply in_seq; specialize (Hb a Ha); lia|].
    apply existsb_exists. exists (fst a). split; [apply in_map; auto|apply Nat.eqb_refl].
  - intros (i & <- & Hi). apply filter_In in Hi. destruct Hi as [_ Hi].
    apply existsb_exists in Hi. destruct Hi as (x & Hx & E). apply Nat.eqb_eq in E. subst x.
    apply in_map_iff in Hx. destruct Hx as (a & <- & Ha). rewrite Hg by auto. destruct a; auto.
Qed.

Lemma matching_le M N g : matching M N g -> length g <= M /\ length g <= N.
Proof.
  intros (Hf & Hs & Hb). split.
  - rewrite <- (map_length fst), <- (seq_length M 0). apply NoDup_incl_length; auto.
    intros i Hi. apply in_map_iff in Hi. destruct Hi as (a & <- & Ha). apply in_seq. specialize (Hb a Ha). lia.
  - rewrite <- (map_length snd), <- (seq_length N 0). apply NoDup_incl_length; auto.
    intros i Hi. apply in_map_iff in Hi. destruct Hi as (a & <- & Ha). apply in_seq. specialize (Hb a Ha). lia.
Qed.

(** Cost of [s] in the matrix itself, and in its transpose. *)
Definition direct (n : nat) (f : nat -> nat -> R) (s : list nat) : R :=
  Rsum (map (fun i => f i (nth i s 0%nat)) (seq 0%nat n)).
Definition transp (n : nat) (f : nat -> nat -> R) (s : list nat) : R :=
  Rsum (map (fun i => f (nth i s 0%nat) i) (seq 0%nat n)).

Lemma transp_two n f s : n <= 2 -> complete n n s -> transp n f s = direct n f s.
Proof.
  intros Hn (Hl & Hnd & Hlt). unfold transp, direct.
  destruct n as [|[|[|n]]]; try lia.
  - reflexivity.
  - destruct s as [|a [|b s]]; cbn [length] in Hl; try lia.
    assert (a < 1) by (apply Hlt; left; auto). replace a with 0 by lia. reflexivity.
  - destruct s as [|a [|b [|d s]]]; cbn [length] in Hl; try lia.
    assert (a < 2) by (apply Hlt; left; auto). assert (b < 2) by (apply Hlt; right; left; auto).
    assert (a <> b). { intros ->. inversion Hnd; subst. apply H3. left; auto. }
    assert (Hc : (a = 0 /\ b = 1) \/ (a = 1 /\ b = 0)) by lia.
    destruct Hc as [[-> ->]|[-> ->]]; cbn [seq map Rsum nth]; lra.
Qed.

Lemma transp_sym n f s : (forall i j, i < n -> j < n -> f i j = f j i) -> complete n n s ->
  transp n f s = direct n f s.
Proof.
  intros Hf (Hl & _ & Hlt). unfold transp, direct. f_equal. apply map_ext_in. intros i Hi. apply in_seq in Hi.
  apply Hf; [|lia]. apply Hlt, nth_In. lia.
Qed.

Section Metrics.
Variables (X Y : list (list R)) (c p : R).
Let M := length X.
Let N := length Y.
Let n := Nat.max M N.
Hypothesis Hc : (0 <= c)%R.
Hypothesis Hp : (0 < p)%R.

Notation oe := (ospa_entry X Y c).
Notation ge := (gospa_entry X Y c p).
Notation pd := (pair_dist X Y).

Let Hip : (0 < / p)%R.
Proof. apply Rinv_0_lt_compat. exact Hp. Qed.

(** ** OSPA *)
Lemma ospa_val_of s g b : complete n n s -> 0 < n ->
  (forall i, i < n -> b i = true -> i < M /\ nth i s 0%nat < N) ->
  Permutation g (chosen n s b) ->
  ospa_of X Y c p g =
  rpow (Rsum (map (fun i => if b i then rpow (oe i (nth i s 0%nat)) p else rpow c p) (seq 0%nat n)) / INR n) (/ p).
Proof.
  intros Hs H0 Hb Hg. unfold ospa_of. fold M N n. f_equal. f_equal.
  assert (Hlen : length g <= n).
  { rewrite (Permutation_length Hg). destruct (matching_le M N _ (chosen_matching n s b M N Hs Hb)) as [Ha _].
    eapply Nat.le_trans; [exact Ha|apply Nat.le_max_l]. }
  rewrite (Rsum_perm _ _ (Permutation_map _ Hg)).
  rewrite minus_INR by auto.
  rewrite (Permutation_length Hg), chosen_length, chosen_sum.
  rewrite <- (Rmult_1_r (INR n)), <- Rsum_const.
  unfold Rminus. rewrite Rmult_plus_distr_r, <- Rplus_assoc.
  rewrite (Rplus_comm (Rsum _) (Rsum _ * _)), Rplus_assoc.
  rewrite (Rmult_comm (Rsum (map (fun _ => 1%R) _))), <- Rsum_scal.
  assert (E : forall l, (- Rsum (map (fun i => ind (b i)) l) * rpow c p)%R
                = Rsum (map (fun i => (- rpow c p * ind (b i))%R) l)).
  { intros l. rewrite Rsum_scal. lra. }
  rewrite E. rewrite <- !Rsum_plus. f_equal. apply map_ext_in. intros i Hi. apply in_seq in Hi.
  cbn [fst snd]. unfold ind. destruct (b i) eqn:Eb; [|lra].
  destruct (Hb i) as [H1 H2]; auto; [lia|].
  unfold ospa_entry. fold M N. apply Nat.ltb_lt in H1. apply Nat.ltb_lt in H2. rewrite H1, H2. cbn [andb].
  unfold pair_dist. lra.
Qed.

Lemma ospa_val_matching s : complete n n s -> 0 < n ->
  exists g, matching M N g /\ ospa_val X Y c p s = ospa_of X Y c p g.
Proof.
  intros Hs H0.
  set (b := fun i => (i <? M) && (nth i s 0%nat <? N)).
  assert (Hb : forall i, i < n -> b i = true -> i < M /\ nth i s 0%nat < N).
  { intros i _ Hi. apply andb_true_iff in Hi. rewrite !Nat.ltb_lt in Hi. auto. }
  exists (chosen n s b). split; [apply chosen_matching; auto|].
  rewrite (ospa_val_of s _ b) by auto. unfold ospa_val. fold M N n. unfold Rdiv. f_equal. f_equal. f_equal.
  apply map_ext_in. intros i Hi. unfold ospa_entry. fold M N. unfold b. destruct (_ && _); auto.
Qed.

Lemma ospa_matching_val g : matching M N g -> 0 < n ->
  exists s, complete n n s /\ (ospa_val X Y c p s <= ospa_of X Y c p g)%R.
Proof.
  intros Hg H0.
  assert (Hg' : matching n n g).
  { destruct Hg as (A & B & D). split; auto. split; auto. intros a Ha. specialize (D a Ha). unfold n. lia. }
  destruct (matching_extend n g Hg') as (s & Hs & Hsg).
  exists s. split; auto.
  set (b := fun i => existsb (Nat.eqb i) (map fst g)).
  assert (Hb : forall i, i < n -> b i = true -> i < M /\ nth i s 0%nat < N).
  { intros i _ Hi. apply existsb_exists in Hi. destruct Hi as (x & Hx & E). apply Nat.eqb_eq in E. subst x.
    apply in_map_iff in Hx. destruct Hx as (a & <- & Ha). rewrite Hsg by auto. apply Hg; auto. }
  rewrite (ospa_val_of s g b Hs H0 Hb (matching_chosen n s g Hs Hg' Hsg)).
  unfold ospa_val. fold M N n. apply rpow_le; auto. unfold Rdiv.
  assert (0 < / INR n)%R by (apply Rinv_0_lt_compat, lt_0_INR; auto).
  split.
  - apply Rmult_le_pos; [|lra]. apply Rsum_pos_seq. intros. apply rpow_nonneg, ospa_entry_bounds; auto.
  - apply Rmult_le_compat_r; [lra|]. apply Rsum_le. intros i Hi.
    destruct (b i); [lra|]. apply rpow_le; auto. apply ospa_entry_bounds; auto.
Qed.

Lemma ospa_exact s : 0 < n -> complete n n s ->
  (forall s', complete n n s' -> (ospa_val X Y c p s <= ospa_val X Y c p s')%R) ->
  is_ospa X Y c p (ospa_val X Y c p s).
Proof.
  intros H0 Hs Hmin. right. fold M N n. split; auto. split.
  - apply ospa_val_matching; auto.
  - intros g Hg. destruct (ospa_matching_val g Hg H0) as (s' & Hs' & Hle).
    eapply Rle_trans; [apply Hmin; exact Hs'|exact Hle].
Qed.

Lemma ospa_val_bounds s : 0 < n -> (0 <= ospa_val X Y c p s <= c)%R.
Proof.
  intros H0. unfold ospa_val. fold M N n.
  assert (HN : (0 < INR n)%R) by (apply lt_0_INR; auto).
  assert (Hi : (0 < / INR n)%R) by (apply Rinv_0_lt_compat; auto).
  assert (Hs : (0 <= Rsum (map (fun i => rpow (oe i (nth i s 0%nat)) p) (seq 0%nat n)) * / INR n <= rpow c p)%R).
  { split.
    - apply Rmult_le_pos; [|lra]. apply Rsum_pos_seq. intros. apply rpow_nonneg, ospa_entry_bounds; auto.
    - apply (Rmult_le_reg_r (INR n)); auto. rewrite Rmult_assoc, Rinv_l, Rmult_1_r by lra.
      rewrite (Rmult_comm (rpow c p)), <- Rsum_const. apply Rsum_le. intros i _.
      apply rpow_le; auto. apply ospa_entry_bounds; auto. }
  split; [apply rpow_nonneg; lra|].
  apply Rle_trans with (rpow (rpow c p) (/ p)); [apply rpow_le; auto|].
  rewrite (rpow_inv c p Hc Hp). lra.
Qed.

(** ** GOSPA *)
(** The cost of a row, split into its target and its truth half. *)
Definition halves (s : list nat) (i : nat) : R :=
  (rpow c p / 2 * (ind (i <? M) + ind (nth i s 0%nat <? N)))%R.

Lemma halves_sum s : complete n n s ->
  Rsum (map (halves s) (seq 0%nat n)) = (INR (M + N) * (rpow c p / 2))%R.
Proof.
  intros Hs. unfold halves.
  rewrite (Rsum_scal (rpow c p / 2) (fun i => (ind (i <? M) + ind (nth i s 0%nat <? N))%R)).
  rewrite (Rsum_plus (fun i => ind (i <? M)) (fun i => ind (nth i s 0%nat <? N))).
  rewrite (complete_sum n s (fun j => ind (j <? N)) Hs).
  rewrite !Rsum_count, !count_below by (unfold n; lia). rewrite plus_INR. lra.
Qed.

Lemma gospa_val_of s g b : complete n n s ->
  (forall i, i < n -> b i = true -> i < M /\ nth i s 0%nat < N) ->
  Permutation g (chosen n s b) ->
  gospa_of X Y c p g =
  rpow (Rsum (map (fun i => if b i then rpow (pd i (nth i s 0%nat)) p else halves s i) (seq 0%nat n))) (/ p).
Proof.
  intros Hs Hb Hg. unfold gospa_of. fold M N. f_equal.
  assert (Hlen : length g <= M /\ length g <= N).
  { rewrite (Permutation_length Hg). apply (matching_le M N _ (chosen_matching n s b M N Hs Hb)). }
  rewrite (Rsum_perm _ _ (Permutation_map _ Hg)).
  rewrite minus_INR by lia. rewrite mult_INR.
  rewrite (Permutation_length Hg), chosen_length, chosen_sum.
  rewrite Rmult_minus_distr_r, <- (halves_sum s Hs).
  assert (E : forall l, (INR 2 * Rsum (map (fun i => ind (b i)) l) * (rpow c p / 2))%R
                = Rsum (map (fun i => (rpow c p * ind (b i))%R) l)).
  { intros l. rewrite Rsum_scal. cbn [INR]. lra. }
  rewrite E. unfold Rminus. rewrite <- Rplus_assoc, <- Rsum_plus.
  transitivity (Rsum (map (fun x => (ind (b x) * rpow (pd x (nth x s 0%nat)) p + halves s x - rpow c p * ind (b x))%R) (seq 0%nat n))).
  { rewrite (Rsum_minus (fun x => (ind (b x) * rpow (pd x (nth x s 0%nat)) p + halves s x)%R) (fun x => (rpow c p * ind (b x))%R)).
    reflexivity. }
  f_equal. apply map_ext_in. intros i Hi. apply in_seq in Hi.
  unfold ind at 1 2. destruct (b i) eqn:Eb; [|lra].
  destruct (Hb i) as [H1 H2]; auto; [lia|].
  unfold halves. apply Nat.ltb_lt in H1. apply Nat.ltb_lt in H2. rewrite H1, H2. unfold ind. lra.
Qed.

Lemma row_real s i : complete n n s -> i < n -> i < M \/ nth i s 0%nat < N.
Proof.
  intros (Hl & _ & Hlt) Hi. assert (nth i s 0%nat < n) by (apply Hlt, nth_In; lia). unfold n in *. lia.
Qed.

Lemma gospa_val_matching s : complete n n s ->
  exists g, matching M N g /\ gospa_val X Y c p s = gospa_of X Y c p g.
Proof.
  intros Hs.
  set (b := fun i => (i <? M) && (nth i s 0%nat <? N) && Rltb (pd i (nth i s 0%nat)) c).
  assert (Hb : forall i, i < n -> b i = true -> i < M /\ nth i s 0%nat < N).
  { intros i _ Hi. apply andb_true_iff in Hi. destruct Hi as [Hi _].
    apply andb_true_iff in Hi. rewrite !Nat.ltb_lt in Hi. auto. }
  exists (chosen n s b). split; [apply chosen_matching; auto|].
  rewrite (gospa_val_of s _ b) by auto. unfold gospa_val. fold M N n. f_equal. f_equal.
  apply map_ext_in. intros i Hi. apply in_seq in Hi. unfold gospa_entry, halves. fold M N. unfold b.
  destruct (Nat.ltb_spec i M) as [H1|H1]; destruct (Nat.ltb_spec (nth i s 0%nat) N) as [H2|H2]; cbn [andb].
  - destruct (Rltb_spec (pd i (nth i s 0%nat)) c) as [H|H].
    + rewrite Rmin_right by lra. auto.
    + rewrite Rmin_left by lra. unfold ind. lra.
  - unfold ind. lra.
  - unfold ind. lra.
  - destruct (row_real s i Hs); lia.
Qed.

Lemma gospa_matching_val g : matching M N g ->
  exists s, complete n n s /\ (gospa_val X Y c p s <= gospa_of X Y c p g)%R.
Proof.
  intros Hg.
  assert (Hg' : matching n n g).
  { destruct Hg as (A & B & D). split; auto. split; auto. intros a Ha. specialize (D a Ha). unfold n. lia. }
  destruct (matching_extend n g Hg') as (s & Hs & Hsg).
  exists s. split; auto.
  set (b := fun i => existsb (Nat.eqb i) (map fst g)).
  assert (Hb : forall i, i < n -> b i = true -> i < M /\ nth i s 0%nat < N).
  { intros i _ Hi. apply existsb_exists in Hi. destruct Hi as (x & Hx & E). apply Nat.eqb_eq in E. subst x.
    apply in_map_iff in Hx. destruct Hx as (a & <- & Ha). rewrite Hsg by auto. apply Hg; auto. }
  rewrite (gospa_val_of s g b Hs Hb (matching_chosen n s g Hs Hg' Hsg)).
  unfold gospa_val. fold M N n. apply rpow_le; auto.
  split.
  - apply Rsum_pos_seq. intros. apply gospa_entry_nonneg; auto.
  - apply Rsum_le. intros i Hi. apply in_seq in Hi.
    pose proof (rpow_nonneg c p Hc).
    unfold gospa_entry. fold M N. destruct (b i) eqn:Eb.
    + destruct (Hb i) as [H1 H2]; auto; [lia|]. apply Nat.ltb_lt in H1. apply Nat.ltb_lt in H2.
      rewrite H1, H2. cbn [andb]. apply rpow_le; auto.
      split; [apply Rmin_glb; [lra|apply edist_nonneg]|apply Rmin_r].
    + unfold halves.
      destruct (Nat.ltb_spec i M) as [H1|H1]; destruct (Nat.ltb_spec (nth i s 0%nat) N) as [H2|H2]; cbn [andb]; unfold ind.
      * assert (rpow (Rmin c (pd i (nth i s 0%nat))) p <= rpow c p)%R; [|lra].
        apply rpow_le; auto. split; [apply Rmin_glb; [lra|apply edist_nonneg]|apply Rmin_l].
      * lra.
      * lra.
      * destruct (row_real s i Hs); lia.
Qed.

Lemma gospa_exact s : complete n n s ->
  (forall s', complete n n s' -> (gospa_val X Y c p s <= gospa_val X Y c p s')%R) ->
  is_gospa X Y c p (gospa_val X Y c p s).
Proof.
  intros Hs Hmin. split; fold M N.
  - apply gospa_val_matching; auto.
  - intros g Hg. destruct (gospa_matching_val g Hg) as (s' & Hs' & Hle).
    eapply Rle_trans; [apply Hmin; exact Hs'|exact Hle].
Qed.

Lemma gospa_topt_exact s :
  (forall s', complete n n s' -> transp n ge s' = direct n ge s') ->
  topt n ge s -> is_gospa X Y c p (gospa_val X Y c p s).
Proof.
  intros Ht [Hs Hopt]. apply gospa_exact; auto. intros s' Hs'.
  unfold gospa_val. fold M N n. apply rpow_le; auto.
  split; [apply Rsum_pos_seq; intros; apply gospa_entry_nonneg; auto|].
  pose proof (Hopt s' Hs') as H. change (transp n ge s <= transp n ge s')%R in H.
  rewrite !Ht in H by auto. exact H.
Qed.

Lemma ospa_topt_exact s : 0 < n -> p = 1%R ->
  (forall s', complete n n s' -> transp n oe s' = direct n oe s') ->
  topt n oe s -> is_ospa X Y c p (ospa_val X Y c p s).
Proof.
  intros H0 E1 Ht [Hs Hopt]. apply ospa_exact; auto. intros s' Hs'.
  assert (0 < / INR n)%R by (apply Rinv_0_lt_compat, lt_0_INR; auto).
  unfold ospa_val. fold M N n. apply rpow_le; auto.
  split; [apply Rmult_le_pos; [apply Rsum_pos_seq; intros; apply rpow_nonneg, ospa_entry_bounds; auto|lra]|].
  apply Rmult_le_compat_r; [lra|].
  pose proof (Hopt s' Hs') as H1. change (transp n oe s <= transp n oe s')%R in H1.
  rewrite !Ht in H1 by auto. unfold direct in H1.
  assert (E : forall t, map (fun i => rpow (oe i (nth i t 0%nat)) p) (seq 0%nat n) = map (fun i => oe i (nth i t 0%nat)) (seq 0%nat n)).
  { intros t. apply map_ext. intros i. rewrite E1. apply rpow_1. apply ospa_entry_bounds; auto. }
  rewrite !E. exact H1.
Qed.
End Metrics.

(** * Statements *)
Lemma ospa_bounded X Y c p : Nat.max (length X) (length Y) <= 30 -> (0 <= c)%R -> (0 < p)%R ->
  (forall fuel, ospa fuel X Y c p <> UB) /\
  exists fuel0 v, (forall fuel, fuel0 <= fuel -> ospa fuel X Y c p = Ok (Fin v)) /\ (0 <= v <= c)%R.
Proof.
  intros Hn Hc Hp. split.
  - intros fuel E. pose proof (ospa_spec X Y c p Hc Hp Hn fuel) as S. rewrite E in S. exact S.
  - destruct (ospa_total X Y c p Hc Hp Hn) as (fuel0 & v & H & Hr).
    destruct Hr as [[H0 ->]|(H0 & s & Hs & ->)].
    + exists fuel0, 0%R. split; auto. lra.
    + exists fuel0, (ospa_val X Y c p s). split; auto. apply ospa_val_bounds; auto.
Qed.

Lemma gospa_nonneg X Y c p : Nat.max (length X) (length Y) <= 30 -> (0 <= c)%R -> (0 < p)%R ->
  (forall fuel, gospa fuel X Y c p <> UB) /\
  exists fuel0 v, (forall fuel, fuel0 <= fuel -> gospa fuel X Y c p = Ok (Fin v)) /\ (0 <= v)%R.
Proof.
  intros Hn Hc Hp. split.
  - intros fuel E. pose proof (gospa_spec X Y c p Hc Hp Hn fuel) as S. rewrite E in S. exact S.
  - destruct (gospa_total X Y c p Hc Hp Hn) as (fuel0 & v & H & Hr).
    destruct Hr as [[H0 ->]|(H0 & s & Hs & ->)].
    + exists fuel0, 0%R. split; auto. lra.
    + exists fuel0, (gospa_val X Y c p s). split; auto. apply rpow_nonneg.
      apply Rsum_pos_seq. intros. apply gospa_entry_nonneg; auto.
Qed.

Lemma ospa_attained X Y c p fuel v : Nat.max (length X) (length Y) <= 30 -> (0 <= c)%R -> (0 < p)%R ->
  0 < Nat.max (length X) (length Y) ->
  ospa fuel X Y c p = Ok v -> exists g, matching (length X) (length Y) g /\ v = Fin (ospa_of X Y c p g).
Proof.
  intros Hn Hc Hp H0 E. pose proof (ospa_spec X Y c p Hc Hp Hn fuel) as S. rewrite E in S.
  destruct S as [[Hz _]|(_ & s & [Hs _] & ->)]; [lia|].
  destruct (ospa_val_matching X Y c p s Hs H0) as (g & Hg & ->). eauto.
Qed.

Lemma gospa_attained X Y c p fuel v : Nat.max (length X) (length Y) <= 30 -> (0 <= c)%R -> (0 < p)%R ->
  gospa fuel X Y c p = Ok v -> exists g, matching (length X) (length Y) g /\ v = Fin (gospa_of X Y c p g).
Proof.
  intros Hn Hc Hp E. pose proof (gospa_spec X Y c p Hc Hp Hn fuel) as S. rewrite E in S.
  destruct S as [[Hz ->]|(_ & s & [Hs _] & ->)].
  - exists []. destruct X as [|x X]; cbn in Hz; [|destruct (length Y); lia].
    destruct Y as [|y Y]; cbn in Hz; [|lia].
    split; [split; [constructor|split; [constructor|intros a []]]|].
    unfold gospa_of. cbn. rewrite Rmult_0_l, Rplus_0_r. unfold rpow. destruct (Req_EM_T 0 0); [auto|lra].
  - destruct (gospa_val_matching X Y c p s Hs) as (g & Hg & ->). eauto.
Qed.

Lemma is_gospa_empty c p : is_gospa [] [] c p 0.
Proof.
  assert (E : gospa_of [] [] c p [] = 0%R).
  { unfold gospa_of. cbn. rewrite Rmult_0_l, Rplus_0_r. unfold rpow. destruct (Req_EM_T 0 0); [auto|lra]. }
  split.
  - exists []. rewrite E. split; auto. split; [constructor|split; [constructor|intros a []]].
  - intros [|a g] (_ & _ & H).
    + rewrite E. lra.
    + destruct (H a (or_introl eq_refl)). cbn in *. lia.
Qed.

Lemma gospa_good X Y c p fuel v :
  Nat.max (length X) (length Y) <= 30 -> (0 <= c)%R -> (0 < p)%R ->
  (Nat.max (length X) (length Y) <= 2 \/
   (length X = length Y /\ forall i j, i < length X -> j < length X ->
      edist (nth i X []) (nth j Y []) = edist (nth j X []) (nth i Y []))) ->
  gospa fuel X Y c p = Ok v -> exists w, v = Fin w /\ is_gospa X Y c p w.
Proof.
  intros Hn Hc Hp Hcase E. pose proof (gospa_spec X Y c p Hc Hp Hn fuel) as S. rewrite E in S.
  destruct S as [[Hz ->]|(H0 & s & Hs & ->)].
  - exists 0%R. split; auto. destruct X as [|x X]; cbn in Hz; [|destruct (length Y); lia].
    destruct Y as [|y Y]; cbn in Hz; [|lia]. apply is_gospa_empty.
  - exists (gospa_val X Y c p s). split; auto. apply gospa_topt_exact; auto.
    intros s' Hs'. destruct Hcase as [H2|[El Hsym]].
    + apply transp_two; auto.
    + apply transp_sym; auto. intros i j Hi Hj. unfold gospa_entry, pair_dist.
      rewrite El in *. rewrite Nat.max_id in *.
      apply Nat.ltb_lt in Hi as Hi'. apply Nat.ltb_lt in Hj as Hj'. rewrite Hi', Hj'. cbn [andb].
      rewrite Hsym by lia. auto.
Qed.

Lemma ospa_good X Y c fuel v :
  Nat.max (length X) (length Y) <= 30 -> (0 <= c)%R ->
  (Nat.max (length X) (length Y) <= 2 \/
   (length X = length Y /\ forall i j, i < length X -> j < length X ->
      edist (nth i X []) (nth j Y []) = edist (nth j X []) (nth i Y []))) ->
  ospa fuel X Y c 1 = Ok v -> exists w, v = Fin w /\ is_ospa X Y c 1 w.
Proof.
  intros Hn Hc Hcase E. assert (Hp : (0 < 1)%R) by lra.
  pose proof (ospa_spec X Y c 1 Hc Hp Hn fuel) as S. rewrite E in S.
  destruct S as [[Hz ->]|(H0 & s & Hs & ->)].
  - exists 0%R. split; auto. left. auto.
  - exists (ospa_val X Y c 1 s). split; auto. apply ospa_topt_exact; auto.
    intros s' Hs'. destruct Hcase as [H2|[El Hsym]].
    + apply transp_two; auto.
    + apply transp_sym; auto. intros i j Hi Hj. unfold ospa_entry, pair_dist.
      rewrite El in *. rewrite Nat.max_id in *.
      apply Nat.ltb_lt in Hi as Hi'. apply Nat.ltb_lt in Hj as Hj'. rewrite Hi', Hj'. cbn [andb].
      rewrite Hsym by lia. auto.
Qed.
