(** Proofs about vectors of summaries. *)
From Coq Require Import List Arith Lia Bool.
Import ListNotations.
From Verif Require Import Res Summary.

Section Proofs.
Context {S W : Type}.
Notation source := (source S W).
Notation object := (object S W).
Variable grow : nat -> nat.
Hypothesis Hgrow : forall n, n < grow n.

Definition same (x : source) (o : object) : Prop :=
  ob_s o = so_s x /\ ob_w o = so_r x /\ ob_id o = so_id x /\ ob_cid o = so_cid x.

(** The vector holds [xs]; the objects from index [k] on refer to themselves, those before
    to blocks that are gone; [k] is the size at the last change of storage. *)
Definition holds (xs : list source) (k : nat) (v : vector) (m : memory S W) : Prop :=
  exists l, nth_error m (v_block v) = Some (Some l) /\
    length l = length xs /\ k <= length xs /\ length l <= v_cap v /\
    (v_cap v = match xs with [] => 0 | _ => grow k end) /\
    (forall i x o, nth_error xs i = Some x -> nth_error l i = Some o -> same x o) /\
    (forall i o, nth_error l i = Some o ->
       if i <? k then nth_error m (fst (ob_ref o)) = Some None else ob_ref o = (v_block v, i)).

Lemma contents_some (m : memory S W) b l : nth_error m b = Some (Some l) -> contents m b = Ok l.
Proof. intros H. unfold contents, get. rewrite H. reflexivity. Qed.

Lemma nth_snoc {A} (l : list A) a i : nth_error (l ++ [a]) i =
  if i <? length l then nth_error l i else if i =? length l then Some a else None.
Proof.
  destruct (Nat.ltb_spec i (length l)) as [H|H].
  - apply nth_error_app1; auto.
  - rewrite nth_error_app2 by auto. destruct (Nat.eqb_spec i (length l)) as [->|Hne].
    + rewrite Nat.sub_diag. reflexivity.
    + destruct (i - length l) as [|[|]] eqn:E; [lia|reflexivity|reflexivity].
Qed.

Lemma set_nth {A} (l : list A) i a : i < length l ->
  exists l', set l i a = Ok l' /\ length l' = length l /\
    forall j, nth_error l' j = if j =? i then Some a else nth_error l j.
Proof.
  intros Hi. rewrite set_ok by auto. eexists. split; [reflexivity|]. split; [apply upd_length|].
  intros j. destruct (Nat.eqb_spec j i) as [->|Hne].
  - rewrite (nth_error_nth' _ a) by (rewrite upd_length; auto). f_equal. apply nth_upd_eq; auto.
  - destruct (Nat.lt_ge_cases j (length l)) as [H|H].
    + rewrite (nth_error_nth' _ a) by (rewrite upd_length; auto). rewrite (nth_error_nth' l a) by auto. f_equal. apply nth_upd_neq; auto.
    + rewrite (proj2 (nth_error_None _ j)) by (rewrite upd_length; lia). symmetry. apply nth_error_None. lia.
Qed.

Lemma copy_same (o : object) : copy o = o.
Proof. destruct o. reflexivity. Qed.
Lemma map_copy (l : list object) : map copy l = l.
Proof. induction l as [|o l IH]; auto. cbn [map]. rewrite IH, copy_same. auto. Qed.

Lemma same_snoc (xs : list source) (l : list object) x o : length l = length xs -> same x o ->
  (forall i y p, nth_error xs i = Some y -> nth_error l i = Some p -> same y p) ->
  forall i y p, nth_error (xs ++ [x]) i = Some y -> nth_error (l ++ [o]) i = Some p -> same y p.
Proof.
  intros Hl Ho H i y p. rewrite !nth_snoc, Hl. destruct (i <? length xs); [apply H|].
  destruct (i =? length xs); [|discriminate]. intros E1 E2. inversion E1; inversion E2; subst; auto.
Qed.

(** The size at the last change of storage after one more element. *)
Definition next_k (n k : nat) : nat := if n <? (if n =? 0 then 0 else grow k) then k else n.

Lemma emplace_holds xs k v m x : holds xs k v m ->
  exists v' m', emplace_back grow x v m = Ok (v', m') /\ holds (xs ++ [x]) (next_k (length xs) k) v' m'.
Proof.
  intros (l & Hb & Hl & Hk & Hcap & Ecap & Hs & Hr).
  assert (Hlt : v_block v < length m) by (apply nth_error_Some; congruence).
  assert (Ec : v_cap v = if length xs =? 0 then 0 else grow k) by (rewrite Ecap; destruct xs; reflexivity).
  unfold emplace_back. rewrite (contents_some _ _ _ Hb). cbn [bind]. rewrite Hl. unfold next_k. rewrite <- Ec.
  destruct (Nat.ltb_spec (length xs) (v_cap v)) as [Hc|Hc].
  - destruct (set_nth m (v_block v) (Some (l ++ [construct (v_block v) (length xs) x])) Hlt) as (m' & -> & Hm & Hn).
    cbn [bind]. exists v, m'. split; auto. exists (l ++ [construct (v_block v) (length xs) x]).
    split; [rewrite Hn, Nat.eqb_refl; auto|]. split; [rewrite !app_length; simpl; lia|]. split; [rewrite app_length; lia|].
    split; [rewrite app_length; simpl; lia|]. split.
    { rewrite Ec. destruct xs; [simpl in *; lia|]. reflexivity. }
    split; [apply same_snoc; auto; repeat split|].
    intros i o. rewrite nth_snoc, Hl. destruct (Nat.ltb_spec i (length xs)) as [Hi|Hi].
    + intros Ho. specialize (Hr i o Ho). destruct (i <? k); auto. rewrite Hn.
      destruct (Nat.eqb_spec (fst (ob_ref o)) (v_block v)) as [E|E]; auto. rewrite E in Hr. congruence.
    + destruct (Nat.eqb_spec i (length xs)) as [->|]; [|discriminate]. intros Ho. inversion Ho.
      replace (length xs <? k) with false by (symmetry; apply Nat.ltb_ge; lia). reflexivity.
  - destruct (set_nth m (v_block v) None Hlt) as (m' & -> & Hm & Hn).
    cbn [bind]. rewrite map_copy. eexists _, _. split; [reflexivity|].
    exists (l ++ [construct (length m) (length xs) x]). cbn [v_block v_cap].
    split; [rewrite nth_snoc, Hm, Nat.ltb_irrefl, Nat.eqb_refl; auto|]. split; [rewrite !app_length; simpl; lia|].
    split; [rewrite app_length; lia|]. split; [rewrite app_length; simpl; pose proof (Hgrow (length xs)); lia|]. split.
    { destruct xs; reflexivity. }
    split; [apply same_snoc; auto; repeat split|].
    intros i o. rewrite nth_snoc, Hl. destruct (Nat.ltb_spec i (length xs)) as [Hi|Hi].
    + intros Ho. specialize (Hr i o Ho).
      assert (Hgone : nth_error m' (fst (ob_ref o)) = Some None).
      { rewrite Hn. destruct (Nat.eqb_spec (fst (ob_ref o)) (v_block v)) as [E|E]; auto.
        destruct (i <? k); auto. rewrite Hr in E. simpl in E. congruence. }
      rewrite nth_error_app1; auto. apply nth_error_Some. congruence.
    + destruct (Nat.eqb_spec i (length xs)) as [->|]; [|discriminate]. intros Ho. inversion Ho. reflexivity.
Qed.

(** The size at the last change of storage for [n] elements. *)
Fixpoint last_k (n : nat) : nat := match n with 0 => 0 | Datatypes.S n => next_k n (last_k n) end.

Lemma append_holds xs : forall ys v m, holds ys (last_k (length ys)) v m ->
  exists v' m', append_all grow xs v m = Ok (v', m') /\ holds (ys ++ xs) (last_k (length (ys ++ xs))) v' m'.
Proof.
  induction xs as [|x xs IH]; intros ys v m H.
  - exists v, m. rewrite app_nil_r. auto.
  - destruct (emplace_holds ys _ v m x H) as (v' & m' & E & H'). cbn [append_all]. rewrite E. cbn [bind].
    replace (ys ++ x :: xs) with ((ys ++ [x]) ++ xs) by (rewrite <- app_assoc; auto). apply IH.
    rewrite app_length. simpl. rewrite Nat.add_1_r. exact H'.
Qed.

Lemma summaries_hold xs : exists v m, get_summaries grow xs = Ok (v, m) /\ holds xs (last_k (length xs)) v m.
Proof.
  apply (append_holds xs []). exists []. simpl. split; auto. split; auto. split; auto. split; auto. split; auto.
  split; intros i; destruct i; discriminate.
Qed.

Lemma read_gone (m : memory S W) o : nth_error m (fst (ob_ref o)) = Some None -> read_r m o = UB.
Proof. intros H. unfold read_r, contents, get. rewrite H. reflexivity. Qed.

(** What the caller of get_targets has. *)
Lemma summaries_result xs : exists v m l, get_summaries grow xs = Ok (v, m) /\ contents m (v_block v) = Ok l /\
  Forall2 same xs l /\
  forall i x o, nth_error xs i = Some x -> nth_error l i = Some o ->
    read_r m o = if i <? last_k (length xs) then UB else Ok (so_r x).
Proof.
  destruct (summaries_hold xs) as (v & m & E & l & Hb & Hl & Hk & _ & _ & Hs & Hr).
  exists v, m, l. split; auto. split; [apply contents_some; auto|]. split.
  - clear - Hl Hs. revert l Hl Hs. induction xs as [|x xs IH]; intros [|o l] Hl Hs; try discriminate; constructor.
    + apply (Hs 0); reflexivity.
    + apply IH; [simpl in Hl; lia|]. intros i y p H1 H2. apply (Hs (Datatypes.S i)); auto.
  - intros i x o Hx Ho. specialize (Hr i o Ho). destruct (i <? last_k (length xs)); [apply read_gone; auto|].
    unfold read_r. rewrite Hr. cbn [fst snd]. rewrite (contents_some _ _ _ Hb). cbn [bind]. unfold get. rewrite Ho. cbn [bind].
    destruct (Hs i x o Hx Ho) as (_ & Hw & _). rewrite Hw. auto.
Qed.

Lemma python_result xs : exists v m l m', get_summaries grow xs = Ok (v, m) /\ to_list v m = Ok (l, m') /\
  Forall2 same xs l /\ (forall o, In o l -> read_r m' o = UB).
Proof.
  destruct (summaries_hold xs) as (v & m & E & l & Hb & Hl & Hk & _ & _ & Hs & Hr).
  destruct (summaries_result xs) as (v2 & m2 & l2 & E2 & Hc2 & HF & _). rewrite E in E2. inversion E2; subst v2 m2.
  rewrite (contents_some _ _ _ Hb) in Hc2. inversion Hc2; subst l2.
  assert (Hlt : v_block v < length m) by (apply nth_error_Some; congruence).
  destruct (set_nth m (v_block v) None Hlt) as (m' & Em & Hm & Hn).
  exists v, m, l, m'. split; auto. split; [unfold to_list; rewrite (contents_some _ _ _ Hb); cbn [bind]; rewrite Em; cbn [bind]; rewrite map_copy; auto|].
  split; auto. intros o Ho. apply In_nth_error in Ho. destruct Ho as [i Ho]. specialize (Hr i o Ho). apply read_gone. rewrite Hn.
  destruct (Nat.eqb_spec (fst (ob_ref o)) (v_block v)) as [E3|E3]; auto. destruct (i <? last_k (length xs)); auto. rewrite Hr in E3. simpl in E3. congruence.
Qed.

(** More elements than fit at first: the first one was moved. *)
Lemma last_k_le n : last_k n <= n.
Proof. induction n as [|n IH]; auto. cbn [last_k]. unfold next_k. destruct (_ <? _); lia. Qed.
Lemma last_k_pos n : 0 < last_k n <-> grow 0 < n.
Proof.
  induction n as [|n IH]; [simpl; lia|]. cbn [last_k]. unfold next_k. pose proof (Hgrow 0) as H0.
  destruct (Nat.eqb_spec n 0) as [->|Hn]; [simpl; lia|].
  destruct (Nat.ltb_spec n (grow (last_k n))) as [H|H].
  - rewrite IH. split; [lia|]. intros Hs. destruct (Nat.eq_dec (last_k n) 0) as [E|E]; [|apply IH; lia].
    rewrite E in H. lia.
  - destruct (Nat.eq_dec (last_k n) 0) as [E|E]; [rewrite E in H|assert (grow 0 < n) by (apply IH; lia)]; lia.
Qed.
End Proofs.

(** libstdc++: the last change of storage is at the largest power of two below the size. *)
Lemma last_k_doubling n : (n <= 1 /\ last_k doubling n = 0) \/ exists p, last_k doubling n = 2 ^ p /\ 2 ^ p < n <= 2 * 2 ^ p.
Proof.
  induction n as [|n IH]; [left; auto|]. cbn [last_k]. unfold next_k.
  destruct IH as [[Hn E]|(p & E & Hp)].
  - rewrite E. destruct n as [|n]; [left; auto|]. assert (n = 0) by lia. subst n. right. exists 0. simpl. lia.
  - rewrite E. right. assert (H2 : 0 < 2 ^ p) by (apply Nat.neq_0_lt_0, Nat.pow_nonzero; lia).
    destruct (Nat.eqb_spec n 0); [lia|]. unfold doubling. destruct (Nat.eqb_spec (2 ^ p) 0); [lia|].
    destruct (Nat.ltb_spec n (2 * 2 ^ p)).
    + exists p. lia.
    + assert (n = 2 * 2 ^ p) by lia. exists (Datatypes.S p). simpl. lia.
Qed.
Lemma doubling_grows n : n < doubling n.
Proof. unfold doubling. destruct (Nat.eqb_spec n 0); lia. Qed.
Lemma dangling_doubling n i : i < last_k doubling n <-> exists p, 2 ^ p < n /\ i < 2 ^ p.
Proof.
  destruct (last_k_doubling n) as [[Hn E]|(p & E & Hp)]; rewrite E.
  - split; [lia|]. intros (p & H1 & H2). lia.
  - split; [exists p; lia|]. intros (q & H1 & H2). destruct (Nat.le_gt_cases q p) as [H|H].
    + pose proof (Nat.pow_le_mono_r 2 q p ltac:(lia) H). lia.
    + pose proof (Nat.pow_le_mono_r 2 (Datatypes.S p) q ltac:(lia) H) as H3. simpl in H3. lia.
Qed.
Lemma last_k_lt {S W} grow (xs : list (source S W)) : xs <> [] -> last_k grow (length xs) < length xs.
Proof.
  destruct xs as [|x xs]; [congruence|]. intros _. simpl length. cbn [last_k]. unfold next_k.
  pose proof (last_k_le grow (length xs)). destruct (_ <? _); lia.
Qed.

Lemma same_length {S W} (xs : list (source S W)) l : Forall2 same xs l -> length xs = length l.
Proof. induction 1; simpl; auto. Qed.

Lemma refuted_doubling (S W : Type) (xs : list (source S W)) : 2 <= length xs ->
  exists v m l, get_summaries doubling xs = Ok (v, m) /\ contents m (v_block v) = Ok l /\ Forall2 same xs l /\
    forall i o, nth_error l i = Some o -> (read_r m o = UB <-> exists p, 2 ^ p < length xs /\ i < 2 ^ p).
Proof.
  intros _. destruct (summaries_result doubling doubling_grows xs) as (v & m & l & H1 & H2 & H3 & H4).
  exists v, m, l. split; auto. split; auto. split; auto. intros i o Ho.
  assert (Hi : i < length xs) by (rewrite (same_length xs l H3); apply nth_error_Some; congruence).
  destruct (nth_error xs i) as [x|] eqn:Ex; [|apply nth_error_None in Ex; lia].
  rewrite (H4 i x o Ex Ho), <- dangling_doubling. destruct (Nat.ltb_spec i (last_k doubling (length xs))); split; auto; try discriminate; lia.
Qed.

Lemma python_values (S W : Type) grow (xs : list (source S W)) : (forall n, n < grow n) ->
  exists v m l m', get_summaries grow xs = Ok (v, m) /\ to_list v m = Ok (l, m') /\
    map py_r l = map so_r xs /\ map ob_s l = map so_s xs /\ map ob_id l = map so_id xs /\ map ob_cid l = map so_cid xs.
Proof.
  intros Hg. destruct (python_result grow Hg xs) as (v & m & l & m' & H1 & H2 & H3 & _). exists v, m, l, m'. split; auto. split; auto.
  clear H1 H2. induction H3 as [|x o xs l (A & B & C & D) _ (E1 & E2 & E3 & E4)]; simpl; auto.
  unfold py_r at 1. rewrite A, B, C, D, E1, E2, E3, E4. auto.
Qed.
