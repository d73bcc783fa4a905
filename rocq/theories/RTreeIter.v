(** Proofs about the iterator and about saving and loading. *)
From Coq Require Import List Arith Bool Lia Permutation.
Import ListNotations.
From Verif Require Import Res Scalar RTree RTreeSpec.

Section Iter.
Context {T D : Type}.
Variable le : T -> T -> Prop.
Variable good : rect T -> Prop.
Notation bb := (balanced_branch (D := D) le good).
Notation E lv bs := (flat_map (below (T := T) (D := D) lv) bs).

(** ** Iterator *)
Definition frame_ok (f : frame (T := T) (D := D)) : Prop :=
  Forall (bb (fst (fst f))) (snd (fst f)) /\ snd f < length (snd (fst f)).

(** Levels grow from the top of the stack downwards, within [lo, hi). *)
Fixpoint stack_ok (lo hi : nat) (st : list (frame (T := T) (D := D))) : Prop :=
  match st with
  | [] => True
  | f :: st => lo <= fst (fst f) < hi /\ frame_ok f /\ stack_ok (S (fst (fst f))) hi st
  end.

(** The entries still to be visited. *)
Definition pend (st : list (frame (T := T) (D := D))) : list (rect T * D) :=
  flat_map (fun f => E (fst (fst f)) (skipn (snd f) (snd (fst f)))) st.

Lemma stack_weaken lo lo' hi st : lo' <= lo -> stack_ok lo hi st -> stack_ok lo' hi st.
Proof. destruct st; simpl; auto. intros H (H1 & H2). split; auto. lia. Qed.

Lemma stack_length hi : forall st lo, stack_ok lo hi st -> st <> [] -> length st + lo <= hi.
Proof.
  induction st as [|f st IH]; intros lo H Hn; [congruence|]. destruct H as (H1 & H2 & H3). simpl.
  destruct st as [|g st]; [simpl; lia|]. specialize (IH _ H3 ltac:(discriminate)). lia.
Qed.

Lemma push_ok hi f st : hi <= 32 -> fst (fst f) < hi -> frame_ok f -> stack_ok (S (fst (fst f))) hi st ->
  push f st = Ok (f :: st) /\ stack_ok (fst (fst f)) hi (f :: st).
Proof.
  intros Hh Hf Hok Hst. assert (Hs : stack_ok (fst (fst f)) hi (f :: st)) by (simpl; auto).
  split; auto. unfold push. destruct (Nat.ltb_spec (length st) MAX_STACK) as [|H]; auto.
  pose proof (stack_length hi _ _ Hs ltac:(discriminate)) as Hl. simpl in Hl. unfold MAX_STACK in H. lia.
Qed.

Ltac do_push s :=
  match goal with
  | Hh : ?hi <= 32 |- context [push ?f s] => destruct (push_ok hi f s Hh) as [-> Hs]
  end.

Lemma skipn_nth {A} (l : list A) i d : i < length l -> skipn i l = nth i l d :: skipn (S i) l.
Proof.
  revert i. induction l as [|x l IH]; intros i Hi; simpl in Hi; [lia|]. destruct i; [reflexivity|].
  cbn [skipn nth]. rewrite IH by lia. reflexivity.
Qed.

Definition leaf_top (st : list (frame (T := T) (D := D))) : Prop :=
  match st with [] => True | f :: _ => fst (fst f) = 0 end.

Lemma get_first_spec hi : hi <= 32 -> forall fuel level bs st, level < fuel -> level < hi ->
  Forall (bb level) bs -> bs <> [] -> stack_ok (S level) hi st ->
  exists st', get_first fuel (level, bs) st = Ok st' /\ stack_ok 0 hi st' /\ leaf_top st' /\
     pend st' = E level bs ++ pend st.
Proof.
  intros Hh. induction fuel as [|fuel IH]; intros level bs st Hf Hl Hbs Hne Hst; [lia|]. cbn [get_first].
  destruct bs as [|b bs]; [congruence|]. destruct level as [|l].
  - change (0 <? 0) with false. cbn [andb Nat.eqb length].
    do_push st; auto; [split; auto; simpl; lia|].
    eexists; split; [reflexivity|]. split; [exact Hs|]. split; reflexivity.
  - change (0 <? S l) with true. cbn [andb Nat.eqb].
    inversion Hbs as [|? ? Hb Hbs']; subst. pose proof Hb as Hb'. cbn [balanced_branch] in Hb'.
    destruct Hb' as (bs1 & Es & Hl1 & _ & _ & Hbs1).
    assert (Hne1 : bs1 <> []) by (destruct bs1; [simpl in Hl1; lia|discriminate]).
    change (get (b :: bs) 0) with (Ok b). cbn [bind]. rewrite Es.
    destruct (Nat.ltb_spec 1 (length (b :: bs))) as [Hlen|Hlen]; cbn iota.
    + do_push st; auto; [split; auto|]. cbn [bind].
      destruct (IH l bs1 (((S l, b :: bs), 1) :: st)) as (st' & E' & H1 & H2 & H3); auto; try lia.
      exists st'. repeat split; auto. rewrite H3. unfold pend. cbn [flat_map fst snd skipn]. rewrite app_assoc.
      f_equal. f_equal. cbn [below]. rewrite Es. reflexivity.
    + destruct (IH l bs1 st) as (st' & E' & H1 & H2 & H3); auto; try lia; [eapply stack_weaken; [|eauto]; lia|].
      exists st'. repeat split; auto. rewrite H3. destruct bs; [|simpl in Hlen; lia].
      cbn [flat_map]. rewrite app_nil_r. f_equal. cbn [below]. rewrite Es. reflexivity.
Qed.

Lemma find_next_inner hi : hi <= 32 -> forall fuel st, stack_ok 1 hi st ->
  match st with [] => 0 < fuel | f :: _ => fst (fst f) <= fuel end ->
  exists st', find_next fuel st = Ok st' /\ stack_ok 0 hi st' /\ leaf_top st' /\ pend st' = pend st.
Proof.
  intros Hh. induction fuel as [|fuel IH]; intros st Hst Hf.
  - destruct st as [|f st]; [lia|]. destruct Hst. lia.
  - cbn [find_next]. destruct st as [|[[level bs] i] st]; [exists []; simpl; auto|].
    destruct Hst as (H1 & (Hbs & Hi) & Hst). cbn [fst snd] in *.
    destruct level as [|l]; [lia|]. cbn [Nat.eqb].
    assert (d0 : branch T D) by (destruct bs; [simpl in Hi; lia|assumption]).
    set (b := nth i bs d0).
    assert (Hb : bb (S l) b) by (rewrite Forall_forall in Hbs; apply Hbs, nth_In; lia).
    pose proof Hb as Hb'. cbn [balanced_branch] in Hb'. destruct Hb' as (bs1 & Es & Hl1 & _ & _ & Hbs1).
    assert (Hmid : exists st1, (if i + 1 <? length bs then push ((S l, bs), i + 1) st else Ok st) = Ok st1 /\
              stack_ok (S l) hi st1 /\ pend st1 = E (S l) (skipn (S i) bs) ++ pend st).
    { destruct (Nat.ltb_spec (i + 1) (length bs)) as [Hlt|Hge].
      - do_push st; auto; [cbn [fst]; lia|split; auto|].
        eexists; split; [reflexivity|]. split; [exact Hs|]. unfold pend. cbn [flat_map fst snd]. rewrite Nat.add_1_r. reflexivity.
      - exists st. split; auto. split; [eapply stack_weaken; [|eauto]; lia|]. rewrite (skipn_all2 bs) by lia. reflexivity. }
    destruct Hmid as (st1 & -> & Hs1 & Hp1). cbn [bind]. rewrite (get_ok _ _ d0) by lia. cbn [bind]. fold b. rewrite Es.
    do_push st1; auto; [cbn [fst]; lia|split; auto; cbn [fst snd]; lia|]. cbn [bind].
    assert (Hpend : pend (((l, bs1), 0) :: st1) = pend (((S l, bs), i) :: st)).
    { change (E l bs1 ++ pend st1 = E (S l) (skipn i bs) ++ pend st). rewrite Hp1, (skipn_nth bs i d0) by auto. fold b. cbn [flat_map].
      rewrite app_assoc. f_equal. f_equal. cbn [below]. rewrite Es. reflexivity. }
    destruct (Nat.eqb_spec l 0) as [->|Hl].
    + eexists; split; [reflexivity|]. split; [exact Hs|]. split; [reflexivity|exact Hpend].
    + destruct (IH (((l, bs1), 0) :: st1)) as (st' & E' & K1 & K2 & K3).
      * eapply stack_weaken; [|exact Hs]. cbn [fst]. lia.
      * cbn [fst]. lia.
      * exists st'. split; auto. split; auto. split; auto. rewrite K3. exact Hpend.
Qed.

Lemma find_next_leaf hi fuel st : hi <= 32 -> hi < fuel -> stack_ok 0 hi st -> leaf_top st -> st <> [] ->
  exists r d st', current st = Ok d /\ find_next fuel st = Ok st' /\ stack_ok 0 hi st' /\ leaf_top st' /\
     pend st = (r, d) :: pend st'.
Proof.
  intros Hh Hf Hst Hlt Hne. destruct st as [|[[level bs] i] st]; [congruence|]. simpl in Hlt. subst level.
  destruct Hst as (H1 & (Hbs & Hi) & Hst). cbn [fst snd] in *.
  assert (d0 : branch T D) by (destruct bs; [simpl in Hi; lia|assumption]).
  assert (Hb : bb 0 (nth i bs d0)) by (rewrite Forall_forall in Hbs; apply Hbs, nth_In; lia).
  destruct Hb as [(d & Es) _].
  assert (Hp : pend (((0, bs), i) :: st) = (fst (nth i bs d0), d) :: E 0 (skipn (S i) bs) ++ pend st).
  { change (E 0 (skipn i bs) ++ pend st = (fst (nth i bs d0), d) :: E 0 (skipn (S i) bs) ++ pend st).
    rewrite (skipn_nth bs i d0) by auto. cbn [flat_map below]. rewrite Es. reflexivity. }
  exists (fst (nth i bs d0)), d.
  assert (Hc : current (((0, bs), i) :: st) = Ok d).
  { unfold current. rewrite (get_ok _ _ d0) by auto. cbn [bind]. rewrite Es. reflexivity. }
  destruct fuel as [|fuel]; [lia|]. cbn [find_next Nat.eqb].
  destruct (Nat.ltb_spec (i + 1) (length bs)) as [Hlt|Hge].
  - do_push st; auto; [cbn [fst]; lia|split; auto|].
    eexists; split; [exact Hc|]. split; [reflexivity|]. split; [exact Hs|]. split; [reflexivity|].
    etransitivity; [exact Hp|]. f_equal. unfold pend at 2. cbn [flat_map fst snd]. rewrite Nat.add_1_r. reflexivity.
  - destruct (find_next_inner hi Hh fuel st) as (st' & E' & K1 & K2 & K3); auto.
    { destruct st as [|f st']; [lia|]. destruct Hst. lia. }
    exists st'. split; auto. split; auto. split; auto. split; auto.
    etransitivity; [exact Hp|]. rewrite K3, (skipn_all2 bs) by lia. reflexivity.
Qed.

Lemma iterate_loop_spec hi fuel : hi <= 32 -> hi < fuel -> forall rounds st acc, stack_ok 0 hi st -> leaf_top st ->
  length (pend st) < rounds -> iterate_loop rounds fuel st acc = Ok (acc ++ map snd (pend st)).
Proof.
  intros Hh Hf. induction rounds as [|rounds IH]; intros st acc Hst Hlt Hr; [lia|]. cbn [iterate_loop].
  destruct st as [|f st0] eqn:Est.
  - simpl. rewrite app_nil_r. reflexivity.
  - rewrite <- Est in *. destruct (find_next_leaf hi fuel st Hh Hf Hst Hlt) as (r & d & st' & E1 & E2 & K1 & K2 & K3); [congruence|].
    rewrite E1. cbn [bind]. rewrite E2. cbn [bind]. rewrite K3 in *. simpl in Hr. rewrite IH by (auto; lia).
    cbn [map snd]. rewrite <- app_assoc. reflexivity.
Qed.

Lemma iterate_spec fuel (root : node T D) : balanced le good root -> fst root < 32 ->
  length (entries root) < fuel -> S (S (fst root)) <= fuel ->
  iterate fuel root = Ok (map snd (entries root)).
Proof.
  intros (Hbs & Hlen & Hne) Hl Hf1 Hf2. destruct root as [level bs]. cbn [fst snd] in *. unfold iterate.
  destruct bs as [|b bs].
  - destruct level; [|specialize (Hne ltac:(lia)); simpl in Hne; lia]. destruct fuel as [|fuel]; [simpl in *; lia|]. reflexivity.
  - destruct (get_first_spec (S level) ltac:(lia) fuel level (b :: bs) []) as (st & E1 & K1 & K2 & K3); auto; try lia; try discriminate.
    { simpl. auto. }
    rewrite E1. cbn [bind]. unfold pend in K3 at 2. simpl flat_map in K3 at 3. rewrite app_nil_r in K3.
    unfold entries in *. cbn [fst snd] in *.
    rewrite (iterate_loop_spec (S level) fuel) by (auto; try lia; rewrite K3; auto). rewrite K3. reflexivity.
Qed.

(** ** Save and load *)
Fixpoint encb (lv : nat) (b : branch T D) : list (token (T := T) (D := D)) :=
  TMin (min0 (fst b)) (min1 (fst b)) :: TMax (max0 (fst b)) (max1 (fst b)) ::
  match lv with
  | 0 => match snd b with Data d => [TData d] | Sub _ _ => [] end
  | S l => match snd b with Sub l' bs => TInt l' :: TInt (length bs) :: flat_map (encb l) bs | Data _ => [] end
  end.
Definition enc (level : nat) (bs : list (branch T D)) := TInt level :: TInt (length bs) :: flat_map (encb level) bs.

Lemma firstn_S' {A} (l : list A) k d : k < length l -> firstn (S k) l = firstn k l ++ [nth k l d].
Proof.
  revert k. induction l as [|x l IH]; intros k Hk; [simpl in Hk; lia|].
  destruct k as [|k]; auto. simpl in Hk. cbn [firstn nth app]. f_equal. apply IH. lia.
Qed.

Lemma save_rec_spec : forall fuel level bs out, level < fuel -> Forall (bb level) bs ->
  save_rec fuel level bs out = Ok (out ++ enc level bs).
Proof.
  induction fuel as [|fuel IH]; intros level bs out Hf Hbs; [lia|]. cbn [save_rec].
  match goal with |- for_loop _ _ ?body ?s = _ =>
    assert (Hw : wp False (for_loop (length bs) 0 body s)
      (fun x => x = s ++ flat_map (encb level) (firstn (0 + length bs) bs))) end.
  { apply (wp_for False (length bs) 0 _ (fun k x => x = (out ++ [TInt level; TInt (length bs)]) ++ flat_map (encb level) (firstn k bs))).
    - simpl. rewrite app_nil_r. auto.
    - intros i x Hi ->.
      assert (d0 : branch T D) by (destruct bs; [simpl in *; lia|assumption]).
      rewrite (get_ok _ _ d0) by lia. cbn [bind]. rewrite (firstn_S' bs i d0) by lia. set (b := nth i bs d0).
      assert (Hb : bb level b) by (rewrite Forall_forall in Hbs; apply Hbs, nth_In; lia).
      rewrite flat_map_app. cbn [flat_map]. rewrite app_nil_r. cbv zeta. destruct level as [|l].
      + destruct Hb as [(d & Es) _]. rewrite Es. change (0 <? 0) with false. cbn iota. apply wp_ret.
        cbn [encb]. rewrite Es. rewrite <- !app_assoc. reflexivity.
      + cbn [balanced_branch] in Hb. destruct Hb as (bs' & Es & Hl' & _ & _ & Hbs'). rewrite Es. change (0 <? S l) with true. cbn iota.
        rewrite IH by (auto; lia). apply wp_ret. cbn [encb]. rewrite Es. rewrite <- !app_assoc. reflexivity. }
  cbn [Nat.add] in Hw. rewrite firstn_all in Hw.
  destruct (for_loop _ _ _ _) as [x| |]; cbn [wp] in Hw; [|contradiction|contradiction].
  rewrite Hw. unfold enc. rewrite <- app_assoc. reflexivity.
Qed.

Lemma load_rec_spec : forall fuel level bs rest, level < fuel -> Forall (bb level) bs -> length bs <= 8 ->
  load_rec fuel (enc level bs ++ rest) = Ok ((level, bs), rest).
Proof.
  induction fuel as [|fuel IH]; intros level bs rest Hf Hbs Hlen; [lia|]. cbn [load_rec enc app read_int bind].
  match goal with |- bind (for_loop _ _ ?body ?s) _ = _ =>
    assert (Hw : wp False (for_loop (length bs) 0 body s)
      (fun x => x = (firstn (0 + length bs) bs, flat_map (encb level) (skipn (0 + length bs) bs) ++ rest))) end.
  { apply (wp_for False (length bs) 0 _ (fun k x => x = (firstn k bs, flat_map (encb level) (skipn k bs) ++ rest))).
    - reflexivity.
    - intros i x Hi ->. destruct (Nat.leb_spec MAXNODES i) as [H|_]; [unfold MAXNODES in H; lia|].
      assert (d0 : branch T D) by (destruct bs; [simpl in *; lia|assumption]).
      rewrite (skipn_nth bs i d0) by lia. rewrite (firstn_S' bs i d0) by lia. set (b := nth i bs d0).
      assert (Hb : bb level b) by (rewrite Forall_forall in Hbs; apply Hbs, nth_In; lia).
      assert (Er : b = (mkRect (min0 (fst b)) (min1 (fst b)) (max0 (fst b)) (max1 (fst b)), snd b)).
      { destruct b as [[] ?]. reflexivity. }
      cbn [flat_map]. destruct level as [|l].
      + destruct Hb as [(d & Es) _]. cbn [encb]. rewrite Es. change (0 <? 0) with false.
        cbn [app]. apply wp_ret. rewrite <- Es, <- Er. reflexivity.
      + cbn [balanced_branch] in Hb. destruct Hb as (bs' & Es & Hl' & _ & _ & Hbs').
        assert (Ee : encb (S l) b = TMin (min0 (fst b)) (min1 (fst b)) :: TMax (max0 (fst b)) (max1 (fst b)) :: enc l bs')
          by (cbn [encb]; rewrite Es; reflexivity).
        rewrite Ee. change (0 <? S l) with true. cbn [app]. rewrite <- app_assoc.
        rewrite IH by (auto; lia). cbn [bind]. apply wp_ret. cbn [fst snd]. rewrite <- Es, <- Er. reflexivity. }
  cbn [Nat.add] in Hw. rewrite firstn_all, skipn_all in Hw.
  destruct (for_loop _ _ _ _) as [x| |]; cbn [wp] in Hw; [|contradiction|contradiction].
  rewrite Hw. reflexivity.
Qed.

Lemma save_load_spec file_id fuel (root : node T D) : balanced le good root -> fst root < fuel ->
  exists ts, save file_id root = Ok ts /\ load file_id fuel ts = Ok (Some root).
Proof.
  intros (Hbs & Hlen & _) Hf. destruct root as [level bs]. cbn [fst snd] in *.
  exists (map TInt (header file_id) ++ enc level bs). split.
  - unfold save. cbn [fst snd]. apply save_rec_spec; auto.
  - unfold load. cbn [header length for_loop map app read_int bind].
    destruct (list_eq_dec _ _ _) as [_|H]; [|exfalso; apply H; reflexivity].
    rewrite <- (app_nil_r (enc level bs)), load_rec_spec by auto. reflexivity.
Qed.
End Iter.
