(** The tracker's state invariant through prediction and the parallel part of
    correction. *)
From Coq Require Import List Arith NArith Bool Reals Lra Lia Permutation.
Import ListNotations.
From Verif Require Import Res Scalar LapBase RTree RTreeSpec RTreeInst CC Cluster Tracker TrackerSpec.
Local Open Scope nat_scope.

(** ** Lists *)
Lemma for_each_app {A S} (body : A -> S -> res S) l1 l2 s :
  for_each body (l1 ++ l2) s = bind (for_each body l1 s) (for_each body l2).
Proof. revert s. induction l1 as [|x l1 IH]; intros s; simpl; auto. destruct (body x s); simpl; auto. Qed.

Definition rest (a : nat) (l : list nat) : list nat := filter (fun b => negb (b =? a)) l.

Lemma rest_In a l b : In b (rest a l) <-> In b l /\ b <> a.
Proof. unfold rest. rewrite filter_In, negb_true_iff, Nat.eqb_neq. tauto. Qed.

Lemma rest_notin a l : ~ In a l -> rest a l = l.
Proof.
  intros H. unfold rest. induction l as [|b l IH]; simpl; auto.
  destruct (Nat.eqb_spec b a); [subst; exfalso; apply H; simpl; auto|]. simpl. f_equal. apply IH. intro. apply H. simpl; auto.
Qed.

Lemma rest_perm a l : NoDup l -> In a l -> Permutation l (a :: rest a l).
Proof.
  intros Hn Hi. induction Hn as [|b l Hb Hn IH]; [destruct Hi|]. simpl.
  destruct (Nat.eqb_spec b a) as [->|Hne]; simpl.
  - fold (rest a l). rewrite rest_notin by auto. auto.
  - fold (rest a l). destruct Hi as [->|Hi]; [congruence|]. rewrite (IH Hi) at 1. apply perm_swap.
Qed.

Lemma flat_map_perm {A B} (f : A -> list B) l l' : Permutation l l' -> Permutation (flat_map f l) (flat_map f l').
Proof.
  induction 1; simpl; auto.
  - apply Permutation_app_head; auto.
  - rewrite !app_assoc. apply Permutation_app_tail, Permutation_app_comm.
  - etransitivity; eauto.
Qed.

Lemma flat_map_rest {B} (f : nat -> list B) a l : NoDup l -> In a l ->
  Permutation (flat_map f l) (f a ++ flat_map f (rest a l)).
Proof. intros Hn Hi. apply (flat_map_perm f _ _ (rest_perm a l Hn Hi)). Qed.

Lemma flat_map_ext_in' {A B} (f g : A -> list B) l : (forall x, In x l -> f x = g x) -> flat_map f l = flat_map g l.
Proof. intros H. induction l as [|x l IH]; simpl; auto. rewrite H, IH; simpl; auto. intros. apply H; simpl; auto. Qed.

Lemma filter_filter {A} (f g : A -> bool) l : filter f (filter g l) = filter (fun x => g x && f x) l.
Proof. induction l as [|x l IH]; simpl; auto. destruct (g x); simpl; [destruct (f x); simpl; congruence|auto]. Qed.

Lemma filter_ext_in' {A} (f g : A -> bool) l : (forall x, In x l -> f x = g x) -> filter f l = filter g l.
Proof. apply filter_ext_in. Qed.

Definition setf {B} (f : nat -> B) (a : nat) (x : B) : nat -> B := fun b => if b =? a then x else f b.
Lemma setf_eq {B} (f : nat -> B) a x : setf f a x a = x.
Proof. unfold setf. rewrite Nat.eqb_refl. auto. Qed.
Lemma setf_neq {B} (f : nat -> B) a x b : b <> a -> setf f a x b = f b.
Proof. unfold setf. intros. destruct (Nat.eqb_spec b a); congruence. Qed.

(** ** Phases *)
Section Proofs.
Context {P Rep : Type}.
Variable unit : R.
Hypothesis unit_pos : (0 < unit)%R.
Variable box : P -> rect (ext R).
Hypothesis box_real : forall p, real_box (box p).
Variable covnorm : P -> ext R.
Variables r_lim cov_lim rB_max : R.

Notation tracker := (tracker (P := P)).
Notation target := (target (P := P)).
Notation vol := (volR unit).
Notation viable := (viable covnorm r_lim cov_lim).
Notation index_remove := (index_remove vol box).
Notation restore := (restore vol box covnorm r_lim cov_lim).

Definition item (o : option target) (a : nat) : list (rect (ext R) * nat) :=
  match o with Some t => [(box (tg_pdf t), a)] | None => [] end.

Section Phases.
(** The state at the start, the new values of the targets; a target is indexed
    with the old value (0), not indexed with the old (1) or new value (2), or
    finished (3). *)
Variable h0 : nat -> option target.
Variable T0 : list addr.
Variable id0 : N.
Variable newt : nat -> option target.
Hypothesis T0_nodup : NoDup T0.
Hypothesis T0_live : forall a, h0 a <> None <-> In a T0.
Hypothesis newt_some : forall a, In a T0 -> newt a <> None.

Definition kept (o : option target) : option target :=
  match o with Some t => if viable t then Some t else None | None => None end.

Definition hs (ph : nat -> nat) (a : nat) : option target :=
  match ph a with
  | 0 | 1 => h0 a
  | 2 => newt a
  | _ => kept (newt a)
  end.
Definition alive (ph : nat -> nat) (a : nat) : bool := match hs ph a with Some _ => true | None => false end.
Definition item_at (ph : nat -> nat) (a : nat) : list (rect (ext R) * nat) :=
  match ph a with 1 | 2 => [] | _ => item (hs ph a) a end.

Record phased (ph : nat -> nat) (st : tracker) : Prop := mkPhased {
  ph_heap : forall a, heap st a = hs ph a;
  ph_targets : targets st = filter (alive ph) T0;
  ph_tree : tree_ok st;
  ph_index : Permutation (entries (tree st)) (flat_map (item_at ph) T0);
  ph_id : next_id st = id0 }.

Lemma item_snd ph a e : In e (item_at ph a) -> snd e = a.
Proof. unfold item_at, item. destruct (ph a) as [|[|[|]]], (hs ph a); simpl; intuition; subst; auto. Qed.

Lemma items_other ph ph' a : (forall b, b <> a -> ph' b = ph b) ->
  flat_map (item_at ph') (rest a T0) = flat_map (item_at ph) (rest a T0).
Proof. intros H. apply flat_map_ext_in'. intros b Hb. apply rest_In in Hb. unfold item_at, hs. rewrite H; tauto. Qed.

Lemma hs_other ph a k b : b <> a -> hs (setf ph a k) b = hs ph b.
Proof. intros H. unfold hs. rewrite setf_neq; auto. Qed.

Lemma deref_ok (st : tracker) a t : heap st a = Some t -> deref st a = Ok t.
Proof. unfold deref. intros ->. auto. Qed.

Lemma step_remove ph st a : phased ph st -> In a T0 -> ph a = 0 ->
  exists st', index_remove a st = Ok st' /\ phased (setf ph a 1) st'.
Proof.
  intros [Hh Ht Hb Hi Hid] Ha Hph.
  destruct (h0 a) as [t|] eqn:E; [|apply T0_live in Ha; congruence].
  assert (Hst : heap st a = Some t) by (rewrite Hh; unfold hs; rewrite Hph; auto).
  unfold Tracker.index_remove. rewrite (deref_ok _ _ _ Hst). cbn [bind].
  assert (Hitem : item_at ph a = [(box (tg_pdf t), a)]) by (unfold item_at, hs; rewrite Hph, E; reflexivity).
  destruct (remove_R unit unit_pos Nat.eqb Nat.eqb_eq (box (tg_pdf t)) a (tree st) (proj1 (box_real _)) Hb)
    as (tr & Hr & Hbal & Hcase).
  rewrite Hr. cbn [bind]. eexists. split; [reflexivity|].
  pose proof (flat_map_rest (item_at ph) a T0 T0_nodup Ha) as Hs. rewrite Hitem in Hs. cbn [app] in Hs.
  assert (Hperm : Permutation (entries tr) (flat_map (item_at ph) (rest a T0))).
  { destruct Hcase as [(r0 & Hp)|(_ & Hnone)].
    - assert (HP : Permutation ((r0, a) :: entries tr) ((box (tg_pdf t), a) :: flat_map (item_at ph) (rest a T0))).
      { rewrite <- Hp, Hi, Hs. reflexivity. }
      assert (E0 : (r0, a) = (box (tg_pdf t), a)).
      { assert (Hin : In (r0, a) ((box (tg_pdf t), a) :: flat_map (item_at ph) (rest a T0))).
        { eapply Permutation_in; [exact HP|simpl; auto]. }
        destruct Hin as [<-|Hin]; auto. apply in_flat_map in Hin. destruct Hin as (b & Hb' & Hin).
        apply item_snd in Hin. apply rest_In in Hb'. simpl in Hin. destruct Hb'; congruence. }
      rewrite E0 in HP. apply Permutation_cons_inv in HP. exact HP.
    - exfalso. apply (Hnone (box (tg_pdf t))); [|apply touches_self; apply box_real].
      eapply Permutation_in; [symmetry; exact Hi|]. eapply Permutation_in; [symmetry; exact Hs|]. simpl; auto. }
  split; cbn [with_tree heap targets tree next_id]; auto.
  - intros b. rewrite Hh. destruct (Nat.eq_dec b a) as [->|Hne]; [unfold hs; rewrite setf_eq, Hph; auto|].
    rewrite hs_other; auto.
  - rewrite Ht. apply filter_ext_in'. intros b _. unfold alive.
    destruct (Nat.eq_dec b a) as [->|Hne]; [unfold hs; rewrite setf_eq, Hph; auto|]. rewrite hs_other; auto.
  - pose proof (flat_map_rest (item_at (setf ph a 1)) a T0 T0_nodup Ha) as Hs'.
    rewrite (items_other ph (setf ph a 1) a) in Hs' by (intros; apply setf_neq; auto).
    rewrite Hperm, Hs'. unfold item_at at 2. rewrite setf_eq. reflexivity.
Qed.

Lemma alive_ph ph a : In a T0 -> ph a <= 1 -> alive ph a = true.
Proof.
  intros Ha Hp. unfold alive, hs. destruct (h0 a) eqn:E; [|apply T0_live in Ha; congruence].
  destruct (ph a) as [|[|]]; auto; lia.
Qed.

Lemma step_write ph st a t' : phased ph st -> In a T0 -> ph a = 1 -> newt a = Some t' ->
  exists st', write st a t' = Ok st' /\ phased (setf ph a 2) st'.
Proof.
  intros [Hh Ht Hb Hi Hid] Ha Hph Hnew.
  destruct (h0 a) as [t|] eqn:E; [|apply T0_live in Ha; congruence].
  assert (Hst : heap st a = Some t) by (rewrite Hh; unfold hs; rewrite Hph; auto).
  unfold write. rewrite (deref_ok _ _ _ Hst). cbn [bind]. eexists. split; [reflexivity|].
  split; cbn [heap targets tree next_id]; auto.
  - intros b. unfold heap_upd. destruct (Nat.eqb_spec b a) as [->|Hne]; [unfold hs; rewrite setf_eq; auto|].
    rewrite Hh, hs_other; auto.
  - rewrite Ht. apply filter_ext_in'. intros b _. destruct (Nat.eq_dec b a) as [->|Hne].
    + rewrite alive_ph by (auto; lia). unfold alive, hs. rewrite setf_eq, Hnew. auto.
    + unfold alive. rewrite hs_other; auto.
  - rewrite Hi. apply Permutation_refl'. apply flat_map_ext_in'. intros b _.
    destruct (Nat.eq_dec b a) as [->|Hne]; [unfold item_at; rewrite setf_eq, Hph; auto|].
    unfold item_at. rewrite setf_neq by auto. rewrite hs_other by auto. auto.
Qed.

Lemma step_restore ph st a : phased ph st -> In a T0 -> ph a = 2 ->
  exists st', restore a st = Ok st' /\ phased (setf ph a 3) st'.
Proof.
  intros [Hh Ht Hb Hi Hid] Ha Hph.
  destruct (newt a) as [t|] eqn:Hnew; [|destruct (newt_some a Ha Hnew)].
  assert (Hst : heap st a = Some t) by (rewrite Hh; unfold hs; rewrite Hph; auto).
  unfold Tracker.restore. rewrite (deref_ok _ _ _ Hst). cbn [bind].
  pose proof (flat_map_rest (item_at ph) a T0 T0_nodup Ha) as Hs.
  assert (Hitem : item_at ph a = []) by (unfold item_at; rewrite Hph; auto). rewrite Hitem in Hs. cbn [app] in Hs.
  pose proof (flat_map_rest (item_at (setf ph a 3)) a T0 T0_nodup Ha) as Hs'.
  rewrite (items_other ph (setf ph a 3) a) in Hs' by (intros; apply setf_neq; auto).
  assert (Ha2 : alive ph a = true) by (unfold alive, hs; rewrite Hph, Hnew; auto).
  destruct (viable t) eqn:Hv.
  - unfold index_insert. rewrite (deref_ok _ _ _ Hst). cbn [bind].
    destruct (insert_R unit unit_pos (D := addr) (box (tg_pdf t)) a (tree st) (box_real _) Hb) as (tr & Hr & Hbal & Hp).
    rewrite Hr. cbn [bind]. eexists. split; [reflexivity|].
    split; cbn [with_tree heap targets tree next_id]; auto.
    + intros b. rewrite Hh. destruct (Nat.eq_dec b a) as [->|Hne]; [unfold hs; rewrite setf_eq, Hph, Hnew; unfold kept; rewrite Hv; auto|].
      rewrite hs_other; auto.
    + rewrite Ht. apply filter_ext_in'. intros b _. destruct (Nat.eq_dec b a) as [->|Hne].
      * rewrite Ha2. unfold alive, hs. rewrite setf_eq, Hnew. unfold kept. rewrite Hv. auto.
      * unfold alive. rewrite hs_other; auto.
    + rewrite Hp, Hs', Hi, Hs. unfold item_at at 2. unfold hs. rewrite setf_eq, Hnew. unfold kept. rewrite Hv. reflexivity.
  - unfold erase. rewrite (deref_ok _ _ _ Hst). cbn [bind]. eexists. split; [reflexivity|].
    split; cbn [heap targets tree next_id]; auto.
    + intros b. unfold heap_upd. destruct (Nat.eqb_spec b a) as [->|Hne]; [unfold hs; rewrite setf_eq, Hnew; unfold kept; rewrite Hv; auto|].
      rewrite Hh, hs_other; auto.
    + rewrite Ht, filter_filter. apply filter_ext_in'. intros b _. destruct (Nat.eqb_spec b a) as [->|Hne].
      * rewrite andb_false_r. unfold alive, hs. rewrite setf_eq, Hnew. unfold kept. rewrite Hv. auto.
      * rewrite andb_true_r. unfold alive. rewrite hs_other; auto.
    + rewrite Hi, Hs, Hs'. unfold item_at at 2. unfold hs. rewrite setf_eq, Hnew. unfold kept. rewrite Hv. reflexivity.
Qed.

(** The same for a list of targets. *)
Definition setl {B} (f : nat -> B) (l : list nat) (x : B) : nat -> B :=
  fun b => if existsb (Nat.eqb b) l then x else f b.

Lemma phased_ext ph ph' st : (forall a, ph a = ph' a) -> phased ph st -> phased ph' st.
Proof.
  intros E [Hh Ht Hb Hi Hid].
  assert (Hs : forall a, hs ph a = hs ph' a) by (intros; unfold hs; rewrite E; auto).
  split; auto.
  - intros. rewrite Hh. auto.
  - rewrite Ht. apply filter_ext_in'. intros. unfold alive. rewrite Hs. auto.
  - rewrite Hi. apply Permutation_refl'. apply flat_map_ext_in'. intros. unfold item_at. rewrite Hs, E. auto.
Qed.

Lemma existsb_nat b l : existsb (Nat.eqb b) l = true <-> In b l.
Proof.
  rewrite existsb_exists. split; [intros (x & Hx & E); apply Nat.eqb_eq in E; subst; auto|].
  intros H. exists b. rewrite Nat.eqb_refl. auto.
Qed.

Lemma setl_in {B} (f : nat -> B) l x a : In a l -> setl f l x a = x.
Proof. intros H. unfold setl. apply existsb_nat in H. rewrite H. auto. Qed.
Lemma setl_notin {B} (f : nat -> B) l x a : ~ In a l -> setl f l x a = f a.
Proof. intros H. unfold setl. destruct (existsb (Nat.eqb a) l) eqn:E; auto. apply existsb_nat in E. contradiction. Qed.

Lemma phased_list (body : addr -> tracker -> res tracker) k k' :
  (forall ph st a, phased ph st -> In a T0 -> ph a = k -> exists st', body a st = Ok st' /\ phased (setf ph a k') st') ->
  forall (l : list addr) ph st, phased ph st -> NoDup l -> (forall a, In a l -> In a T0 /\ ph a = k) ->
  exists st', for_each body l st = Ok st' /\ phased (setl ph l k') st'.
Proof.
  intros Hbody. induction l as [|a l IH]; intros ph st Hp Hn Hl; cbn [for_each].
  - exists st. split; auto.
  - inversion Hn as [|? ? Ha Hn']; subst.
    destruct (Hbody ph st a Hp) as (st1 & E1 & Hp1); [apply Hl; simpl; auto..|].
    rewrite E1. cbn [bind]. destruct (IH _ _ Hp1 Hn') as (st' & E' & Hp').
    + intros b Hb. split; [apply Hl; simpl; auto|]. rewrite setf_neq by (intros ->; contradiction). apply Hl; simpl; auto.
    + exists st'. split; auto. eapply phased_ext; [|exact Hp']. intros b. unfold setl. simpl.
      destruct (Nat.eqb_spec b a) as [->|Hne]; simpl.
      * destruct (existsb (Nat.eqb a) l); auto. apply setf_eq.
      * rewrite setf_neq by auto. auto.
Qed.

(** Start and end. *)
Lemma phased_end ph st : phased ph st -> (forall a, In a T0 -> ph a = 0 \/ ph a = 3) -> (forall a, ~ In a T0 -> ph a = 0) ->
  consistent box st.
Proof.
  intros [Hh Ht Hb Hi Hid] Hend Hout. split; [|split; auto].
  - split; [rewrite Ht; apply NoDup_filter; auto|]. intros a. rewrite Ht, filter_In, Hh. unfold alive.
    destruct (in_dec Nat.eq_dec a T0) as [Hin|Hn].
    + destruct (hs ph a); intuition congruence.
    + assert (E : hs ph a = None). { unfold hs. rewrite Hout by auto. destruct (h0 a) eqn:E; auto. exfalso. apply Hn, T0_live. congruence. }
      rewrite E. intuition congruence.
  - unfold indexed, live. rewrite Hi, Ht. apply Permutation_refl'.
    assert (H : forall T, (forall a, In a T -> ph a = 0 \/ ph a = 3) ->
      flat_map (item_at ph) T =
      map (fun x : nat * target => (box (tg_pdf (snd x)), fst x))
        (flat_map (fun a => match heap st a with Some t => [(a, t)] | None => [] end) (filter (alive ph) T))).
    { induction T as [|a T IH]; intros HT; simpl; auto.
      assert (E : item_at ph a = item (hs ph a) a).
      { unfold item_at. destruct (HT a ltac:(simpl; auto)) as [->| ->]; auto. }
      rewrite E, IH by (intros; apply HT; simpl; auto).
      unfold alive at 2. destruct (hs ph a) eqn:Eh; simpl; [|reflexivity]. rewrite Hh, Eh. reflexivity. }
    apply H. exact Hend.
Qed.

(** Write the new value. *)
Definition write_new (a : nat) (st : tracker) : res tracker :=
  match newt a with Some t => write st a t | None => UB end.

Lemma step_write_new ph st a : phased ph st -> In a T0 -> ph a = 1 ->
  exists st', write_new a st = Ok st' /\ phased (setf ph a 2) st'.
Proof.
  intros Hp Ha Hph. unfold write_new. destruct (newt a) as [t|] eqn:E; [|destruct (newt_some a Ha E)].
  eapply step_write; eauto.
Qed.
End Phases.

Lemma phased_start st newt : consistent box st ->
  phased (heap st) (targets st) (next_id st) newt (fun _ => 0) st.
Proof.
  intros ((Hn & Hl) & Hi & Hb). split; auto.
  - assert (H : forall T, (forall a, In a T -> heap st a <> None) -> filter (alive (heap st) newt (fun _ => 0)) T = T).
    { induction T as [|a T IH]; intros HT; simpl; auto. unfold alive, hs. specialize (HT a) as Ha.
      destruct (heap st a); [|exfalso; apply Ha; simpl; auto]. f_equal. apply IH. intros. apply HT. simpl; auto. }
    rewrite H; auto. intros a. apply Hl.
  - unfold indexed, live in Hi. rewrite Hi. apply Permutation_refl'. clear. induction (targets st) as [|a T IH]; auto.
    etransitivity; [apply map_app|]. cbn [flat_map]. f_equal; [|exact IH]. unfold item_at, hs, item. destruct (heap st a); auto.
Qed.

(** ** Prediction *)
Notation predict := (predict vol box covnorm r_lim cov_lim).

(** The state after removing all from the index. *)
Lemma phased_clear st newt : consistent box st ->
  phased (heap st) (targets st) (next_id st) newt (setl (fun _ => 0) (targets st) 1) (with_tree st RTree.empty).
Proof.
  intros Hc. pose proof (phased_start st newt Hc) as [Hh Ht Hb Hi Hid]. destruct Hc as ((Hn & Hl) & _).
  assert (E : forall a, hs (heap st) newt (setl (fun _ => 0) (targets st) 1) a = heap st a).
  { intros a. unfold hs, setl. destruct (existsb _ _); auto. }
  split; cbn [with_tree heap targets tree next_id]; auto.
  - rewrite Ht at 1. apply filter_ext_in'. intros a _. unfold alive. rewrite E. auto.
  - split; simpl; [constructor|]. split; [lia|intros; lia].
  - assert (H : forall T, (forall a, In a T -> In a (targets st)) ->
              flat_map (item_at (heap st) newt (setl (fun _ => 0) (targets st) 1)) T = []).
    { induction T as [|a T IH]; intros HT; simpl; auto. unfold item_at at 1. rewrite setl_in by (apply HT; simpl; auto).
      simpl. apply IH. intros; apply HT; simpl; auto. }
    rewrite H; auto.
Qed.

Lemma predict_ok f st : consistent box st ->
  exists st', predict f st = Ok st' /\ consistent box st' /\ next_id st' = next_id st /\
    (forall a, heap st' a = match heap st a with Some t => kept (Some (f a t)) | None => None end) /\
    targets st' = filter (fun a => match heap st' a with Some _ => true | None => false end) (targets st).
Proof.
  intros Hc. destruct (proj1 Hc) as (Hn & Hl).
  set (newt := fun a => match heap st a with Some t => Some (f a t) | None => None end).
  assert (Hns : forall a, In a (targets st) -> newt a <> None).
  { intros a Ha. apply Hl in Ha. unfold newt. destruct (heap st a); congruence. }
  pose proof (phased_clear st newt Hc) as H1. unfold Tracker.predict.
  destruct (phased_list (heap st) (targets st) (next_id st) newt (apply_to f) 1 2) with (l := targets st)
    (ph := setl (fun _ => 0) (targets st) 1) (st := with_tree st RTree.empty) as (st2 & E2 & H2); auto.
  { intros ph s a Hp Ha Hph.
    assert (E : apply_to f a s = write_new newt a s).
    { unfold apply_to, write_new, newt, deref. rewrite (ph_heap _ _ _ _ _ _ Hp a). unfold hs. rewrite Hph.
      apply Hl in Ha. destruct (heap st a); [reflexivity|congruence]. }
    rewrite E. apply (step_write_new (heap st) (targets st)); auto. }
  { intros a Ha. split; auto. apply setl_in; auto. }
  rewrite E2. cbn [bind].
  destruct (phased_list (heap st) (targets st) (next_id st) newt restore 2 3) with (l := targets st)
    (ph := setl (setl (fun _ => 0) (targets st) 1) (targets st) 2) (st := st2) as (st3 & E3 & H3); auto.
  { intros ph s a Hp Ha Hph. apply step_restore; auto. }
  { intros a Ha. split; auto. apply setl_in; auto. }
  exists st3. split; auto.
  assert (Hh : forall a, heap st3 a = match heap st a with Some t => kept (Some (f a t)) | None => None end).
  { intros a. rewrite (ph_heap _ _ _ _ _ _ H3 a). unfold hs. destruct (in_dec Nat.eq_dec a (targets st)) as [Ha|Ha].
    - rewrite setl_in by auto. unfold newt. destruct (heap st a); auto.
    - rewrite !setl_notin by auto. destruct (heap st a) eqn:E; auto. exfalso. apply Ha, Hl. congruence. }
  split; [|split; [exact (ph_id _ _ _ _ _ _ H3)|split; auto]].
  - apply (phased_end _ _ _ _ Hn Hl _ _ H3).
    + intros a Ha. right. apply setl_in; auto.
    + intros a Ha. rewrite !setl_notin by auto. auto.
  - rewrite (ph_targets _ _ _ _ _ _ H3). apply filter_ext_in'. intros a _. unfold alive.
    rewrite <- (ph_heap _ _ _ _ _ _ H3 a). auto.
Qed.
End Proofs.
