(** Proofs about the connected components model. *)
From Coq Require Import List Arith Lia Relations Permutation Sorted.
Import ListNotations.
From Verif Require Import Res CC CCSpec.

(** * Sets and maps *)

Lemma set_insert_In x y s : In y (set_insert x s) <-> y = x \/ In y s.
Proof.
  induction s as [|z t IH]; simpl.
  - intuition.
  - destruct (x <? z) eqn:E1; [simpl; intuition|].
    destruct (Nat.eqb_spec x z) as [->|N].
    + simpl; intuition.
    + simpl; rewrite IH; intuition.
Qed.

Lemma set_erase_In x y s : In y (set_erase x s) <-> In y s /\ y <> x.
Proof.
  unfold set_erase; rewrite filter_In.
  destruct (Nat.eqb_spec y x); simpl; intuition.
Qed.

Lemma fold_insert_In cs y s :
  In y (fold_left (fun s x => set_insert x s) cs s) <-> In y cs \/ In y s.
Proof.
  revert s; induction cs as [|c cs IH]; intros s; simpl; [intuition|].
  rewrite IH, set_insert_In; intuition.
Qed.

Lemma fold_erase_In l y s :
  In y (fold_left (fun s x => set_erase x s) l s) <-> In y s /\ ~ In y l.
Proof.
  revert s; induction l as [|x l IH]; intros s; simpl; [intuition|].
  rewrite IH, set_erase_In; intuition.
Qed.

Lemma set_insert_sorted x s :
  StronglySorted lt s -> StronglySorted lt (set_insert x s).
Proof.
  induction s as [|z t IH]; simpl; intros H.
  - repeat constructor.
  - inversion H as [|? ? Ht Hz]; subst.
    destruct (Nat.ltb_spec x z) as [L|L].
    + constructor; [exact H|]. constructor; [exact L|].
      eapply Forall_impl; [|exact Hz]; simpl; intros; lia.
    + destruct (Nat.eqb_spec x z) as [->|N]; [exact H|].
      constructor; [apply IH; exact Ht|].
      apply Forall_forall; intros y Hy; apply set_insert_In in Hy.
      destruct Hy as [->|Hy]; [lia|].
      rewrite Forall_forall in Hz; apply Hz; exact Hy.
Qed.

Lemma fold_insert_sorted cs s :
  StronglySorted lt s ->
  StronglySorted lt (fold_left (fun s x => set_insert x s) cs s).
Proof.
  revert s; induction cs; intros; simpl; auto.
  apply IHcs, set_insert_sorted; auto.
Qed.

Lemma sorted_NoDup (s : list nat) : StronglySorted lt s -> NoDup s.
Proof.
  induction 1; constructor; auto.
  intros Hin; rewrite Forall_forall in H0; specialize (H0 _ Hin); lia.
Qed.

Lemma filter_NoDup {A} (f : A -> bool) l : NoDup l -> NoDup (filter f l).
Proof. apply NoDup_filter. Qed.

Lemma fold_erase_NoDup l s :
  NoDup s -> NoDup (fold_left (fun s x => set_erase x s) l s).
Proof.
  revert s; induction l; intros; simpl; auto.
  apply IHl; apply filter_NoDup; auto.
Qed.

Definition keys (m : cmap) : list addr := map fst m.

(** Well-formed map: keys strictly increasing, sets strictly increasing. *)
Definition wf (m : cmap) : Prop :=
  StronglySorted lt (keys m) /\ Forall (fun p => StronglySorted lt (snd p)) m.

Definition find0 (m : cmap) k := match map_find m k with Some s => s | None => [] end.
Definition conn (m : cmap) x y := In y (find0 m x).

Lemma map_find_In m k s : map_find m k = Some s -> In (k, s) m.
Proof.
  induction m as [|[k' s'] t IH]; simpl; [discriminate|].
  destruct (Nat.eqb_spec k k') as [->|N]; intros H; [inversion H|]; auto.
Qed.

Lemma map_find_None m k : map_find m k = None <-> ~ In k (keys m).
Proof.
  induction m as [|[k' s'] t IH]; simpl; [intuition|].
  destruct (Nat.eqb_spec k k') as [->|N]; [intuition congruence|].
  rewrite IH; intuition.
Qed.

Lemma map_put_find m k s k' :
  map_find (map_put m k s) k' = if k' =? k then Some s else map_find m k'.
Proof.
  induction m as [|[a b] t IH]; simpl.
  - destruct (k' =? k); auto.
  - destruct (Nat.ltb_spec k a) as [L|L]; simpl.
    + destruct (k' =? k); auto.
    + destruct (Nat.eqb_spec k a) as [->|N]; simpl.
      * destruct (k' =? a); auto.
      * rewrite IH; destruct (Nat.eqb_spec k' a); destruct (Nat.eqb_spec k' k); auto.
        subst; congruence.
Qed.

Lemma map_put_keys m k s x : In x (keys (map_put m k s)) <-> x = k \/ In x (keys m).
Proof.
  induction m as [|[a b] t IH]; simpl; [intuition|].
  destruct (k <? a); simpl; [intuition|].
  destruct (Nat.eqb_spec k a) as [->|N]; simpl; [intuition|].
  rewrite IH; intuition.
Qed.

Lemma map_put_wf m k s : wf m -> StronglySorted lt s -> wf (map_put m k s).
Proof.
  intros [Hk Hs] Ss; split.
  - clear Hs; induction m as [|[a b] t IH]; simpl; [repeat constructor|].
    simpl in Hk; inversion Hk as [|? ? Ht Ha]; subst.
    destruct (Nat.ltb_spec k a) as [L|L]; simpl.
    + constructor; [exact Hk|]; constructor; [exact L|].
      eapply Forall_impl; [|exact Ha]; simpl; intros; lia.
    + destruct (Nat.eqb_spec k a) as [->|N]; simpl; [exact Hk|].
      constructor; [apply IH; exact Ht|].
      apply Forall_forall; intros y Hy; apply map_put_keys in Hy.
      destruct Hy as [->|Hy]; [lia|].
      rewrite Forall_forall in Ha; apply Ha; exact Hy.
  - clear Hk; induction m as [|[a b] t IH]; simpl; [repeat constructor; auto|].
    inversion Hs; subst.
    destruct (k <? a); [constructor; auto|].
    destruct (k =? a); constructor; auto.
Qed.

Lemma find0_sorted m k : wf m -> StronglySorted lt (find0 m k).
Proof.
  intros [_ Hs]; unfold find0; destruct (map_find m k) eqn:E; [|constructor].
  apply map_find_In in E; rewrite Forall_forall in Hs; apply (Hs _ E).
Qed.

Lemma map_erase_find m k k' :
  map_find (map_erase m k) k' = if k' =? k then None else map_find m k'.
Proof.
  induction m as [|[a b] t IH]; simpl.
  - destruct (k' =? k); auto.
  - destruct (Nat.eqb_spec a k) as [->|N]; simpl; rewrite IH.
    + destruct (k' =? k); auto.
    + destruct (Nat.eqb_spec k' a); destruct (Nat.eqb_spec k' k); auto; congruence.
Qed.

Lemma StronglySorted_filter {A} (R : A -> A -> Prop) f l :
  StronglySorted R l -> StronglySorted R (filter f l).
Proof.
  induction 1; simpl; [constructor|].
  destruct (f a); auto; constructor; auto.
  apply Forall_forall; intros x Hx; apply filter_In in Hx.
  rewrite Forall_forall in H0; apply H0; tauto.
Qed.

Lemma map_erase_keys m k :
  keys (map_erase m k) = filter (fun x => negb (x =? k)) (keys m).
Proof.
  unfold keys, map_erase; induction m as [|[a b] t IH]; simpl; auto.
  destruct (a =? k); simpl; rewrite IH; auto.
Qed.

Lemma map_erase_wf m k : wf m -> wf (map_erase m k).
Proof.
  intros [Hk Hs]; split.
  - rewrite map_erase_keys; apply StronglySorted_filter; exact Hk.
  - unfold map_erase; apply Forall_forall; intros x Hx.
    apply filter_In in Hx; rewrite Forall_forall in Hs; apply Hs; tauto.
Qed.

(** * One component *)

(** Nodes reachable in the map [m]. *)
Definition reach (m : cmap) := clos_refl_trans addr (conn m).

Section Loop.
Variable m0 : cmap.
Variable x0 : addr.
Hypothesis Hwf : wf m0.

Definition universe := x0 :: flat_map snd m0.

Record inv (m : cmap) (nodes out : list addr) : Prop := {
  i_nodup : NoDup (out ++ nodes);
  i_wf : wf m;
  i_find : forall k, map_find m k = if existsb (Nat.eqb k) out then None else map_find m0 k;
  i_start : In x0 (out ++ nodes);
  i_reach : forall y, In y (out ++ nodes) -> reach m0 x0 y;
  i_closed : forall y z, In y out -> conn m0 y z -> In z (out ++ nodes);
  i_univ : incl (out ++ nodes) universe
}.

Lemma existsb_In k l : existsb (Nat.eqb k) l = true <-> In k l.
Proof.
  rewrite existsb_exists; split.
  - intros (y & Hy & E); apply Nat.eqb_eq in E; subst; auto.
  - intros H; exists k; split; auto; apply Nat.eqb_refl.
Qed.

Lemma conn_univ y z : conn m0 y z -> In z universe.
Proof.
  unfold conn, find0; destruct (map_find m0 y) eqn:E; [|simpl; tauto].
  intros H; right; apply in_flat_map; exists (y, c); split; auto.
  apply map_find_In; auto.
Qed.

Lemma inv_step m k nodes out :
  inv m (k :: nodes) out ->
  let out' := out ++ [k] in
  let s := find0 m k in
  let s := fold_left (fun s x => set_erase x s) out' s in
  let s := fold_left (fun s x => set_erase x s) (rev nodes) s in
  inv (map_erase m k) (rev s ++ nodes) out'.
Proof.
  intros [Hnd Hw Hf Hst Hr Hc Hu]; cbv zeta.
  set (s1 := fold_left _ (out ++ [k]) _).
  set (s2 := fold_left _ (rev nodes) s1).
  assert (Hk : ~ In k out).
  { intros H; apply NoDup_remove_2 in Hnd.
    apply Hnd; apply in_or_app; auto. }
  assert (Hfk : find0 m k = find0 m0 k).
  { unfold find0; rewrite Hf; destruct (existsb (Nat.eqb k) out) eqn:E; auto.
    apply existsb_In in E; tauto. }
  assert (Hs2 : forall y, In y s2 <-> conn m0 k y /\ ~ In y (out ++ [k]) /\ ~ In y nodes).
  { intros y; unfold s2, s1; rewrite !fold_erase_In, Hfk, <- in_rev.
    unfold conn; tauto. }
  assert (Nd : NoDup s2).
  { unfold s2, s1; do 2 apply fold_erase_NoDup.
    apply sorted_NoDup, find0_sorted; auto. }
  assert (Hin : forall y, In y ((out ++ [k]) ++ rev s2 ++ nodes) <->
                          In y (out ++ k :: nodes) \/ In y s2).
  { intros y; rewrite !in_app_iff, <- in_rev; simpl; tauto. }
  constructor.
  - rewrite <- app_assoc; simpl.
    apply (Permutation_NoDup (l := rev s2 ++ (out ++ k :: nodes))).
    { rewrite app_assoc. rewrite (Permutation_app_comm (rev s2) out).
      rewrite <- app_assoc. apply Permutation_app_head.
      symmetry; apply Permutation_middle. }
    assert (NR : NoDup (rev s2)) by (apply NoDup_rev; exact Nd).
    clear - NR Hnd Hs2.
    assert (HD : forall y, In y (rev s2) -> ~ In y (out ++ k :: nodes)).
    { intros y Hy; apply in_rev in Hy; apply Hs2 in Hy.
      rewrite !in_app_iff in *; simpl in *; intuition. }
    induction (rev s2); simpl; auto.
    inversion NR; subst; constructor.
    + rewrite in_app_iff; intros [H|H]; [tauto|].
      apply (HD a); simpl; auto.
    + apply IHl; auto; intros; apply HD; simpl; auto.
  - apply map_erase_wf; auto.
  - intros k'; rewrite map_erase_find, Hf, existsb_app; simpl.
    destruct (Nat.eqb_spec k' k) as [->|N].
    + rewrite Bool.orb_true_r; auto.
    + rewrite !Bool.orb_false_r; auto.
  - apply Hin; left; exact Hst.
  - intros y Hy; apply Hin in Hy; destruct Hy as [Hy|Hy]; [auto|].
    apply Hs2 in Hy; destruct Hy as [Hy _].
    eapply rt_trans; [apply (Hr k)|apply rt_step; exact Hy].
    apply in_or_app; simpl; auto.
  - intros y z Hy Hyz; apply Hin.
    apply in_app_or in Hy; destruct Hy as [Hy|[->|[]]].
    + left; apply (Hc y z); auto.
    + destruct (in_dec Nat.eq_dec z (out ++ y :: nodes)) as [|N]; [auto|].
      right; apply Hs2; split; [exact Hyz|].
      rewrite !in_app_iff in *; simpl in *; tauto.
  - intros y Hy; apply Hin in Hy; destruct Hy as [Hy|Hy]; [apply Hu; auto|].
    apply Hs2 in Hy; apply (conn_univ k); tauto.
Qed.

Lemma loop_ok fuel m nodes out :
  inv m nodes out ->
  length universe <= fuel + length out ->
  exists out' m', component_loop fuel m nodes out = Ok (out', m') /\ inv m' [] out'.
Proof.
  revert m nodes out; induction fuel; intros m nodes out HI HF.
  - destruct nodes as [|k nodes]; simpl; [eauto|].
    exfalso.
    assert (L : length (out ++ k :: nodes) <= length universe).
    { apply NoDup_incl_length; [apply (i_nodup _ _ _ HI)|apply (i_univ _ _ _ HI)]. }
    rewrite app_length in L; simpl in L, HF; lia.
  - destruct nodes as [|k nodes]; simpl; [eauto|].
    apply IHfuel.
    + apply (inv_step m k nodes out HI).
    + rewrite app_length; change (length [k]) with 1; lia.
Qed.
End Loop.

Lemma get_component_ok m x s t :
  wf m -> m = (x, s) :: t ->
  exists out m',
    get_component m = Ok (Some (out, m')) /\
    NoDup out /\
    (forall y, In y out <-> reach m x y) /\
    wf m' /\
    (forall k, map_find m' k = if existsb (Nat.eqb k) out then None else map_find m k).
Proof.
  intros Hwf E; unfold get_component; rewrite E; rewrite <- E.
  assert (HI : inv m x m [x] []).
  { constructor; simpl.
    - repeat constructor; auto.
    - exact Hwf.
    - reflexivity.
    - auto.
    - intros y [->|[]]; apply rt_refl.
    - tauto.
    - intros y [->|[]]; left; reflexivity. }
  destruct (loop_ok m x (component_fuel m) m [x] [] HI) as (out & m' & EL & HI').
  { unfold universe, component_fuel; simpl; lia. }
  exists out, m'; rewrite EL; simpl.
  destruct HI' as [Hnd Hw Hf Hst Hr Hc Hu]; rewrite app_nil_r in *.
  repeat split; auto; try apply Hw.
  intros Hy. apply clos_rt_rtn1 in Hy; induction Hy; auto.
  apply (Hc _ _ IHHy H).
Qed.

(** * The map built by a sequence of calls *)

Lemma cc_step_wf m o : wf m -> wf (cc_step m o).
Proof.
  intros H; destruct o; simpl.
  - unfold cc_init; destruct (map_find m k); auto.
    apply map_put_wf; auto; constructor.
  - unfold cc_connect; apply map_put_wf; auto.
    apply fold_insert_sorted; apply (find0_sorted m k H).
Qed.

Lemma cc_build_wf_gen ops m : wf m -> wf (fold_left cc_step ops m).
Proof.
  revert m; induction ops; simpl; auto; intros; apply IHops, cc_step_wf; auto.
Qed.

Lemma cc_build_wf ops : wf (cc_build ops).
Proof. apply cc_build_wf_gen; split; constructor. Qed.

Lemma cc_step_keys m o x :
  In x (keys (cc_step m o)) <->
  In x (keys m) \/ o = Init x \/ exists cs, o = Connect x cs.
Proof.
  destruct o as [k|k cs]; simpl.
  - unfold cc_init; destruct (map_find m k) eqn:E.
    + split; [auto|]. intros [H|[H|[cs H]]]; auto; [|discriminate].
      inversion H; subst. destruct (in_dec Nat.eq_dec x (keys m)); auto.
      apply map_find_None in n; congruence.
    + rewrite map_put_keys; split.
      * intros [->|H]; auto.
      * intros [H|[H|[cs H]]]; auto; inversion H; auto.
  - unfold cc_connect; rewrite map_put_keys; split.
    + intros [->|H]; eauto.
    + intros [H|[H|[cs' H]]]; auto; inversion H; auto.
Qed.

Lemma cc_step_conn m o x y :
  conn (cc_step m o) x y <->
  conn m x y \/ exists cs, o = Connect x cs /\ In y cs.
Proof.
  unfold conn, find0; destruct o as [k|k cs]; simpl.
  - unfold cc_init; destruct (map_find m k) eqn:E.
    + split; [auto|]; intros [H|(cs & H & _)]; [auto|discriminate].
    + rewrite map_put_find; destruct (Nat.eqb_spec x k) as [->|N].
      * rewrite E; simpl; split; [tauto|]; intros [[]|(cs & H & _)]; discriminate.
      * split; [auto|]; intros [H|(cs & H & _)]; [auto|discriminate].
  - unfold cc_connect; rewrite map_put_find.
    destruct (Nat.eqb_spec x k) as [->|N].
    + rewrite fold_insert_In; split.
      * intros [H|H]; eauto.
      * intros [H|(cs' & H & Hy)]; auto; inversion H; subst; auto.
    + split; [auto|]; intros [H|(cs' & H & _)]; auto; inversion H; congruence.
Qed.

Lemma cc_build_keys_gen ops m x :
  In x (keys (fold_left cc_step ops m)) <-> In x (keys m) \/ known ops x.
Proof.
  revert m; induction ops as [|o ops IH]; intros m; simpl.
  - unfold known; simpl; split; [auto|]; intros [H|[[]|[cs []]]]; auto.
  - rewrite IH, cc_step_keys; unfold known; simpl; split.
    + intros [[H|[H|[cs H]]]|[H|[cs H]]]; eauto 6.
    + intros [H|[[H|H]|[cs [H|H]]]]; subst; eauto 6.
Qed.

Lemma cc_build_keys ops x : In x (keys (cc_build ops)) <-> known ops x.
Proof. unfold cc_build; rewrite cc_build_keys_gen; simpl; tauto. Qed.

Lemma cc_build_conn_gen ops m x y :
  conn (fold_left cc_step ops m) x y <-> conn m x y \/ linked ops x y.
Proof.
  revert m; induction ops as [|o ops IH]; intros m; simpl.
  - unfold linked; simpl; split; [auto|]; intros [H|(cs & [] & _)]; auto.
  - rewrite IH, cc_step_conn; unfold linked; simpl; split.
    + intros [[H|(cs & H & Hy)]|(cs & H & Hy)]; eauto 6.
    + intros [H|(cs & [H|H] & Hy)]; subst; eauto 6.
Qed.

Lemma cc_build_conn ops x y : conn (cc_build ops) x y <-> linked ops x y.
Proof. unfold cc_build; rewrite cc_build_conn_gen; unfold conn; simpl; tauto. Qed.

Lemma clos_rt_ext {A} (R S : relation A) x y :
  (forall a b, R a b -> S a b) -> clos_refl_trans A R x y -> clos_refl_trans A S x y.
Proof.
  intros H; induction 1; [apply rt_step; auto|apply rt_refl|eapply rt_trans; eauto].
Qed.

Lemma reach_chain ops x y : reach (cc_build ops) x y <-> chain ops x y.
Proof.
  split; apply clos_rt_ext; intros a b; apply cc_build_conn.
Qed.

(** C02 *)
Lemma component_correct_lemma ops x :
  known ops x -> (forall y, known ops y -> x <= y) ->
  exists out m',
    get_component (cc_build ops) = Ok (Some (out, m')) /\
    NoDup out /\
    (forall y, In y out <-> chain ops x y) /\
    (forall k, map_find m' k = if existsb (Nat.eqb k) out then None
                               else map_find (cc_build ops) k).
Proof.
  intros Hx Hmin.
  pose proof (cc_build_wf ops) as Hwf.
  apply cc_build_keys in Hx.
  assert (exists s t, cc_build ops = (x, s) :: t) as (s & t & E).
  { destruct (cc_build ops) as [|[k s] t] eqn:E; [destruct Hx|].
    simpl in Hx; exists s, t.
    assert (k = x) as ->; auto.
    destruct Hx as [->|Hx]; auto.
    assert (x <= k). { apply Hmin; apply cc_build_keys; rewrite E; simpl; auto. }
    destruct Hwf as [Hk _]; simpl in Hk; inversion Hk; subst.
    rewrite Forall_forall in H3; specialize (H3 _ Hx); lia. }
  destruct (get_component_ok _ x s t Hwf E) as (out & m' & EG & Nd & HR & _ & HF).
  exists out, m'; split; [exact EG|]; split; [exact Nd|]; split; [|exact HF].
  intros y; rewrite HR; apply reach_chain.
Qed.

Lemma component_none_lemma ops :
  get_component (cc_build ops) = Ok None <-> forall x, ~ known ops x.
Proof.
  split.
  - intros H x Hx; apply cc_build_keys in Hx.
    unfold get_component in H; destruct (cc_build ops) as [|[k s] t]; [destruct Hx|].
    destruct (component_loop _ _ _ _); simpl in H; discriminate.
  - intros H; unfold get_component; destruct (cc_build ops) as [|[k s] t] eqn:E; auto.
    exfalso; apply (H k), cc_build_keys; rewrite E; simpl; auto.
Qed.

(** * All components of a symmetric graph *)

Definition sym (m : cmap) := forall x y, conn m x y -> conn m y x.

Lemma reach_sym m x y : sym m -> reach m x y -> reach m y x.
Proof.
  intros H; induction 1.
  - apply rt_step; auto.
  - apply rt_refl.
  - eapply rt_trans; eauto.
Qed.

Lemma conn_key m x y : conn m x y -> In x (keys m).
Proof.
  unfold conn, find0; destruct (map_find m x) eqn:E; [|simpl; tauto].
  intros _; apply map_find_In in E; unfold keys; apply in_map_iff; eauto.
  exists (x, c); auto.
Qed.

Lemma reach_key m x y : sym m -> In x (keys m) -> reach m x y -> In y (keys m).
Proof.
  intros HS Hx H; apply clos_rt_rtn1 in H; induction H; auto.
  apply (conn_key m z y); apply HS; auto.
Qed.

Lemma keys_NoDup m : wf m -> NoDup (keys m).
Proof. intros [H _]; apply sorted_NoDup; auto. Qed.

Lemma components_loop_ok fuel m :
  wf m -> sym m -> length m <= fuel ->
  exists cs, components_loop fuel m = Ok cs /\
    Permutation (concat cs) (keys m) /\
    (forall c, In c cs -> c <> [] /\ forall x, In x c -> forall y, In y c <-> reach m x y).
Proof.
  revert m; induction fuel; intros m Hwf HS HF.
  - destruct m; simpl in *; [|lia].
    exists []; simpl; split; [reflexivity|]; split; [apply Permutation_refl|tauto].
  - destruct m as [|[x s] t] eqn:E.
    + exists []; simpl; split; [reflexivity|]; split; [apply Permutation_refl|tauto].
    + rewrite <- E in *.
      destruct (get_component_ok m x s t Hwf E) as (out & m' & EG & Nd & HR & Hwf' & HFd).
      assert (Hxk : In x (keys m)) by (rewrite E; simpl; auto).
      assert (Hout_keys : forall y, In y out -> In y (keys m)).
      { intros y Hy; apply (reach_key m x); auto; apply HR; auto. }
      assert (Hkeys' : forall y, In y (keys m') <-> In y (keys m) /\ ~ In y out).
      { intros y. specialize (HFd y).
        destruct (existsb (Nat.eqb y) out) eqn:EX.
        - apply existsb_In in EX; apply map_find_None in HFd; tauto.
        - assert (~ In y out) by (rewrite <- existsb_In; congruence).
          split; intros Hy.
          + split; auto. destruct (in_dec Nat.eq_dec y (keys m)); auto.
            apply map_find_None in n; rewrite n in HFd.
            apply map_find_None in HFd; tauto.
          + destruct Hy as [Hy _]; destruct (in_dec Nat.eq_dec y (keys m')); auto.
            apply map_find_None in n; rewrite n in HFd; symmetry in HFd.
            apply map_find_None in HFd; tauto. }
      assert (Hconn' : forall y z, conn m' y z <-> conn m y z /\ ~ In y out).
      { intros y z; unfold conn, find0; rewrite HFd.
        destruct (existsb (Nat.eqb y) out) eqn:EX.
        - apply existsb_In in EX; simpl; tauto.
        - assert (~ In y out) by (rewrite <- existsb_In; congruence); tauto. }
      assert (Hclosed : forall y z, conn m y z -> In y out <-> In z out).
      { intros y z Hyz; rewrite !HR; split; intros H.
        - eapply rt_trans; [exact H|]; apply rt_step; auto.
        - eapply rt_trans; [exact H|]; apply rt_step; auto. }
      assert (HS' : sym m').
      { intros y z Hyz; apply Hconn' in Hyz; apply Hconn'.
        destruct Hyz as [Hyz Hn]; split; [auto|].
        rewrite <- (Hclosed y z); auto. }
      assert (HPerm : Permutation (out ++ keys m') (keys m)).
      { apply NoDup_Permutation.
        - assert (NK := keys_NoDup m' Hwf').
          clear -Nd NK Hkeys'.
          induction out; simpl; auto.
          inversion Nd; subst.
          constructor.
          + rewrite in_app_iff; intros [|H]; [tauto|].
            apply Hkeys' in H; simpl in H; tauto.
          + assert (HD : forall y, In y (keys m') -> ~ In y out).
            { intros y Hy Ho; apply Hkeys' in Hy; simpl in Hy; tauto. }
            clear -H2 NK HD. induction out; simpl; auto.
            inversion H2; subst; constructor.
            * rewrite in_app_iff; intros [|H]; [tauto|]. apply (HD a); simpl; auto.
            * apply IHout; auto. intros y Hy Ho; apply (HD y); simpl; auto.
        - apply keys_NoDup; auto.
        - intros y; rewrite in_app_iff, Hkeys'.
          destruct (in_dec Nat.eq_dec y out); intuition. }
      assert (HL : length m' <= fuel).
      { apply Permutation_length in HPerm; rewrite app_length in HPerm.
        unfold keys in HPerm; rewrite !map_length in HPerm.
        assert (0 < length out).
        { destruct out; simpl; [|lia]. destruct (HR x) as [_ H]; destruct H; apply rt_refl. }
        lia. }
      destruct (IHfuel m' Hwf' HS' HL) as (cs & EL & HP & HC).
      exists (out :: cs); simpl.
      rewrite EG; simpl; rewrite EL; simpl; split; [reflexivity|]; split.
      * rewrite <- HPerm; apply Permutation_app_head; auto.
      * intros c [<-|Hc].
        { split.
          - intros ->; destruct (HR x) as [_ H]; destruct H; apply rt_refl.
          - intros y Hy z; rewrite HR; apply HR in Hy; split; intros Hz.
            + eapply rt_trans; [apply reach_sym; [exact HS|exact Hy]|exact Hz].
            + eapply rt_trans; eauto. }
        destruct (HC c Hc) as [Hne Heq]; split; auto.
        intros y Hy z; rewrite (Heq y Hy); split; intros Hz.
        { eapply clos_rt_ext; [|exact Hz]; intros a b Hab; apply Hconn'; auto. }
        assert (Hyn : ~ In y out).
        { assert (In y (keys m')).
          { apply (Permutation_in _ HP); apply in_concat; exists c; auto. }
          apply Hkeys' in H; tauto. }
        apply clos_rt_rtn1 in Hz; induction Hz; [apply rt_refl|].
        eapply rt_trans; [exact IHHz|]; apply rt_step; apply Hconn'; split; auto.
        clear -Hyn Hz Hclosed. intros Hy0; apply Hyn.
        induction Hz; auto. apply IHHz; apply (Hclosed y0 z); auto.
Qed.

(** C01 *)
Lemma components_partition_lemma ops :
  symmetric_links ops ->
  exists cs, components (cc_build ops) = Ok cs /\
    NoDup (concat cs) /\
    (forall x, In x (concat cs) <-> known ops x) /\
    (forall c, In c cs -> c <> []) /\
    (forall c x y, In c cs -> In x c -> (In y c <-> chain ops x y)).
Proof.
  intros HS; unfold components.
  pose proof (cc_build_wf ops) as Hwf.
  assert (HS' : sym (cc_build ops)).
  { intros x y H; apply cc_build_conn; apply HS; apply cc_build_conn; auto. }
  destruct (components_loop_ok (length (cc_build ops)) _ Hwf HS' (le_n _))
    as (cs & EC & HP & HC).
  exists cs; split; [exact EC|].
  split; [eapply Permutation_NoDup; [symmetry; exact HP|apply keys_NoDup; auto]|].
  split.
  { intros x; rewrite <- cc_build_keys; split; apply Permutation_in; auto.
    symmetry; auto. }
  split; [intros c Hc; apply (HC c Hc)|].
  intros c x y Hc Hx; destruct (HC c Hc) as [_ H]; rewrite (H x Hx y).
  apply reach_chain.
Qed.
