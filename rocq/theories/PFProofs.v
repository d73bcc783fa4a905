(** Proofs about the particle filter. *)
From Coq Require Import List Arith Bool Reals Lra Lia Permutation Sorted.
Import ListNotations.
From Verif Require Import Res Scalar PF PFSpec.
Local Open Scope R_scope.

(** ** Sums *)
Lemma rsum_app l1 l2 : rsum (l1 ++ l2) = rsum l1 + rsum l2.
Proof. unfold rsum. induction l1; simpl; lra. Qed.
Lemma rsum_nonneg l : (forall a, In a l -> 0 <= a) -> 0 <= rsum l.
Proof. unfold rsum. induction l; simpl; intros H; [lra|]. pose proof (H a (or_introl eq_refl)). assert (0 <= fold_right Rplus 0 l) by (apply IHl; auto). lra. Qed.
Lemma rsum_div l e : rsum (map (fun a => a / e) l) = rsum l / e.
Proof. unfold rsum. induction l; simpl; [unfold Rdiv; lra|]. rewrite IHl. unfold Rdiv. lra. Qed.
Lemma rsum_scal {A} (f : A -> R) k l : rsum (map (fun a => k * f a) l) = k * rsum (map f l).
Proof. unfold rsum. induction l; simpl; [lra|]. rewrite IHl. lra. Qed.
Lemma rsum_plus {A} (f g : A -> R) l : rsum (map (fun a => f a + g a) l) = rsum (map f l) + rsum (map g l).
Proof. unfold rsum. induction l; simpl; [lra|]. rewrite IHl. lra. Qed.
Lemma rsum_ext {A} (f g : A -> R) l : (forall a, In a l -> f a = g a) -> rsum (map f l) = rsum (map g l).
Proof. unfold rsum. induction l; simpl; intros H; auto. rewrite H by auto. rewrite IHl; auto. Qed.
Lemma rsum_le {A} (f g : A -> R) l : (forall a, In a l -> f a <= g a) -> rsum (map f l) <= rsum (map g l).
Proof. unfold rsum. induction l; simpl; intros H; [lra|]. specialize (H a (or_introl eq_refl)) as H1. assert (fold_right Rplus 0 (map f l) <= fold_right Rplus 0 (map g l)) by (apply IHl; auto). lra. Qed.
Lemma rsum_fst {A} (w : list R) (x : list A) : length w = length x -> rsum (map fst (combine w x)) = rsum w.
Proof. revert x. induction w; destruct x; simpl; intros H; try discriminate; auto. unfold rsum in *. simpl. rewrite IHw by lia. auto. Qed.

Section P.
Context {X L B : Type}.
Variable N : nat.
Variable srt : list R -> list nat -> list nat.
Variables (ll2ne ne2ll : L -> X -> X) (pos : list R -> list X -> L) (gauss_box : list R -> list X -> B) (llbox : L -> B -> B).
Notation pf := (pf X L B).
Notation join := (join N srt).
Notation step := (step N srt ll2ne ne2ll gauss_box llbox).
Notation run := (run N srt ll2ne ne2ll gauss_box llbox).
Notation construct := (construct N ll2ne ne2ll pos gauss_box llbox).

(** ** C55: the flag is never set *)
Lemma resample_invalid u (p : pf) : valid p = false -> resample N u p = Ok p.
Proof. intros H. unfold resample. rewrite H. reflexivity. Qed.
Lemma update_invalid (p : pf) : valid p = false -> update_local_bbox gauss_box p = p.
Proof. intros H. unfold update_local_bbox. rewrite H. reflexivity. Qed.
Lemma normalize_invalid (p : pf) : valid p = false -> valid (normalize p) = false.
Proof. intros H. unfold normalize. destruct (Rltb _ _); auto. Qed.

Lemma step_invalid o (p p' : pf) : valid p = false -> step o p = Ok p' -> valid p' = false.
Proof.
  intros H. destruct o; cbn [PF.step]; try (intros [= <-]; auto).
  - apply normalize_invalid; auto.
  - apply normalize_invalid; auto.
  - apply normalize_invalid; auto.
  - rewrite resample_invalid by auto. intros [= <-]. auto.
  - rewrite update_invalid; auto.
  - unfold PF.join. destruct (fill _ _ _) as [q| |]; cbn; try discriminate. destruct (merge _ _ _ _ _) as [r| |]; cbn; try discriminate.
    rewrite resample_invalid; [intros [= <-]|]; apply normalize_invalid; auto.
  - unfold transform_to_global. rewrite update_invalid; auto.
Qed.

Lemma construct_invalid w x e b o : valid (construct w x e b o) = false.
Proof. unfold PF.construct, transform_to_global. rewrite update_invalid; reflexivity. Qed.

Lemma run_invalid os : forall p p' : pf, valid p = false -> run os p = Ok p' -> valid p' = false.
Proof.
  induction os as [|o os IH]; cbn [PF.run]; intros p p' H; [intros [= <-]; auto|].
  destruct (step o p) as [p1| |] eqn:E; cbn; try discriminate. apply IH. exact (step_invalid _ _ _ H E).
Qed.

(** The box only ever sees changes of frame. *)
Lemma step_box o (p p' : pf) : valid p = false -> step o p = Ok p' ->
  bbox p' = match o with OGlobal => llbox (origin p) (bbox p) | _ => bbox p end.
Proof.
  intros H. destruct o; cbn [PF.step]; try (intros [= <-]; auto).
  - unfold correct, normalize. cbn. destruct (Rltb _ _); reflexivity.
  - unfold missed, normalize. cbn. destruct (Rltb _ _); reflexivity.
  - unfold normalize. cbn. destruct (Rltb _ _); reflexivity.
  - rewrite resample_invalid by auto. intros [= <-]. auto.
  - rewrite update_invalid; auto.
  - unfold PF.join. destruct (fill _ _ _) as [q| |]; cbn; try discriminate. destruct (merge _ _ _ _ _) as [r| |]; cbn; try discriminate.
    rewrite resample_invalid; [intros [= <-]|apply normalize_invalid; auto]. unfold normalize. destruct (Rltb _ _); reflexivity.
  - unfold transform_to_global. rewrite update_invalid; auto.
Qed.

Lemma run_box os : forall p p' : pf, valid p = false -> run os p = Ok p' ->
  exists ors, bbox p' = fold_left (fun b o => llbox o b) ors (bbox p).
Proof.
  induction os as [|o os IH]; cbn [PF.run]; intros p p' H; [intros [= <-]; exists []; auto|].
  destruct (step o p) as [p1| |] eqn:E; cbn; try discriminate. intros Hr.
  pose proof (step_box _ _ _ H E) as Hb. destruct (IH p1 p' (step_invalid _ _ _ H E) Hr) as [ors ->].
  destruct o; rewrite Hb; try (exists ors; reflexivity). exists (origin p :: ors). reflexivity.
Qed.

(** ** Normalisation *)
Lemma normalize_sum (p : pf) : 1 / 100000000 < rsum (pw p) -> rsum (pw (normalize p)) = 1 /\ eta (normalize p) = rsum (pw p).
Proof.
  intros H. unfold normalize. destruct (Rltb_spec (1 / 100000000) (rsum (pw p))); [|lra]. cbn.
  rewrite rsum_div. split; auto. field. lra.
Qed.

(** ** C56 *)
Hypothesis Hs : valid_sort srt.

Definition wf (p : pf) : Prop := length (pw p) = N /\ length (px p) = N /\ Permutation (perm p) (seq 0 N).

Lemma elt_false (a b : entry) : elt a b = false -> fst (fst a) >= fst (fst b).
Proof.
  destruct a as [[u j] n], b as [[v k] m]. cbn. destruct (Rltb_spec u v); [discriminate|]. intros _. lra.
Qed.
Lemma elt_true (a b : entry) : elt a b = true -> fst (fst b) >= fst (fst a).
Proof.
  destruct a as [[u j] n], b as [[v k] m]. cbn. destruct (Rltb_spec u v); [lra|]. destruct (Rltb_spec v u); [discriminate|]. lra.
Qed.

Lemma take_top_spec q : match take_top q with
  | None => q = []
  | Some (m, r) => Permutation q (m :: r) /\ forall e, In e q -> fst (fst m) >= fst (fst e)
  end.
Proof.
  induction q as [|e q IH]; cbn [take_top]; auto.
  destruct (take_top q) as [[m r]|].
  - destruct IH as [IH1 IH2]. destruct (elt e m) eqn:E.
    + split; [rewrite IH1; apply perm_swap|]. intros e' [<-|H]; [apply elt_true; auto|auto].
    + split; [constructor; auto|]. intros e' [<-|H]; [lra|]. specialize (IH2 _ H). apply elt_false in E. lra.
  - subst q. split; auto. intros e' [<-|[]]. lra.
Qed.

Section Join.
Variable aw : list R.
Variable ps : list pf.
Hypothesis Hlen : length aw = length ps.
Hypothesis Haw : forall a, In a aw -> 0 <= a.
Hypothesis Hwf : forall p, In p ps -> wf p.
(** [ps] is sorted already. *)
Hypothesis Hsorted : forall p, In p ps -> StronglySorted (fun i j => nth i (pw p) 0 >= nth j (pw p) 0) (perm p).

Definition a_ j := nth j aw 0.
(** Weight at position [n] of the sorted set [j], scaled. *)
Definition at_pos (d : pf) (j n : nat) : R := a_ j * nth (nth n (perm (nth j ps d)) 0%nat) (pw (nth j ps d)) 0.

Variable d : pf.
Notation sc := (at_pos d).

Lemma get_nth {A} (l : list A) i x : (i < length l)%nat -> get l i = Ok (nth i l x).
Proof. intros H. unfold get. rewrite (nth_error_nth' l x H). reflexivity. Qed.

Lemma perm_len p : In p ps -> length (perm p) = N.
Proof. intros H. destruct (Hwf _ H) as (_ & _ & H3). rewrite (Permutation_length H3). apply seq_length. Qed.

Lemma perm_lt p n : In p ps -> (n < N)%nat -> (nth n (perm p) 0 < N)%nat.
Proof.
  intros H Hn. destruct (Hwf _ H) as (_ & _ & H3).
  assert (In (nth n (perm p) 0%nat) (seq 0 N)).
  { apply (Permutation_in _ H3). apply nth_In. rewrite perm_len by auto. auto. }
  apply in_seq in H0. lia.
Qed.

Lemma nth_ps j : (j < length ps)%nat -> In (nth j ps d) ps.
Proof. apply nth_In. Qed.

Lemma wsorted_ok j n : (j < length ps)%nat -> (n < N)%nat ->
  wsorted (nth j ps d) n = Ok (nth (nth n (perm (nth j ps d)) 0%nat) (pw (nth j ps d)) 0).
Proof.
  intros Hj Hn. pose proof (nth_ps j Hj) as Hin. unfold wsorted.
  rewrite (get_nth _ n 0%nat) by (rewrite perm_len; auto). cbn. apply get_nth.
  destruct (Hwf _ Hin) as (-> & _). apply perm_lt; auto.
Qed.

Lemma msorted_ok x0 j n : (j < length ps)%nat -> (n < N)%nat ->
  msorted (nth j ps d) n = Ok (nth (nth n (perm (nth j ps d)) 0%nat) (px (nth j ps d)) x0).
Proof.
  intros Hj Hn. pose proof (nth_ps j Hj) as Hin. unfold msorted.
  rewrite (get_nth _ n 0%nat) by (rewrite perm_len; auto). cbn. apply get_nth.
  destruct (Hwf _ Hin) as (_ & -> & _). apply perm_lt; auto.
Qed.

Lemma ss_nth {A} (R : A -> A -> Prop) l x0 i j : StronglySorted R l -> (i < j < length l)%nat -> R (nth i l x0) (nth j l x0).
Proof.
  intros H. revert i j. induction H as [|a l H IH HF]; intros i j Hij; cbn in Hij; [lia|].
  destruct i, j; cbn; try lia.
  - rewrite Forall_forall in HF. apply HF. apply nth_In. lia.
  - apply IH. lia.
Qed.

Lemma sc_mono j n m : (j < length ps)%nat -> (n <= m < N)%nat -> sc j n >= sc j m.
Proof.
  intros Hj Hnm. unfold at_pos. apply Rle_ge, Rmult_le_compat_l.
  - apply Haw. unfold a_. apply nth_In. lia.
  - destruct (Nat.eq_dec n m) as [->|]; [lra|]. pose proof (nth_ps j Hj) as Hin. apply Rge_le.
    apply (ss_nth _ _ 0%nat n m (Hsorted _ Hin)). rewrite perm_len by auto. lia.
Qed.

Definition ent j n : entry := (sc j n, j, n).

Lemma fill_ok : (0 < N)%nat -> forall k, (k <= length ps)%nat ->
  fill k (skipn k aw) (skipn k ps) = Ok (map (fun j => ent j 0) (seq k (length ps - k))).
Proof.
  intros HN. assert (H : forall m k, (k + m = length ps)%nat -> fill k (skipn k aw) (skipn k ps) = Ok (map (fun j => ent j 0) (seq k m))).
  { induction m as [|m IH]; intros k Hk.
    - rewrite (skipn_all2 aw) by lia. reflexivity.
    - assert (Ek : forall {A} (l : list A) x, (k < length l)%nat -> skipn k l = nth k l x :: skipn (S k) l).
      { clear. intros A l x. revert k. induction l as [|a l IH]; intros k H; cbn in H; [lia|]. destruct k; [reflexivity|]. cbn. apply IH. lia. }
      rewrite (Ek _ aw 0) by lia. rewrite (Ek _ ps d) by lia. cbn [fill].
      rewrite wsorted_ok by lia. cbn. rewrite IH by lia. reflexivity. }
  intros k Hk. apply H. lia.
Qed.

(** State of the merge after some rounds: [cnt j] positions of set [j] taken, [ch] the
    positions chosen so far (last first). *)
Record inv (cnt : nat -> nat) (ch : list (nat * nat)) (q : list entry) : Prop := {
  i_q : Permutation q (map (fun j => ent j (cnt j)) (filter (fun j => Nat.ltb (cnt j) N) (seq 0 (length ps))));
  i_nd : NoDup ch;
  i_in : forall j n, In (j, n) ch <-> (j < length ps /\ n < cnt j)%nat;
  i_le : forall j, (cnt j <= N)%nat;
  i_ge : forall c j, In c ch -> (j < length ps)%nat -> (cnt j < N)%nat -> sc (fst c) (snd c) >= sc j (cnt j) }.

Lemma inv_init : (0 < N)%nat -> inv (fun _ => 0%nat) [] (map (fun j => ent j 0) (seq 0 (length ps))).
Proof.
  intros HN. constructor.
  - assert (E : forall l, filter (fun _ : nat => Nat.ltb 0 N) l = l).
    { intros l. induction l; cbn [filter]; auto. destruct (Nat.ltb_spec 0 N); [f_equal; auto|lia]. }
    rewrite E. apply Permutation_refl.
  - constructor.
  - intros j n. cbn. lia.
  - intros. lia.
  - intros c j [].
Qed.

Lemma filter_split (P Q : nat -> bool) j l : NoDup l -> In j l -> P j = true -> Q j = false -> (forall i, i <> j -> Q i = P i) ->
  Permutation (filter P l) (j :: filter Q l).
Proof.
  intros Hnd Hin Pj Qj He. induction l as [|a l IH]; [destruct Hin|]. inversion Hnd as [|? ? Hna Hnd']; subst.
  destruct (Nat.eq_dec a j) as [->|Hne].
  - cbn. rewrite Pj, Qj. constructor. assert (E : filter P l = filter Q l).
    { clear - Hna He. induction l as [|b l IH]; cbn; auto. rewrite (He b) by (intros ->; apply Hna; now left).
      rewrite IH by (intros H; apply Hna; now right). auto. }
    rewrite E. auto.
  - destruct Hin as [|Hin]; [congruence|]. cbn. rewrite (He a Hne). destruct (P a).
    + rewrite IH by auto. apply perm_swap.
    + apply IH; auto.
Qed.

Lemma map_ext_filter (f g : nat -> entry) P l : (forall i, In i l -> P i = true -> f i = g i) -> map f (filter P l) = map g (filter P l).
Proof. induction l as [|a l IH]; cbn; intros H; auto. destruct (P a) eqn:E; cbn; rewrite IH by auto; auto. rewrite (H a); auto. Qed.

Definition bump (cnt : nat -> nat) j i := if Nat.eq_dec i j then S (cnt i) else cnt i.

Lemma step_inv cnt ch q m q' : inv cnt ch q -> take_top q = Some (m, q') ->
  exists j, (j < length ps)%nat /\ (cnt j < N)%nat /\ m = ent j (cnt j) /\
    (forall c, In c ch -> sc (fst c) (snd c) >= sc j (cnt j)) /\
    inv (bump cnt j) ((j, cnt j) :: ch) (if Nat.ltb (S (cnt j)) N then ent j (S (cnt j)) :: q' else q').
Proof.
  intros I Ht. pose proof (take_top_spec q) as Hq. rewrite Ht in Hq. destruct Hq as [Hp Hmax].
  assert (Hm : In m (map (fun j => ent j (cnt j)) (filter (fun j => Nat.ltb (cnt j) N) (seq 0 (length ps))))).
  { apply (Permutation_in _ (i_q _ _ _ I)). apply (Permutation_in _ (Permutation_sym Hp)). now left. }
  apply in_map_iff in Hm as (j & Em & Hj). apply filter_In in Hj as [Hj1 Hj2]. apply in_seq in Hj1. apply Nat.ltb_lt in Hj2.
  exists j. split; [lia|]. split; auto. split; auto.
  assert (Hge : forall c, In c ch -> sc (fst c) (snd c) >= sc j (cnt j)) by (intros c Hc; apply (i_ge _ _ _ I); auto; lia).
  split; auto.
  assert (Hb : bump cnt j j = S (cnt j)) by (unfold bump; destruct (Nat.eq_dec j j); congruence).
  assert (Hb' : forall i, i <> j -> bump cnt j i = cnt i) by (intros i Hi; unfold bump; destruct (Nat.eq_dec i j); congruence).
  (* what is left in the queue: the other sets *)
  set (others := map (fun i => ent i (cnt i)) (filter (fun i => Nat.ltb (cnt i) N && negb (Nat.eqb i j)) (seq 0 (length ps)))).
  assert (Hq' : Permutation q' others).
  { apply (Permutation_cons_inv (a := m)). rewrite <- Hp. rewrite (i_q _ _ _ I). unfold others. rewrite <- Em.
    change (ent j (cnt j) :: map (fun i => ent i (cnt i)) (filter (fun i => Nat.ltb (cnt i) N && negb (Nat.eqb i j)) (seq 0 (length ps))))
      with (map (fun i => ent i (cnt i)) (j :: filter (fun i => Nat.ltb (cnt i) N && negb (Nat.eqb i j)) (seq 0 (length ps)))).
    apply Permutation_map. apply filter_split; [apply seq_NoDup|apply in_seq; lia|apply Nat.ltb_lt; auto|rewrite Nat.eqb_refl, andb_false_r; auto|].
    intros i Hi. destruct (Nat.eqb_spec i j); [congruence|]. rewrite andb_true_r. auto. }
  assert (Ho : others = map (fun i => ent i (bump cnt j i)) (filter (fun i => Nat.ltb (cnt i) N && negb (Nat.eqb i j)) (seq 0 (length ps)))).
  { apply map_ext_filter. intros i _ Hi. apply andb_true_iff in Hi as [_ Hi]. destruct (Nat.eqb_spec i j); [discriminate|]. rewrite Hb'; auto. }
  constructor.
  - destruct (Nat.ltb_spec (S (cnt j)) N) as [Hlt|Hge'].
    + rewrite Hq', Ho. rewrite <- Hb at 1.
      change (ent j (bump cnt j j) :: map (fun i => ent i (bump cnt j i)) (filter (fun i => Nat.ltb (cnt i) N && negb (Nat.eqb i j)) (seq 0 (length ps))))
        with (map (fun i => ent i (bump cnt j i)) (j :: filter (fun i => Nat.ltb (cnt i) N && negb (Nat.eqb i j)) (seq 0 (length ps)))).
      apply Permutation_map, Permutation_sym. apply filter_split; [apply seq_NoDup|apply in_seq; lia|rewrite Hb; apply Nat.ltb_lt; auto|rewrite Nat.eqb_refl, andb_false_r; auto|].
      intros i Hi. rewrite Hb' by auto. destruct (Nat.eqb_spec i j); [congruence|]. rewrite andb_true_r. auto.
    + rewrite Hq', Ho. apply Permutation_map.
      assert (E : forall l, filter (fun i => Nat.ltb (cnt i) N && negb (Nat.eqb i j)) l = filter (fun i => Nat.ltb (bump cnt j i) N) l).
      { intros l. apply filter_ext. intros i. destruct (Nat.eqb_spec i j) as [->|Hi].
        - rewrite Hb, andb_false_r. symmetry. apply Nat.ltb_ge. auto.
        - rewrite Hb', andb_true_r; auto. }
      rewrite E. apply Permutation_refl.
  - constructor; [|apply (i_nd _ _ _ I)]. intros H. apply (i_in _ _ _ I) in H. lia.
  - intros i n. cbn [In]. rewrite (i_in _ _ _ I). destruct (Nat.eq_dec i j) as [->|Hi].
    + rewrite Hb. split.
      * intros [[= <-]|H]; lia.
      * intros H. destruct (Nat.eq_dec n (cnt j)) as [->|]; [now left|right; lia].
    + rewrite Hb' by auto. split; [intros [[= <- <-]|H]; [congruence|auto]|auto].
  - intros i. unfold bump. destruct (Nat.eq_dec i j) as [->|]; [lia|apply (i_le _ _ _ I)].
  - intros c i Hc Hi Hci. cbn [In] in Hc.
    assert (Hjc : sc j (cnt j) >= sc i (bump cnt j i)).
    { destruct (Nat.eq_dec i j) as [->|Hne].
      - rewrite Hb in *. apply sc_mono; lia.
      - rewrite Hb' in * by auto.
        assert (Hin : In (ent i (cnt i)) q).
        { apply (Permutation_in _ (Permutation_sym (i_q _ _ _ I))). apply in_map_iff. exists i. split; auto. apply filter_In. split; [apply in_seq; lia|apply Nat.ltb_lt; auto]. }
        specialize (Hmax _ Hin). rewrite <- Em in Hmax. exact Hmax. }
    destruct Hc as [<-|Hc]; [exact Hjc|]. specialize (Hge _ Hc). lra.
Qed.

(** The chosen positions, first to last. *)
Lemma merge_ok x0 rounds : forall cnt ch q, inv cnt ch q -> (0 < length ps)%nat -> (length ch + rounds <= N)%nat ->
  exists r new, merge N rounds aw ps q = Ok r /\ length new = rounds /\
    r = map (fun c => (sc (fst c) (snd c), nth (nth (snd c) (perm (nth (fst c) ps d)) 0%nat) (px (nth (fst c) ps d)) x0)) new /\
    StronglySorted (fun c e => sc (fst c) (snd c) >= sc (fst e) (snd e)) new /\
    (forall c e, In c ch -> In e new -> sc (fst c) (snd c) >= sc (fst e) (snd e)) /\
    exists cnt' q', inv cnt' (rev new ++ ch) q'.
Proof.
  induction rounds as [|rounds IH]; intros cnt ch q I Hps Hr.
  - exists [], []. cbn. split; [reflexivity|]. split; [reflexivity|]. split; [reflexivity|]. split; [constructor|]. split; [intros ? ? ? []|]. exists cnt, q. auto.
  - cbn [merge]. destruct (take_top q) as [[m q']|] eqn:Et.
    + destruct (step_inv _ _ _ _ _ I Et) as (j & Hj & Hc & -> & Hge & I'). unfold ent at 1.
      rewrite (get_nth ps j d) by auto. cbn [bind]. rewrite (msorted_ok x0) by auto. cbn [bind].
      assert (Eq : (if Nat.ltb (S (cnt j)) N then a <- get aw j;; v <- wsorted (nth j ps d) (S (cnt j));; Ok ((a * v, j, S (cnt j)) :: q') else Ok q')
        = Ok (if Nat.ltb (S (cnt j)) N then ent j (S (cnt j)) :: q' else q')).
      { destruct (Nat.ltb_spec (S (cnt j)) N); [|reflexivity]. rewrite (get_nth aw j 0) by lia. cbn [bind]. rewrite wsorted_ok by lia. reflexivity. }
      rewrite Eq. cbn [bind].
      destruct (IH _ _ _ I' Hps) as (r & new & E & Hl & Hr' & Hso & Hol & cnt' & q2 & I2); [cbn; lia|].
      rewrite E. cbn [bind]. exists ((sc j (cnt j), nth (nth (cnt j) (perm (nth j ps d)) 0%nat) (px (nth j ps d)) x0) :: r), ((j, cnt j) :: new).
      split; [reflexivity|]. split; [cbn; lia|]. split; [cbn; rewrite Hr'; reflexivity|]. split; [|split].
      * constructor; auto. apply Forall_forall. intros e He. apply (Hol (j, cnt j) e); [now left|auto].
      * intros c e Hcc [<-|He]; [apply Hge; auto|]. apply Hol; [now right|auto].
      * exists cnt', q2. cbn [rev]. rewrite <- app_assoc. exact I2.
    + exfalso. pose proof (take_top_spec q) as Hq. rewrite Et in Hq. subst q.
      assert (H0 : (cnt 0%nat = N)%nat).
      { pose proof (i_le _ _ _ I 0%nat). destruct (Nat.eq_dec (cnt 0%nat) N); auto. exfalso.
        assert (Hin : In (ent 0 (cnt 0%nat)) []).
        { apply (Permutation_in _ (Permutation_sym (i_q _ _ _ I))). apply in_map_iff. exists 0%nat. split; auto. apply filter_In. split; [apply in_seq; lia|apply Nat.ltb_lt; lia]. }
        destruct Hin. }
      assert (Hinc : incl (map (fun n => (0, n)%nat) (seq 0 N)) ch).
      { intros c Hc. apply in_map_iff in Hc as (n & <- & Hn). apply in_seq in Hn. apply (i_in _ _ _ I). lia. }
      apply NoDup_incl_length in Hinc; [rewrite map_length, seq_length in Hinc; lia|].
      apply FinFun.Injective_map_NoDup; [intros a b [= ->]; auto|apply seq_NoDup].
Qed.
End Join.

(** The particle a position stands for. *)
Definition real_of (ps : list pf) (d : pf) (c : nat * nat) : particle := (fst c, nth (snd c) (perm (nth (fst c) ps d)) 0%nat).

Lemma ss_map {A B'} (f : A -> B') (R1 : A -> A -> Prop) (R2 : B' -> B' -> Prop) l : (forall a b, R1 a b -> R2 (f a) (f b)) -> StronglySorted R1 l -> StronglySorted R2 (map f l).
Proof.
  intros H HS. induction HS as [|a l HS IH HF]; cbn; constructor; auto. apply Forall_forall. intros b Hb. apply in_map_iff in Hb as (c & <- & Hc).
  apply H. rewrite Forall_forall in HF. auto.
Qed.

Lemma NoDup_map_on {A B'} (f : A -> B') l : (forall a b, In a l -> In b l -> f a = f b -> a = b) -> NoDup l -> NoDup (map f l).
Proof.
  intros Hf H. induction H as [|a l Hna H IH]; cbn; constructor.
  - intros Hin. apply in_map_iff in Hin as (b & E & Hb). apply Hna. rewrite <- (Hf b a); auto; [now right|now left].
  - apply IH. intros x y Hx Hy. apply Hf; now right.
Qed.

Lemma join_ok x0 u (p : pf) aw ps : (0 < N)%nat -> length aw = length ps -> ps <> [] -> (forall a, In a aw -> 0 <= a) -> (forall q, In q ps -> wf q) -> valid p = false ->
  exists p' ch, join u p aw ps = Ok p' /\ heaviest N aw (map pw ps) ch /\
    let raw := map (scaled aw (map pw ps)) ch in
    pw p' = (if Rltb (1 / 100000000) (rsum raw) then map (fun a => a / rsum raw) raw else raw) /\
    eta p' = (if Rltb (1 / 100000000) (rsum raw) then rsum raw else 0) /\
    px p' = map (fun c => nth (snd c) (nth (fst c) (map px ps) []) x0) ch /\ valid p' = false.
Proof.
  intros HN Hlen Hne Haw Hwf Hv.
  set (qs := map (prepare_sort srt) ps).
  assert (Hlen' : length aw = length qs) by (unfold qs; rewrite map_length; auto).
  assert (Hq : (0 < length qs)%nat) by (unfold qs; rewrite map_length; destruct ps; [congruence|cbn; lia]).
  assert (Hwf' : forall q, In q qs -> wf q).
  { intros q Hin. apply in_map_iff in Hin as (q0 & <- & Hin). destruct (Hwf _ Hin) as (H1 & H2 & H3). split; [|split]; cbn; auto.
    destruct (Hs (pw q0) (perm q0)) as [H4 _]. rewrite H4. auto. }
  assert (Hso' : forall q, In q qs -> StronglySorted (fun i j => nth i (pw q) 0 >= nth j (pw q) 0) (perm q)).
  { intros q Hin. apply in_map_iff in Hin as (q0 & <- & Hin). cbn. apply Hs. }
  set (d := p).
  pose proof (inv_init aw qs Hlen' d HN) as I0.
  destruct (merge_ok aw qs Hlen' Haw Hwf' Hso' d x0 N _ _ _ I0 Hq (le_n _)) as (r & new & E & Hl & Hr & Hsrt & _ & cnt & q' & I).
  rewrite app_nil_r in I.
  pose proof (fill_ok aw qs Hlen' Hwf' d HN 0%nat (Nat.le_0_l _)) as Hf. rewrite Nat.sub_0_r in Hf. cbn [skipn] in Hf.
  set (ch := map (real_of qs d) new).
  assert (Hd : forall j, (j < length qs)%nat -> nth j (map pw ps) [] = pw (nth j qs d)).
  { intros j Hj. unfold qs in *. rewrite map_length in Hj. rewrite (nth_indep (map (prepare_sort srt) ps) d (prepare_sort srt d)) by (rewrite map_length; auto).
    rewrite map_nth. cbn. rewrite (nth_indep (map pw ps) [] (pw d)) by (rewrite map_length; auto). apply map_nth. }
  assert (Hdx : forall j, (j < length qs)%nat -> nth j (map px ps) [] = px (nth j qs d)).
  { intros j Hj. unfold qs in *. rewrite map_length in Hj. rewrite (nth_indep (map (prepare_sort srt) ps) d (prepare_sort srt d)) by (rewrite map_length; auto).
    rewrite map_nth. cbn. rewrite (nth_indep (map px ps) [] (px d)) by (rewrite map_length; auto). apply map_nth. }
  assert (Hpos : forall c, In c new -> (fst c < length qs /\ snd c < cnt (fst c) /\ snd c < N)%nat).
  { intros [j n] Hc. apply in_rev in Hc. apply (i_in _ _ _ _ _ _ I) in Hc. pose proof (i_le _ _ _ _ _ _ I j). cbn. lia. }
  assert (Hsc : forall c, (fst c < length qs)%nat -> scaled aw (map pw ps) (real_of qs d c) = at_pos aw qs d (fst c) (snd c)).
  { intros [j n] Hc. unfold scaled, at_pos, real_of, a_. cbn in *. rewrite Hd by auto. reflexivity. }
  (* positions and particles correspond *)
  assert (Hperm : forall j, (j < length qs)%nat -> Permutation (perm (nth j qs d)) (seq 0 N)).
  { intros j Hj. apply Hwf'. apply nth_In. auto. }
  assert (Hplen : forall j, (j < length qs)%nat -> length (perm (nth j qs d)) = N).
  { intros j Hj. rewrite (Permutation_length (Hperm j Hj)). apply seq_length. }
  assert (Hlw : forall j, (j < length qs)%nat -> length (nth j (map pw ps) []) = N).
  { intros j Hj. rewrite Hd by auto. apply Hwf'. apply nth_In. auto. }
  assert (Hfind : forall e, exists_particle (map pw ps) e -> exists n, (n < N)%nat /\ e = real_of qs d (fst e, n)).
  { intros [j k] [H1 H2]. cbn [fst snd] in *. rewrite map_length in H1. assert (Hj : (j < length qs)%nat) by (unfold qs; rewrite map_length; auto).
    rewrite Hlw in H2 by auto. assert (Hin : In k (perm (nth j qs d))) by (apply (Permutation_in _ (Permutation_sym (Hperm j Hj))); apply in_seq; lia).
    apply (In_nth _ _ 0%nat) in Hin as (n & Hn & En). exists n. rewrite Hplen in Hn by auto. split; auto. unfold real_of. cbn. rewrite En. auto. }
  assert (Hheavy : heaviest N aw (map pw ps) ch).
  { split; [unfold ch; rewrite map_length; auto|]. split; [|split; [|split]].
    - unfold ch. apply NoDup_map_on.
      + intros [j n] [k m] H1 H2 [= <- E']. apply Hpos in H1, H2. cbn in H1, H2. f_equal.
        apply (NoDup_nth (perm (nth j qs d)) 0%nat); auto; try (rewrite Hplen by lia; lia).
        apply (Permutation_NoDup (Permutation_sym (Hperm j ltac:(lia)))), seq_NoDup.
      + rewrite <- (rev_involutive new). apply NoDup_rev. apply (i_nd _ _ _ _ _ _ I).
    - intros c Hc. apply in_map_iff in Hc as ([j n] & <- & Hc). apply Hpos in Hc. cbn in Hc. unfold exists_particle, real_of. cbn.
      rewrite map_length. split; [unfold qs in *; rewrite map_length in *; lia|]. rewrite Hlw by lia.
      apply (perm_lt aw qs Hlen' Hwf'); [apply nth_In; lia|lia].
    - unfold ch. assert (HH : forall l, (forall c, In c l -> (fst c < length qs)%nat) -> StronglySorted (fun c e => at_pos aw qs d (fst c) (snd c) >= at_pos aw qs d (fst e) (snd e)) l ->
        StronglySorted (fun c e => scaled aw (map pw ps) c >= scaled aw (map pw ps) e) (map (real_of qs d) l)).
      { intros l Hin HS. induction HS as [|a l HS IH HF]; cbn; constructor; auto.
        - apply IH. intros c Hc. apply Hin. now right.
        - apply Forall_forall. intros b Hb. apply in_map_iff in Hb as (c & <- & Hc). rewrite !Hsc; [|apply Hin; now right|apply Hin; now left].
          rewrite Forall_forall in HF. auto. }
      apply HH; auto. intros c Hc. apply Hpos in Hc. lia.
    - intros c e Hc He Hnin. apply in_map_iff in Hc as (c0 & <- & Hc). pose proof (Hpos _ Hc) as Hp.
      destruct (Hfind e He) as (n & Hn & Ee). destruct He as [He1 _]. rewrite map_length in He1.
      assert (Hj : (fst e < length qs)%nat) by (unfold qs; rewrite map_length; auto).
      rewrite Ee. rewrite !Hsc by (cbn; lia). cbn [fst snd].
      assert (Hcnt : (cnt (fst e) <= n)%nat).
      { destruct (le_lt_dec (cnt (fst e)) n); auto. exfalso. apply Hnin. rewrite Ee. unfold ch. apply in_map. apply in_rev. apply (i_in _ _ _ _ _ _ I). auto. }
      pose proof (i_ge _ _ _ _ _ _ I c0 (fst e) (proj1 (in_rev _ _) Hc) Hj ltac:(lia)) as H1.
      pose proof (sc_mono aw qs Hlen' Haw Hwf' Hso' d (fst e) (cnt (fst e)) n Hj ltac:(lia)) as H2. lra. }
  exists (normalize (mkPf (map fst r) (map snd r) (valid p) (eta p) (perm p) (bbox p) (origin p))), ch.
  assert (Eraw : map fst r = map (scaled aw (map pw ps)) ch).
  { rewrite Hr. unfold ch. rewrite !map_map. apply map_ext_in. intros c Hc. cbn. rewrite Hsc; auto. apply Hpos in Hc. lia. }
  assert (Ex : map snd r = map (fun c => nth (snd c) (nth (fst c) (map px ps) []) x0) ch).
  { rewrite Hr. unfold ch. rewrite !map_map. apply map_ext_in. intros c Hc. cbn. rewrite Hdx; auto. apply Hpos in Hc. lia. }
  split.
  - unfold PF.join. fold qs. rewrite Hf. cbn [bind]. rewrite E. cbn [bind]. apply resample_invalid. apply normalize_invalid. auto.
  - split; auto. cbn zeta. rewrite <- Eraw, <- Ex. unfold normalize. cbn [pw]. destruct (Rltb _ _); cbn; auto.
Qed.
End P.
