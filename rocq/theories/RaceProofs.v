(** Threads, locks and data races: disjointness gives freedom of races, ordered
    locks give freedom of deadlock. *)
From Coq Require Import List Arith Bool Lia.
Import ListNotations.
From Verif Require Import Race.

Section Proofs.
Context {L : Type}.
Notation cmd := (cmd L).

(** ** Accesses and the locks around them *)
Fixpoint accs (c : cmd) : list (list nat * bool * L) :=
  match c with
  | Done => []
  | Acc w x => [([], w, x)]
  | Seq a b | Par a b => accs a ++ accs b
  | Crit k a | Held k a => map (fun e => (k :: fst (fst e), snd (fst e), snd e)) (accs a)
  end.

Section Safe.
(** The locations exempt from the claim. *)
Variable X : L -> Prop.

Definition apart (p q : list (list nat * bool * L)) : Prop :=
  forall ls w ls' w' x, In (ls, w, x) p -> In (ls', w', x) q -> w || w' = true -> ~ X x -> exists k, In k ls /\ In k ls'.

Fixpoint safe (c : cmd) : Prop :=
  match c with
  | Done | Acc _ _ => True
  | Seq a b => safe a /\ safe b
  | Par a b => safe a /\ safe b /\ apart (accs a) (accs b)
  | Crit _ a | Held _ a => safe a
  end.

Lemma step_accs c l c' : step c l c' -> incl (accs c') (accs c).
Proof.
  induction 1; simpl; intros e He; try (simpl in He; tauto); rewrite ?in_app_iff in *; auto.
  - destruct He as [He|He]; auto.
  - destruct He as [He|He]; auto.
  - destruct He as [He|He]; auto.
  - apply in_map_iff in He. destruct He as (e' & <- & He). apply in_map_iff. eauto.
Qed.

Lemma apart_incl p q p' q' : incl p' p -> incl q' q -> apart p q -> apart p' q'.
Proof. intros Hp Hq H ls w ls' w' x H1 H2. apply (H ls w ls' w' x); auto. Qed.

Lemma step_safe c l c' : step c l c' -> safe c -> safe c'.
Proof.
  induction 1; simpl; try tauto.
  - intros (Ha & Hb & Hab). split; auto. split; auto. eapply apart_incl; [eapply step_accs; eauto|apply incl_refl|auto].
  - intros (Ha & Hb & Hab). split; auto. split; auto. eapply apart_incl; [apply incl_refl|eapply step_accs; eauto|auto].
Qed.

Lemma step_at c l c' : step c l c' -> forall w x, l = At w x -> exists ls, In (ls, w, x) (accs c) /\ incl ls (held c).
Proof.
  induction 1; intros w0 x0 E; try discriminate; cbn [accs held].
  - inversion E; subst. exists []. split; [simpl; auto|intros k []].
  - destruct (IHstep _ _ E) as (ls & H1 & H2). exists ls. rewrite in_app_iff. auto.
  - destruct (IHstep _ _ E) as (ls & H1 & H2). exists ls. rewrite in_app_iff. split; auto. intros k Hk. apply in_app_iff; auto.
  - destruct (IHstep _ _ E) as (ls & H1 & H2). exists ls. rewrite in_app_iff. split; auto. intros k Hk. apply in_app_iff; auto.
  - destruct (IHstep _ _ E) as (ls & H1 & H2). exists (k :: ls). split.
    + apply in_map_iff. exists (ls, w0, x0). auto.
    + intros k' [->|Hk]; simpl; auto.
Qed.

Lemma nodup_l (p q : list nat) : NoDup (p ++ q) -> NoDup p.
Proof. induction p as [|k p IH]; intros H; constructor; inversion H; subst; auto. intros Hk. apply H2, in_app_iff; auto. Qed.
Lemma nodup_r (p q : list nat) : NoDup (p ++ q) -> NoDup q.
Proof. induction p as [|k p IH]; intros H; auto. inversion H; subst; auto. Qed.
Lemma app_not_both (p q : list nat) k : NoDup (p ++ q) -> In k p -> ~ In k q.
Proof.
  induction p as [|k0 p IH]; intros Hn Hp Hq; [destruct Hp|]; destruct Hp as [->|Hp]; simpl in Hn; inversion Hn as [|? ? N1 N2]; subst.
  - apply N1, in_app_iff; auto.
  - apply IH; auto.
Qed.

Lemma safe_races c x : ~ X x -> safe c -> NoDup (held c) -> ~ races x c.
Proof.
  intros Hx Hs Hn Hr. induction Hr as [a a' b b' w w' Sa Sb W|a b _ IH|a b _ IH|a b _ IH|k a _ IH]; cbn [safe held] in *.
  - destruct Hs as (_ & _ & Hab). destruct (step_at _ _ _ Sa _ _ eq_refl) as (ls & H1 & I1). destruct (step_at _ _ _ Sb _ _ eq_refl) as (ls' & H2 & I2).
    destruct (Hab _ _ _ _ _ H1 H2 W Hx) as (k & K1 & K2). exact (app_not_both _ _ k Hn (I1 k K1) (I2 k K2)).
  - tauto.
  - apply IH; [tauto|]. apply (nodup_l _ _ Hn).
  - apply IH; [tauto|]. apply (nodup_r _ _ Hn).
  - apply IH; auto. inversion Hn; auto.
Qed.
End Safe.

(** ** Locks *)
(** Commands that have not started, and take only locks from [n] upwards, in
    ascending order. *)
Fixpoint src (n : nat) (c : cmd) : Prop :=
  match c with
  | Done | Acc _ _ => True
  | Seq a b | Par a b => src n a /\ src n b
  | Crit k a => n <= k /\ src (S k) a
  | Held _ _ => False
  end.
(** The same in the course of execution. *)
Fixpoint wf (n : nat) (c : cmd) : Prop :=
  match c with
  | Done | Acc _ _ => True
  | Seq a b => wf n a /\ src n b
  | Par a b => wf n a /\ wf n b
  | Crit k a => n <= k /\ src (S k) a
  | Held k a => n <= k /\ wf (S k) a
  end.

Lemma src_wf c : forall n, src n c -> wf n c.
Proof. induction c; intros n H; cbn [src wf] in *; intuition. Qed.
Lemma src_held c : forall n, src n c -> held c = [].
Proof.
  induction c as [|w x|a IHa b IHb|a IHa b IHb|k a IHa|k a IHa]; intros n H; cbn [src held] in *; auto; try contradiction.
  - apply (IHa n). tauto.
  - rewrite (IHa n), (IHb n) by tauto. auto.
Qed.
Lemma src_le c : forall n m, m <= n -> src n c -> src m c.
Proof. induction c; intros n m Hm H; cbn [src] in *; intuition (eauto; lia). Qed.

Lemma step_wf c l c' : step c l c' -> forall n, wf n c -> wf n c'.
Proof. induction 1; intros n H0; cbn [wf] in *; intuition auto using src_wf. Qed.

Notation count := (count_occ Nat.eq_dec).
Definition takes (l : label L) (k : nat) : nat := match l with Lock k' => if Nat.eq_dec k' k then 1 else 0 | _ => 0 end.
Lemma step_count c l c' : step c l c' -> forall n k, wf n c -> count (held c') k <= count (held c) k + takes l k.
Proof.
  induction 1; intros n k0 H0; cbn [wf held takes] in *; rewrite ?count_occ_app; try (simpl; lia).
  - apply (IHstep n); tauto.
  - destruct H0 as (_ & H0). rewrite (src_held _ _ H0). simpl. lia.
  - assert (H1 := IHstep n k0 (proj1 H0)). lia.
  - assert (H1 := IHstep n k0 (proj2 H0)). lia.
  - rewrite (src_held _ _ (proj2 H0)). simpl. destruct (Nat.eq_dec k k0); lia.
  - assert (H1 := IHstep (S k) k0 (proj2 H0)). simpl. destruct (Nat.eq_dec k k0); lia.
Qed.

Lemma run_nodup c l c' n : run c l c' -> wf n c -> NoDup (held c) -> NoDup (held c').
Proof.
  intros (Hs & Hl) Hw Hn. apply (NoDup_count_occ Nat.eq_dec). intros k.
  pose proof (step_count _ _ _ Hs n k Hw) as Hc. pose proof (proj1 (NoDup_count_occ Nat.eq_dec _) Hn k) as Hk.
  destruct l as [|w x|k'|k']; cbn [takes] in Hc; try lia. destruct (Nat.eq_dec k' k) as [->|]; [|lia].
  specialize (Hl k eq_refl). apply (count_occ_not_In Nat.eq_dec) in Hl. lia.
Qed.

Lemma reach_inv (X : L -> Prop) c m c' n : reach c m c' -> src n c -> safe X c -> wf n c' /\ NoDup (held c') /\ safe X c'.
Proof.
  intros Hr Hs Hx. induction Hr as [|m c1 l c2 _ (Hw & Hn & Hsf) Hrun].
  - split; [apply src_wf; auto|]. split; auto. rewrite (src_held _ _ Hs). constructor.
  - split; [exact (step_wf _ _ _ (proj1 Hrun) n Hw)|]. split; [exact (run_nodup _ _ _ n Hrun Hw Hn)|].
    exact (step_safe X _ _ _ (proj1 Hrun) Hsf).
Qed.

(** Disjoint accesses never race. *)
Lemma no_races (X : L -> Prop) n c : src n c -> safe X c -> forall c', reachable c c' -> forall x, ~ X x -> ~ races x c'.
Proof.
  intros Hs Hx c' (m & Hr) x Hn. destruct (reach_inv X c m c' n Hr Hs Hx) as (_ & Hnd & Hsf). exact (safe_races X c' x Hn Hsf Hnd).
Qed.

(** ** Progress *)
Definition is_done (c : cmd) : bool := match c with Done => true | _ => false end.
Lemma is_done_spec c : is_done c = true <-> c = Done.
Proof. destruct c; simpl; split; auto; discriminate. Qed.

Lemma progress c : forall n, wf n c -> c <> Done -> exists l c', step c l c' /\ forall k, l = Lock k -> n <= k.
Proof.
  induction c as [|w x|a IHa b IHb|a IHa b IHb|k a IHa|k a IHa]; intros n Hw Hd; cbn [wf] in Hw.
  - congruence.
  - exists (At w x), Done. split; [constructor|discriminate].
  - destruct (is_done a) eqn:E.
    + apply is_done_spec in E. subst. exists Tau, b. split; [constructor|discriminate].
    + destruct (IHa n (proj1 Hw)) as (l & a' & S & Hl); [intros ->; discriminate|]. exists l, (Seq a' b). split; [constructor; auto|auto].
  - destruct (is_done a) eqn:E; [|destruct (IHa n (proj1 Hw)) as (l & a' & S & Hl); [intros ->; discriminate|]; exists l, (Par a' b); split; [constructor; auto|auto]].
    destruct (is_done b) eqn:E'; [|destruct (IHb n (proj2 Hw)) as (l & b' & S & Hl); [intros ->; discriminate|]; exists l, (Par a b'); split; [constructor; auto|auto]].
    apply is_done_spec in E, E'. subst. exists Tau, Done. split; [constructor|discriminate].
  - exists (Lock k), (Held k a). split; [constructor|]. intros k' E. inversion E; subst. tauto.
  - destruct (is_done a) eqn:E.
    + apply is_done_spec in E. subst. exists (Unlock k), Done. split; [constructor|discriminate].
    + destruct (IHa (S k) (proj2 Hw)) as (l & a' & St & Hl); [intros ->; discriminate|]. exists l, (Held k a'). split; [constructor; auto|].
      intros k' El. specialize (Hl k' El). lia.
Qed.

(** The holder of lock [k] can go on, needing at most a higher lock. *)
Lemma holder c : forall n k, wf n c -> In k (held c) -> exists l c', step c l c' /\ forall k', l = Lock k' -> k < k'.
Proof.
  induction c as [|w x|a IHa b IHb|a IHa b IHb|k0 a IHa|k0 a IHa]; intros n k Hw Hk; cbn [wf held] in *; try contradiction.
  - destruct (IHa n k (proj1 Hw) Hk) as (l & a' & St & Hl). exists l, (Seq a' b). split; [constructor; auto|auto].
  - apply in_app_iff in Hk. destruct Hk as [Hk|Hk].
    + destruct (IHa n k (proj1 Hw) Hk) as (l & a' & St & Hl). exists l, (Par a' b). split; [constructor; auto|auto].
    + destruct (IHb n k (proj2 Hw) Hk) as (l & b' & St & Hl). exists l, (Par a b'). split; [constructor; auto|auto].
  - destruct Hk as [->|Hk].
    + destruct (is_done a) eqn:E.
      * apply is_done_spec in E. subst. exists (Unlock k), Done. split; [constructor|discriminate].
      * destruct (progress a (S k) (proj2 Hw)) as (l & a' & St & Hl); [intros ->; discriminate|]. exists l, (Held k a'). split; [constructor; auto|].
        intros k' El. specialize (Hl k' El). lia.
    + destruct (IHa (S k0) k (proj2 Hw) Hk) as (l & a' & St & Hl). exists l, (Held k0 a'). split; [constructor; auto|auto].
Qed.

Lemma list_top (l : list nat) : l <> [] -> exists k, In k l /\ forall k', In k' l -> k' <= k.
Proof.
  induction l as [|x [|y l] IH]; intros H; [congruence| |].
  - exists x. simpl. split; auto. intros k' [->|[]]. lia.
  - destruct IH as (k & Hk & Hmax); [discriminate|]. destruct (Nat.le_gt_cases k x).
    + exists x. split; [simpl; auto|]. intros k' [->|H']; [lia|]. specialize (Hmax k' H'). lia.
    + exists k. split; [simpl in *; tauto|]. intros k' [->|H']; [lia|auto].
Qed.

Lemma can_run c n : wf n c -> c <> Done -> exists l c', run c l c'.
Proof.
  intros Hw Hd. destruct (held c) as [|k0 q] eqn:E.
  - destruct (progress c n Hw Hd) as (l & c' & St & _). exists l, c'. split; auto. rewrite E. auto.
  - destruct (list_top (held c)) as (k & Hk & Hmax); [rewrite E; discriminate|].
    destruct (holder c n k Hw Hk) as (l & c' & St & Hl). exists l, c'. split; auto.
    intros k' El Hin. specialize (Hl k' El). specialize (Hmax k' Hin). lia.
Qed.

(** ** Termination *)
Fixpoint size (c : cmd) : nat :=
  match c with
  | Done => 0
  | Acc _ _ => 1
  | Seq a b | Par a b => 1 + size a + size b
  | Crit _ a => 2 + size a
  | Held _ a => 1 + size a
  end.
Lemma step_size c l c' : step c l c' -> size c' < size c.
Proof. induction 1; simpl; lia. Qed.
Lemma reach_size c m c' : reach c m c' -> m + size c' <= size c.
Proof. induction 1 as [|m c1 l c2 _ IH (Hs & _)]; [lia|]. apply step_size in Hs. lia. Qed.

Lemma safe_all c : safe (fun _ => True) c.
Proof. induction c; cbn [safe]; auto. split; auto. split; auto. intros ls w ls' w' x _ _ _ H. destruct (H I). Qed.

Lemma src_terminates c n : src n c -> terminates c.
Proof.
  intros Hs. split.
  - intros c' (m & Hr) Hd. destruct (reach_inv (fun _ => True) c m c' n Hr Hs (safe_all c)) as (Hw & _ & _). exact (can_run c' n Hw Hd).
  - exists (size c). intros m c' Hr. apply reach_size in Hr. lia.
Qed.

(** ** Building executions *)
Lemma reach_trans (c : cmd) m c1 m' c2 : reach c m c1 -> reach c1 m' c2 -> reach c (m' + m) c2.
Proof. intros H1 H2. induction H2; simpl; auto. econstructor; eauto. Qed.
Lemma reachable_trans (c c1 c2 : cmd) : reachable c c1 -> reachable c1 c2 -> reachable c c2.
Proof. intros (m & H1) (m' & H2). exists (m' + m). eapply reach_trans; eauto. Qed.
Lemma reachable_refl (c : cmd) : reachable c c.
Proof. exists 0. constructor. Qed.
Lemma reachable_step (c : cmd) l c' : run c l c' -> reachable c c'.
Proof. intros H. exists 1. econstructor; [constructor|eauto]. Qed.

Lemma finish_size : forall n c, size c <= n -> (exists k, wf k c) -> reachable c Done.
Proof.
  induction n as [|n IH]; intros c Hn (k & Hw).
  - destruct c; simpl in Hn; try lia. apply reachable_refl.
  - destruct (is_done c) eqn:E; [apply is_done_spec in E; subst; apply reachable_refl|].
    destruct (can_run c k Hw) as (l & c' & Hr); [intros ->; discriminate|].
    eapply reachable_trans; [eapply reachable_step; eauto|]. apply IH.
    + pose proof (step_size _ _ _ (proj1 Hr)). lia.
    + exists k. eapply step_wf; [apply Hr|auto].
Qed.
Lemma finish c n : src n c -> reachable c Done.
Proof. intros H. apply (finish_size (size c)); auto. exists n. apply src_wf; auto. Qed.

Lemma completes c n c' : src n c -> reachable c c' -> reachable c' Done.
Proof.
  intros Hs (m & Hr). destruct (reach_inv (fun _ => True) c m c' n Hr Hs (safe_all c)) as (Hw & _).
  apply (finish_size (size c') c' (le_n _)). eauto.
Qed.
Lemma reach_seq (a a' b : cmd) : reachable a a' -> reachable (Seq a b) (Seq a' b).
Proof.
  intros (m & H). induction H as [|m c1 l c2 _ IH (Hs & Hl)]; [apply reachable_refl|].
  eapply reachable_trans; [exact IH|]. apply reachable_step with l. split; [constructor; auto|exact Hl].
Qed.
Lemma reach_left (a a' b : cmd) : held b = [] -> reachable a a' -> reachable (Par a b) (Par a' b).
Proof.
  intros Hb (m & H). induction H as [|m c1 l c2 _ IH (Hs & Hl)]; [apply reachable_refl|].
  eapply reachable_trans; [exact IH|]. apply reachable_step with l. split; [constructor; auto|].
  intros k E. cbn [held]. rewrite Hb, app_nil_r. auto.
Qed.
Lemma reach_right (a b b' : cmd) : held a = [] -> reachable b b' -> reachable (Par a b) (Par a b').
Proof.
  intros Ha (m & H). induction H as [|m c1 l c2 _ IH (Hs & Hl)]; [apply reachable_refl|].
  eapply reachable_trans; [exact IH|]. apply reachable_step with l. split; [constructor; auto|].
  intros k E. cbn [held]. rewrite Ha. auto.
Qed.

(** ** Lists of commands *)
Lemma src_seqs n l : src n (seqs l) <-> Forall (src n) l.
Proof. induction l as [|c l IH]; simpl; split; intros H; auto; [constructor; tauto|inversion H; tauto]. Qed.
Lemma src_pars n l : src n (pars l) <-> Forall (src n) l.
Proof. induction l as [|c l IH]; simpl; split; intros H; auto; [constructor; tauto|inversion H; tauto]. Qed.
Lemma accs_seqs l : accs (seqs l) = flat_map accs l.
Proof. induction l as [|c l IH]; simpl; auto. rewrite IH. auto. Qed.
Lemma accs_pars l : accs (pars l) = flat_map accs l.
Proof. induction l as [|c l IH]; simpl; auto. rewrite IH. auto. Qed.
Lemma safe_seqs X l : safe X (seqs l) <-> Forall (safe X) l.
Proof. induction l as [|c l IH]; simpl; split; intros H; auto; [constructor; tauto|inversion H; tauto]. Qed.
Lemma safe_pars X l : Forall (safe X) l -> ForallOrdPairs (fun a b => apart X (accs a) (accs b)) l -> safe X (pars l).
Proof.
  intros H P. induction P as [|c l Hc P IH]; cbn [pars fold_right safe]; auto. inversion H as [|? ? S1 S2]; subst. split; auto. split; [apply IH; auto|].
  fold (pars l). rewrite accs_pars. intros ls w ls' w' x H1 H2. apply in_flat_map in H2. destruct H2 as (d & Hd & H2).
  rewrite Forall_forall in Hc. exact (Hc d Hd ls w ls' w' x H1 H2).
Qed.

(** Running up to a member of a list. *)
Lemma reach_nth_seq n l1 c l2 : Forall (src n) l1 -> reachable (seqs (l1 ++ c :: l2)) (Seq c (seqs l2)).
Proof.
  intros H. induction H as [|d l1 Hd _ IH]; cbn [app seqs fold_right]; [apply reachable_refl|].
  eapply reachable_trans; [apply reach_seq; apply (finish d n Hd)|]. eapply reachable_trans; [|exact IH].
  apply reachable_step with Tau. split; [constructor|discriminate].
Qed.

(** ** Reaching accesses and races *)
Definition poised (free : bool) (c : cmd) (w : bool) (x : L) : Prop :=
  exists c' d, reachable c c' /\ step c' (At w x) d /\ (free = true -> held c' = []).
Definition racy (c : cmd) (x : L) : Prop := exists c', reachable c c' /\ races x c'.

Lemma poised_acc f w x : poised f (Acc w x) w x.
Proof. exists (Acc w x), Done. split; [apply reachable_refl|]. split; [constructor|auto]. Qed.
Lemma poised_first f (a b : cmd) w x : poised f a w x -> poised f (Seq a b) w x.
Proof.
  intros (c & d & Hr & Hs & Hh). exists (Seq c b), (Seq d b). split; [apply reach_seq; auto|]. split; [constructor; auto|exact Hh].
Qed.
Lemma poised_second f n (a b : cmd) w x : src n a -> poised f b w x -> poised f (Seq a b) w x.
Proof.
  intros Ha (c & d & Hr & H). exists c, d. split; [|exact H]. eapply reachable_trans; [apply reach_seq; apply (finish a n Ha)|].
  eapply reachable_trans; [|exact Hr]. apply reachable_step with Tau. split; [constructor|discriminate].
Qed.
Lemma poised_seqs f n l (a : cmd) w x : Forall (src n) l -> In a l -> poised f a w x -> poised f (seqs l) w x.
Proof.
  intros Hl Ha Hp. apply in_split in Ha. destruct Ha as (l1 & l2 & ->). apply Forall_app in Hl. destruct Hl as (H1 & _).
  destruct (poised_first f a (seqs l2) w x Hp) as (c & d & Hr & H). exists c, d. split; [|exact H].
  eapply reachable_trans; [apply (reach_nth_seq n); exact H1|exact Hr].
Qed.
Lemma reach_held k (a a' : cmd) : src (S k) a -> reachable a a' -> reachable (Held k a) (Held k a').
Proof.
  intros Hs (m & H). induction H as [|m c1 l c2 H1 IH (Hst & Hl)]; [apply reachable_refl|].
  eapply reachable_trans; [exact IH|]. apply reachable_step with l. split; [constructor; auto|].
  intros k' -> [E|Hin]; [|exact (Hl k' eq_refl Hin)]. subst k'.
  destruct (reach_inv (fun _ => True) a m c1 (S k) H1 Hs (safe_all a)) as (Hw & _).
  clear - Hst Hw. assert (G : forall c l c', step c l c' -> forall n k, wf n c -> l = Lock k -> n <= k).
  { clear. intros c l c' Hst. induction Hst; intros n k' Hw E; cbn [wf] in Hw; try discriminate; try (apply (IHHst n k'); tauto).
    - inversion E; subst. tauto.
    - assert (X : S k <= k') by (apply (IHHst (S k) k'); tauto). lia. }
  pose proof (G _ _ _ Hst (S k) k Hw eq_refl). lia.
Qed.
Lemma poised_crit k (a : cmd) w x : src (S k) a -> poised false a w x -> poised false (Crit k a) w x.
Proof.
  intros Hs (c & d & Hr & Hst & _). exists (Held k c), (Held k d). split; [|split; [constructor; auto|discriminate]].
  eapply reachable_trans; [|apply (reach_held k a c); auto].
  apply reachable_step with (Lock k). split; [constructor|]. intros k' _ [].
Qed.

Lemma racy_first (a b : cmd) x : racy a x -> racy (Seq a b) x.
Proof. intros (c & Hr & H). exists (Seq c b). split; [apply reach_seq; auto|constructor; auto]. Qed.
Lemma racy_seqs n l (a : cmd) x : Forall (src n) l -> In a l -> racy a x -> racy (seqs l) x.
Proof.
  intros Hl Ha Hp. apply in_split in Ha. destruct Ha as (l1 & l2 & ->). apply Forall_app in Hl. destruct Hl as (H1 & _).
  destruct (racy_first a (seqs l2) x Hp) as (c & Hr & H). exists c. split; auto.
  eapply reachable_trans; [apply (reach_nth_seq n); exact H1|exact Hr].
Qed.
Lemma racy_pars n l (a : cmd) x : Forall (src n) l -> In a l -> racy a x -> racy (pars l) x.
Proof.
  intros Hl Ha (c & Hr & H). induction Hl as [|d l Hd Hl IH]; [destruct Ha|]. destruct Ha as [->|Ha]; cbn [pars fold_right].
  - exists (Par c (pars l)). split; [|apply ra_left; auto]. apply reach_left; auto. apply (src_held _ n). apply src_pars. auto.
  - destruct (IH Ha) as (e & He & Hx). exists (Par d e). split; [|apply ra_right; auto]. apply reach_right; auto. apply (src_held _ n). auto.
Qed.
Lemma poised_pars f n l (a : cmd) w x : Forall (src n) l -> In a l -> poised f a w x -> poised f (pars l) w x.
Proof.
  intros Hl Ha (c & e & Hr & Hst & Hh). induction Hl as [|d l Hd Hl IH]; [destruct Ha|]. destruct Ha as [->|Ha]; cbn [pars fold_right].
  - assert (Hp : held (pars l) = []) by (apply (src_held _ n); apply src_pars; auto).
    exists (Par c (pars l)), (Par e (pars l)). split; [apply reach_left; auto|]. split; [constructor; auto|].
    intros Ef. cbn [held]. rewrite Hh, Hp; auto.
  - destruct (IH Ha) as (c' & d' & Hr' & Hs' & Hh'). assert (Hp : held d = []) by (apply (src_held _ n); auto).
    exists (Par d c'), (Par d d'). split; [apply reach_right; auto|]. split; [constructor; auto|].
    intros Ef. cbn [held]. rewrite Hp, Hh'; auto.
Qed.
(** Two of several parallel commands, one of which is poised without a lock. *)
Lemma racy_two n l1 (a : cmd) l2 (b : cmd) l3 f g w w' x : Forall (src n) (l1 ++ a :: l2 ++ b :: l3) ->
  poised f a w x -> poised g b w' x -> f || g = true -> w || w' = true -> racy (pars (l1 ++ a :: l2 ++ b :: l3)) x.
Proof.
  intros Hl Ha Hb Hf Hw. assert (Hl2 := proj2 (proj1 (Forall_app _ _ _) Hl)).
  assert (X : racy (pars (a :: l2 ++ b :: l3)) x).
  { inversion Hl2 as [|? ? Sa Hl3]; subst. assert (Hb' : poised g (pars (l2 ++ b :: l3)) w' x).
    { apply (poised_pars g n) with b; auto. apply in_or_app. simpl. auto. }
    assert (Sp : src n (pars (l2 ++ b :: l3))) by (apply src_pars; auto).
    destruct Ha as (a1 & a2 & Ra & Sta & Ha), Hb' as (b1 & b2 & Rb & Stb & Hb').
    exists (Par a1 b1). split; [|apply (ra_here x a1 a2 b1 b2 w w'); auto]. cbn [pars fold_right].
    destruct f; cbn in Hf.
    - eapply reachable_trans; [apply reach_left; [apply (src_held _ n); auto|exact Ra]|]. apply reach_right; auto.
    - subst g. eapply reachable_trans; [apply reach_right; [apply (src_held _ n); auto|exact Rb]|]. apply reach_left; auto. }
  clear - X Hl. induction l1 as [|d l1 IH]; [exact X|]. cbn [app] in *. inversion Hl as [|? ? Hd Hl']; subst.
  destruct (IH Hl') as (e & He & Hx). cbn [pars fold_right]. exists (Par d e). split; [|apply ra_right; auto].
  apply reach_right; auto. apply (src_held _ n). auto.
Qed.
End Proofs.
