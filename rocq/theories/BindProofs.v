(** Proofs about the Python binding. *)
From Coq Require Import List Arith Bool Reals String Lia Lra Permutation.
Import ListNotations.
From Verif Require Import Res Scalar Lap LapSpec Murty MurtyMain Cluster ClusterSpec ClusterMain GM Box BoxSpec Bind.
Local Open Scope nat_scope.

Lemma list8 {A} (m : list A) : List.length m = 8 ->
  exists a0 a1 a2 a3 a4 a5 a6 a7, m = [a0; a1; a2; a3; a4; a5; a6; a7].
Proof.
  intros H. do 8 (destruct m as [|? m]; [discriminate|]). destruct m; [|discriminate].
  repeat eexists.
Qed.

Lemma bbox_round_trip {A} (m : storage A) : List.length m = 8 ->
  exists t, bbox_getstate m = Ok t /\ bbox_setstate t = Ok (Some m).
Proof. intros H. apply list8 in H as (a0 & a1 & a2 & a3 & a4 & a5 & a6 & a7 & ->). eexists. split; reflexivity. Qed.

Lemma bbox_set_bad {A} (t : list A) : List.length t <> 8 -> bbox_setstate t = Ok None.
Proof. intros H. unfold bbox_setstate. destruct (Nat.eqb_spec (List.length t) 8); [congruence|reflexivity]. Qed.

Lemma aabb_round_trip (b : aabb) : aabb_setstate (aabb_getstate b) = Some b <-> ordered b.
Proof.
  unfold aabb_setstate, aabb_getstate, aabb_of4, ordered. destruct b as [a b c d]; cbn. split.
  - intros H. injection H as H1 H2 H3 H4.
    pose proof (Rmin_r a c). pose proof (Rmin_r b d). split; lra.
  - intros [H1 H2]. rewrite !Rmin_left, !Rmax_right by lra. reflexivity.
Qed.

Lemma sum_round_trip {X P} (s : summary X P) : sum_setstate (sum_getstate s) = Some s.
Proof. destruct s. reflexivity. Qed.

Lemma rep_round_trip {X P} (r : greport X P) :
  exists r', rep_setstate (rep_getstate r) = Some r' /\ rep_attrs r' = rep_attrs r.
Proof. destruct r. eexists. split; reflexivity. Qed.

(** ** Statistics *)
Lemma resize_length l n : List.length (resize l n) = n.
Proof. unfold resize. rewrite app_length, firstn_length, repeat_length. lia. Qed.

Lemma upd_len {A} (l : list A) i x : List.length (upd l i x) = List.length l.
Proof. revert i. induction l; destruct i; simpl; auto. Qed.

Lemma upd_nth {A} (l : list A) i x j : nth_error (upd l i x) j = if Nat.eq_dec i j then match nth_error l j with Some _ => Some x | None => None end else nth_error l j.
Proof.
  revert i j. induction l as [|a l IH]; intros i j; simpl.
  - destruct j; destruct (Nat.eq_dec i _); reflexivity.
  - destruct i, j; simpl; auto. rewrite IH. destruct (Nat.eq_dec i j), (Nat.eq_dec (S i) (S j)); auto; lia.
Qed.

Section Stats.
Variable corr : nat -> list target_in -> res corrected.
Variable cl : list (nat * list target_in).

(** What holds once the clusters in [done] have been written. *)
Definition written (fin : list nat) (st : stats) : Prop :=
  List.length (n_targets st) = List.length cl /\ List.length (n_reports st) = List.length cl /\ List.length (n_hyps st) = List.length cl /\
  forall id N ts, In id fin -> nth_error cl id = Some (N, ts) ->
    nth_error (n_targets st) id = Some (List.length ts) /\ nth_error (n_reports st) id = Some N /\
    exists out, corr N ts = Ok out /\ nth_error (n_hyps st) id = Some (c_n out).

Lemma nth_some {A} (l : list A) i n : List.length l = n -> i < n -> exists x, nth_error l i = Some x.
Proof. intros H1 H2. destruct (nth_error l i) eqn:E; eauto. apply nth_error_None in E. lia. Qed.

Lemma write_ok fin st id st' : written fin st -> id < List.length cl ->
  ('(N, ts) <- get cl id;; write_cluster corr st id N ts) = Ok st' -> written (id :: fin) st'.
Proof.
  intros (L1 & L2 & L3 & H) Hid. destruct (nth_some cl id _ eq_refl Hid) as [[N ts] E]. unfold get at 1. rewrite E. cbn.
  unfold write_cluster, set. rewrite L1, L2, L3. destruct (Nat.ltb_spec id (List.length cl)); [|lia]. cbn.
  destruct (corr N ts) as [out| |] eqn:Eo; cbn; try discriminate. intros [= <-]. unfold written; cbn.
  rewrite !upd_len. split; auto. split; auto. split; auto. intros id' N' ts' Hin E'.
  rewrite !upd_nth. destruct (Nat.eq_dec id id') as [<-|Hne].
  - rewrite E in E'. injection E' as <- <-.
    destruct (nth_some (n_targets st) id _ L1 Hid) as [? ->]. destruct (nth_some (n_reports st) id _ L2 Hid) as [? ->].
    destruct (nth_some (n_hyps st) id _ L3 Hid) as [? ->]. split; auto. split; auto. exists out. auto.
  - destruct Hin as [|Hin]; [congruence|]. exact (H _ _ _ Hin E').
Qed.

Definition stat_step acc id := st <- acc;; '(N, ts) <- get cl id;; write_cluster corr st id N ts.

Lemma fold_bad order x : (forall y : stats, x <> Ok y) -> forall y, fold_left stat_step order x <> Ok y.
Proof.
  revert x. induction order as [|id order IH]; simpl; auto. intros x Hx. apply IH. intros y.
  destruct x; [now contradiction (Hx a)|discriminate|discriminate].
Qed.

Lemma write_all order : forall fin st st', written fin st -> (forall id, In id order -> id < List.length cl) ->
  fold_left stat_step order (Ok st) = Ok st' -> written (rev order ++ fin) st'.
Proof.
  induction order as [|id order IH]; simpl; intros fin st st' Hw Hb Hf.
  - injection Hf as <-. auto.
  - change (fold_left stat_step order (stat_step (Ok st) id) = Ok st') in Hf. destruct (stat_step (Ok st) id) as [st1| |] eqn:E.
    + rewrite <- app_assoc. apply (IH (id :: fin) st1); auto. apply (write_ok fin st id); auto.
    + exfalso. revert Hf. apply fold_bad. discriminate.
    + exfalso. revert Hf. apply fold_bad. discriminate.
Qed.

Lemma stats_written st order st' : Permutation order (seq 0 (List.length cl)) ->
  write_stats corr st cl order = Ok st' -> written (seq 0 (List.length cl)) st'.
Proof.
  intros Hp Hr. unfold write_stats in Hr. apply (write_all order []) in Hr.
  - rewrite app_nil_r in Hr. destruct Hr as (L1 & L2 & L3 & H). split; auto. split; auto. split; auto.
    intros id N ts Hin. apply H. rewrite <- in_rev. apply (Permutation_in _ (Permutation_sym Hp) Hin).
  - unfold written; cbn. rewrite !resize_length. split; auto. split; auto. split; auto. intros ? ? ? [].
  - intros id Hin. apply (Permutation_in _ Hp) in Hin. apply in_seq in Hin. lia.
Qed.

Lemma list_eq_nth {A} (l1 l2 : list A) : List.length l1 = List.length l2 -> (forall i x, nth_error l2 i = Some x -> nth_error l1 i = Some x) -> l1 = l2.
Proof.
  revert l2. induction l1 as [|a l1 IH]; destruct l2 as [|b l2]; simpl; intros HL H; try discriminate; auto.
  pose proof (H 0 b eq_refl) as H0. injection H0 as ->. f_equal. apply IH; [lia|]. intros i x Hx. exact (H (S i) x Hx).
Qed.

Lemma stats_lists st order st' : Permutation order (seq 0 (List.length cl)) ->
  write_stats corr st cl order = Ok st' ->
  n_targets st' = map (fun c => List.length (snd c)) cl /\ n_reports st' = map fst cl /\
  (forall outs, Forall2 (fun c out => corr (fst c) (snd c) = Ok out) cl outs -> n_hyps st' = map c_n outs).
Proof.
  intros Hp Hr. destruct (stats_written _ _ _ Hp Hr) as (L1 & L2 & L3 & H).
  assert (Hin : forall id c, nth_error cl id = Some c -> In id (seq 0 (List.length cl))).
  { intros id c E. apply in_seq. split; [lia|]. simpl. apply nth_error_Some. congruence. }
  split; [|split].
  - apply list_eq_nth; [rewrite map_length; auto|]. intros i x Hx. rewrite nth_error_map in Hx.
    destruct (nth_error cl i) as [[N ts]|] eqn:E; [|discriminate]. cbn in Hx. injection Hx as <-.
    apply (H i N ts (Hin _ _ E) E).
  - apply list_eq_nth; [rewrite map_length; auto|]. intros i x Hx. rewrite nth_error_map in Hx.
    destruct (nth_error cl i) as [[N ts]|] eqn:E; [|discriminate]. cbn in Hx. injection Hx as <-.
    apply (H i N ts (Hin _ _ E) E).
  - intros outs HF. assert (HL : List.length cl = List.length outs) by (clear - HF; induction HF; simpl; auto). apply list_eq_nth; [rewrite map_length; lia|]. intros i x Hx. rewrite nth_error_map in Hx.
    destruct (nth_error outs i) as [o|] eqn:Eo; [|discriminate]. cbn in Hx. injection Hx as <-.
    assert (exists c, nth_error cl i = Some c) as [[N ts] E].
    { destruct (nth_error cl i) eqn:E; eauto. apply nth_error_None in E. assert (nth_error outs i = None) by (apply nth_error_None; lia). congruence. }
    destruct (H i N ts (Hin _ _ E) E) as (_ & _ & out & H1 & H2). rewrite H2. f_equal. f_equal.
    assert (corr N ts = Ok o); [|congruence].
    clear - HF E Eo. revert i E Eo. induction HF; intros i E Eo; destruct i; simpl in *; try discriminate.
    + injection E as ->. injection Eo as ->. auto.
    + eauto.
Qed.

(** With corrections that return, the loop returns. *)
Lemma stats_run st order : Permutation order (seq 0 (List.length cl)) ->
  (forall c, In c cl -> exists out, corr (fst c) (snd c) = Ok out) ->
  exists st', write_stats corr st cl order = Ok st'.
Proof.
  intros Hp Hc. unfold write_stats.
  assert (Hb : forall id, In id order -> id < List.length cl) by (intros id Hi; apply (Permutation_in _ Hp) in Hi; apply in_seq in Hi; lia).
  assert (Hw : written [] (mkStats (resize (n_targets st) (List.length cl)) (resize (n_reports st) (List.length cl)) (resize (n_hyps st) (List.length cl)))).
  { unfold written; cbn. rewrite !resize_length. repeat split; auto; destruct H. }
  clear Hp. fold stat_step. revert Hw. generalize (mkStats (resize (n_targets st) (List.length cl)) (resize (n_reports st) (List.length cl)) (resize (n_hyps st) (List.length cl))).
  generalize (@nil nat). induction order as [|id order IH]; intros fin s Hw; simpl; eauto.
  destruct (stat_step (Ok s) id) as [s1| |] eqn:E.
  - change (exists st', fold_left stat_step order (stat_step (Ok s) id) = Ok st'). rewrite E.
    apply (IH (fun i Hi => Hb i (or_intror Hi)) (id :: fin)). apply (write_ok fin s id); auto. apply Hb. now left.
  - exfalso. unfold stat_step in E. cbn in E. destruct (nth_some cl id _ eq_refl (Hb id (or_introl eq_refl))) as [[N ts] Ec].
    unfold get in E. rewrite Ec in E. cbn in E. destruct (Hc _ (nth_error_In _ _ Ec)) as [out Eo]. cbn in Eo.
    destruct Hw as (L1 & L2 & L3 & _). unfold write_cluster, set in E. rewrite L1, L2, L3, Eo in E.
    destruct (Nat.ltb_spec id (List.length cl)); [discriminate E|]. specialize (Hb id (or_introl eq_refl)). lia.
  - exfalso. unfold stat_step in E. cbn in E. destruct (nth_some cl id _ eq_refl (Hb id (or_introl eq_refl))) as [[N ts] Ec].
    unfold get in E. rewrite Ec in E. cbn in E. destruct (Hc _ (nth_error_In _ _ Ec)) as [out Eo]. cbn in Eo.
    destruct Hw as (L1 & L2 & L3 & _). unfold write_cluster, set in E. rewrite L1, L2, L3, Eo in E.
    destruct (Nat.ltb_spec id (List.length cl)); [discriminate E|]. specialize (Hb id (or_introl eq_refl)). lia.
Qed.
End Stats.

Lemma nhyps_wrong pick wl K fuel st cl order st' id ts :
  valid_pick pick -> Permutation order (seq 0 (List.length cl)) ->
  write_stats (correct exp pick wl (INR K) fuel) st cl order = Ok st' ->
  nth_error cl id = Some (0, ts) -> ts <> [] -> (forall t, In t ts -> valid_target 0 t) -> List.length ts <= 30 ->
  exists l out, py_stat "cluster_nhyps" st' = Some l /\ nth_error l id = Some 0 /\
    correct exp pick wl (INR K) fuel 0 ts = Ok out /\ 1 <= c_n out.
Proof.
  intros Hp Hperm Hr E Hne Ht Hl. destruct (stats_written _ _ _ _ _ Hperm Hr) as (L1 & L2 & L3 & H).
  destruct (H id 0 ts) as (_ & H2 & out & H3 & _); auto.
  { apply in_seq. split; [lia|]. simpl. apply nth_error_Some. congruence. }
  exists (n_reports st'), out. split; [reflexivity|]. split; auto. split; auto.
  apply (at_most pick wl K fuel 0 ts out Hp Ht Hl Hne H3).
Qed.
