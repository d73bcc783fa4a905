(** The metrics computed by the model: which assignment is used, and what the
    value is. *)
From Coq Require Import List Arith Bool Reals Lia Lra.
Import ListNotations.
From Verif Require Import Res Scalar Lap LapSpec LapBase LapMain Metric MetricSpec.
Local Open Scope nat_scope.

(** * Distances and powers *)
Lemma sqdiff_sum a b :
  sqdiff a b = Rsum (map (fun k => ((nth k b 0 - nth k a 0) ^ 2)%R) (seq 0 (Nat.min (length b) (length a)))).
Proof.
  revert b. induction a as [|x a IH]; intros [|y b]; cbn [sqdiff length Nat.min seq map Rsum]; auto.
  rewrite IH. rewrite <- seq_shift, map_map. cbn [nth]. f_equal. ring.
Qed.

Lemma norm_edist a b : norm_diff a b = edist b a.
Proof. unfold norm_diff, edist. rewrite sqdiff_sum. reflexivity. Qed.

Lemma edist_nonneg a b : (0 <= edist a b)%R.
Proof. apply sqrt_pos. Qed.

Lemma rpow_nonneg x p : (0 <= x)%R -> (0 <= rpow x p)%R.
Proof.
  intros H. unfold rpow. destruct (Req_EM_T x 0); [lra|]. unfold Rpower. left. apply exp_pos.
Qed.

Lemma rpow_le x y p : (0 <= x <= y)%R -> (0 < p)%R -> (rpow x p <= rpow y p)%R.
Proof.
  intros H Hp. unfold rpow. destruct (Req_EM_T x 0) as [->|E].
  - destruct (Req_EM_T y 0); [lra|]. unfold Rpower. left. apply exp_pos.
  - destruct (Req_EM_T y 0); [lra|]. apply Rle_Rpower_l; lra.
Qed.

Lemma rpow_lt x y p : (0 <= x < y)%R -> (0 < p)%R -> (rpow x p < rpow y p)%R.
Proof.
  intros H Hp. unfold rpow. destruct (Req_EM_T y 0); [lra|]. destruct (Req_EM_T x 0) as [->|E].
  - unfold Rpower. apply exp_pos.
  - unfold Rpower. apply exp_increasing. apply Rmult_lt_compat_l; auto. apply ln_increasing; lra.
Qed.

Lemma rpow_inv x p : (0 <= x)%R -> (0 < p)%R -> rpow (rpow x p) (/ p) = x.
Proof.
  intros H Hp. unfold rpow. destruct (Req_EM_T x 0) as [->|E].
  - destruct (Req_EM_T 0 0); lra.
  - destruct (Req_EM_T (Rpower x p) 0) as [E'|_].
    + unfold Rpower in E'. pose proof (exp_pos (p * ln x)). lra.
    + rewrite Rpower_mult. replace (p * / p)%R with 1%R by (field; lra). apply Rpower_1. lra.
Qed.

Lemma rpow_1 x : (0 <= x)%R -> rpow x 1 = x.
Proof.
  intros H. unfold rpow. destruct (Req_EM_T x 0); auto. apply Rpower_1. lra.
Qed.

Lemma rpow_min x y p : (0 <= x)%R -> (0 <= y)%R -> (0 < p)%R ->
  rpow (Rmin x y) p = Rmin (rpow x p) (rpow y p).
Proof.
  intros Hx Hy Hp. unfold Rmin at 1. destruct (Rle_dec x y).
  - rewrite Rmin_left; auto. apply rpow_le; auto.
  - rewrite Rmin_right; auto. apply rpow_le; lra.
Qed.

Lemma std_pow_fin x p : (0 <= x)%R -> (0 < p)%R -> std_pow (Fin x) p = Fin (rpow x p).
Proof.
  intros Hx Hp. unfold std_pow, rpow. destruct (Reqb_spec p 0); [lra|].
  destruct (Reqb_spec x 0).
  - destruct (Rltb_spec 0 p); [|lra]. destruct (Req_EM_T x 0); [auto|lra].
  - destruct (Rltb_spec x 0); [lra|]. destruct (Req_EM_T x 0); [lra|auto].
Qed.

Lemma std_root_fin x p : (0 <= x)%R -> (0 < p)%R -> std_root (Fin x) p = Fin (rpow x (/ p)).
Proof.
  intros Hx Hp. unfold std_root. destruct (Reqb_spec p 0); [lra|].
  replace (1 / p)%R with (/ p)%R by (field; lra). apply std_pow_fin; auto. apply Rinv_0_lt_compat; auto.
Qed.

Lemma ext_min_fin x c : ext_min (Fin x) (Fin c) = Fin (Rmin c x).
Proof.
  unfold ext_min. rewrite lt_FF. destruct (Rltb_spec c x).
  - rewrite Rmin_left; auto; lra.
  - rewrite Rmin_right; auto; lra.
Qed.

(** * Column-major square matrices *)
Record is_mat (n : nat) (f : nat -> nat -> ext R) (C : matrix (ext R)) : Prop := {
  im_rows : m_rows C = n;
  im_cols : m_cols C = n;
  im_ord : m_ord C = ColMajor;
  im_len : length (m_data C) = n * n;
  im_val : forall i j, i < n -> j < n -> nth (j * n + i) (m_data C) NaN = f i j }.

Lemma is_mat_ext n f g C : is_mat n f C -> (forall i j, i < n -> j < n -> f i j = g i j) -> is_mat n g C.
Proof. intros [] E. constructor; auto. intros. rewrite <- E by auto. auto. Qed.

Lemma constant_mat n x : is_mat n (fun _ _ => x) (constant n x).
Proof.
  constructor; cbn; auto; [apply repeat_length|].
  intros i j Hi Hj. rewrite nth_indep with (d' := x).
  - apply nth_repeat.
  - rewrite repeat_length. apply index_lt; auto.
Qed.

Lemma at_mat n f C i j : is_mat n f C -> i < n -> j < n -> at_ C i j = Ok (f i j).
Proof.
  intros [Hr Hc Ho Hl Hv] Hi Hj. unfold at_. rewrite Hr, Hc, Ho.
  apply Nat.ltb_lt in Hi as Hi'. apply Nat.ltb_lt in Hj as Hj'. rewrite Hi', Hj'. cbn [andb].
  rewrite <- Hv by auto. apply get_ok. rewrite Hl. apply index_lt; auto.
Qed.

Lemma colidx n i j i' j' : i < n -> i' < n -> j * n + i = j' * n + i' -> i = i' /\ j = j'.
Proof.
  intros Hi Hi' E.
  assert (j = j').
  { assert (Ej : (j * n + i) / n = j) by (rewrite Nat.div_add_l by lia; rewrite Nat.div_small; lia).
    assert (Ej' : (j' * n + i') / n = j') by (rewrite Nat.div_add_l by lia; rewrite Nat.div_small; lia).
    congruence. }
  subst. lia.
Qed.

Lemma put_mat F n f C i j x : is_mat n f C -> i < n -> j < n ->
  wp F (put_ C i j x) (is_mat n (fun i' j' => if (i' =? i) && (j' =? j) then x else f i' j')).
Proof.
  intros [Hr Hc Ho Hl Hv] Hi Hj. unfold put_. rewrite Hr, Hc, Ho.
  apply Nat.ltb_lt in Hi as Hi'. apply Nat.ltb_lt in Hj as Hj'. rewrite Hi', Hj'. cbn [andb].
  apply wp_bind. apply wp_set; [rewrite Hl; apply index_lt; auto|].
  apply wp_ret. constructor; cbn; auto; [rewrite upd_length; auto|].
  intros i' j' Hi1 Hj1. rewrite nth_upd by (rewrite Hl; apply index_lt; auto).
  destruct (Nat.eqb_spec (j * n + i) (j' * n + i')) as [E|E].
  - apply colidx in E; auto. destruct E as [-> ->]. rewrite !Nat.eqb_refl. auto.
  - destruct (Nat.eqb_spec i' i); destruct (Nat.eqb_spec j' j); cbn; auto. subst. lia.
Qed.

Lemma map_mat n f C (g : ext R -> ext R) : is_mat n f C ->
  is_mat n (fun i j => g (f i j)) (mkMat n n ColMajor (map g (m_data C))).
Proof.
  intros [Hr Hc Ho Hl Hv]. constructor; cbn; auto; [rewrite map_length; auto|].
  intros i j Hi Hj. rewrite <- Hv by auto.
  rewrite nth_indep with (d' := g NaN) by (rewrite map_length, Hl; apply index_lt; auto).
  apply map_nth.
Qed.

(** A loop over one row, and over a block, of a matrix. *)
Lemma row_loop F n N f C i (body : nat -> matrix (ext R) -> res (matrix (ext R))) (g : nat -> ext R -> ext R) :
  is_mat n f C -> i < n -> N <= n ->
  (forall j f C, is_mat n f C -> j < N ->
     wp F (body j C) (is_mat n (fun i' j' => if (i' =? i) && (j' =? j) then g j (f i j) else f i' j'))) ->
  wp F (for_loop N 0 body C)
    (is_mat n (fun i' j' => if (i' =? i) && (j' <? N) then g j' (f i' j') else f i' j')).
Proof.
  intros HC Hi HN Hb.
  eapply wp_conseq.
  { apply (wp_for F N 0 body (fun k C =>
      is_mat n (fun i' j' => if (i' =? i) && (j' <? k) then g j' (f i' j') else f i' j') C)).
    - eapply is_mat_ext; [exact HC|]. intros i' j' _ _. rewrite andb_false_r. auto.
    - intros k C' Hk HC'. eapply wp_conseq; [apply Hb; [exact HC'|lia]|].
      intros C2 HC2. eapply is_mat_ext; [exact HC2|]. intros i' j' Hi' Hj'. cbn beta.
      rewrite Nat.eqb_refl. cbn [andb].
      destruct (Nat.ltb_spec k k); [lia|].
      destruct (Nat.eqb_spec i' i) as [->|]; cbn [andb]; auto.
      destruct (Nat.eqb_spec j' k) as [->|].
      + destruct (Nat.ltb_spec k (S k)); [auto|lia].
      + destruct (Nat.ltb_spec j' k); destruct (Nat.ltb_spec j' (S k)); auto; lia. }
  intros C' HC'. exact HC'.
Qed.

Lemma block_loop F n M N f C (body : nat -> matrix (ext R) -> res (matrix (ext R))) (g : nat -> nat -> ext R -> ext R) :
  is_mat n f C -> M <= n ->
  (forall i f C, is_mat n f C -> i < M ->
     wp F (body i C) (is_mat n (fun i' j' => if (i' =? i) && (j' <? N) then g i' j' (f i' j') else f i' j'))) ->
  wp F (for_loop M 0 body C)
    (is_mat n (fun i' j' => if (i' <? M) && (j' <? N) then g i' j' (f i' j') else f i' j')).
Proof.
  intros HC HM Hb.
  eapply wp_conseq.
  { apply (wp_for F M 0 body (fun k C =>
      is_mat n (fun i' j' => if (i' <? k) && (j' <? N) then g i' j' (f i' j') else f i' j') C)).
    - eapply is_mat_ext; [exact HC|]. intros i' j' _ _. auto.
    - intros k C' Hk HC'. eapply wp_conseq; [apply Hb; [exact HC'|lia]|].
      intros C2 HC2. eapply is_mat_ext; [exact HC2|]. intros i' j' Hi' Hj'. cbn beta.
      destruct (Nat.eqb_spec i' k) as [->|].
      + destruct (Nat.ltb_spec k k); [lia|]. destruct (Nat.ltb_spec k (S k)); [|lia]. auto.
      + destruct (Nat.ltb_spec i' k); destruct (Nat.ltb_spec i' (S k)); auto; lia. }
  intros C' HC'. exact HC'.
Qed.

Lemma fill_mat F n means truth f C : is_mat n f C -> length means <= n -> length truth <= n ->
  wp F (fill means truth C)
    (is_mat n (fun i j => if (i <? length means) && (j <? length truth)
                          then Fin (edist (nth i means []) (nth j truth [])) else f i j)).
Proof.
  intros HC HM HN. unfold fill.
  eapply wp_conseq.
  { apply (block_loop F n (length means) (length truth) f C _
      (fun i j _ => Fin (edist (nth i means []) (nth j truth [])))); auto.
    intros i f' C' HC' Hi. apply wp_bind. apply (wp_get F _ _ []); auto.
    eapply wp_conseq.
    { apply (row_loop F n (length truth) f' C' i _ (fun j _ => Fin (edist (nth i means []) (nth j truth [])))); auto; [lia|].
      intros j f2 C2 HC2 Hj. apply wp_bind. apply (wp_get F _ _ []); auto.
      rewrite norm_edist. apply put_mat; auto; lia. }
    intros C2 HC2. eapply is_mat_ext; [exact HC2|]. intros i' j' _ _. cbn beta.
    destruct (Nat.eqb_spec i' i) as [->|]; auto. }
  intros C' HC'. exact HC'.
Qed.

(** * The solver reads the transposed matrix *)
(** [s] is an optimal assignment of the transpose of [f]. *)
Definition topt (n : nat) (f : nat -> nat -> R) (s : list nat) : Prop :=
  complete n n s /\
  forall s', complete n n s' ->
    (Rsum (map (fun i => f (nth i s 0%nat) i) (seq 0%nat n)) <= Rsum (map (fun i => f (nth i s' 0%nat) i) (seq 0%nat n)))%R.

Section Transposed.
Variables (n : nat) (f : nat -> nat -> R) (C : matrix (ext R)).
Hypothesis HC : is_mat n (fun i j => Fin (f i j)) C.

Let Ct : matrix (ext R) := mkMat n n RowMajor (m_data C).

Lemma data_fin x : In x (m_data C) -> is_fin x.
Proof.
  intros Hx. destruct HC as [Hr Hc Ho Hl Hv].
  apply (In_nth _ _ NaN) in Hx. destruct Hx as (k & Hk & <-). rewrite Hl in Hk.
  assert (n <> 0) by (intros ->; lia).
  exists (f (k mod n) (k / n)). rewrite <- Hv.
  - f_equal. rewrite Nat.mul_comm. apply Nat.div_mod. auto.
  - apply Nat.mod_upper_bound; auto.
  - apply Nat.div_lt_upper_bound; auto.
Qed.

Lemma cost_C : cost_matrix C.
Proof.
  split; [destruct HC as [-> -> _ -> _]; auto|]. intros x Hx. left. apply data_fin; auto.
Qed.

Lemma cost_Ct : cost_matrix Ct.
Proof.
  split; [cbn; apply HC|]. intros x Hx. left. apply data_fin; auto.
Qed.

Lemma entry_Ct i j : i < n -> j < n -> entry NaN Ct i j = Fin (f j i).
Proof. intros Hi Hj. unfold entry, Ct. cbn. apply HC; auto. Qed.

Lemma feasible_Ct s : feasible Ct s <-> complete n n s.
Proof.
  split; [intros [H _]; exact H|]. intros H. split; [exact H|].
  intros i Hi. cbn in Hi. destruct H as (Hl & _ & Hlt).
  rewrite entry_Ct; auto; [eexists; eauto|apply Hlt, nth_In; lia].
Qed.

Lemma feasible_C s : complete n n s -> feasible C s.
Proof.
  intros H. destruct HC as [Hr Hc Ho Hl Hv]. split; [rewrite Hr, Hc; exact H|].
  intros i Hi. rewrite Hr in Hi. destruct H as (Hls & _ & Hlt).
  unfold entry. rewrite Ho, Hr, Hv; auto; [eexists; eauto|apply Hlt, nth_In; lia].
Qed.

Lemma seq_complete : complete n n (seq 0%nat n).
Proof.
  split; [apply seq_length|]. split; [apply seq_NoDup|]. intros j Hj. apply in_seq in Hj. lia.
Qed.

Hypothesis Hn : n <= 30.

Lemma hall_true D : cost_matrix D -> m_rows D = n -> feasible D (seq 0%nat n) -> hall_check extR D = Ok true.
Proof.
  intros HD Hr Hf. assert (H31 : m_rows D <= 31) by lia. assert (H30 : m_rows D <= 30) by lia.
  pose proof (hall_check_spec D HD H31 False H30) as X.
  destruct (hall_check extR D) as [b| |]; cbn in X; try tauto.
  f_equal. apply X. eapply feasible_subsets; eauto.
Qed.

Lemma lap_reads_transpose fuel : lap extR fuel C = lap extR fuel Ct.
Proof.
  unfold lap, lap_build.
  rewrite (hall_true C cost_C (im_rows _ _ _ HC) (feasible_C _ seq_complete)).
  rewrite (hall_true Ct cost_Ct eq_refl (proj2 (feasible_Ct _) seq_complete)).
  cbn [bind]. rewrite (im_rows _ _ _ HC), (im_cols _ _ _ HC). reflexivity.
Qed.

Lemma total_Ct s : complete n n s -> total Ct s = Rsum (map (fun i => f (nth i s 0%nat) i) (seq 0%nat n)).
Proof.
  intros (Hl & _ & Hlt). unfold total. cbn [m_rows Ct]. f_equal. apply map_ext_in. intros i Hi. apply in_seq in Hi.
  rewrite entry_Ct; auto; [lia|apply Hlt, nth_In; lia].
Qed.

Lemma lap_topt fuel : wp True (lap_simple extR fuel C) (fun sol => exists s, sol = map Some s /\ topt n f s).
Proof.
  unfold lap_simple. rewrite lap_reads_transpose. apply wp_bind.
  pose proof (lap_spec Ct cost_Ct Hn eq_refl false fuel) as X.
  eapply wp_conseq; [exact X|]. intros r [(s & Hg)|(_ & Hno & _)].
  - apply wp_ret. exists s. split; [apply Hg|].
    destruct (lap_optimal Ct Hn eq_refl _ _ Hg) as [Hf Ho].
    split; [exact (proj1 (feasible_Ct s) Hf)|].
    intros s' Hs'.
    rewrite <- (total_Ct s (proj1 (feasible_Ct s) Hf)), <- (total_Ct s' Hs'). apply Ho. exact (proj2 (feasible_Ct s') Hs').
  - elim (Hno (seq 0%nat n)). exact (proj2 (feasible_Ct _) seq_complete).
Qed.

Lemma lap_simple_total : exists fuel0 sol, forall fuel, fuel0 <= fuel -> lap_simple extR fuel C = Ok sol.
Proof.
  destruct (lap_total Ct cost_Ct Hn eq_refl false) as (fuel0 & r & H).
  exists fuel0, (l_rowsol r). intros fuel Hf. unfold lap_simple. rewrite lap_reads_transpose. unfold lap. rewrite H by auto. reflexivity.
Qed.

(** The sum over the assigned entries of the matrix itself. *)
Lemma cost_loop F (op : ext R -> ext R) (h : nat -> nat -> R) s :
  complete n n s ->
  (forall i j, i < n -> j < n -> op (Fin (f i j)) = Fin (h i j)) ->
  wp F (for_loop (length (map Some s)) 0
          (fun i cost => oj <- get (map Some s) i;; j <- idx oj;; x <- at_ C i j;;
                         Ok (nadd extR cost (op x))) (Fin 0%R))
    (fun v => v = Fin (Rsum (map (fun i => h i (nth i s 0%nat)) (seq 0%nat n)))).
Proof.
  intros (Hl & _ & Hlt) Hop. rewrite map_length, Hl.
  eapply wp_conseq.
  { apply (wp_for F n 0 _ (fun k v => v = Fin (Rsum (map (fun i => h i (nth i s 0%nat)) (seq 0%nat k))))).
    - reflexivity.
    - intros k v Hk ->. apply wp_bind. apply (wp_get F _ _ (Some 0)); [rewrite map_length; lia|].
      rewrite map_nth. cbn [idx bind].
      assert (Hj : nth k s 0 < n) by (apply Hlt, nth_In; lia).
      rewrite (at_mat n _ C k (nth k s 0) HC) by (auto; lia). cbn [bind]. apply wp_ret.
      rewrite Hop by (auto; lia). rewrite add_FF. f_equal.
      rewrite seq_S, map_app. cbn [map Nat.add]. rewrite Rsum_app. cbn [Rsum]. lra. }
  intros v Hv. exact Hv.
Qed.
End Transposed.

Lemma Rsum_pos_seq (g : nat -> R) k : (forall i, i < k -> (0 <= g i)%R) -> (0 <= Rsum (map g (seq 0%nat k)))%R.
Proof. intros H. apply Rsum_nonneg. intros i Hi. apply in_seq in Hi. apply H. lia. Qed.

(** * The two metrics *)
Section Metrics.
Variables (X Y : list (list R)) (c p : R).
Let M := length X.
Let N := length Y.
Let n := Nat.max M N.
Hypothesis Hc : (0 <= c)%R.
Hypothesis Hp : (0 < p)%R.

Definition pair_dist (i j : nat) : R := edist (nth i X []) (nth j Y []).

(** Entry of the OSPA matrix. *)
Definition ospa_entry (i j : nat) : R :=
  if (i <? M) && (j <? N) then Rmin c (pair_dist i j) else c.

(** Entry of the GOSPA matrix. *)
Definition gospa_entry (i j : nat) : R :=
  if (i <? M) && (j <? N) then rpow (Rmin c (pair_dist i j)) p else (rpow c p / 2)%R.

Lemma ospa_entry_bounds i j : (0 <= ospa_entry i j <= c)%R.
Proof.
  unfold ospa_entry. destruct (_ && _); [|lra].
  split; [apply Rmin_glb; [lra|apply edist_nonneg]|apply Rmin_l].
Qed.

Lemma gospa_entry_nonneg i j : (0 <= gospa_entry i j)%R.
Proof.
  unfold gospa_entry. destruct (_ && _).
  - apply rpow_nonneg. apply Rmin_glb; [lra|apply edist_nonneg].
  - pose proof (rpow_nonneg c p Hc). lra.
Qed.

Definition ospa_val (s : list nat) : R :=
  rpow (Rsum (map (fun i => rpow (ospa_entry i (nth i s 0%nat)) p) (seq 0%nat n)) * / INR n) (/ p).

Definition gospa_val (s : list nat) : R :=
  rpow (Rsum (map (fun i => gospa_entry i (nth i s 0%nat)) (seq 0%nat n))) (/ p).

Definition ospa_result (v : ext R) : Prop :=
  (n = 0 /\ v = Fin 0%R) \/
  (0 < n /\ exists s, topt n ospa_entry s /\ v = Fin (ospa_val s)).

Definition gospa_result (v : ext R) : Prop :=
  (n = 0 /\ v = Fin 0%R) \/
  (0 < n /\ exists s, topt n gospa_entry s /\ v = Fin (gospa_val s)).

Lemma ospa_matrix F : wp F (fill X Y (constant n (Fin c)))
  (fun C => is_mat n (fun i j => Fin (ospa_entry i j))
     (mkMat n n ColMajor (map (fun x => ext_min x (Fin c)) (m_data C)))).
Proof.
  eapply wp_conseq; [apply (fill_mat F n X Y _ _ (constant_mat n (Fin c))); unfold n, M, N; lia|].
  intros C HC. apply (map_mat _ _ _ (fun x => ext_min x (Fin c))) in HC.
  eapply is_mat_ext; [exact HC|]. intros i j _ _. cbn beta. unfold ospa_entry. fold M N.
  destruct (_ && _); rewrite ext_min_fin; auto. rewrite Rmin_left by lra. auto.
Qed.

Lemma gospa_matrix F :
  wp F (C <- fill X Y (constant n (nmul extR (std_pow (Fin c) p) (Fin (/ 2)%R)));;
        for_loop M 0
           (fun i C => for_loop N 0
              (fun j C => x <- at_ C i j;; put_ C i j (std_pow (ext_min x (Fin c)) p)) C) C)
    (is_mat n (fun i j => Fin (gospa_entry i j))).
Proof.
  apply wp_bind.
  eapply wp_conseq; [apply (fill_mat F n X Y _ _ (constant_mat n _)); unfold n, M, N; lia|].
  intros C HC. fold M N in HC.
  eapply wp_conseq.
  { apply (block_loop F n M N _ C _ (fun i j x => std_pow (ext_min x (Fin c)) p) HC); [unfold n; lia|].
    intros i f C' HC' Hi.
    eapply wp_conseq.
    { apply (row_loop F n N f C' i _ (fun j x => std_pow (ext_min x (Fin c)) p) HC'); [unfold n; lia|unfold n; lia|].
      intros j f2 C2 HC2 Hj. rewrite (at_mat n f2 C2 i j HC2) by (unfold n; lia). cbn [bind].
      apply put_mat; auto; unfold n; lia. }
    intros C2 HC2. exact HC2. }
  intros C' HC'. eapply is_mat_ext; [exact HC'|]. intros i j _ _. cbn beta. unfold gospa_entry.
  destruct (_ && _) eqn:E.
  - rewrite ext_min_fin. apply std_pow_fin; auto. apply Rmin_glb; [lra|apply edist_nonneg].
  - rewrite std_pow_fin by auto. reflexivity.
Qed.

Hypothesis Hn : n <= 30.

Lemma ospa_rest F C s : is_mat n (fun i j => Fin (ospa_entry i j)) C -> complete n n s -> 0 < n ->
  wp F (cost <- for_loop (length (map Some s)) 0
              (fun i cost =>
                 oj <- get (map Some s) i;; j <- idx oj;; x <- at_ C i j;;
                 Ok (nadd extR cost (std_pow x p)))
              (Fin 0%R);;
        Ok (std_root (nmul extR cost (Fin (/ INR n)%R)) p))
    (fun v => v = Fin (ospa_val s)).
Proof.
  intros HC Hs H0. apply wp_bind. eapply wp_conseq.
  { apply (cost_loop n ospa_entry C HC Hn F (fun x => std_pow x p) (fun i j => rpow (ospa_entry i j) p) s Hs).
    intros i j _ _. apply std_pow_fin; auto. apply ospa_entry_bounds. }
  intros v ->. apply wp_ret. cbn [nmul extR ext_num ext_mul rmul ringR].
  rewrite std_root_fin; auto.
  apply Rmult_le_pos.
  - apply Rsum_pos_seq. intros. apply rpow_nonneg, ospa_entry_bounds.
  - left. apply Rinv_0_lt_compat. apply lt_0_INR; auto.
Qed.

Lemma ospa_spec fuel : wp True (ospa fuel X Y c p) ospa_result.
Proof.
  unfold ospa. fold M N n. destruct (Nat.ltb_spec 0 n) as [H0|H0].
  - apply wp_bind. eapply wp_conseq; [apply ospa_matrix|]. intros C HC.
    apply wp_bind. eapply wp_conseq; [apply (lap_topt n ospa_entry _ HC Hn)|].
    intros sol (s & -> & Hs). eapply wp_conseq; [apply ospa_rest; auto; apply Hs|].
    intros v ->. right. split; auto. exists s. auto.
  - apply wp_ret. left. split; auto. lia.
Qed.

Lemma ospa_total : exists fuel0 v, (forall fuel, fuel0 <= fuel -> ospa fuel X Y c p = Ok v) /\ ospa_result v.
Proof.
  assert (A : exists fuel0 v, forall fuel, fuel0 <= fuel -> ospa fuel X Y c p = Ok v).
  { unfold ospa. fold M N n. destruct (Nat.ltb_spec 0 n) as [H0|H0]; [|exists 0; eauto].
    pose proof (ospa_matrix False) as HC.
    destruct (fill X Y (constant n (Fin c))) as [C| |]; cbn in HC; try tauto. cbn [bind].
    destruct (lap_simple_total n _ _ HC Hn) as (fuel0 & sol & Hsol).
    pose proof (lap_topt n _ _ HC Hn fuel0) as Ht. rewrite Hsol in Ht by auto.
    destruct Ht as (s & -> & Hs).
    exists fuel0, (Fin (ospa_val s)). intros fuel Hf. rewrite Hsol by auto. cbn [bind].
    pose proof (ospa_rest False _ s HC (proj1 Hs) H0) as Hr.
    destruct (for_loop _ _ _ _) as [v| |]; cbn [bind wp] in Hr; try tauto. cbn [bind]. f_equal. exact Hr. }
  destruct A as (fuel0 & v & H). exists fuel0, v. split; auto.
  pose proof (ospa_spec fuel0) as S. rewrite H in S by auto. exact S.
Qed.

Lemma gospa_rest F C s : is_mat n (fun i j => Fin (gospa_entry i j)) C -> complete n n s ->
  wp F (cost <- lap_cost extR C (map Some s);; Ok (std_root cost p)) (fun v => v = Fin (gospa_val s)).
Proof.
  intros HC Hs. apply wp_bind. eapply wp_conseq.
  { apply (cost_loop n gospa_entry C HC Hn F (fun x => x) gospa_entry s Hs). auto. }
  intros v ->. apply wp_ret. apply std_root_fin; auto.
  apply Rsum_pos_seq. intros. apply gospa_entry_nonneg.
Qed.

Lemma bind_assoc {A B D} (m : res A) (g : A -> res B) (h : B -> res D) :
  bind m (fun a => bind (g a) h) = bind (bind m g) h.
Proof. destruct m; reflexivity. Qed.

Lemma gospa_spec fuel : wp True (gospa fuel X Y c p) gospa_result.
Proof.
  unfold gospa. fold M N n. destruct (Nat.ltb_spec 0 n) as [H0|H0].
  - rewrite bind_assoc. apply wp_bind. eapply wp_conseq; [apply gospa_matrix|]. intros C HC.
    apply wp_bind. eapply wp_conseq; [apply (lap_topt n gospa_entry _ HC Hn)|].
    intros sol (s & -> & Hs). eapply wp_conseq; [apply gospa_rest; auto; apply Hs|].
    intros v ->. right. split; auto. exists s. auto.
  - apply wp_ret. left. split; auto. lia.
Qed.

Lemma gospa_total : exists fuel0 v, (forall fuel, fuel0 <= fuel -> gospa fuel X Y c p = Ok v) /\ gospa_result v.
Proof.
  assert (A : exists fuel0 v, forall fuel, fuel0 <= fuel -> gospa fuel X Y c p = Ok v).
  { unfold gospa. fold M N n. destruct (Nat.ltb_spec 0 n) as [H0|H0]; [|exists 0; eauto].
    pose proof (gospa_matrix False) as HC.
    destruct (fill X Y _) as [C0| |]; cbn [bind wp] in HC; try tauto. cbn [bind].
    destruct (for_loop M 0 _ C0) as [C| |]; cbn [wp] in HC; try tauto.
    destruct (lap_simple_total n _ _ HC Hn) as (fuel0 & sol & Hsol).
    pose proof (lap_topt n _ _ HC Hn fuel0) as Ht. rewrite Hsol in Ht by auto.
    destruct Ht as (s & -> & Hs).
    exists fuel0, (Fin (gospa_val s)). intros fuel Hf. cbn [bind]. rewrite Hsol by auto. cbn [bind].
    pose proof (gospa_rest False _ s HC (proj1 Hs)) as Hr.
    destruct (lap_cost _ _ _) as [v| |]; cbn [bind wp] in Hr; try tauto. cbn [bind]. f_equal. exact Hr. }
  destruct A as (fuel0 & v & H). exists fuel0, v. split; auto.
  pose proof (gospa_spec fuel0) as S. rewrite H in S by auto. exact S.
Qed.
End Metrics.
