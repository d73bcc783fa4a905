(** A correction of a cluster against the posterior of the whole scene. *)
From Coq Require Import List Arith Bool Reals Lia Lra.
Import ListNotations.
From Verif Require Import Res Scalar Lap Murty MurtyMain Cluster ClusterSpec ClusterProofs ClusterMain PosteriorSpec PosteriorProofs PosteriorMain SplitSpec SplitProofs.
Local Open Scope nat_scope.

Lemma near_valid Nc Nr t : valid_target (Nc + Nr) t -> valid_target Nc (near Nc t).
Proof.
  intros (P & Q & S & T). split; auto. split; [cbn; rewrite firstn_length; lia|]. split; auto.
  cbn. intros l Hl. apply S. rewrite <- (firstn_skipn Nc). apply in_app_iff. auto.
Qed.
Lemma near_at Nc tc i : nth i (map (near Nc) tc) no_target = near Nc (nth i tc no_target).
Proof. replace no_target with (near Nc no_target) at 1; [apply map_nth|]. unfold near, no_target. cbn. rewrite firstn_nil. auto. Qed.

Section Scene.
Variables (Nc Nr : nat) (tc tr : list target_in).
Hypothesis Hts : forall t, In t (tc ++ tr) -> valid_target (Nc + Nr) t.
Variables all allc : list (list fate).
Hypothesis Hnd : NoDup all.
Hypothesis Hall : forall q, In q all <-> joint (Nc + Nr) (length (tc ++ tr)) q.
Hypothesis Hndc : NoDup allc.
Hypothesis Hallc : forall q, In q allc <-> joint Nc (length tc) q.
Hypothesis HU : (0 < sum_over (joint_weight (tc ++ tr)) all)%R.
Hypothesis HC : (0 < sum_over (joint_weight (map (near Nc) tc)) allc)%R.

Lemma scene_bound : forall pick, valid_pick pick -> forall w_lim nhyp_max, length tc <= 30 -> tc <> [] ->
  forall fuel out, correct exp pick w_lim nhyp_max fuel Nc (map (near Nc) tc) = Ok out ->
  forall L, (0 <= w_lim)%R -> (INR (c_n out) < nhyp_max)%R -> (1 <= L)%R ->
  (forall i j, i < length tc -> j < Nc -> (t_r (nth i tc no_target) * nth j (t_lik (nth i tc no_target)) 0 <= L)%R) ->
  (forall i, i < length tc -> (t_r (nth i tc no_target) * t_miss (nth i tc no_target) <= L)%R) ->
  let z := (INR (c_n out) * (tiny * L ^ (length tc - 1)) / sum_over (joint_weight (map (near Nc) tc)) allc)%R in
  let e := (Rmax (INR (length allc) * w_lim * (1 + z)) z + posterior (tc ++ tr) all (crosses Nc (length tc)))%R in
  (forall i, i < length tc -> exists p, (Rabs (p - posterior (tc ++ tr) all (alive i)) <= e)%R /\
     nth i (c_r out) NaN = Fin (if Rlt_dec p (1 / 1000000) then 0%R else p)) /\
  (forall j, j < Nc -> exists b, nth j (c_rB out) NaN = Fin b /\ (Rabs (b - (1 - posterior (tc ++ tr) all (taken j))) <= e)%R).
Proof.
  intros pick Hp w_lim nhyp_max Hlen Hne fuel out Hr L Hw Hn HL H1 H2 z e.
  assert (V : forall t, In t (map (near Nc) tc) -> valid_target Nc t).
  { intros t Ht. apply in_map_iff in Ht. destruct Ht as (u & <- & Hu). apply (near_valid Nc Nr). apply Hts, in_app_iff. auto. }
  destruct (posterior_bound Nc (map (near Nc) tc) V pick Hp w_lim nhyp_max) with (fuel := fuel) (out := out) (all := allc) (L := L) as [A B]; auto.
  - rewrite map_length. auto.
  - intros E. apply map_eq_nil in E. auto.
  - rewrite map_length. auto.
  - intros i j Hi Hj. rewrite map_length in Hi. rewrite near_at. cbn. rewrite nth_firstn by auto. auto.
  - intros i Hi. rewrite map_length in Hi. rewrite near_at. cbn. auto.
  - rewrite map_length in A, B. fold z in A, B.
    destruct (split_close Nc Nr tc tr Hts all allc Hnd Hall Hndc Hallc HU HC) as (_ & _ & SA & SB).
    assert (T : forall p q s x y, (Rabs (p - q) <= x -> Rabs (q - s) <= y -> Rabs (p - s) <= x + y)%R).
    { intros p q s x y K1 K2. replace (p - s)%R with ((p - q) + (q - s))%R by ring. eapply Rle_trans; [apply Rabs_triang|]. lra. }
    split.
    + intros i Hi. destruct (A i Hi) as (p & P1 & P2). exists p. split; auto. eapply T; [apply P1|apply SA; auto].
    + intros j Hj. destruct (B j Hj) as (b & P1 & P2). exists b. split; auto. eapply T; [apply P2|].
      rewrite <- Rabs_Ropp. replace (- _)%R with (posterior (map (near Nc) tc) allc (taken j) - posterior (tc ++ tr) all (taken j))%R by ring. apply SB; auto.
Qed.

Lemma crossing_null : 
  (forall t j, In t tc -> Nc <= j -> nth j (t_lik t) 0%R = 0%R) -> (forall t j, In t tr -> j < Nc -> nth j (t_lik t) 0%R = 0%R) ->
  posterior (tc ++ tr) all (crosses Nc (length tc)) = 0%R.
Proof.
  intros H1 H2. unfold posterior. replace (sum_over (fun q => if crosses Nc (length tc) q then _ else _) all) with 0%R; [unfold Rdiv; ring|].
  rewrite (sumf_ext _ (fun q => joint_weight (tc ++ tr) q * 0)%R); [rewrite sum_scale; ring|].
  intros q Hq. destruct (crosses Nc (length tc) q) eqn:X; [|ring]. rewrite Rmult_0_r.
  apply Hall in Hq. destruct Hq as [Hl _]. rewrite app_length in Hl.
  assert (K : exists i, i < length (tc ++ tr) /\ fate_weight (nth i (tc ++ tr) no_target) (nth i q Absent) = 0%R).
  { unfold crosses in X. apply negb_true_iff, andb_false_iff in X. rewrite app_length. destruct X as [X|X].
    - destruct (existsb (fun f => negb (within Nc f)) (firstn (length tc) q)) eqn:F.
      + apply existsb_exists in F. destruct F as (f & Hf & Wf). apply negb_true_iff in Wf. apply (In_nth _ _ Absent) in Hf. destruct Hf as (i & Hi & E).
        rewrite firstn_length in Hi. apply Nat.min_glb_lt_iff in Hi. destruct Hi as [Hi Hi']. exists i. split; [lia|]. rewrite (nth_firstn q (length tc) i Absent Hi) in E. rewrite E, app_nth1 by auto. destruct f as [| |j]; try discriminate.
        unfold within in Wf. apply Nat.ltb_ge in Wf. cbn. rewrite H1; auto; [ring|]. apply nth_In. lia.
      + exfalso. enough (forallb (within Nc) (firstn (length tc) q) = true) by congruence. apply forallb_forall. intros f Hf.
        destruct (within Nc f) eqn:W; auto. enough (existsb (fun f => negb (within Nc f)) (firstn (length tc) q) = true) by congruence. apply existsb_exists. exists f. rewrite W. auto.
    - destruct (existsb (fun f => negb (beyond Nc f)) (skipn (length tc) q)) eqn:F.
      + apply existsb_exists in F. destruct F as (f & Hf & Wf). apply negb_true_iff in Wf. apply (In_nth _ _ Absent) in Hf. destruct Hf as (i & Hi & E).
        rewrite skipn_length in Hi. exists (length tc + i). split; [lia|]. rewrite nth_skip in E. rewrite E, app_nth2 by lia. destruct f as [| |j]; try discriminate.
        unfold beyond in Wf. apply negb_false_iff, Nat.ltb_lt in Wf. cbn. rewrite H2; auto; [ring|]. apply nth_In. lia.
      + exfalso. enough (forallb (beyond Nc) (skipn (length tc) q) = true) by congruence. apply forallb_forall. intros f Hf.
        destruct (beyond Nc f) eqn:W; auto. enough (existsb (fun f => negb (beyond Nc f)) (skipn (length tc) q) = true) by congruence. apply existsb_exists. exists f. rewrite W. auto. }
  destruct K as (i & Hi & E). unfold joint_weight.
  replace (seq 0 (length (tc ++ tr))) with (seq 0 i ++ i :: seq (S i) (length (tc ++ tr) - S i)).
  - rewrite prod_app. cbn. rewrite E. ring.
  - replace (length (tc ++ tr)) with (i + S (length (tc ++ tr) - S i)) at 2 by lia. rewrite seq_app. reflexivity.
Qed.

Lemma apart_exact : 
  (forall t j, In t tc -> Nc <= j -> nth j (t_lik t) 0%R = 0%R) -> (forall t j, In t tr -> j < Nc -> nth j (t_lik t) 0%R = 0%R) ->
  let same A := posterior (map (near Nc) tc) allc A = posterior (tc ++ tr) all A in
  (forall i j, i < length tc -> j < Nc -> same (caused i j)) /\ (forall i, i < length tc -> same (missed i)) /\
  (forall i, i < length tc -> same (alive i)) /\ (forall j, j < Nc -> same (taken j)).
Proof.
  intros H1 H2 same. destruct (split_close Nc Nr tc tr Hts all allc Hnd Hall Hndc Hallc HU HC) as (A & B & C & D).
  rewrite crossing_null in A, B, C, D by auto.
  assert (E : forall x y, (Rabs (x - y) <= 0 -> x = y)%R).
  { intros x y K. pose proof (Rabs_pos (x - y)). destruct (Req_dec (x - y) 0) as [Z|Z]; [lra|]. apply Rabs_pos_lt in Z. lra. }
  unfold same. repeat split; intros; apply E; auto.
Qed.
End Scene.
