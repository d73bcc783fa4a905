(** The posterior of a scene and of a cluster of it. *)
From Coq Require Import List Arith Bool Reals Lia Lra.
Import ListNotations.
From Verif Require Import Cluster ClusterSpec ClusterProofs ClusterMain PosteriorSpec PosteriorProofs PosteriorMain SplitSpec.
Local Open Scope nat_scope.

Lemma prod_app {A} (f : A -> R) l l' : prod_over f (l ++ l') = (prod_over f l * prod_over f l')%R.
Proof. induction l as [|a l IH]; cbn; [lra|]. rewrite IH. lra. Qed.
Lemma prod_shift (f : nat -> R) k n : prod_over f (seq k n) = prod_over (fun i => f (k + i)) (seq 0 n).
Proof.
  revert k f. induction n as [|n IH]; intros k f; cbn; auto. rewrite Nat.add_0_r. f_equal. rewrite IH. rewrite (IH 1).
  apply prod_over_ext. intros i _. f_equal. lia.
Qed.
Lemma nth_firstn {A} (l : list A) n j d : j < n -> nth j (firstn n l) d = nth j l d.
Proof. revert l j. induction n as [|n IH]; intros l j H; [lia|]. destruct l; cbn; auto. destruct j; auto. apply IH. lia. Qed.
Lemma nth_skip {A} (l : list A) n j d : nth j (skipn n l) d = nth (n + j) l d.
Proof. revert l. induction n as [|n IH]; intros l; [auto|]. destruct l; [destruct j; auto|]. apply IH. Qed.
Lemma sum_flat {A B} (f : B -> R) (g : A -> list B) l : sum_over f (flat_map g l) = sum_over (fun a => sum_over f (g a)) l.
Proof. induction l as [|a l IH]; cbn; auto. rewrite sumf_app, IH. auto. Qed.
Lemma sum_scale {A} (f : A -> R) c l : sum_over (fun a => f a * c)%R l = (sum_over f l * c)%R.
Proof. induction l as [|a l IH]; cbn; [lra|]. rewrite IH. lra. Qed.
Lemma sum_scale_l {A} (f : A -> R) c l : sum_over (fun a => c * f a)%R l = (c * sum_over f l)%R.
Proof. induction l as [|a l IH]; cbn; [lra|]. rewrite IH. lra. Qed.

Section Split.
Variables (Nc Nr : nat) (tc tr : list target_in).
Hypothesis Hts : forall t, In t (tc ++ tr) -> valid_target (Nc + Nr) t.
Let m := length tc.
Definition far (t : target_in) : target_in := mkTin (t_r t) (skipn Nc (t_lik t)) (t_miss t).
Definition shift (f : fate) : fate := match f with Seen j => Seen (Nc + j) | f => f end.
Definition whole (a b : list fate) : list fate := a ++ map shift b.

Lemma shift_nth b i : nth i (map shift b) Absent = shift (nth i b Absent).
Proof. change Absent with (shift Absent) at 1. apply map_nth. Qed.
Lemma shift_inj a b : map shift a = map shift b -> a = b.
Proof.
  revert b. induction a as [|f a IH]; intros [|g b] E; try discriminate; auto. cbn in E. injection E as E1 E2. f_equal; auto.
  destruct f, g; cbn in E1; try discriminate; auto. injection E1 as E1. f_equal. lia.
Qed.
Lemma unshift b : forallb (beyond Nc) b = true -> exists c, b = map shift c.
Proof.
  induction b as [|f b IH]; [exists []; auto|]. cbn [forallb]. rewrite andb_true_iff. intros [H1 H2]. destruct (IH H2) as (c & ->).
  destruct f as [| |j]; [exists (Absent :: c)|exists (Missed :: c)|exists (Seen (j - Nc) :: c)]; auto. cbn. do 2 f_equal.
  unfold beyond in H1. destruct (Nat.ltb_spec j Nc) as [K|K]; [cbn in H1; discriminate H1|]. lia.
Qed.

Lemma whole_joint a b : joint Nc m a -> joint Nr (length tr) b -> joint (Nc + Nr) (length (tc ++ tr)) (whole a b) /\ crosses Nc m (whole a b) = false.
Proof.
  intros (A1 & A2 & A3) (B1 & B2 & B3). rewrite app_length. fold m. split.
  - split; [unfold whole; rewrite app_length, map_length; lia|]. split.
    + intros j Hj. unfold whole in Hj. apply in_app_iff in Hj. destruct Hj as [Hj|Hj]; [specialize (A2 j Hj); lia|].
      apply in_map_iff in Hj. destruct Hj as (f & E & Hf). destruct f; try discriminate. injection E as <-. specialize (B2 _ Hf). lia.
    + assert (X : forall i j, i < m + length tr -> nth i (whole a b) Absent = Seen j ->
        (i < m /\ j < Nc /\ nth i a Absent = Seen j) \/ (m <= i /\ Nc <= j /\ nth (i - m) b Absent = Seen (j - Nc))).
      { intros i j Hi E. unfold whole in E. destruct (Nat.lt_ge_cases i m).
        - rewrite app_nth1 in E by lia. left. split; auto. split; auto. apply A2. rewrite <- E. apply nth_In. lia.
        - rewrite app_nth2 in E by lia. rewrite A1, shift_nth in E. right. split; auto. destruct (nth (i - m) b Absent) as [| |k]; try discriminate.
          cbn in E. injection E as <-. split; [lia|]. f_equal. lia. }
      intros i k j Hi Hk E1 E2. apply X in E1; auto. apply X in E2; auto.
      destruct E1 as [(P1 & P2 & P3)|(P1 & P2 & P3)]; destruct E2 as [(Q1 & Q2 & Q3)|(Q1 & Q2 & Q3)]; try lia.
      * apply (A3 i k j); auto.
      * assert (i - m = k - m) by (apply (B3 _ _ (j - Nc)); auto; lia). lia.
  - unfold crosses, whole. rewrite <- A1, firstn_app, skipn_app, Nat.sub_diag, firstn_all, skipn_all. cbn [firstn skipn app]. rewrite app_nil_r.
    apply negb_false_iff, andb_true_iff. split; apply forallb_forall; intros f Hf.
    + destruct f; auto. unfold within. apply Nat.ltb_lt. apply A2, Hf.
    + apply in_map_iff in Hf. destruct Hf as (g & <- & Hg). destruct g; auto. unfold shift, beyond. apply negb_true_iff, Nat.ltb_ge. lia.
Qed.
Lemma split_joint q : joint (Nc + Nr) (length (tc ++ tr)) q -> crosses Nc m q = false ->
  exists a b, q = whole a b /\ joint Nc m a /\ joint Nr (length tr) b.
Proof.
  rewrite app_length. fold m. intros (H1 & H2 & H3) H. apply negb_false_iff, andb_true_iff in H. destruct H as [W B].
  destruct (unshift _ B) as (b & Eb). exists (firstn m q), b.
  assert (Eq : q = whole (firstn m q) b) by (unfold whole; rewrite <- Eb; symmetry; apply firstn_skipn).
  assert (La : length (firstn m q) = m) by (rewrite firstn_length; lia).
  assert (Lb : length b = length tr) by (apply (f_equal (@length fate)) in Eb; rewrite map_length, skipn_length in Eb; lia).
  assert (Na : forall i, i < m -> nth i (firstn m q) Absent = nth i q Absent).
  { intros i Hi. rewrite Eq at 2. unfold whole. rewrite app_nth1 by lia. auto. }
  assert (Nb : forall i, i < length tr -> nth (m + i) q Absent = shift (nth i b Absent)).
  { intros i Hi. rewrite Eq. unfold whole. rewrite app_nth2 by lia. rewrite La. replace (m + i - m) with i by lia. apply shift_nth. }
  split; auto. split.
  - split; auto. split.
    + intros j Hj. rewrite forallb_forall in W. specialize (W _ Hj). unfold within in W. apply Nat.ltb_lt, W.
    + intros i k j Hi Hk. rewrite !Na by auto. intros E1 E2. apply (H3 i k j); auto; lia.
  - split; auto. split.
    + intros j Hj. assert (In (Seen (Nc + j)) q). { rewrite Eq. unfold whole. apply in_app_iff. right. apply (in_map shift) in Hj. exact Hj. }
      specialize (H2 _ H). lia.
    + intros i k j Hi Hk E1 E2. assert (m + i = m + k); [|lia]. apply (H3 _ _ (Nc + j)); try lia; rewrite Nb by auto; [rewrite E1|rewrite E2]; auto.
Qed.
Lemma near_nth i : nth i (map (near Nc) tc) no_target = near Nc (nth i tc no_target).
Proof. replace no_target with (near Nc no_target) at 1; [apply map_nth|]. unfold near, no_target. cbn. rewrite firstn_nil. auto. Qed.
Lemma far_nth i : nth i (map far tr) no_target = far (nth i tr no_target).
Proof. replace no_target with (far no_target) at 1; [apply map_nth|]. unfold far, no_target. cbn. rewrite skipn_nil. auto. Qed.
Lemma whole_weight a b : joint Nc m a -> joint Nr (length tr) b ->
  joint_weight (tc ++ tr) (whole a b) = (joint_weight (map (near Nc) tc) a * joint_weight (map far tr) b)%R.
Proof.
  intros (A1 & A2 & _) (B1 & B2 & _). unfold joint_weight. rewrite app_length, seq_app, prod_app, !map_length. fold m. f_equal.
  - apply prod_over_ext. intros i Hi. apply in_seq in Hi. rewrite near_nth. unfold whole. rewrite !app_nth1 by lia.
    destruct (nth i a Absent) as [| |j] eqn:E; cbn; auto. rewrite nth_firstn; auto. apply A2. rewrite <- E. apply nth_In. lia.
  - rewrite prod_shift. apply prod_over_ext. intros i Hi. apply in_seq in Hi. rewrite far_nth. unfold whole. rewrite !app_nth2 by lia. fold m. rewrite A1.
    replace (0 + m + i - m) with i by lia. rewrite shift_nth. destruct (nth i b Absent) as [| |j] eqn:E; cbn; auto. rewrite nth_skip. auto.
Qed.

Variables all allc : list (list fate).
Hypothesis Hnd : NoDup all.
Hypothesis Hall : forall q, In q all <-> joint (Nc + Nr) (length (tc ++ tr)) q.
Hypothesis Hndc : NoDup allc.
Hypothesis Hallc : forall q, In q allc <-> joint Nc m q.

Lemma nodup_flat {A B C} (g : A -> B -> C) l l' : NoDup l -> NoDup l' -> (forall a a' b b', In a l -> In a' l -> In b l' -> In b' l' -> g a b = g a' b' -> a = a' /\ b = b') ->
  NoDup (flat_map (fun a => map (g a) l') l).
Proof.
  intros Hl Hl'. induction Hl as [|a l Ha Hl IH]; intros H; cbn; [constructor|].
  assert (X : forall (x y : list C), NoDup x -> NoDup y -> (forall c, In c x -> ~ In c y) -> NoDup (x ++ y)).
  { clear. induction x as [|c x IH]; intros y Hx Hy H; cbn; auto. inversion Hx; subst. constructor; [rewrite in_app_iff; intros [K|K]; auto; apply (H c); cbn; auto|].
    apply IH; auto. intros d Hd. apply H. cbn. auto. }
  apply X.
  - assert (Inj : forall b b', In b l' -> In b' l' -> g a b = g a b' -> b = b') by (intros b b' Hb Hb' E; apply (H a a); cbn; auto).
    clear - Hl' Inj. induction Hl' as [|b l' Hb Hl IH]; cbn; constructor.
    + intros K. apply in_map_iff in K. destruct K as (b' & E & Hb'). apply Hb. rewrite (Inj b b'); cbn; auto.
    + apply IH. intros; apply Inj; cbn; auto.
  - apply IH. intros; apply H; cbn; auto.
  - intros c Hc Hc'. apply in_map_iff in Hc. destruct Hc as (b & <- & Hb). apply in_flat_map in Hc'. destruct Hc' as (a' & Ha' & K).
    apply in_map_iff in K. destruct K as (b' & E & Hb'). apply Ha. destruct (H a a' b b') as [-> _]; cbn; auto.
Qed.

Lemma cluster_close (E A : list fate -> bool) :
  (0 < sum_over (joint_weight (tc ++ tr)) all)%R -> (0 < sum_over (joint_weight (map (near Nc) tc)) allc)%R ->
  (forall q, In q all -> crosses Nc m q = false -> E q = A (firstn m q)) ->
  (Rabs (posterior (map (near Nc) tc) allc A - posterior (tc ++ tr) all E) <= posterior (tc ++ tr) all (crosses Nc m))%R.
Proof.
  intros HU HC HE. destruct (joint_listed Nr (length tr)) as (allr & Hndr & Hallr).
  set (W := joint_weight (tc ++ tr)). set (Wc := joint_weight (map (near Nc) tc)). set (Wr := joint_weight (map far tr)).
  set (X := crosses Nc m).
  assert (Jn : forall q, (0 <= W q)%R) by (apply (joint_nonneg (Nc + Nr)); auto).
  assert (Jc : forall q, (0 <= Wc q)%R).
  { apply (joint_nonneg Nc). intros t Ht. apply in_map_iff in Ht. destruct Ht as (u & <- & Hu). destruct (Hts u) as (P & Q & S & T); [apply in_app_iff; auto|].
    split; auto. split; [cbn; rewrite firstn_length; lia|]. split; auto. cbn. intros l Hl. apply S. rewrite <- (firstn_skipn Nc). apply in_app_iff. auto. }
  assert (Jr : forall q, (0 <= Wr q)%R).
  { apply (joint_nonneg Nr). intros t Ht. apply in_map_iff in Ht. destruct Ht as (u & <- & Hu). destruct (Hts u) as (P & Q & S & T); [apply in_app_iff; auto|].
    split; auto. split; [cbn; rewrite skipn_length; lia|]. split; auto. cbn. intros l Hl. apply S. rewrite <- (firstn_skipn Nc). apply in_app_iff. auto. }
  assert (NX : forall f, sum_over f (filter (fun q => negb (X q)) all) = sum_over (fun a => sum_over (fun b => f (whole a b)) allr) allc).
  { intros f. rewrite <- (Permutation_sumf f (flat_map (fun a => map (whole a) allr) allc)).
    - rewrite sum_flat. apply sumf_ext. intros a _. apply sum_map.
    - apply Permutation.NoDup_Permutation.
      + apply nodup_flat; auto. intros a a' b b' Ha Ha' Hb Hb' K. apply Hallc in Ha, Ha'. destruct Ha as [Ha _], Ha' as [Ha' _]. unfold whole in K.
        assert (K1 : a = a') by (apply (f_equal (firstn m)) in K; rewrite !firstn_app, Ha, Ha', Nat.sub_diag in K; rewrite <- Ha in K at 1; rewrite firstn_all, <- Ha', firstn_all in K; cbn in K; rewrite !app_nil_r in K; exact K).
        subst a'. apply app_inv_head in K. split; auto. apply shift_inj, K.
      + apply NoDup_filter, Hnd.
      + intros q. rewrite in_flat_map, filter_In, negb_true_iff. split.
        * intros (a & Ha & Hq). apply in_map_iff in Hq. destruct Hq as (b & <- & Hb). apply Hallc in Ha. apply Hallr in Hb.
          destruct (whole_joint a b Ha Hb) as [P Q]. split; auto. apply Hall, P.
        * intros [Hq HX]. apply Hall in Hq. destruct (split_joint q Hq HX) as (a & b & -> & Ha & Hb). exists a. split; [apply Hallc, Ha|]. apply in_map, Hallr, Hb. }
  set (Er := sum_over Wr allr). assert (Er0 : (0 <= Er)%R) by (apply sumf_nonneg; auto).
  assert (NE : forall (D B : list fate -> bool), (forall q, In q all -> X q = false -> D q = B (firstn m q)) ->
    sum_over (fun q => if D q then W q else 0%R) (filter (fun q => negb (X q)) all) = (sum_over (fun a => if B a then Wc a else 0) allc * Er)%R).
  { intros D B HD. rewrite NX. rewrite <- sum_scale. apply sumf_ext. intros a Ha. apply Hallc in Ha. unfold Er. rewrite <- sum_scale_l. apply sumf_ext. intros b Hb. apply Hallr in Hb.
    destruct (whole_joint a b Ha Hb) as [P Q]. rewrite HD by (auto; apply Hall, P).
    replace (firstn m (whole a b)) with a by (unfold whole; destruct Ha as [<- _]; rewrite firstn_app, Nat.sub_diag, firstn_all; cbn; rewrite app_nil_r; auto).
    unfold W. rewrite whole_weight by auto. fold Wc Wr. destruct (B a); lra. }
  assert (SP : forall f : list fate -> R, sum_over f all = (sum_over f (filter (fun q => negb (X q)) all) + sum_over (fun q => if X q then f q else 0) all)%R).
  { intros f. rewrite sum_filter, <- sumf_plus. apply sumf_ext. intros q _. destruct (X q); cbn; lra. }
  unfold posterior. fold W Wc.
  set (c := sum_over (fun q => if A q then Wc q else 0%R) allc). set (c' := sum_over (fun q => if A q then 0%R else Wc q) allc).
  assert (Ec : sum_over Wc allc = (c + c')%R) by apply sum_event.
  set (x := sum_over (fun q => if X q then (if E q then W q else 0) else 0)%R all). set (x' := sum_over (fun q => if X q then (if E q then 0 else W q) else 0)%R all).
  assert (E1 : sum_over (fun q => if E q then W q else 0%R) all = (c * Er + x)%R) by (rewrite SP, (NE E A HE); reflexivity).
  assert (Ex : sum_over (fun q => if X q then W q else 0%R) all = (x + x')%R).
  { unfold x, x'. rewrite <- sumf_plus. apply sumf_ext. intros q _. destruct (X q), (E q); lra. }
  assert (E2 : sum_over W all = (c * Er + x + (c' * Er + x'))%R).
  { rewrite SP, Ex. rewrite (sumf_ext W (fun q => if (fun _ => true) q then W q else 0%R) (filter _ _)) by auto.
    rewrite (NE (fun _ => true) (fun _ => true)) by auto. fold Wc. change (sum_over (fun a => Wc a) allc) with (sum_over Wc allc). rewrite Ec. lra. }
  assert (c0 : (0 <= c)%R) by (apply sumf_nonneg; intros q _; destruct (A q); auto; lra).
  assert (c'0 : (0 <= c')%R) by (apply sumf_nonneg; intros q _; destruct (A q); auto; lra).
  assert (x0 : (0 <= x)%R) by (apply sumf_nonneg; intros q _; destruct (X q), (E q); auto; lra).
  assert (x'0 : (0 <= x')%R) by (apply sumf_nonneg; intros q _; destruct (X q), (E q); auto; lra).
  fold W Wc in HU, HC. rewrite Ec in *. rewrite E1, Ex, E2 in *.
  assert (D01 : forall a b, (0 <= a -> 0 <= b -> 0 < a + b -> 0 <= a / (a + b) <= 1)%R).
  { intros a b Ha Hb Hab. split; [apply Rmult_le_pos; [auto|left; apply Rinv_0_lt_compat; auto]|]. apply (Rmult_le_reg_r (a + b)); auto. unfold Rdiv. rewrite Rmult_assoc, Rinv_l by lra. lra. }
  destruct (Rlt_dec 0 Er) as [P|P].
  - replace (c / (c + c'))%R with ((c * Er + 0) / (c * Er + 0 + (c' * Er + 0)))%R by (field; split; nra).
    eapply Rle_trans; [apply (shared_part (c * Er) x 0 (c' * Er) x' 0); auto; try lra; try (apply Rmult_le_pos; auto)|].
    + assert (0 < (c + c') * Er)%R by (apply Rmult_lt_0_compat; auto). lra.
    + right. f_equal. rewrite Rplus_0_l. apply Rmax_left. lra.
  - assert (Er = 0)%R by lra. rewrite H, !Rmult_0_r, !Rplus_0_l in *. pose proof (D01 c c' c0 c'0 HC). pose proof (D01 x x' x0 x'0 HU).
    unfold Rdiv at 3. rewrite Rinv_r by lra. apply Rabs_le. lra.
Qed.

Lemma events_agree q : In q all -> crosses Nc m q = false ->
  (forall i j, i < m -> j < Nc -> caused i j q = caused i j (firstn m q)) /\
  (forall i, i < m -> missed i q = missed i (firstn m q)) /\
  (forall i, i < m -> alive i q = alive i (firstn m q)) /\
  (forall j, j < Nc -> taken j q = taken j (firstn m q)).
Proof.
  intros Hq HX. apply Hall in Hq. destruct Hq as [Hl _]. rewrite app_length in Hl. fold m in Hl.
  assert (N : forall i, i < m -> nth i (firstn m q) Absent = nth i q Absent) by (intros; apply nth_firstn; auto).
  split; [intros; unfold caused; rewrite N; auto|]. split; [intros; unfold missed; rewrite N; auto|]. split; [intros; unfold alive; rewrite N; auto|].
  intros j Hj. unfold taken. rewrite <- (firstn_skipn m q) at 1. rewrite existsb_app.
  unfold crosses in HX. apply negb_false_iff, andb_true_iff in HX. destruct HX as [_ HB].
  assert (existsb (fate_eqb (Seen j)) (skipn m q) = false); [|rewrite H; apply orb_false_r].
  destruct (existsb _ (skipn m q)) eqn:F; auto. apply existsb_exists in F. destruct F as (f & Hf & Ef). apply fate_eqb_eq in Ef. subst f.
  rewrite forallb_forall in HB. specialize (HB _ Hf). unfold beyond in HB. destruct (Nat.ltb_spec j Nc) as [K|K]; [cbn in HB; discriminate HB|lia].
Qed.

Lemma split_close :
  (0 < sum_over (joint_weight (tc ++ tr)) all)%R -> (0 < sum_over (joint_weight (map (near Nc) tc)) allc)%R ->
  let x := posterior (tc ++ tr) all (crosses Nc m) in
  let close A := (Rabs (posterior (map (near Nc) tc) allc A - posterior (tc ++ tr) all A) <= x)%R in
  (forall i j, i < m -> j < Nc -> close (caused i j)) /\ (forall i, i < m -> close (missed i)) /\
  (forall i, i < m -> close (alive i)) /\ (forall j, j < Nc -> close (taken j)).
Proof.
  intros HU HC x close. unfold close, x.
  repeat split; intros; apply cluster_close; auto; intros q Hq HX; apply (events_agree q Hq HX); auto.
Qed.
End Split.
