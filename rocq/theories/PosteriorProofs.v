(** How far a correction is from the exact posterior. *)
From Coq Require Import List Arith Bool Reals Lia Lra.
Import ListNotations.
From Verif Require Import Res Scalar Lap Murty Cluster ClusterSpec ClusterProofs ClusterMain PosteriorSpec.
Local Open Scope nat_scope.

(** * Two measures that share a part *)
Lemma shared_part b o s b' o' s' : (0 <= b -> 0 <= o -> 0 <= s -> 0 <= b' -> 0 <= o' -> 0 <= s' ->
  0 < b + o + (b' + o') -> 0 < b + s + (b' + s') ->
  Rabs ((b + s) / (b + s + (b' + s')) - (b + o) / (b + o + (b' + o'))) <= Rmax (o + o') (s + s') / (b + o + (b' + o')))%R.
Proof.
  intros Hb Ho Hs Hb' Ho' Hs' HU HV. set (U := (b + o + (b' + o'))%R) in *. set (V := (b + s + (b' + s'))%R) in *.
  set (p := ((b + s) / V)%R). assert (Hp : (b + s = p * V)%R) by (unfold p; field; lra).
  assert (P0 : (0 <= p)%R) by (unfold p; apply Rmult_le_pos; [lra|left; apply Rinv_0_lt_compat; lra]).
  assert (P1 : (p <= 1)%R). { apply (Rmult_le_reg_r V); [lra|]. rewrite <- Hp. unfold V. lra. }
  replace (p - (b + o) / U)%R with ((p * o' - (1 - p) * o + (1 - p) * s - p * s') / U)%R.
  2:{ assert (E : (p * o' - (1 - p) * o + (1 - p) * s - p * s' = p * U - (b + o))%R).
      { unfold U. assert (p * (b + s + (b' + s')) = b + s)%R by (unfold V in Hp; lra). nra. }
      rewrite E. field. lra. }
  pose proof (Rmax_l (o + o') (s + s')) as M1. pose proof (Rmax_r (o + o') (s + s')) as M2. set (m := Rmax (o + o') (s + s')) in *.
  unfold Rdiv. rewrite Rabs_mult, (Rabs_right (/ U)) by (left; apply Rinv_0_lt_compat; lra).
  apply Rmult_le_compat_r; [left; apply Rinv_0_lt_compat; lra|]. apply Rabs_le. 
  assert (0 <= p * o')%R by nra. assert (0 <= p * s')%R by nra. assert (0 <= (1 - p) * o)%R by nra. assert (0 <= (1 - p) * s)%R by nra.
  assert (p * o' <= p * m)%R by (apply Rmult_le_compat_l; lra). assert (p * s' <= p * m)%R by (apply Rmult_le_compat_l; lra).
  assert ((1 - p) * o <= (1 - p) * m)%R by (apply Rmult_le_compat_l; lra). assert ((1 - p) * s <= (1 - p) * m)%R by (apply Rmult_le_compat_l; lra).
  lra.
Qed.

(** * Sums *)
Lemma fate_eqb_eq f g : fate_eqb f g = true <-> f = g.
Proof. destruct f, g; cbn; try (split; congruence). rewrite Nat.eqb_eq. split; congruence. Qed.
Lemma fate_dec (q q' : list fate) : {q = q'} + {q <> q'}.
Proof. apply list_eq_dec. intros f g. destruct (fate_eqb f g) eqn:E; [left; apply fate_eqb_eq, E|right; intros H; apply fate_eqb_eq in H; congruence]. Qed.
Definition rest (used all : list (list fate)) : list (list fate) := filter (fun q => if in_dec fate_dec q used then false else true) all.
Lemma rest_in used all q : In q (rest used all) <-> In q all /\ ~ In q used.
Proof. unfold rest. rewrite filter_In. destruct (in_dec fate_dec q used); intuition congruence. Qed.
Lemma split_sum f used all : NoDup used -> NoDup all -> incl used all -> sum_over f all = (sum_over f used + sum_over f (rest used all))%R.
Proof.
  intros H1 H2 H3. rewrite <- sumf_app. apply Permutation_sumf. apply Permutation.NoDup_Permutation; auto.
  - assert (D : NoDup (rest used all)) by (apply NoDup_filter, H2). revert D. 
    assert (X : forall q, In q used -> ~ In q (rest used all)) by (intros q Hq; rewrite rest_in; tauto).
    revert X. generalize (rest used all) as r. clear H3. induction H1 as [|a l Ha Hl IH]; intros r X D; cbn; auto.
    constructor; [rewrite in_app_iff; intros [K|K]; auto; apply (X a); cbn; auto|]. apply IH; auto. intros q Hq. apply X. cbn. auto.
  - intros q. rewrite in_app_iff, rest_in. destruct (in_dec fate_dec q used); intuition.
Qed.
Lemma sum_map {A B} (g : A -> B) f l : sum_over f (map g l) = sum_over (fun a => f (g a)) l.
Proof. induction l; cbn; congruence. Qed.
Lemma sum_filter {A} (p : A -> bool) f l : sum_over f (filter p l) = sum_over (fun a => if p a then f a else 0%R) l.
Proof. induction l as [|a l IH]; cbn; auto. destruct (p a); cbn; rewrite IH; lra. Qed.
Lemma sum_event {A} (p : A -> bool) f l : sum_over f l = (sum_over (fun a => if p a then f a else 0) l + sum_over (fun a => if p a then 0 else f a) l)%R.
Proof. induction l as [|a l IH]; cbn; [lra|]. rewrite IH. destruct (p a); lra. Qed.

Section Posterior.
Variables (N : nat) (ts : list target_in).
Hypothesis Hts : forall t, In t ts -> valid_target N t.
Let M := length ts.

(** * Columns and fates *)
Definition fate_of (i j : nat) : fate := if j <? N then Seen j else if j =? N + i then Missed else Absent.
Definition column (i : nat) (f : fate) : nat := match f with Absent => N + M + i | Missed => N + i | Seen j => j end.
Definition fates (s : list nat) : list fate := map (fun i => fate_of i (nth i s 0)) (seq 0 M).
Definition columns (q : list fate) : list nat := map (fun i => column i (nth i q Absent)) (seq 0 M).
(** The weight without the numbers that stand for impossible choices. *)
Definition pure (i j : nat) : R :=
  if j <? N then (t_r (nth i ts no_target) * nth j (t_lik (nth i ts no_target)) 0)%R
  else if j =? N + i then (t_r (nth i ts no_target) * t_miss (nth i ts no_target))%R
  else if j =? N + M + i then (1 - t_r (nth i ts no_target))%R else 0%R.
Definition pweight (s : list nat) : R := prod_over (fun i => pure i (nth i s 0)) (seq 0 M).

Lemma fates_nth s i : i < M -> nth i (fates s) Absent = fate_of i (nth i s 0).
Proof. intros H. unfold fates. rewrite nth_map_seq by auto. reflexivity. Qed.
Lemma columns_nth q i : i < M -> nth i (columns q) 0 = column i (nth i q Absent).
Proof. intros H. unfold columns. rewrite nth_map_seq by auto. reflexivity. Qed.
Lemma fates_length s : length (fates s) = M. Proof. unfold fates. rewrite map_length, seq_length. auto. Qed.
Lemma columns_length q : length (columns q) = M. Proof. unfold columns. rewrite map_length, seq_length. auto. Qed.

Lemma fates_columns q : joint N M q -> fates (columns q) = q.
Proof.
  intros (H1 & H2 & H3). apply nth_ext with (d := Absent) (d' := Absent); [rewrite fates_length; auto|].
  intros i Hi. rewrite fates_length in Hi. rewrite fates_nth, columns_nth by auto. unfold fate_of, column.
  destruct (nth i q Absent) as [| |j] eqn:E.
  - destruct (Nat.ltb_spec (N + M + i) N); [lia|]. destruct (Nat.eqb_spec (N + M + i) (N + i)); auto. lia.
  - destruct (Nat.ltb_spec (N + i) N); [lia|]. rewrite Nat.eqb_refl. auto.
  - assert (j < N) by (apply H2; rewrite <- E; apply nth_In; lia). destruct (Nat.ltb_spec j N); auto. lia.
Qed.
Lemma prod_zero {A} (f : A -> R) l x : In x l -> f x = 0%R -> prod_over f l = 0%R.
Proof. induction l as [|a l IH]; cbn; [tauto|]. intros [->|H] E; [rewrite E|rewrite IH by auto]; lra. Qed.
Lemma pweight_columns s : length s = M -> pweight s <> 0%R -> columns (fates s) = s.
Proof.
  intros Hl H. apply nth_ext with (d := 0) (d' := 0); [rewrite columns_length; auto|]. intros i Hi. rewrite columns_length in Hi.
  rewrite columns_nth, fates_nth by auto. unfold column, fate_of.
  destruct (Nat.ltb_spec (nth i s 0) N); auto. destruct (Nat.eqb_spec (nth i s 0) (N + i)); auto.
  destruct (Nat.eq_dec (nth i s 0) (N + M + i)) as [E|E]; auto. exfalso. apply H. unfold pweight. apply (prod_zero _ _ i); [apply in_seq; lia|].
  unfold pure. destruct (Nat.ltb_spec (nth i s 0) N); [lia|]. destruct (Nat.eqb_spec (nth i s 0) (N + i)); [lia|].
  destruct (Nat.eqb_spec (nth i s 0) (N + M + i)); [lia|]. auto.
Qed.
Lemma fates_joint s : length s = M -> NoDup s -> joint N M (fates s).
Proof.
  intros Hl Hn. split; [apply fates_length|]. split.
  - intros j Hj. unfold fates in Hj. apply in_map_iff in Hj. destruct Hj as (i & E & _). unfold fate_of in E.
    destruct (Nat.ltb_spec (nth i s 0) N); [injection E as <-; auto|]. destruct (_ =? _); discriminate.
  - assert (X : forall i j, i < M -> nth i (fates s) Absent = Seen j -> nth i s 0 = j).
    { intros i j Hi. rewrite fates_nth by auto. unfold fate_of. destruct (Nat.ltb_spec (nth i s 0) N); [congruence|]. destruct (_ =? _); discriminate. }
    intros i k j Hi Hk E1 E2. apply X in E1; auto. apply X in E2; auto.
    apply (proj1 (NoDup_nth s 0) Hn); try lia; congruence.
Qed.
Lemma joint_columns q : joint N M q -> joint_weight ts q = pweight (columns q).
Proof.
  intros Hq. pose proof Hq as (H1 & H2 & H3). unfold joint_weight, pweight. apply prod_over_ext. intros i Hi. apply in_seq in Hi. fold M in Hi.
  rewrite columns_nth by lia. unfold fate_weight, pure, column. destruct (nth i q Absent) as [| |j] eqn:E.
  - destruct (Nat.ltb_spec (N + M + i) N); [lia|]. destruct (Nat.eqb_spec (N + M + i) (N + i)); [lia|]. rewrite Nat.eqb_refl. auto.
  - destruct (Nat.ltb_spec (N + i) N); [lia|]. rewrite Nat.eqb_refl. auto.
  - assert (j < N) by (apply H2; rewrite <- E; apply nth_In; lia). destruct (Nat.ltb_spec j N); auto. lia.
Qed.
Lemma valid_nth i : i < M -> valid_target N (nth i ts no_target).
Proof. intros H. apply Hts, nth_In, H. Qed.
Lemma pure_nonneg i j : i < M -> (0 <= pure i j)%R.
Proof.
  intros Hi. destruct (valid_nth i Hi) as ((A & B) & C & D & E). unfold pure.
  destruct (Nat.ltb_spec j N); [apply Rmult_le_pos; auto; apply D, nth_In; lia|]. destruct (_ =? _); [apply Rmult_le_pos; auto|].
  destruct (_ =? _); lra.
Qed.
Lemma tiny_pos : (0 < tiny)%R. Proof. apply exp_pos. Qed.
Lemma tiny_1 : (tiny <= 1)%R. Proof. unfold tiny. rewrite <- exp_0. left. apply exp_increasing. lra. Qed.
(** The choice is the pure one, or impossible. *)
Lemma pure_or i j : i < M -> pure i j = choice_weight N M i (nth i ts no_target) j \/ pure i j = 0%R /\ choice_weight N M i (nth i ts no_target) j = tiny.
Proof.
  intros Hi. unfold pure, choice_weight. destruct (j <? N); auto. destruct (j =? N + i); auto. destruct (j =? N + M + i); auto.
  destruct (Req_EM_T (t_r (nth i ts no_target)) 1) as [E|E]; auto. right. rewrite E. split; auto. lra.
Qed.
Lemma prod_nonneg {A} (f : A -> R) l : (forall x, In x l -> 0 <= f x)%R -> (0 <= prod_over f l)%R.
Proof. induction l as [|a l IH]; cbn; intros H; [lra|]. apply Rmult_le_pos; auto. Qed.
Lemma pweight_nonneg s : (0 <= pweight s)%R.
Proof. apply prod_nonneg. intros i Hi. apply in_seq in Hi. apply pure_nonneg. lia. Qed.
Lemma pweight_or s : pweight s = weight N ts s \/ pweight s = 0%R.
Proof.
  unfold pweight, weight. fold M. assert (G : forall l, (forall i, In i l -> i < M) ->
    prod_over (fun i => pure i (nth i s 0)) l = prod_over (fun i => choice_weight N M i (nth i ts no_target) (nth i s 0)) l \/ prod_over (fun i => pure i (nth i s 0)) l = 0%R).
  { induction l as [|i l IH]; intros Hl; cbn; auto. destruct (pure_or i (nth i s 0) (Hl i (or_introl eq_refl))) as [->|[-> _]]; [|right; lra].
    destruct IH as [-> | ->]; auto; [intros; apply Hl; cbn; auto|right; lra]. }
  apply G. intros i Hi. apply in_seq in Hi. lia.
Qed.
Lemma weight_nonneg s : (0 <= weight N ts s)%R.
Proof. apply prod_nonneg. intros i Hi. apply in_seq in Hi. apply cw_nonneg, valid_nth. fold M in Hi. lia. Qed.
Lemma pweight_le s : (pweight s <= weight N ts s)%R.
Proof. pose proof (weight_nonneg s). destruct (pweight_or s) as [->| ->]; lra. Qed.

(** Impossible choices weigh little. *)
Lemma prod_le_pow {A} (f : A -> R) L l : (forall x, In x l -> 0 <= f x <= L)%R -> (prod_over f l <= L ^ length l)%R.
Proof.
  induction l as [|a l IH]; cbn; intros H; [lra|]. apply Rmult_le_compat; auto; try apply (H a); auto. apply prod_nonneg. intros; apply H; auto.
Qed.
Lemma spurious_small s L : (1 <= L)%R ->
  (forall i j, i < M -> j < N -> (t_r (nth i ts no_target) * nth j (t_lik (nth i ts no_target)) 0 <= L)%R) ->
  (forall i, i < M -> (t_r (nth i ts no_target) * t_miss (nth i ts no_target) <= L)%R) ->
  (weight N ts s - pweight s <= tiny * L ^ (M - 1))%R.
Proof.
  intros HL H1 H2. pose proof tiny_pos as T0. pose proof tiny_1 as T1.
  assert (PL : forall k, (1 <= L ^ k)%R) by (intros k; apply pow_R1_Rle; auto).
  assert (CL : forall i, i < M -> (0 <= choice_weight N M i (nth i ts no_target) (nth i s 0%nat) <= L)%R).
  { intros i Hi. split; [apply cw_nonneg, valid_nth, Hi|]. destruct (valid_nth i Hi) as ((A & B) & _). unfold choice_weight.
    destruct (Nat.ltb_spec (nth i s 0) N); [apply H1; auto|]. destruct (_ =? _); [apply H2; auto|]. destruct (_ =? _); [destruct (Req_EM_T _ _); lra|lra]. }
  assert (G : forall l, (forall i, In i l -> i < M) ->
    prod_over (fun i => pure i (nth i s 0)) l = prod_over (fun i => choice_weight N M i (nth i ts no_target) (nth i s 0)) l \/
    0 < length l /\ (prod_over (fun i => choice_weight N M i (nth i ts no_target) (nth i s 0%nat)) l <= tiny * L ^ (length l - 1))%R).
  { induction l as [|i l IH]; intros Hl; cbn [prod_over length]; auto. assert (Hi : i < M) by (apply Hl; cbn; auto). pose proof (CL i Hi) as C.
    assert (Hl' : forall k, In k l -> k < M) by (intros; apply Hl; cbn; auto). specialize (IH Hl').
    assert (Pr : (0 <= prod_over (fun i => choice_weight N M i (nth i ts no_target) (nth i s 0%nat)) l <= L ^ length l)%R).
    { split; [apply prod_nonneg; intros k Hk; apply CL; auto|apply prod_le_pow; intros k Hk; apply CL; auto]. }
    replace (S (length l) - 1) with (length l) by lia.
    destruct (pure_or i (nth i s 0) Hi) as [E|[_ E]].
    - destruct IH as [IH|[IH0 IH]]; [left; rewrite E, IH; auto|]. right. split; [lia|].
      apply Rle_trans with (L * (tiny * L ^ (length l - 1)))%R; [apply Rmult_le_compat; tauto|].
      destruct (length l) as [|k] eqn:El; [lia|]. replace (S k - 1) with k by lia. cbn [pow]. lra.
    - right. split; [lia|]. rewrite E. apply Rmult_le_compat_l; lra. }
  destruct (G (seq 0 M)) as [E|[_ E]]; [intros i Hi; apply in_seq in Hi; lia| |].
  - unfold weight, pweight. fold M. rewrite E. pose proof (PL (M - 1)). assert (0 <= tiny * L ^ (M - 1))%R by (apply Rmult_le_pos; lra). lra.
  - rewrite seq_length in E. pose proof (pweight_nonneg s). unfold weight. fold M. lra.
Qed.

(** * The events *)
Lemma says_caused i j s : i < M -> j < N -> says N i j s = caused i j (fates s).
Proof.
  intros Hi Hj. unfold says, caused. rewrite fates_nth by auto. destruct (Nat.ltb_spec j N); [|lia]. unfold fate_of.
  destruct (Nat.ltb_spec (nth i s 0) N); cbn; auto. destruct (Nat.eqb_spec (nth i s 0) j); [lia|]. destruct (_ =? _); auto.
Qed.
Lemma says_missed i s : i < M -> says N i N s = missed i (fates s).
Proof.
  intros Hi. unfold says, missed. rewrite fates_nth by auto. destruct (Nat.ltb_spec N N); [lia|]. unfold fate_of.
  destruct (Nat.ltb_spec (nth i s 0) N); cbn; [destruct (Nat.eqb_spec (nth i s 0) (N + i)); [lia|auto]|]. destruct (_ =? _); auto.
Qed.
Lemma sum_one {A} (u : A -> bool) (c : R) l : NoDup l -> (forall a b, In a l -> In b l -> u a = true -> u b = true -> a = b) ->
  sum_over (fun a => if u a then c else 0%R) l = (if existsb u l then c else 0%R).
Proof.
  induction 1 as [|a l Ha Hl IH]; intros H; cbn; auto. destruct (u a) eqn:E; cbn.
  - rewrite IH by (intros; apply H; cbn; auto). destruct (existsb u l) eqn:Ex; [|lra]. apply existsb_exists in Ex. destruct Ex as (b & Hb & Eb).
    exfalso. apply Ha. rewrite (H a b); cbn; auto.
  - rewrite IH by (intros; apply H; cbn; auto). lra.
Qed.
Lemma bool_eq a b : (a = true <-> b = true) -> a = b.
Proof. destruct a, b; intuition congruence. Qed.
Lemma row_event i s : i < M -> existsb (fun j => says N i j s) (seq 0 (N + 1)) = alive i (fates s).
Proof.
  intros Hi. unfold alive. rewrite fates_nth by auto. apply bool_eq. rewrite existsb_exists. unfold says, fate_of. split.
  - intros (j & Hj & E). apply in_seq in Hj. destruct (Nat.ltb_spec j N).
    + apply Nat.eqb_eq in E. rewrite E. destruct (Nat.ltb_spec j N); [auto|lia].
    + rewrite E. destruct (nth i s 0 <? N); auto.
  - destruct (Nat.ltb_spec (nth i s 0) N); intros E.
    + exists (nth i s 0). split; [apply in_seq; lia|]. destruct (Nat.ltb_spec (nth i s 0) N); [apply Nat.eqb_refl|lia].
    + exists N. split; [apply in_seq; lia|]. destruct (Nat.ltb_spec N N); [lia|]. destruct (_ =? _); auto.
Qed.
Lemma col_event j s : j < N -> existsb (fun i => says N i j s) (seq 0 M) = taken j (fates s).
Proof.
  intros Hj. unfold taken. apply bool_eq. rewrite !existsb_exists. split.
  - intros (i & Hi & E). apply in_seq in Hi. rewrite says_caused in E by lia. unfold caused in E. apply fate_eqb_eq in E.
    exists (Seen j). split; [|cbn; apply Nat.eqb_refl]. rewrite <- E. apply nth_In. rewrite fates_length. lia.
  - intros (f & Hf & E). apply fate_eqb_eq in E. subst f. apply (In_nth _ _ Absent) in Hf. destruct Hf as (i & Hi & E). rewrite fates_length in Hi.
    exists i. split; [apply in_seq; lia|]. rewrite says_caused by auto. unfold caused. rewrite E. cbn. apply Nat.eqb_refl.
Qed.

(** * The fates that were used *)
Section Used.
Variable ds : list (list nat).
Hypothesis Hh : forall d, In d ds -> hypothesis N ts d.
Hypothesis Hnd : NoDup ds.
Variable all : list (list fate).
Hypothesis Hall : NoDup all.
Hypothesis Hin : forall q, In q all <-> joint N M q.
Let possible (s : list nat) : bool := if Rlt_dec 0 (pweight s) then true else false.
Definition used_fates : list (list fate) := map fates (filter possible ds).
Definition spurious : R := sum_over (fun s => weight N ts s - pweight s)%R ds.

Lemma used_inv q : In q used_fates <-> exists s, In s ds /\ (0 < pweight s)%R /\ q = fates s.
Proof.
  unfold used_fates. rewrite in_map_iff. split.
  - intros (s & E & H). apply filter_In in H. destruct H as [H P]. unfold possible in P. destruct (Rlt_dec 0 (pweight s)); [|discriminate]. eauto.
  - intros (s & H & P & E). exists s. split; auto. apply filter_In. split; auto. unfold possible. destruct (Rlt_dec 0 (pweight s)); auto.
Qed.
Lemma used_weight s : In s ds -> (0 < pweight s)%R -> joint_weight ts (fates s) = pweight s.
Proof.
  intros H P. destruct (Hh s H) as (Hl & Hn & _). fold M in Hl. rewrite joint_columns by (apply fates_joint; auto). rewrite pweight_columns; auto. lra.
Qed.
Lemma used_all : incl used_fates all.
Proof. intros q Hq. apply used_inv in Hq. destruct Hq as (s & H & P & ->). apply Hin. destruct (Hh s H) as (Hl & Hn & _). apply fates_joint; auto. Qed.
Lemma used_nd : NoDup used_fates.
Proof.
  unfold used_fates. assert (D : NoDup (filter possible ds)) by (apply NoDup_filter, Hnd).
  assert (X : forall s, In s (filter possible ds) -> In s ds /\ (0 < pweight s)%R).
  { intros s H. apply filter_In in H. destruct H as [H P]. unfold possible in P. destruct (Rlt_dec 0 (pweight s)); [auto|discriminate]. }
  revert X. induction D as [|a l Ha Hl IH]; intros X; cbn; constructor.
  - intros K. apply in_map_iff in K. destruct K as (b & E & Hb). destruct (X a) as [A1 A2]; cbn; auto. destruct (X b) as [B1 B2]; cbn; auto.
    apply Ha. rewrite <- (pweight_columns a), <- E, (pweight_columns b); auto; try (apply Hh; auto); lra.
  - apply IH. intros s Hs. apply X. cbn. auto.
Qed.
Lemma used_sum (A : list fate -> bool) :
  sum_over (fun q => if A q then joint_weight ts q else 0%R) used_fates = sum_over (fun s => if A (fates s) then pweight s else 0%R) ds.
Proof.
  unfold used_fates. rewrite sum_map, sum_filter. apply sumf_ext. intros s Hs. unfold possible. destruct (Rlt_dec 0 (pweight s)) as [P|P].
  - rewrite used_weight by auto. auto.
  - pose proof (pweight_nonneg s). destruct (A (fates s)); lra.
Qed.
Lemma joint_nonneg q : (0 <= joint_weight ts q)%R.
Proof.
  apply prod_nonneg. intros i Hi. apply in_seq in Hi. destruct (valid_nth i) as ((A & B) & C & D & E); [unfold M; lia|]. unfold fate_weight.
  destruct (nth i q Absent) as [| |j]; [lra|apply Rmult_le_pos; auto|]. apply Rmult_le_pos; auto.
  destruct (Nat.lt_ge_cases j N); [apply D, nth_In; lia|rewrite nth_overflow by lia; lra].
Qed.

Lemma event_close (A : list fate -> bool) (p : R) :
  (0 < sum_over (joint_weight ts) all)%R -> (0 < sum_over (weight N ts) ds)%R ->
  p = (sum_over (fun s => if A (fates s) then weight N ts s else 0) ds / sum_over (weight N ts) ds)%R ->
  (Rabs (p - posterior ts all A) <= Rmax (sum_over (joint_weight ts) (rest used_fates all)) spurious / sum_over (joint_weight ts) all)%R.
Proof.
  intros HU HV ->. unfold posterior.
  set (J := joint_weight ts) in *. set (W := weight N ts) in *.
  assert (EA : forall (B : list fate -> bool), sum_over (fun q => if B q then J q else 0%R) all =
    (sum_over (fun s => if B (fates s) then pweight s else 0) ds + sum_over (fun q => if B q then J q else 0) (rest used_fates all))%R).
  { intros B. rewrite (split_sum _ used_fates all used_nd Hall used_all). unfold J. rewrite used_sum. auto. }
  assert (EV : forall (B : list fate -> bool), sum_over (fun s => if B (fates s) then W s else 0%R) ds =
    (sum_over (fun s => if B (fates s) then pweight s else 0) ds + sum_over (fun s => if B (fates s) then W s - pweight s else 0) ds)%R).
  { intros B. rewrite <- sumf_plus. apply sumf_ext. intros s _. destruct (B (fates s)); lra. }
  set (nA := fun q => negb (A q)).
  assert (X : forall {T} (g : T -> list fate) (f : T -> R) l, sum_over (fun a => if A (g a) then 0%R else f a) l = sum_over (fun a => if nA (g a) then f a else 0%R) l).
  { intros T g f l. apply sumf_ext. intros a _. unfold nA. destruct (A (g a)); auto. }
  rewrite (sum_event A J all) in *. rewrite (sum_event (fun s => A (fates s)) W ds) in *.
  rewrite (X _ (fun q => q)) in *. rewrite (X _ fates) in *. rewrite !EA in *. rewrite !EV in *.
  rewrite (sum_event A J (rest used_fates all)). rewrite (X _ (fun q => q)).
  unfold spurious. rewrite (sum_event (fun s => A (fates s)) (fun s => weight N ts s - pweight s)%R ds). rewrite (X _ fates). fold W.
  apply shared_part; auto; apply sumf_nonneg; intros a _.
  - destruct (A (fates a)); [apply pweight_nonneg|lra].
  - destruct (A a); [apply joint_nonneg|lra].
  - destruct (A (fates a)); [pose proof (pweight_le a); unfold W; lra|lra].
  - destruct (nA (fates a)); [apply pweight_nonneg|lra].
  - destruct (nA a); [apply joint_nonneg|lra].
  - destruct (nA (fates a)); [pose proof (pweight_le a); unfold W; lra|lra].
Qed.
End Used.
End Posterior.
