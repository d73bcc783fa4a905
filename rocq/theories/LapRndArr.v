(** The augmenting row reduction with rounded arithmetic: prices stay in range,
    every array access is in bounds, the loop ends, and every row gets a column
    that is cheapest for it up to rounding. *)
From Coq Require Import List Arith Bool Lia ZArith Reals Lra Classical.
From Flocq Require Import Core.
Import ListNotations.
From Verif Require Import Res Scalar Lap LapBase LapArr LapDij LapTerm FloatBase FloatExt LapRnd.
Local Open Scope nat_scope.
Local Open Scope R_scope.

(** The largest bound on the costs. *)
Definition Bd : R := bpow radix2 300.

Lemma Bd_pos : 0 < Bd.
Proof. apply bpow_gt_0. Qed.

(** Sums and differences of numbers in [grid] up to 32 m B are off by at most [dl]. *)
Record arith (m : nat) (B dl : R) (grid : R -> Prop) : Prop := {
  ar_B : 0 < B <= Bd;
  ar_dl : 0 <= dl <= B / 64;
  ar_0 : grid 0;
  ar_sub : forall x y, grid x -> grid y -> Rabs (x - y) <= 32 * INR m * B ->
     nsub roundN (Fin x) (Fin y) = Fin (rnd (x - y)) /\ grid (rnd (x - y)) /\ Rabs (rnd (x - y) - (x - y)) <= dl;
  ar_add : forall x y, grid x -> grid y -> Rabs (x + y) <= 32 * INR m * B ->
     nadd roundN (Fin x) (Fin y) = Fin (rnd (x + y)) /\ grid (rnd (x + y)) /\ Rabs (rnd (x + y) - (x + y)) <= dl }.

(** Any numbers. *)
Definition unit_err (m : nat) (B : R) : R := INR m * B * bpow radix2 (-47).

Lemma arith_any m B : (Z.of_nat m < 100000)%Z -> bpow radix2 (-900) <= B <= Bd ->
  arith m B (unit_err m B) (fun _ => True).
Proof.
  intros Hm HB. pose proof (bpow_gt_0 radix2 (-900)) as P9.
  destruct (Nat.eq_dec m 0) as [->|Hm0].
  { assert (Hr : forall x, Rabs x <= 32 * INR 0 * B -> rfin x = Fin (rnd x) /\ Rabs (rnd x - x) <= unit_err 0 B).
    { intros x Hx. simpl in Hx. rewrite Rmult_0_r, Rmult_0_l in Hx.
      assert (x = 0) as -> by (destruct (Req_dec x 0) as [?|N]; auto; pose proof (Rabs_pos_lt _ N); lra).
      split; [unfold rfin; rewrite (rnd_lt_emax 0 0); [reflexivity|lia|rewrite Rabs_R0; apply bpow_ge_0]|].
      rewrite rnd_0. unfold unit_err. simpl. rewrite !Rmult_0_l, Rminus_0_r, Rabs_R0. lra. }
    constructor; auto; try lra.
    - unfold unit_err. simpl. lra.
    - intros x y _ _ H. destruct (Hr _ H) as [A Bb]. split; [exact A|]. auto.
    - intros x y _ _ H. destruct (Hr _ H) as [A Bb]. split; [exact A|]. auto. }
  assert (M1 : 1 <= INR m) by (change 1 with (INR 1); apply le_INR; lia).
  assert (M2 : INR m <= 100000) by (rewrite INR_IZR_INZ; apply IZR_le; lia).
  assert (E47 : bpow radix2 (-47) = / 140737488355328) by reflexivity.
  assert (MB : B <= INR m * B <= 100000 * B).
  { split; [rewrite <- (Rmult_1_l B) at 1|]; apply Rmult_le_compat_r; lra. }
  assert (Hr : forall x, Rabs x <= 32 * INR m * B -> rfin x = Fin (rnd x) /\ Rabs (rnd x - x) <= unit_err m B).
  { intros x Hx. split.
    - unfold rfin. rewrite (rnd_lt_emax x 330); [reflexivity|lia|].
      eapply Rle_trans; [exact Hx|]. change 330%Z with (30 + 300)%Z. rewrite bpow_plus. fold Bd.
      change (bpow radix2 30) with 1073741824. lra.
    - pose proof (rel_err x) as X. unfold unit_err. eapply Rle_trans; [exact X|].
      assert (bpow radix2 (-1075) <= B * bpow radix2 (-48)).
      { apply Rle_trans with (bpow radix2 (-900) * bpow radix2 (-48)); [rewrite <- bpow_plus; apply bpow_le; lia|].
        apply Rmult_le_compat_r; [apply bpow_ge_0|lra]. }
      assert (E48 : bpow radix2 (-48) = / 281474976710656) by reflexivity.
      assert (E53 : bpow radix2 (-53) = / 9007199254740992) by reflexivity.
      rewrite E48 in *. rewrite E47, E53. lra. }
  constructor; auto; try lra.
  - unfold unit_err. rewrite E47. split; [apply Rmult_le_pos; lra|lra].
  - intros x y _ _ H. destruct (Hr _ H) as [A Bb]. split; [exact A|]. auto.
  - intros x y _ _ H. destruct (Hr _ H) as [A Bb]. split; [exact A|]. auto.
Qed.

(** * The row scan *)
Definition scanned (h : nat -> ext R) (k : nat) (s : ext R * ext R * option nat * option nat) : Prop :=
  let '(umin, usub, j1, j2) := s in
  exists a, j1 = Some a /\ (a < k)%nat /\ umin = h a /\
    (forall j, (j < k)%nat -> ele (h a) (h j)) /\
    ((usub = PInf /\ forall j, (j < k)%nat -> j <> a -> h j = PInf) \/
     (exists b x, j2 = Some b /\ (b < k)%nat /\ b <> a /\ h b = Fin x /\ usub = Fin x /\
        forall j, (j < k)%nat -> j <> a -> ele (Fin x) (h j))).

Lemma ele_total a b : isup a -> isup b -> nle extR a b = false -> ele b a /\ b <> PInf.
Proof.
  intros Ha Hb H. split; [apply nle_false; auto|]. intros ->. destruct Ha as [->|[r ->]]; discriminate.
Qed.

Lemma scanned_step h k s : (forall j, (j <= k)%nat -> isup (h j)) -> scanned h k s ->
  scanned h (S k) (umins_step roundN k (h k) s).
Proof.
  intros Hu. destruct s as [[[umin usub] j1] j2]. intros (a & -> & Ha & -> & Hmin & Hsub).
  assert (Hk : isup (h k)) by auto. assert (Ua : isup (h a)) by (apply Hu; lia).
  unfold umins_step. change (nlt roundN) with (nlt extR). change (nle roundN) with (nle extR).
  destruct (nlt extR (h k) usub) eqn:E1.
  - assert (Hf : exists y, h k = Fin y).
    { destruct Hk as [E|[y E]]; eauto. rewrite E in E1. rewrite lt_Px in E1. discriminate. }
    destruct Hf as [y Ey].
    destruct (nle extR (h a) (h k)) eqn:E2.
    + exists a. split; auto. split; [lia|]. split; auto. split.
      { intros j Hj. destruct (Nat.eq_dec j k) as [->|]; [exact E2|]. apply Hmin. lia. }
      right. exists k, y. split; auto. split; [lia|]. split; [lia|]. split; auto. split; auto.
      intros j Hj Hja. destruct (Nat.eq_dec j k) as [->|Hjk]; [rewrite Ey; apply ele_F; lra|].
      destruct Hsub as [[-> Hno]|(b & x & -> & Hb & Hba & Hhb & -> & Hs)].
      * rewrite Hno by (auto; lia). reflexivity.
      * apply ele_trans with (Fin x); [right; eauto|right; eauto|apply Hu; lia| |apply Hs; auto; lia].
        rewrite Ey, lt_FF in E1. destruct (Rltb_spec y x); [|discriminate]. apply ele_F. lra.
    + apply nle_false in E2; auto.
      exists k. split; auto. split; [lia|]. split; auto. split.
      { intros j Hj. destruct (Nat.eq_dec j k) as [->|]; [apply ele_refl; auto|].
        apply ele_trans with (h a); auto; [apply Hu; lia|]. apply Hmin. lia. }
      destruct (Ua) as [Ea|[x Ea]].
      * left. split; auto. intros j Hj Hjk. assert (X : ele (h a) (h j)) by (apply Hmin; lia).
        rewrite Ea in X. destruct (Hu j) as [E|[z E]]; [lia|auto|]. rewrite E in X. discriminate.
      * right. exists a, x. split; auto. split; [lia|]. split; [lia|]. split; auto. split; auto.
        intros j Hj Hjk. rewrite <- Ea. apply Hmin. lia.
  - exists a. split; auto. split; [lia|]. split; auto.
    destruct Hsub as [[-> Hno]|(b & x & -> & Hb & Hba & Hhb & -> & Hs)].
    + destruct Hk as [E|[y E]]; [|rewrite E, lt_FP in E1; discriminate]. split.
      * intros j Hj. destruct (Nat.eq_dec j k) as [->|]; [rewrite E; apply ele_P; auto|]. apply Hmin. lia.
      * left. split; auto. intros j Hj Hja. destruct (Nat.eq_dec j k) as [->|]; auto. apply Hno; auto; lia.
    + assert (X : ele (Fin x) (h k)).
      { destruct Hk as [E|[y E]]; rewrite E in *; [reflexivity|]. rewrite lt_FF in E1. apply ele_F.
        destruct (Rltb_spec y x); [discriminate|lra]. }
      split.
      * intros j Hj. destruct (Nat.eq_dec j k) as [->|]; [|apply Hmin; lia].
        apply ele_trans with (Fin x); auto; [right; eauto|]. rewrite <- Hhb. apply Hmin. auto.
      * right. exists b, x. split; auto. split; [lia|]. split; auto. split; auto. split; auto.
        intros j Hj Hja. destruct (Nat.eq_dec j k) as [->|]; auto. apply Hs; auto; lia.
Qed.

Lemma scan_plain F m C v i h : (0 < m)%nat ->
  (forall j, (j < m)%nat -> isup (h j)) ->
  (forall j, (j < m)%nat -> exists cj vj, get C (i * m + j) = Ok cj /\ get v j = Ok vj /\ nsub roundN cj vj = h j) ->
  wp F (find_umins_plain roundN m i C v) (scanned h m).
Proof.
  intros Hm Hu Hg. unfold find_umins_plain.
  destruct (Hg 0%nat Hm) as (c0 & v0 & -> & -> & E0). cbn [bind]. rewrite E0.
  eapply wp_conseq.
  { apply (wp_for F (m - 1) 1 _ (scanned h)).
    - exists 0%nat. split; auto. split; auto. split; auto. split.
      + intros j Hj. replace j with 0%nat by lia. apply ele_refl. auto.
      + left. split; [reflexivity|]. intros; lia.
    - intros k s Hk Hs. destruct (Hg k) as (ck & vk & -> & -> & Ek); [lia|]. cbn [bind]. apply wp_ret. rewrite Ek.
      apply scanned_step; auto. intros j Hj. apply Hu. lia. }
  intros s Hs. replace (1 + (m - 1))%nat with m in Hs by lia. exact Hs.
Qed.

(** * Invariant *)
Section Arr.
Variables (n m : nat) (C : list (ext R)).
Hypothesis HC : wfC n m C.
Hypothesis Hhall : hall n m C.
Hypothesis Hm : (Z.of_nat m < 100000)%Z.
Variables (B dl : R) (grid : R -> Prop).
Hypothesis HA : arith m B dl grid.
Hypothesis Hcost : forall i j, (i < n)%nat -> (j < m)%nat -> finb m C i j = true -> Rabs (cr m C i j) <= B.
Hypothesis Hgrid : forall i j, (i < n)%nat -> (j < m)%nat -> finb m C i j = true -> grid (cr m C i j).
Variable simd : bool.

Lemma B_pos : 0 < B.
Proof. apply HA. Qed.
Lemma dl_le : 0 <= dl <= B / 64.
Proof. apply HA. Qed.

Notation av := (av m C).
Notation rc := (rc m C).
Notation assigned := (assigned m).
Notation wcore := (wcore n m C).
Notation fmt := (generic_format radix2 fexp64).

(** Unlocked columns whose price has fallen far. *)
Definition isdeep (v : list (ext R)) (j : nat) : bool := negb (lk v j) && Rltb (4 * B * INR m) (- vr v j).
Definition deep (v : list (ext R)) : nat := length (filter (isdeep v) (seq 0 m)).

Record acore (rs cs : list (option nat)) (v : list (ext R)) : Prop := {
  ac_w : wcore rs cs v;
  ac_neg : forall j, (j < m)%nat -> lk v j = false -> vr v j <= 0;
  ac_un : forall j, (j < m)%nat -> nth j cs None = None -> vr v j = 0;
  ac_near : forall j i k, (j < m)%nat -> nth j cs None = Some i -> lk v j = false ->
     (k < m)%nat -> av v i k = true -> rc v i j <= rc v i k + 6 * dl;
  ac_grid : forall j, (j < m)%nat -> lk v j = false -> grid (vr v j);
  ac_depth : forall j, (j < m)%nat -> lk v j = false -> - vr v j <= 4 * B * (INR m + INR (deep v));
  ac_fmt : forall j, (j < m)%nat -> lk v j = false -> fmt (vr v j) }.

Lemma mB j : (j < m)%nat -> B <= INR m * B.
Proof.
  intros Hj. rewrite <- (Rmult_1_l B) at 1. pose proof B_pos. apply Rmult_le_compat_r; [lra|].
  change 1 with (INR 1). apply le_INR. lia.
Qed.

Lemma INR_m : INR m <= 100000.
Proof. rewrite INR_IZR_INZ. apply IZR_le. lia. Qed.

Lemma deep_le v : (deep v <= m)%nat.
Proof.
  unfold deep. rewrite <- (seq_length m 0) at 2. generalize (seq 0 m). intros l.
  induction l as [|a l IH]; simpl; auto. destruct (isdeep v a); simpl; lia.
Qed.

Lemma vbound rs cs v j : acore rs cs v -> (j < m)%nat -> lk v j = false -> Rabs (vr v j) <= 8 * INR m * B.
Proof.
  intros H Hj Hl. rewrite Rabs_left1 by (apply (ac_neg _ _ _ H); auto).
  eapply Rle_trans; [apply (ac_depth _ _ _ H); auto|].
  pose proof INR_m. pose proof (le_INR _ _ (deep_le v)). pose proof B_pos.
  assert (B * (INR m + INR (deep v)) <= B * (2 * INR m)) by (apply Rmult_le_compat_l; lra). lra.
Qed.

Lemma rc_bound rs cs v i j : acore rs cs v -> (i < n)%nat -> (j < m)%nat -> av v i j = true ->
  Rabs (cr m C i j) <= B /\ Rabs (vr v j) <= 8 * INR m * B /\ Rabs (rc v i j) <= 9 * INR m * B.
Proof.
  intros H Hi Hj Ha. destruct (av_split _ _ _ _ _ Ha) as [Hf Hl].
  pose proof (Hcost _ _ Hi Hj Hf) as X. pose proof (vbound _ _ _ _ H Hj Hl) as Y.
  split; auto. split; auto. unfold LapBase.rc. apply Rabs_le. apply Rabs_le_inv in X. apply Rabs_le_inv in Y.
  pose proof (mB j Hj). lra.
Qed.

Definition hr v i j : ext R := if av v i j then Fin (rnd (rc v i j)) else PInf.

Lemma hr_val rs cs v i j : acore rs cs v -> (i < n)%nat -> (j < m)%nat ->
  nsub roundN (c m C i j) (nth j v NaN) = hr v i j.
Proof.
  intros H Hi Hj. unfold hr.
  destruct (c_cases n m C HC i j Hi Hj) as [[Ec Ef]|[Ec Ef]];
  destruct (w_cases n m C _ _ _ j (ac_w _ _ _ H) Hj) as [(Ev & El)|(Ev & El)]; rewrite Ec, Ev; unfold LapBase.av; rewrite Ef, El; simpl andb; try reflexivity.
  cbv iota.
  assert (Ha : av v i j = true) by (unfold LapBase.av; rewrite Ef, El; auto).
  destruct (rc_bound _ _ _ _ _ H Hi Hj Ha) as (_ & _ & X). pose proof B_pos. pose proof (mB j Hj).
  unfold LapBase.rc in *. apply HA; [apply Hgrid; auto|apply (ac_grid _ _ _ H); auto|lra].
Qed.

Lemma hr_up v i j : isup (hr v i j).
Proof. unfold hr, isup. destruct (av v i j); eauto. Qed.

(** A set of columns far below the others keeps free rows away. *)
Lemma gap_absurd rs cs v f j1 lo : acore rs cs v -> (f < n)%nat -> ~ assigned cs f ->
  0 <= lo ->
  (forall j, (j < m)%nat -> lk v j = false -> - vr v j <= lo \/ lo + 4 * B < - vr v j) ->
  (j1 < m)%nat -> av v f j1 = true -> lo + 4 * B < - vr v j1 ->
  (forall k, (k < m)%nat -> av v f k = true -> rc v f j1 <= rc v f k + B) -> False.
Proof.
  intros H Hf Hna Hlo Hgap Hj1 Ha1 Hd1 Hmin. pose proof B_pos as HB.
  set (inS := fun j => negb (lk v j) && Rltb (lo + 4 * B) (- vr v j)).
  set (cols := filter inS (seq 0 m)).
  assert (Hin : forall j, In j cols <-> (j < m)%nat /\ lk v j = false /\ lo + 4 * B < - vr v j).
  { intros j. unfold cols. rewrite filter_In, in_seq. unfold inS. rewrite andb_true_iff, negb_true_iff.
    destruct (Rltb_spec (lo + 4 * B) (- vr v j)); split; intros X; repeat split; try tauto; try lia; try (destruct X as (_ & _ & X); discriminate || lra). }
  assert (Hstep : forall i j k, (i < n)%nat -> (j < m)%nat -> (k < m)%nat -> finb m C i j = true -> lo + 4 * B < - vr v j ->
     av v i k = true -> rc v i j <= rc v i k + B -> In k cols).
  { intros i j k Hi Hj Hk Hfj Hdj Ha Hle. destruct (av_split _ _ _ _ _ Ha) as [Hfk Hlk].
    apply Hin. split; auto. split; auto. destruct (Hgap k Hk Hlk) as [X|X]; auto. exfalso.
    pose proof (Hcost _ _ Hi Hj Hfj) as C1. pose proof (Hcost _ _ Hi Hk Hfk) as C2.
    apply Rabs_le_inv in C1. apply Rabs_le_inv in C2. unfold LapBase.rc in Hle. lra. }
  destruct (w_escape n m C Hhall rs cs v cols f (ac_w _ _ _ H)) as (k & Hk & Ha & Hnin); auto.
  - apply NoDup_filter, seq_NoDup.
  - intros j Hj. apply Hin in Hj. destruct Hj as (Hj & Hl & Hd). split; auto. split; auto.
    destruct (nth j cs None) as [i|] eqn:E.
    + exists i. split; auto. intros k Hk Ha.
      apply (Hstep i j k); auto.
      * apply (wc_a1 _ _ _ _ _ _ (ac_w _ _ _ H) j); auto.
      * apply (wc_fin _ _ _ _ _ _ (ac_w _ _ _ H)); auto.
      * pose proof (ac_near _ _ _ H j i k Hj E Hl Hk Ha). pose proof dl_le. lra.
    + exfalso. rewrite (ac_un _ _ _ H) in Hd by auto. lra.
  - apply Hnin. apply (Hstep f j1 k); auto. apply av_split in Ha1. tauto.
Qed.

(** Few columns leave a gap. *)
Lemma exists_gap rs cs v k0 : acore rs cs v -> (k0 < m)%nat -> vr v k0 = 0 ->
  exists lo, 0 <= lo /\ lo + 4 * B <= 4 * B * INR m /\
    forall j, (j < m)%nat -> lk v j = false -> - vr v j <= lo \/ lo + 4 * B < - vr v j.
Proof.
  intros H Hk0 E0. pose proof B_pos as HB. apply NNPP. intros Hno.
  assert (Hin : forall t, (t < m)%nat -> exists j, (j < m)%nat /\ 4 * B * INR t < - vr v j <= 4 * B * INR t + 4 * B).
  { intros t Ht. apply NNPP. intros Hn. apply Hno. exists (4 * B * INR t).
    pose proof (pos_INR t). split; [apply Rmult_le_pos; lra|]. split.
    - assert (INR (S t) <= INR m) by (apply le_INR; lia). rewrite S_INR in H1.
      assert (4 * B * (INR t + 1) <= 4 * B * INR m) by (apply Rmult_le_compat_l; lra). lra.
    - intros j Hj _. destruct (Rle_lt_dec (- vr v j) (4 * B * INR t)); auto. right.
      apply Rnot_le_lt. intros X. apply Hn. exists j. auto. }
  destruct (fin_choice m _ 0%nat Hin) as [g Hg].
  assert (Hnd : NoDup (map g (seq 0 m))).
  { apply (NoDup_nth _ (g 0%nat)). intros p q Hp Hq E. rewrite map_length, seq_length in *.
    rewrite !map_nth, !seq_nth in E by auto. simpl in E.
    destruct (Hg p Hp) as [_ A]. destruct (Hg q Hq) as [_ A']. rewrite E in A.
    destruct (lt_eq_lt_dec p q) as [[X|X]|X]; auto; exfalso; apply le_INR in X; rewrite S_INR in X.
    - assert (4 * B * (INR p + 1) <= 4 * B * INR q) by (apply Rmult_le_compat_l; lra). lra.
    - assert (4 * B * (INR q + 1) <= 4 * B * INR p) by (apply Rmult_le_compat_l; lra). lra. }
  assert (X : (length (k0 :: map g (seq 0 m)) <= length (seq 0 m))%nat).
  { apply NoDup_incl_length.
    - constructor; auto. intros X. apply in_map_iff in X. destruct X as (t & Et & Ht). apply in_seq in Ht.
      destruct (Hg t) as [_ A]; [lia|]. rewrite Et, E0 in A. pose proof (pos_INR t).
      assert (0 <= 4 * B * INR t) by (apply Rmult_le_pos; lra). lra.
    - intros x [<-|X]; [apply in_seq; lia|]. apply in_map_iff in X. destruct X as (t & <- & Ht). apply in_seq in Ht.
      destruct (Hg t) as [A _]; [lia|]. apply in_seq; lia. }
  simpl in X. rewrite map_length, seq_length in X. lia.
Qed.

(** A free row never picks a column that has fallen far. *)
Lemma not_deep rs cs v f j1 : acore rs cs v -> (f < n)%nat -> ~ assigned cs f -> (j1 < m)%nat -> av v f j1 = true ->
  (forall k, (k < m)%nat -> av v f k = true -> rc v f j1 <= rc v f k + B) -> isdeep v j1 = false.
Proof.
  intros H Hf Hna Hj1 Ha Hmin. unfold isdeep. destruct (av_split _ _ _ _ _ Ha) as [_ ->]. simpl.
  destruct (Rltb_spec (4 * B * INR m) (- vr v j1)) as [Hd|]; auto. exfalso.
  destruct (w_free n m C Hhall _ _ _ f (ac_w _ _ _ H) Hf Hna) as (k0 & Hk0 & E0).
  destruct (exists_gap _ _ _ k0 H Hk0) as (lo & L1 & L2 & L3); [apply (ac_un _ _ _ H); auto|].
  eapply (gap_absurd rs cs v f j1 lo); eauto. lra.
Qed.

(** Giving column [j] to the free row [i], possibly at a lower price. *)
Lemma a_assign rs cs v v' i j :
  acore rs cs v -> (i < n)%nat -> ~ assigned cs i -> (j < m)%nat -> av v i j = true ->
  isdeep v j = false ->
  length v' = m ->
  (forall k, (k < m)%nat -> k <> j -> nth k v' NaN = nth k v NaN) ->
  ((nth j v' NaN = NInf /\ forall k, (k < m)%nat -> k <> j -> finb m C i k = true -> lk v k = true) \/
   (exists x, nth j v' NaN = Fin x /\ (fmt x /\ grid x) /\ x <= vr v j /\
      (- x <= 4 * B * INR m \/ exists j2, (j2 < m)%nat /\ lk v j2 = false /\ vr v j2 - 4 * B <= x) /\
      forall k, (k < m)%nat -> av v i k = true -> k <> j -> cr m C i j - x <= rc v i k + 6 * dl)) ->
  acore (upd rs i (Some j)) (upd cs j (Some i)) v'.
Proof.
  intros H Hi Hna Hj Hav Hnd Hlv Hsame Hnew. pose proof B_pos as HB.
  destruct (av_split _ _ _ _ _ Hav) as [Hfin Hlk].
  assert (Hlks : forall k, (k < m)%nat -> k <> j -> lk v' k = lk v k) by (intros; apply lk_eq, Hsame; auto).
  assert (Hvrs : forall k, (k < m)%nat -> k <> j -> vr v' k = vr v k) by (intros; apply vr_eq, Hsame; auto).
  assert (Hdle : (deep v <= deep v')%nat).
  { unfold deep. apply filter_length_le. intros x Hx E. apply in_seq in Hx.
    destruct (Nat.eq_dec x j) as [->|]; [congruence|]. unfold isdeep in *. rewrite Hlks, Hvrs by (auto; lia). auto. }
  pose proof (le_INR _ _ Hdle) as HdR.
  pose proof (wc_lc _ _ _ _ _ _ (ac_w _ _ _ H)) as Hlc.
  assert (Hw : wcore (upd rs i (Some j)) (upd cs j (Some i)) v').
  { apply (w_assign n m C rs cs v v' i j); auto; [apply H| |].
    - destruct Hnew as [[E _]|(x & E & _)]; eauto.
    - intros El k Hk Hkj Hf. destruct Hnew as [[E X]|(x & E & _)]; auto. unfold lk in El. rewrite E in El. discriminate. }
  constructor; auto.
  - intros k Hk Hl. destruct (Nat.eq_dec k j) as [->|Hkj].
    + destruct Hnew as [[E _]|(x & E & _ & Hx & _)]; unfold lk in Hl; rewrite E in Hl; [discriminate|].
      unfold vr at 1. rewrite E. pose proof (ac_neg _ _ _ H j Hj Hlk). lra.
    + rewrite Hlks in Hl by auto. rewrite Hvrs by auto. apply (ac_neg _ _ _ H); auto.
  - intros k Hk E. destruct (Nat.eq_dec j k) as [<-|Hkj].
    + rewrite nth_upd_eq in E by lia. discriminate.
    + rewrite nth_upd_neq in E by auto. rewrite Hvrs by auto. apply (ac_un _ _ _ H); auto.
  - intros j' i' k Hj' E Hl Hk Ha. destruct (Nat.eq_dec j j') as [<-|Hne].
    + rewrite nth_upd_eq in E by lia. inversion E; subst i'.
      destruct Hnew as [[Ex _]|(x & Ex & _ & Hx & _ & Hn)]; [unfold lk in Hl; rewrite Ex in Hl; discriminate|].
      destruct (Nat.eq_dec k j) as [->|Hkj]; [pose proof dl_le; lra|].
      assert (av v i k = true) by (unfold LapBase.av in *; rewrite <- Hlks; auto).
      specialize (Hn k Hk H0 Hkj). unfold LapBase.rc at 1. unfold vr at 1. rewrite Ex.
      unfold LapBase.rc. rewrite Hvrs by auto. exact Hn.
    + rewrite nth_upd_neq in E by auto. rewrite Hlks in Hl by auto.
      unfold LapBase.rc. rewrite (Hvrs j') by auto.
      destruct (Nat.eq_dec k j) as [->|Hkj].
      * assert (Ha0 : av v i' j = true).
        { unfold LapBase.av in *. rewrite Hlk. apply andb_true_iff in Ha. destruct Ha as [-> _]. auto. }
        pose proof (ac_near _ _ _ H j' i' j Hj' E Hl Hj Ha0) as X. unfold LapBase.rc in X.
        assert (vr v' j <= vr v j); [|lra].
        destruct Hnew as [[Ex _]|(x & Ex & _ & Hx & _)].
        -- apply av_split in Ha. destruct Ha as [_ Ha]. unfold lk in Ha. rewrite Ex in Ha. discriminate.
        -- unfold vr at 1. rewrite Ex. lra.
      * rewrite (Hvrs k) by auto.
        assert (av v i' k = true) by (unfold LapBase.av in *; rewrite <- Hlks; auto).
        apply (ac_near _ _ _ H j' i' k); auto.
  - intros k Hk Hl. destruct (Nat.eq_dec k j) as [->|Hkj].
    + destruct Hnew as [[E _]|(x & E & [_ Hg] & _)]; unfold lk in Hl; rewrite E in Hl; [discriminate|].
      unfold vr. rewrite E. auto.
    + rewrite Hlks in Hl by auto. rewrite Hvrs by auto. apply (ac_grid _ _ _ H); auto.
  - intros k Hk Hl.
    assert (Hold : forall k, (k < m)%nat -> lk v k = false -> - vr v k <= 4 * B * (INR m + INR (deep v'))).
    { intros k' Hk' Hl'. pose proof (ac_depth _ _ _ H k' Hk' Hl').
      assert (4 * B * (INR m + INR (deep v)) <= 4 * B * (INR m + INR (deep v'))) by (apply Rmult_le_compat_l; lra). lra. }
    destruct (Nat.eq_dec k j) as [->|Hkj].
    2:{ rewrite Hlks in Hl by auto. rewrite Hvrs by auto. auto. }
    destruct Hnew as [[Ex _]|(x & Ex & _ & Hx & Hor & _)]; [unfold lk in Hl; rewrite Ex in Hl; discriminate|].
    assert (Evr : vr v' j = x) by (unfold vr; rewrite Ex; auto). rewrite Evr.
    destruct (Rle_lt_dec (- x) (4 * B * INR m)) as [Hs|Hs].
    + pose proof (pos_INR (deep v')). assert (0 <= 4 * B * INR (deep v')) by (apply Rmult_le_pos; lra). lra.
    + destruct Hor as [?|(j2 & Hj2 & Hl2 & Hx2)]; [lra|].
      assert (Hlt : (deep v < deep v')%nat).
      { unfold deep. apply filter_length_lt with j; auto.
        - intros y Hy E. apply in_seq in Hy. destruct (Nat.eq_dec y j) as [->|]; [congruence|].
          unfold isdeep in *. rewrite Hlks, Hvrs by (auto; lia). auto.
        - apply in_seq; lia.
        - unfold isdeep. rewrite Hl, Evr. simpl. destruct (Rltb_spec (4 * B * INR m) (- x)); [reflexivity|lra]. }
      apply le_INR in Hlt. rewrite S_INR in Hlt.
      pose proof (ac_depth _ _ _ H j2 Hj2 Hl2).
      assert (4 * B * (INR m + INR (deep v) + 1) <= 4 * B * (INR m + INR (deep v'))) by (apply Rmult_le_compat_l; lra). lra.
  - intros k Hk Hl. destruct (Nat.eq_dec k j) as [->|Hkj].
    + destruct Hnew as [[E _]|(x & E & [Hf _] & _)]; unfold lk in Hl; rewrite E in Hl; [discriminate|].
      unfold vr. rewrite E. auto.
    + rewrite Hlks in Hl by auto. rewrite Hvrs by auto. apply (ac_fmt _ _ _ H); auto.
Qed.

(** * The loop *)
Record ainv (prev : nat) (s : arr (T := ext R)) : Prop := {
  an_core : acore (a_rowsol s) (a_colsol s) (a_v s);
  an_len : length (a_free s) = n;
  an_nf : (a_numfree s <= a_k s)%nat;
  an_k : (a_k s <= prev)%nat;
  an_prev : (prev <= n)%nat;
  an_nodup : NoDup (pend prev s);
  an_pend : forall i, In i (pend prev s) <-> (i < n)%nat /\ ~ assigned (a_colsol s) i }.

Lemma an_head prev s : ainv prev s -> (a_k s < prev)%nat ->
  pend prev s = firstn (a_numfree s) (a_free s) ++
    nth (a_k s) (a_free s) 0%nat :: skipn (S (a_k s)) (firstn prev (a_free s)).
Proof.
  intros H Hk. unfold pend. f_equal.
  pose proof (an_len _ _ H). pose proof (an_prev _ _ H).
  rewrite (skipn_cons_nth _ _ 0%nat) by (rewrite firstn_length; lia).
  f_equal. apply nth_firstn; auto.
Qed.

Lemma an_step prev s v' i j :
  ainv prev s -> (a_k s < prev)%nat -> i = nth (a_k s) (a_free s) 0%nat ->
  (j < m)%nat -> acore (upd (a_rowsol s) i (Some j)) (upd (a_colsol s) j (Some i)) v' ->
  (nth j (a_colsol s) None = None ->
   ainv prev (mkArr (a_free s) (upd (a_rowsol s) i (Some j))
      (upd (a_colsol s) j (Some i)) v' (S (a_k s)) (a_numfree s))) /\
  (forall i0, nth j (a_colsol s) None = Some i0 ->
   ainv prev (mkArr (upd (a_free s) (a_k s) i0) (upd (a_rowsol s) i (Some j))
      (upd (a_colsol s) j (Some i)) v' (a_k s) (a_numfree s)) /\
   ainv prev (mkArr (upd (a_free s) (a_numfree s) i0) (upd (a_rowsol s) i (Some j))
      (upd (a_colsol s) j (Some i)) v' (S (a_k s)) (S (a_numfree s)))).
Proof.
  intros HI Hk Ei Hj Hcore.
  pose proof (an_head _ _ HI Hk) as Hpend. rewrite <- Ei in Hpend.
  assert (Hi : (i < n)%nat /\ ~ assigned (a_colsol s) i).
  { apply (an_pend _ _ HI). rewrite Hpend. apply in_app_iff. right. left. auto. }
  destruct Hi as [Hi Hna].
  pose proof (ac_w _ _ _ (an_core _ _ HI)) as Hw.
  pose proof (an_nodup _ _ HI) as Hnd. rewrite Hpend in Hnd.
  apply nodup_remove_mid in Hnd. destruct Hnd as [Hnd Hnotin].
  pose proof (fun i' => w_assigned_upd n m C _ _ _ i j i' Hw Hj Hna) as Has.
  pose proof (an_len _ _ HI) as Hlen. pose proof (an_nf _ _ HI) as Hnf.
  pose proof (an_prev _ _ HI) as Hprev.
  assert (Hin : forall x, In x (firstn (a_numfree s) (a_free s) ++ skipn (S (a_k s)) (firstn prev (a_free s)))
                <-> (x < n)%nat /\ ~ assigned (a_colsol s) x /\ x <> i).
  { intros x. pose proof (an_pend _ _ HI x) as P. rewrite Hpend in P.
    rewrite in_app_iff in P |- *. simpl in P. split.
    - intros H. assert (x <> i). { intros ->. apply Hnotin. apply in_app_iff; auto. }
      tauto.
    - intros (H1 & H2 & H3). assert (P' := proj2 P (conj H1 H2)).
      destruct P' as [?|[?|?]]; auto. congruence. }
  split.
  - intros Ej. constructor; simpl; auto; try lia.
    intros x. unfold pend; simpl. rewrite Hin, Has.
    rewrite Ej. split.
    + intros (A & B' & D). split; auto. intros [X|[X _]]; auto.
    + intros (A & B'). repeat split; auto. intros X. apply B'. right. split; auto. discriminate.
  - intros i0 Ej.
    destruct (wc_a1 _ _ _ _ _ _ Hw _ _ Hj Ej) as [Hi0 _].
    assert (Hne : i0 <> i). { intros ->. apply Hna. exists j; auto. }
    assert (Hnin0 : ~ In i0 (firstn (a_numfree s) (a_free s) ++ skipn (S (a_k s)) (firstn prev (a_free s)))).
    { rewrite Hin. intros (_ & X & _). apply X. exists j; auto. }
    assert (Hset : forall x, (x = i0 \/ In x (firstn (a_numfree s) (a_free s) ++ skipn (S (a_k s)) (firstn prev (a_free s))))
              <-> (x < n)%nat /\ ~ assigned (upd (a_colsol s) j (Some i)) x).
    { intros x. rewrite Hin, Has, Ej. split.
      - intros [->|(A & B' & D)]; split; auto; intros [X|[X Y]]; auto.
      - intros (A & B'). destruct (Nat.eq_dec x i0); auto. right. repeat split; auto.
        intros X. apply B'. right. split; auto. congruence. }
    split.
    + assert (E : pend prev (mkArr (upd (a_free s) (a_k s) i0) (upd (a_rowsol s) i (Some j))
          (upd (a_colsol s) j (Some i)) v' (a_k s) (a_numfree s)) =
        firstn (a_numfree s) (a_free s) ++ i0 :: skipn (S (a_k s)) (firstn prev (a_free s))).
      { unfold pend; simpl. rewrite firstn_upd_ge by auto. f_equal.
        rewrite firstn_upd_lt by auto.
        rewrite (skipn_cons_nth _ _ 0%nat) by (rewrite upd_length, firstn_length; lia).
        rewrite nth_upd_eq by (rewrite firstn_length; lia).
        rewrite skipn_upd_lt by lia. reflexivity. }
      constructor; simpl; auto; try lia.
      * rewrite upd_length; auto.
      * rewrite E. apply nodup_insert; auto.
      * rewrite E. intros x. rewrite <- Hset. rewrite !in_app_iff. simpl.
        intuition.
    + assert (E : pend prev (mkArr (upd (a_free s) (a_numfree s) i0) (upd (a_rowsol s) i (Some j))
          (upd (a_colsol s) j (Some i)) v' (S (a_k s)) (S (a_numfree s))) =
        firstn (a_numfree s) (a_free s) ++ i0 :: skipn (S (a_k s)) (firstn prev (a_free s))).
      { unfold pend; cbn [a_free a_k a_numfree].
        rewrite (firstn_S_nth _ _ 0%nat) by (rewrite upd_length; lia).
        rewrite nth_upd_eq by lia. rewrite firstn_upd_ge by lia.
        rewrite (firstn_upd_lt _ prev) by lia. rewrite skipn_upd_lt by lia.
        rewrite <- app_assoc. reflexivity. }
      constructor; simpl a_k; simpl a_numfree; auto; try lia.
      * simpl. rewrite upd_length; auto.
      * rewrite E. apply nodup_insert; auto.
      * rewrite E. intros x. simpl a_colsol. rewrite <- Hset. rewrite !in_app_iff. simpl.
        intuition.
Qed.

(** How far the prices can still fall. *)
Definition room (x : R) : nat := Z.to_nat (Zfloor ((x + 1073741824 * Bd) * bpow radix2 1074)).
Definition mv (v : list (ext R)) : nat := sumn (fun j => if lk v j then 0%nat else S (room (vr v j))) m.

Lemma fmt_int x : fmt x -> exists z, x * bpow radix2 1074 = IZR z.
Proof.
  intros H. apply (@FLT_format_generic radix2 (-1074) 53 eq_refl) in H. destruct H as [[mz e] E _ He].
  simpl in He. exists (mz * 2 ^ (e + 1074))%Z. rewrite E. unfold F2R; simpl Fnum; simpl Fexp.
  rewrite mult_IZR, (IZR_Zpower radix2) by lia. rewrite bpow_plus. ring.
Qed.

Lemma Bd_int : exists z, 1073741824 * Bd * bpow radix2 1074 = IZR z.
Proof.
  exists (1073741824 * 2 ^ 1374)%Z. rewrite Rmult_assoc. unfold Bd. rewrite <- bpow_plus.
  rewrite mult_IZR, (IZR_Zpower radix2) by lia. reflexivity.
Qed.

Lemma room_lt x y : fmt x -> fmt y -> Rabs x <= 1073741824 * Bd -> x < y -> (room x < room y)%nat.
Proof.
  intros Fx Fy Hx Hlt. destruct (fmt_int _ Fx) as [zx Ex]. destruct (fmt_int _ Fy) as [zy Ey]. destruct Bd_int as [k Ek].
  unfold room. rewrite !Rmult_plus_distr_r, Ex, Ey, Ek, <- !plus_IZR, !Zfloor_IZR.
  pose proof (bpow_gt_0 radix2 1074) as Hp.
  assert (zx < zy)%Z. { apply lt_IZR. rewrite <- Ex, <- Ey. apply Rmult_lt_compat_r; auto. }
  assert (0 <= zx + k)%Z.
  { apply le_IZR. rewrite plus_IZR, <- Ex, <- Ek, <- Rmult_plus_distr_r. apply Rmult_le_pos; [|lra].
    apply Rabs_le_inv in Hx. lra. }
  lia.
Qed.

Definition aprog (s s' : arr (T := ext R)) : Prop :=
  (a_k s' = S (a_k s) /\ (mv (a_v s') <= mv (a_v s))%nat) \/ (a_k s' = a_k s /\ (mv (a_v s') < mv (a_v s))%nat).

Lemma a_step prev s : ainv prev s -> (a_k s < prev)%nat ->
  wp False (arr_step roundN simd m C s) (fun s' => ainv prev s' /\ aprog s s').
Proof.
  intros HI Hk. pose proof B_pos as HB.
  pose proof (an_core _ _ HI) as Hc. pose proof (ac_w _ _ _ Hc) as Hw.
  pose proof (an_len _ _ HI) as Hlen. pose proof (an_nf _ _ HI) as Hnf.
  pose proof (an_prev _ _ HI) as Hprev.
  pose proof (wc_lc _ _ _ _ _ _ Hw) as Hlc. pose proof (wc_lr _ _ _ _ _ _ Hw) as Hlr.
  pose proof (wc_lv _ _ _ _ _ _ Hw) as Hlv.
  unfold arr_step.
  rewrite (get_ok _ _ 0%nat) by lia. cbn [bind].
  remember (nth (a_k s) (a_free s) 0%nat) as i eqn:Ei.
  assert (Hi : (i < n)%nat /\ ~ assigned (a_colsol s) i).
  { apply (an_pend _ _ HI). rewrite an_head by auto. rewrite <- Ei. apply in_app_iff. right. left. auto. }
  destruct Hi as [Hi Hna].
  destruct (w_avail n m C Hhall _ _ _ i Hw Hi Hna) as (k0 & Hk0 & Hav0).
  set (v := a_v s) in *.
  unfold find_umins. replace (simd && negb (Z.of_nat m <? 100000)%Z) with false
    by (symmetry; apply andb_false_iff; right; apply negb_false_iff, Z.ltb_lt; auto).
  apply wp_bind. apply wp_bind.
  eapply wp_conseq.
  { apply (scan_plain _ m C v i (hr v i)).
    - lia.
    - intros; apply hr_up.
    - intros j Hj. exists (c m C i j), (nth j v NaN). split; [apply (get_c n m C HC); auto|].
      split; [apply get_ok; lia|]. eapply hr_val; eauto. }
  intros [[[umin usub] j1'] j2'] (j1 & -> & Hj1 & -> & Hmin & Hsub). cbn [bind idx]. apply wp_ret.
  assert (Hav1 : av v i j1 = true).
  { specialize (Hmin k0 Hk0). unfold hr in Hmin. rewrite Hav0 in Hmin. destruct (av v i j1); [reflexivity|discriminate]. }
  (* rounding errors *)
  pose proof dl_le as Hdl. pose proof (mB k0 Hk0) as HmB.
  assert (Herr : forall k, (k < m)%nat -> av v i k = true ->
     (Rabs (rnd (rc v i k) - rc v i k) <= dl /\ Rabs (rc v i k) <= 9 * INR m * B) /\ grid (rnd (rc v i k))).
  { intros k Hk' Ha. destruct (rc_bound _ _ _ _ _ Hc Hi Hk' Ha) as (_ & _ & X). destruct (av_split _ _ _ _ _ Ha) as [Hf1 Hl1].
    destruct (ar_sub _ _ _ _ HA (cr m C i k) (vr v k)) as (_ & G & Er); [apply Hgrid; auto|apply (ac_grid _ _ _ Hc); auto|unfold LapBase.rc in X; lra|].
    auto. }
  assert (Hmin' : forall k, (k < m)%nat -> av v i k = true -> rnd (rc v i j1) <= rnd (rc v i k)).
  { intros k Hk' Ha. specialize (Hmin k Hk'). unfold hr in Hmin. rewrite Ha, Hav1 in Hmin. apply ele_F in Hmin. auto. }
  assert (Hnear1 : forall k, (k < m)%nat -> av v i k = true -> rc v i j1 <= rc v i k + 2 * dl).
  { intros k Hk' Ha. destruct (Herr k Hk' Ha) as [[X _] _]. destruct (Herr j1 Hj1 Hav1) as [[Y _] _]. specialize (Hmin' k Hk' Ha).
    apply Rabs_le_inv in X. apply Rabs_le_inv in Y. lra. }
  assert (Hnd1 : isdeep v j1 = false).
  { apply (not_deep _ _ _ i j1 Hc); auto. intros k Hk' Ha. specialize (Hnear1 k Hk' Ha). lra. }
  assert (Eh : hr v i j1 = Fin (rnd (rc v i j1))) by (unfold hr; rewrite Hav1; reflexivity).
  rewrite Eh.
  destruct (av_split _ _ _ _ _ Hav1) as [Hfin1 Hlk1].
  rewrite (get_ok _ _ None) by lia. cbn [bind].
  rewrite (get_ok _ _ NaN) by lia. cbn [bind].
  destruct (w_cases n m C _ _ _ j1 Hw Hj1) as [(Ev1 & _)|(_ & X)]; [|congruence]. fold v in Ev1.
  rewrite Ev1.
  destruct Hsub as [[-> Hno]|(b & x & -> & Hb & Hba & Hhb & -> & Hsec)].
  - (* no second column: the column is locked *)
    cbv zeta.
    change (nsub roundN (Fin (vr v j1)) (nsub roundN PInf (Fin (rnd (rc v i j1))))) with (@NInf R).
    change (nlt roundN NInf (Fin (vr v j1))) with true.
    cbv iota.
    rewrite set_ok by lia. cbn [bind].
    rewrite set_ok by lia. cbn [bind].
    rewrite set_ok by lia. cbn [bind].
    set (v' := upd v j1 NInf).
    assert (Hnv : nth j1 v' NaN = NInf) by (unfold v'; apply nth_upd_eq; lia).
    assert (Hsame : forall k, (k < m)%nat -> k <> j1 -> nth k v' NaN = nth k v NaN).
    { intros k Hkm Hkj. unfold v'. apply nth_upd_neq; auto. }
    assert (Hcore : acore (upd (a_rowsol s) i (Some j1)) (upd (a_colsol s) j1 (Some i)) v').
    { apply (a_assign _ _ v v'); auto.
      - unfold v'. rewrite upd_length; auto.
      - left. split; auto. intros k Hkm Hkj Hf. specialize (Hno k Hkm Hkj). unfold hr, LapBase.av in Hno. rewrite Hf in Hno.
        destruct (lk v k); auto. discriminate. }
    assert (Hmv : (mv v' < mv v)%nat).
    { unfold mv. apply sumn_lt with j1; auto.
      - intros k Hkm. destruct (Nat.eq_dec k j1) as [->|Hkj].
        + unfold lk at 1. rewrite Hnv. lia.
        + rewrite (lk_eq v v'), (vr_eq v v') by auto. lia.
      - unfold lk at 1. rewrite Hnv, Hlk1. lia. }
    destruct (an_step prev s v' i j1 HI Hk Ei Hj1 Hcore) as [HAs HN].
    destruct (nth j1 (a_colsol s) None) as [i0|] eqn:E0.
    + replace (S (a_k s) - 1)%nat with (a_k s) by lia.
      rewrite set_ok by lia. cbn [bind]. apply wp_ret.
      split; [apply HN; auto|]. right. simpl. auto.
    + apply wp_ret. split; [apply HAs; auto|]. left. simpl. split; auto. unfold v in *. lia.
  - assert (Hav2 : av v i b = true).
    { unfold hr in Hhb. destruct (av v i b); auto. discriminate. }
    unfold hr in Hhb. rewrite Hav2 in Hhb. inversion Hhb; subst x; clear Hhb.
    destruct (av_split _ _ _ _ _ Hav2) as [Hfin2 Hlk2].
    destruct (rc_bound _ _ _ _ _ Hc Hi Hj1 Hav1) as (Cb1 & Vb1 & _).
    destruct (rc_bound _ _ _ _ _ Hc Hi Hb Hav2) as (Cb2 & Vb2 & _).
    destruct (Herr j1 Hj1 Hav1) as [[E1 R1] G1]. destruct (Herr b Hb Hav2) as [[E2 R2] G2].
    apply Rabs_le_inv in Cb1. apply Rabs_le_inv in Vb1. apply Rabs_le_inv in Cb2. apply Rabs_le_inv in Vb2.
    apply Rabs_le_inv in E1. apply Rabs_le_inv in R1. apply Rabs_le_inv in E2. apply Rabs_le_inv in R2.
    assert (Hu12 : rnd (rc v i j1) <= rnd (rc v i b)) by (apply Hmin'; auto).
    cbv zeta.
    destruct (ar_sub _ _ _ _ HA _ _ G2 G1) as (E3a & G3 & E3); [apply Rabs_le; lra|].
    rewrite E3a. apply Rabs_le_inv in E3.
    set (w := rnd (rnd (rc v i b) - rnd (rc v i j1))) in *.
    destruct (ar_sub _ _ _ _ HA (vr v j1) w (ac_grid _ _ _ Hc j1 Hj1 Hlk1) G3) as (E4a & G4 & E4); [apply Rabs_le; lra|].
    rewrite E4a. apply Rabs_le_inv in E4.
    assert (Hsec' : forall k, (k < m)%nat -> k <> j1 -> av v i k = true -> rc v i b <= rc v i k + 2 * dl).
    { intros k Hkm Hkj Ha. specialize (Hsec k Hkm Hkj). unfold hr in Hsec. rewrite Ha in Hsec. apply ele_F in Hsec.
      destruct (Herr k Hkm Ha) as [[X _] _]. apply Rabs_le_inv in X. lra. }
    change (nlt roundN) with (nlt extR). rewrite lt_FF.
    set (x := rnd (vr v j1 - w)) in *.
    destruct (Rltb_spec x (vr v j1)) as [Hlow|Hnl].
    + rewrite set_ok by lia. cbn [bind].
      rewrite set_ok by lia. cbn [bind].
      rewrite set_ok by lia. cbn [bind].
      set (v' := upd v j1 (Fin x)).
      assert (Hnv : nth j1 v' NaN = Fin x) by (unfold v'; apply nth_upd_eq; lia).
      assert (Hsame : forall k, (k < m)%nat -> k <> j1 -> nth k v' NaN = nth k v NaN).
      { intros k Hkm Hkj. unfold v'. apply nth_upd_neq; auto. }
      assert (Hcore : acore (upd (a_rowsol s) i (Some j1)) (upd (a_colsol s) j1 (Some i)) v').
      { apply (a_assign _ _ v v'); auto.
        - unfold v'. rewrite upd_length; auto.
        - right. exists x. split; auto. split; [split; [apply rnd_format|exact G4]|]. split; [lra|]. split.
          + right. exists b. split; auto. split; auto. unfold LapBase.rc in *. lra.
          + intros k Hkm Ha Hkj. specialize (Hsec' k Hkm Hkj Ha). unfold LapBase.rc in *. lra. }
      assert (Hmv : (mv v' < mv v)%nat).
      { assert (Hr : (room x < room (vr v j1))%nat).
        { apply room_lt; auto; [apply rnd_format|apply (ac_fmt _ _ _ Hc); auto|].
          pose proof (proj2 (ar_B _ _ _ _ HA)). pose proof INR_m.
          assert (INR m * B <= 100000 * B) by (apply Rmult_le_compat_r; lra).
          apply Rabs_le. unfold LapBase.rc in *. lra. }
        assert (L1 : lk v' j1 = false) by (unfold lk; rewrite Hnv; auto).
        assert (V1 : vr v' j1 = x) by (unfold vr; rewrite Hnv; auto).
        unfold mv. apply sumn_lt with j1; auto.
        - intros k Hkm. destruct (Nat.eq_dec k j1) as [->|Hkj].
          + rewrite L1, V1, Hlk1. lia.
          + rewrite (lk_eq v v'), (vr_eq v v') by auto. lia.
        - rewrite L1, V1, Hlk1. lia. }
      destruct (an_step prev s v' i j1 HI Hk Ei Hj1 Hcore) as [HAs HN].
      destruct (nth j1 (a_colsol s) None) as [i0|] eqn:E0.
      * replace (S (a_k s) - 1)%nat with (a_k s) by lia.
        rewrite set_ok by lia. cbn [bind]. apply wp_ret.
        split; [apply HN; auto|]. right. simpl. auto.
      * apply wp_ret. split; [apply HAs; auto|]. left. simpl. split; auto. unfold v in *. lia.
    + destruct (nth j1 (a_colsol s) None) as [i0|] eqn:E0.
      * (* the second column *)
        cbn [bind idx]. rewrite (get_ok _ _ None) by lia. cbn [bind].
        rewrite set_ok by lia. cbn [bind]. rewrite set_ok by lia. cbn [bind].
        assert (Hnear2 : forall k, (k < m)%nat -> av v i k = true -> rc v i b <= rc v i k + 6 * dl).
        { intros k Hkm Ha. destruct (Nat.eq_dec k j1) as [->|Hkj]; [lra|]. specialize (Hsec' k Hkm Hkj Ha). lra. }
        assert (Hcore : acore (upd (a_rowsol s) i (Some b)) (upd (a_colsol s) b (Some i)) v).
        { apply (a_assign _ _ v v); auto.
          - apply (not_deep _ _ _ i b Hc); auto. intros k Hkm Ha. specialize (Hnear2 k Hkm Ha). lra.
          - right. exists (vr v b). split; [|split; [|split; [lra|split]]].
            + destruct (w_cases n m C _ _ _ b Hw Hb) as [(Ev & _)|(_ & X)]; auto. congruence.
            + split; [apply (ac_fmt _ _ _ Hc)|apply (ac_grid _ _ _ Hc)]; auto.
            + right. exists b. split; auto. split; auto. lra.
            + intros k Hkm Ha _. apply (Hnear2 k Hkm Ha). }
        destruct (an_step prev s v i b HI Hk Ei Hb Hcore) as [HAs HN].
        destruct (nth b (a_colsol s) None) as [i1|] eqn:Eb.
        -- rewrite set_ok by lia. cbn [bind]. apply wp_ret. split; [apply HN; auto|]. left. simpl. auto.
        -- apply wp_ret. split; [apply HAs; auto|]. left. simpl. auto.
      * cbn [bind]. rewrite set_ok by lia. cbn [bind]. rewrite set_ok by lia. cbn [bind]. apply wp_ret.
        assert (Hcore : acore (upd (a_rowsol s) i (Some j1)) (upd (a_colsol s) j1 (Some i)) v).
        { apply (a_assign _ _ v v); auto.
          right. exists (vr v j1). split; auto. split; [split; [apply (ac_fmt _ _ _ Hc)|apply (ac_grid _ _ _ Hc)]; auto|]. split; [lra|]. split.
          - right. exists j1. split; auto. split; auto. lra.
          - intros k Hkm Ha _. specialize (Hnear1 k Hkm Ha). unfold LapBase.rc in *. lra. }
        destruct (an_step prev s v i j1 HI Hk Ei Hj1 Hcore) as [HAs _].
        split; [apply HAs; auto|]. left. simpl. auto.
Qed.

Lemma a_loop prev k : forall s, ainv prev s -> (prev - a_k s + mv (a_v s) <= k)%nat ->
  exists s', ainv prev s' /\ a_k s' = prev /\ forall fuel, (k <= fuel)%nat -> arr_loop roundN simd fuel m C prev s = Ok s'.
Proof.
  induction k as [|k IH]; intros s HI Hle.
  - pose proof (an_k _ _ HI). exists s. split; auto. split; [lia|]. intros fuel _.
    assert (E : (a_k s <? prev)%nat = false) by (apply Nat.ltb_ge; lia). destruct fuel; simpl; rewrite E; auto.
  - pose proof (an_k _ _ HI) as Hk. destruct (Nat.lt_ge_cases (a_k s) prev) as [Hlt|Hge].
    2:{ exists s. split; auto. split; [lia|]. intros fuel _.
        assert (E : (a_k s <? prev)%nat = false) by (apply Nat.ltb_ge; lia). destruct fuel; simpl; rewrite E; auto. }
    pose proof (a_step _ _ HI Hlt) as X. destruct (arr_step roundN simd m C s) as [s1| |] eqn:E; simpl in X; try tauto.
    destruct X as [HI1 Hp]. destruct (IH s1 HI1) as (s' & HI' & Ek & Hf).
    { destruct Hp as [[Ha Hb]|[Ha Hb]]; rewrite Ha in *; lia. }
    exists s'. split; auto. split; auto. intros [|fuel] Hfu; [lia|]. simpl.
    assert (El : (a_k s <? prev)%nat = true) by (apply Nat.ltb_lt; auto). rewrite El, E. cbn [bind]. apply Hf. lia.
Qed.

Record apass (s : arr (T := ext R)) : Prop := {
  ap_core : acore (a_rowsol s) (a_colsol s) (a_v s);
  ap_len : length (a_free s) = n;
  ap_nf : (a_numfree s <= n)%nat;
  ap_nodup : NoDup (firstn (a_numfree s) (a_free s));
  ap_free : forall i, In i (firstn (a_numfree s) (a_free s)) <-> (i < n)%nat /\ ~ assigned (a_colsol s) i }.

Lemma a_pass s : apass s -> exists fuel0 s', apass s' /\
  forall fuel, (fuel0 <= fuel)%nat -> arr_pass roundN simd fuel m C s = Ok s'.
Proof.
  intros [Hc Hl Hnf Hnd Hfree].
  assert (HI : ainv (a_numfree s) (mkArr (a_free s) (a_rowsol s) (a_colsol s) (a_v s) 0 0)).
  { constructor; simpl; auto; lia. }
  destruct (a_loop _ _ _ HI (le_n _)) as (s' & [A1 A2 A3 A4 A5 A6 A7] & Ek & Hf).
  eexists. exists s'. split; [|exact Hf].
  assert (E : pend (a_numfree s) s' = firstn (a_numfree s') (a_free s')).
  { unfold pend. rewrite Ek, skipn_all2 by (rewrite firstn_length; lia). apply app_nil_r. }
  rewrite E in *. constructor; auto. lia.
Qed.

Lemma a_loop_safe prev fuel : forall s, ainv prev s ->
  wp True (arr_loop roundN simd fuel m C prev s) (fun s' => ainv prev s' /\ a_k s' = prev).
Proof.
  induction fuel as [|fuel IH]; intros s HI; simpl; pose proof (an_k _ _ HI) as Hk; destruct (Nat.ltb_spec (a_k s) prev) as [Hlt|Hge];
    try (split; auto; lia); simpl; auto.
  pose proof (a_step _ _ HI Hlt) as X. destruct (arr_step roundN simd m C s) as [s1| |]; simpl in X; try tauto.
  cbn [bind]. apply IH, X.
Qed.
Lemma a_pass_safe fuel s : apass s -> wp True (arr_pass roundN simd fuel m C s) apass.
Proof.
  intros [Hc Hl Hnf Hnd Hfree].
  assert (HI : ainv (a_numfree s) (mkArr (a_free s) (a_rowsol s) (a_colsol s) (a_v s) 0 0)).
  { constructor; simpl; auto; lia. }
  eapply wp_conseq; [apply (a_loop_safe _ _ _ HI)|]. intros s' ([A1 A2 A3 A4 A5 A6 A7] & Ek).
  assert (E : pend (a_numfree s) s' = firstn (a_numfree s') (a_free s')).
  { unfold pend. rewrite Ek, skipn_all2 by (rewrite firstn_length; lia). apply app_nil_r. }
  rewrite E in *. constructor; auto. lia.
Qed.
End Arr.
