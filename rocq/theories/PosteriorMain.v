(** The outcome of a correction and the exact posterior. *)
From Coq Require Import List Arith Bool Reals Lia Lra.
Import ListNotations.
From Verif Require Import Res Scalar Lap LapSpec Murty LapBase MurtyMain Cluster ClusterSpec ClusterProofs ClusterMain PosteriorSpec PosteriorProofs.
Local Open Scope nat_scope.

(** * The joint fates can be listed *)
Fixpoint lists {A} (n : nat) (l : list A) : list (list A) :=
  match n with O => [[]] | S n => flat_map (fun a => map (cons a) (lists n l)) l end.
Lemma lists_in {A} (l : list A) n q : In q (lists n l) <-> length q = n /\ incl q l.
Proof.
  revert q. induction n as [|n IH]; intros q; cbn [lists].
  - cbn. split; [intros [<-|[]]; split; auto; intros x []|]. intros [H _]. destruct q; [auto|discriminate].
  - rewrite in_flat_map. split.
    + intros (a & Ha & Hq). apply in_map_iff in Hq. destruct Hq as (r & <- & Hr). apply IH in Hr. destruct Hr as [H1 H2]. split; [cbn; lia|].
      intros x [<-|Hx]; auto.
    + intros [H1 H2]. destruct q as [|a r]; [discriminate|]. exists a. split; [apply H2; cbn; auto|]. apply in_map. apply IH. cbn in H1. split; [lia|].
      intros x Hx. apply H2. cbn. auto.
Qed.
Lemma joint_listed N M : exists all, NoDup all /\ forall q, In q all <-> joint N M q.
Proof.
  set (ok := fun q : list fate => forallb (fun i => forallb (fun k => match nth i q Absent with Seen j => negb (fate_eqb (nth k q Absent) (Seen j)) || (i =? k) | _ => true end) (seq 0 M)) (seq 0 M)).
  exists (nodup fate_dec (filter ok (lists M (Absent :: Missed :: map Seen (seq 0 N))))). split; [apply NoDup_nodup|].
  intros q. rewrite nodup_In, filter_In, lists_in. unfold joint.
  assert (I : incl q (Absent :: Missed :: map Seen (seq 0 N)) <-> forall j, In (Seen j) q -> j < N).
  { split.
    - intros H j Hj. specialize (H _ Hj). cbn in H. destruct H as [H|[H|H]]; try discriminate. apply in_map_iff in H. destruct H as (k & E & Hk).
      injection E as ->. apply in_seq in Hk. lia.
    - intros H f Hf. destruct f as [| |j]; cbn; auto. right. right. apply in_map, in_seq. specialize (H j Hf). lia. }
  rewrite I. assert (O : ok q = true <-> forall i k j, i < M -> k < M -> nth i q Absent = Seen j -> nth k q Absent = Seen j -> i = k).
  { unfold ok. rewrite forallb_forall. split.
    - intros H i k j Hi Hk E1 E2. specialize (H i (proj2 (in_seq _ _ _) (conj (Nat.le_0_l i) Hi))). rewrite forallb_forall in H.
      specialize (H k (proj2 (in_seq _ _ _) (conj (Nat.le_0_l k) Hk))). rewrite E1, E2 in H. cbn in H. rewrite Nat.eqb_refl in H. apply Nat.eqb_eq, H.
    - intros H i Hi. apply in_seq in Hi. rewrite forallb_forall. intros k Hk. apply in_seq in Hk. destruct (nth i q Absent) as [| |j] eqn:E; auto.
      destruct (fate_eqb (nth k q Absent) (Seen j)) eqn:F; auto. cbn. apply fate_eqb_eq in F. apply Nat.eqb_eq. apply (H i k j); auto; lia. }
  rewrite O. tauto.
Qed.

Lemma filter_len {A} (p : A -> bool) l : length (filter p l) <= length l.
Proof. induction l as [|a l IH]; cbn; auto. destruct (p a); cbn; lia. Qed.

Section Main.
Variables (N : nat) (ts : list target_in).
Hypothesis Hts : forall t, In t ts -> valid_target N t.
Let M := length ts.

Lemma columns_nodup q : joint N M q -> NoDup (columns N ts q).
Proof.
  intros (H1 & H2 & H3). apply (proj2 (NoDup_nth _ 0)). rewrite columns_length. fold M. intros i k Hi Hk E.
  rewrite !columns_nth in E by auto. unfold column in E. fold M in E.
  assert (S : forall i j, i < M -> nth i q Absent = Seen j -> j < N) by (intros a j Ha F; apply H2; rewrite <- F; apply nth_In; lia).
  destruct (nth i q Absent) as [| |j] eqn:Ei; destruct (nth k q Absent) as [| |j'] eqn:Ek; try lia;
    try (specialize (S i _ Hi Ei); lia); try (specialize (S k _ Hk Ek); lia).
  subst j'. apply (H3 i k j); auto.
Qed.
Lemma columns_hyp q : joint N M q -> (0 < joint_weight ts q)%R -> hypothesis N ts (columns N ts q) /\ weight N ts (columns N ts q) = joint_weight ts q.
Proof.
  intros Hq Hw. rewrite (joint_columns N ts) in * by auto. destruct (pweight_or N ts (columns N ts q)) as [E|E]; [|lra].
  split; [|auto]. split; [apply columns_length|]. split; [apply columns_nodup, Hq|]. split; [|lra].
  intros j Hj. apply (In_nth _ _ 0) in Hj. destruct Hj as (i & Hi & <-). rewrite columns_length in Hi. rewrite columns_nth by auto. unfold column.
  destruct Hq as (H1 & H2 & _). destruct (nth i q Absent) as [| |j] eqn:F; try lia.
  assert (j < N) by (apply H2; rewrite <- F; apply nth_In; fold M in Hi; lia). lia.
Qed.

Variable pick : nat -> list (mstate (T := ext R)) -> nat.
Hypothesis Hpick : valid_pick pick.
Variables w_lim nhyp_max : R.
Hypothesis HM30 : length ts <= 30.
Hypothesis Hne : ts <> [].
Variables (fuel : nat) (out : corrected).
Hypothesis Hrun : correct exp pick w_lim nhyp_max fuel N ts = Ok out.
Variable all : list (list fate).
Hypothesis Hnd : NoDup all.
Hypothesis Hall : forall q, In q all <-> joint N (length ts) q.
Hypothesis Hev : (0 < sum_over (joint_weight ts) all)%R.

Lemma posterior_close : exists used spurious,
  NoDup used /\ incl used all /\ length used <= c_n out /\ (0 <= spurious)%R /\
  (forall q u, In u used -> In q all -> ~ In q used -> (joint_weight ts q <= joint_weight ts u)%R) /\
  (forall q, In q all -> ~ In q used -> joint_weight ts q = 0%R \/ (nhyp_max <= INR (c_n out))%R \/
     (joint_weight ts q < w_lim * (sum_over (joint_weight ts) used + spurious))%R) /\
  (forall L, (1 <= L)%R ->
     (forall i j, i < M -> j < N -> (t_r (nth i ts no_target) * nth j (t_lik (nth i ts no_target)) 0 <= L)%R) ->
     (forall i, i < M -> (t_r (nth i ts no_target) * t_miss (nth i ts no_target) <= L)%R) ->
     (spurious <= INR (c_n out) * (tiny * L ^ (M - 1)))%R) /\
  let e := (Rmax (sum_over (joint_weight ts) all - sum_over (joint_weight ts) used) spurious / sum_over (joint_weight ts) all)%R in
  (forall i j, i < M -> j < N -> exists p, nth (i * (N + 1) + j) (c_R out) NaN = Fin p /\ (Rabs (p - posterior ts all (caused i j)) <= e)%R) /\
  (forall i, i < M -> exists p, nth (i * (N + 1) + N) (c_R out) NaN = Fin p /\ (Rabs (p - posterior ts all (missed i)) <= e)%R) /\
  (forall i, i < M -> exists p, (Rabs (p - posterior ts all (alive i)) <= e)%R /\
     nth i (c_r out) NaN = Fin (if Rlt_dec p (1 / 1000000) then 0%R else p)) /\
  (forall j, j < N -> exists b, nth j (c_rB out) NaN = Fin b /\ (Rabs (b - (1 - posterior ts all (taken j))) <= e)%R).
Proof.
  assert (HM : 0 < length ts) by (destruct ts; [congruence|cbn; lia]).
  destruct (correct_outcome exp pick Hpick w_lim nhyp_max N ts Hts HM30 (exp_no_underflow N ts) fuel out HM Hrun) as (ds & Hu & On & OR & Or & OB).
  assert (Hh : forall d, In d ds -> hypothesis N ts d) by apply Hu. assert (Hd : NoDup ds) by apply Hu.
  assert (Ew : forall s, In s ds -> exp (ln (weight N ts s)) = weight N ts s) by (intros s Hs; apply exp_ln; apply (Hh s Hs)).
  assert (V0 : (0 < sum_over (weight N ts) ds)%R).
  { apply sumf_pos; [apply Hu|]. intros s Hs. apply (Hh s Hs). }
  assert (EV : sum_over (fun s => exp (ln (weight N ts s))) ds = sum_over (weight N ts) ds) by (apply sumf_ext; auto).
  assert (Em : forall i j, marginal N (fun s => exp (ln (weight N ts s))) ds i j = (sum_over (fun s => if says N i j s then weight N ts s else 0) ds / sum_over (weight N ts) ds)%R).
  { intros i j. unfold marginal. rewrite EV. f_equal. apply sumf_ext. intros s Hs. rewrite Ew by auto. auto. }
  set (us := used_fates N ts ds). set (sp := spurious N ts ds).
  assert (Usum : sum_over (joint_weight ts) us = sum_over (pweight N ts) ds).
  { pose proof (used_sum N ts Hts ds Hh (fun _ => true)) as E. cbn in E. exact E. }
  assert (Sp0 : (0 <= sp)%R) by (apply sumf_nonneg; intros s _; pose proof (pweight_le N ts Hts s); lra).
  assert (Vsum : sum_over (weight N ts) ds = (sum_over (joint_weight ts) us + sp)%R).
  { rewrite Usum. unfold sp, spurious. rewrite <- sumf_plus. apply sumf_ext. intros; lra. }
  assert (Uall : incl us all) by (apply (used_all N ts ds Hh); auto).
  assert (Und : NoDup us) by (apply (used_nd N ts ds Hh Hd)).
  assert (Rs : sum_over (joint_weight ts) (rest us all) = (sum_over (joint_weight ts) all - sum_over (joint_weight ts) us)%R).
  { rewrite (split_sum (joint_weight ts) us all Und Hnd Uall). lra. }
  assert (Out : forall q, In q all -> ~ In q us -> (0 < joint_weight ts q)%R ->
    hypothesis N ts (columns N ts q) /\ weight N ts (columns N ts q) = joint_weight ts q /\ ~ In (columns N ts q) ds).
  { intros q Hq Hn Hw. assert (Hj : joint N M q) by (apply Hall, Hq). destruct (columns_hyp q Hj Hw) as [A B]. split; auto. split; auto.
    intros K. apply Hn. apply used_inv. exists (columns N ts q). split; auto. split; [rewrite <- (joint_columns N ts) by auto; auto|].
    symmetry. apply fates_columns, Hj. }
  assert (Ev : forall (A : list fate -> bool) p, p = (sum_over (fun s => if A (fates N ts s) then weight N ts s else 0) ds / sum_over (weight N ts) ds)%R ->
    (Rabs (p - posterior ts all A) <= Rmax (sum_over (joint_weight ts) all - sum_over (joint_weight ts) us) sp / sum_over (joint_weight ts) all)%R).
  { intros A p E. rewrite <- Rs. apply (event_close N ts Hts ds Hh Hd all Hnd Hall); auto. }
  exists us, sp. split; [exact Und|]. split; [exact Uall|]. split.
  { rewrite On. unfold us, used_fates. rewrite map_length. apply filter_len. }
  split; [exact Sp0|]. split.
  { intros q u Hq0 Hq Hn. apply used_inv in Hq0. destruct Hq0 as (s & Hs & Hp & ->). rewrite (used_weight N ts ds Hh s Hs Hp).
    destruct (Rlt_dec 0 (joint_weight ts q)) as [P|P]; [|lra]. destruct (Out q Hq Hn P) as (A & B & C).
    pose proof (us_best _ _ _ _ _ _ Hu s (columns N ts q) Hs A C) as L. rewrite B in L. destruct (pweight_or N ts s) as [->|]; lra. }
  split.
  { intros q Hq Hn. pose proof (joint_nonneg N ts Hts q) as J0. destruct (Rlt_dec 0 (joint_weight ts q)) as [P|P]; [|left; lra]. right.
    destruct (Out q Hq Hn P) as (A & B & C). rewrite On.
    destruct (us_stop _ _ _ _ _ _ Hu) as [Ha|(pre & d & E & [Hb|Hb])]; [destruct (C (Ha _ A))| |auto].
    right. unfold below in Hb. rewrite EV in Hb. assert (Hdd : In d ds) by (rewrite E; apply in_app_iff; cbn; auto). rewrite Ew in Hb by auto.
    rewrite ediv_pos in Hb by auto. rewrite lt_FF in Hb.
    match type of Hb with Rltb ?a ?b = _ => destruct (Rltb_spec a b) as [Hlt|]; [|discriminate] end.
    pose proof (us_best _ _ _ _ _ _ Hu d (columns N ts q) Hdd A C) as L. rewrite B in L.
    rewrite <- Vsum. apply (Rmult_lt_compat_r (sum_over (weight N ts) ds)) in Hlt; auto. unfold Rdiv in Hlt. rewrite Rmult_assoc, Rinv_l in Hlt by lra. lra. }
  split.
  { intros L HL H1 H2. rewrite On. unfold sp, spurious.
    assert (K : forall l, (sum_over (fun s => weight N ts s - pweight N ts s) l <= INR (length l) * (tiny * L ^ (M - 1)))%R).
    { induction l as [|a l IH]; cbn [sum_over length]; [cbn; lra|]. rewrite S_INR. pose proof (spurious_small N ts Hts a L HL H1 H2) as Q. fold M in Q. lra. }
    apply K. }
  cbn zeta. split; [|split; [|split]].
  - intros i j Hi Hj. eexists. split; [apply OR; auto; lia|]. apply Ev. rewrite Em. f_equal. apply sumf_ext. intros s _. rewrite (says_caused N ts) by auto. auto.
  - intros i Hi. eexists. split; [apply OR; auto; lia|]. apply Ev. rewrite Em. f_equal. apply sumf_ext. intros s _. rewrite (says_missed N ts) by auto. auto.
  - intros i Hi. eexists. split; [|rewrite Or, nth_map_seq by auto; reflexivity]. apply Ev.
    rewrite (sumf_ext _ (fun j => (sum_over (fun s => if says N i j s then weight N ts s else 0) ds / sum_over (weight N ts) ds)%R)) by (intros; apply Em).
    rewrite sumf_div. f_equal. rewrite sumf_swap. apply sumf_ext. intros s Hs. rewrite sum_one.
    + rewrite (row_event N ts) by auto. auto.
    + apply seq_NoDup.
    + intros a b Ha Hb. apply in_seq in Ha. apply in_seq in Hb. unfold says.
      destruct (Nat.ltb_spec a N); destruct (Nat.ltb_spec b N); rewrite !Nat.eqb_eq; lia.
  - intros j Hj. eexists. split; [rewrite OB, nth_map_seq by auto; reflexivity|].
    match goal with |- (Rabs (1 - ?x - (1 - ?y)) <= _)%R => replace (1 - x - (1 - y))%R with (- (x - y))%R by lra end. rewrite Rabs_Ropp. apply Ev.
    rewrite (sumf_ext _ (fun i => (sum_over (fun s => if says N i j s then weight N ts s else 0) ds / sum_over (weight N ts) ds)%R)) by (intros; apply Em).
    rewrite sumf_div. f_equal. rewrite sumf_swap. apply sumf_ext. intros s Hs. rewrite sum_one.
    + rewrite (col_event N ts) by auto. auto.
    + apply seq_NoDup.
    + intros a b Ha Hb. apply in_seq in Ha. apply in_seq in Hb. unfold says. destruct (Nat.ltb_spec j N); [|lia]. rewrite !Nat.eqb_eq. intros E1 E2.
      destruct (Hh s Hs) as (Hl & Hn & _). apply (proj1 (NoDup_nth s 0) Hn); try lia; congruence.
Qed.

(** In numbers. *)
Lemma posterior_bound L : (0 <= w_lim)%R -> (INR (c_n out) < nhyp_max)%R -> (1 <= L)%R ->
  (forall i j, i < M -> j < N -> (t_r (nth i ts no_target) * nth j (t_lik (nth i ts no_target)) 0 <= L)%R) ->
  (forall i, i < M -> (t_r (nth i ts no_target) * t_miss (nth i ts no_target) <= L)%R) ->
  let z := (INR (c_n out) * (tiny * L ^ (M - 1)) / sum_over (joint_weight ts) all)%R in
  let e := Rmax (INR (length all) * w_lim * (1 + z)) z in
  (forall i, i < M -> exists p, (Rabs (p - posterior ts all (alive i)) <= e)%R /\
     nth i (c_r out) NaN = Fin (if Rlt_dec p (1 / 1000000) then 0%R else p)) /\
  (forall j, j < N -> exists b, nth j (c_rB out) NaN = Fin b /\ (Rabs (b - (1 - posterior ts all (taken j))) <= e)%R).
Proof.
  intros Hw Hn HL H1 H2 z e. destruct posterior_close as (us & sp & U1 & U2 & U3 & S0 & _ & Q & SL & E). cbn zeta in E. destruct E as (_ & _ & E3 & E4).
  specialize (SL L HL H1 H2). set (U := sum_over (joint_weight ts) all) in *.
  assert (Z : (sp / U <= z)%R) by (unfold z, Rdiv; apply Rmult_le_compat_r; [left; apply Rinv_0_lt_compat; auto|exact SL]).
  assert (L1 : (U - sum_over (joint_weight ts) us <= INR (length all) * (w_lim * (U + sp)))%R).
  { rewrite <- (Rplus_0_r U) at 1. unfold U at 1. rewrite (split_sum (joint_weight ts) us all U1 Hnd U2).
    assert (UU : (sum_over (joint_weight ts) us <= U)%R).
    { unfold U. rewrite (split_sum (joint_weight ts) us all U1 Hnd U2). assert (0 <= sum_over (joint_weight ts) (rest us all))%R by (apply sumf_nonneg; intros; apply (joint_nonneg N ts Hts)). lra. }
    assert (K : forall l, incl l (rest us all) -> (sum_over (joint_weight ts) l <= INR (length l) * (w_lim * (U + sp)))%R).
    { induction l as [|a l IH]; intros Hl; cbn [sum_over length]; [cbn; lra|]. rewrite S_INR.
      assert (Ia : In a (rest us all)) by (apply Hl; cbn; auto). apply rest_in in Ia. destruct Ia as [Ia Ib].
      assert (Ja : (joint_weight ts a <= w_lim * (U + sp))%R).
      { destruct (Q a Ia Ib) as [->|[K|K]]; [apply Rmult_le_pos; lra|lra|]. apply Rlt_le in K. eapply Rle_trans; [exact K|]. apply Rmult_le_compat_l; lra. }
      specialize (IH (fun x Hx => Hl x (or_intror Hx))). lra. }
    specialize (K (rest us all) (fun x H => H)).
    assert (Len : length (rest us all) <= length all) by apply filter_len.
    apply le_INR in Len. assert (0 <= w_lim * (U + sp))%R by (apply Rmult_le_pos; lra).
    assert (INR (length (rest us all)) * (w_lim * (U + sp)) <= INR (length all) * (w_lim * (U + sp)))%R by (apply Rmult_le_compat_r; lra). lra. }
  assert (EE : (Rmax (U - sum_over (joint_weight ts) us) sp / U <= e)%R).
  { unfold e. apply Rmax_case_strong; intros _.
    - eapply Rle_trans; [|apply Rmax_l]. apply Rle_trans with (INR (length all) * (w_lim * (U + sp)) / U)%R.
      + unfold Rdiv. apply Rmult_le_compat_r; [left; apply Rinv_0_lt_compat; auto|exact L1].
      + replace (INR (length all) * (w_lim * (U + sp)) / U)%R with (INR (length all) * w_lim * (1 + sp / U))%R by (field; lra).
        apply Rmult_le_compat_l; [apply Rmult_le_pos; [apply pos_INR|auto]|lra].
    - eapply Rle_trans; [|apply Rmax_r]. exact Z. }
  split.
  - intros i Hi. destruct (E3 i Hi) as (p & A & B). exists p. split; auto. lra.
  - intros j Hj. destruct (E4 j Hj) as (b & A & B). exists b. split; auto. lra.
Qed.
End Main.
