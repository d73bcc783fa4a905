(** Rounding in the association table. *)
From Coq Require Import List Arith Bool Lia ZArith Reals Lra Permutation.
From Flocq Require Import Core BinarySingleNaN IEEE754.PrimFloat.
From Coq Require Import Floats.
Import ListNotations.
From Verif Require Import Res Scalar Lap LapSpec LapHom Murty.
From Verif Require Import FloatBase FloatExt LapRnd Cluster ClusterSpec ClusterProofs ClusterFloat FloatSum ClusterFloatLoop.
Local Open Scope R_scope.
Notation fval := FloatBase.val.
Notation vsum l := (rsum (map fval l)).
Notation bp k := (bpow radix2 k).
Notation hyp := (float * list nat)%type.

Lemma quot_ge a b : 0 <= a -> 0 < b -> 0 <= a / b.
Proof. intros Ha Hb. apply Rmult_le_pos; auto. left. apply Rinv_0_lt_compat; auto. Qed.

Lemma sumf_scal {A} k (f : A -> R) l : sumf (fun x => k * f x) l = k * sumf f l.
Proof. induction l as [|x l IH]; simpl; [lra|]. rewrite IH. lra. Qed.

(** ** Sums computed by the loop *)
Lemma fold_fsums l : forall l0 s, fsums l0 s -> fsums (l0 ++ l) (fold_left PrimFloat.add l s).
Proof.
  induction l as [|x l IH]; intros l0 s H; simpl; [rewrite app_nil_r; auto|].
  replace (l0 ++ x :: l) with ((l0 ++ [x]) ++ l) by (rewrite <- app_assoc; auto). apply IH. apply fs_app; auto. constructor.
Qed.

Definition chosen_cell (N i j : nat) (hs : list hyp) : list hyp := filter (fun h => says N i j (snd h)) hs.

Lemma wsum_fsums hs : fsums (map fst hs) (wsum hs).
Proof.
  replace (wsum hs) with (fold_left PrimFloat.add (map fst hs) 0%float); [apply (fold_fsums _ [] _ fs_nil)|].
  unfold wsum. generalize 0%float. induction hs as [|h hs IH]; intros x; simpl; auto.
Qed.
Lemma cell_fsums N hs i j : fsums (map fst (chosen_cell N i j hs)) (cell N hs i j).
Proof.
  replace (cell N hs i j) with (fold_left PrimFloat.add (map fst (chosen_cell N i j hs)) 0%float); [apply (fold_fsums _ [] _ fs_nil)|].
  unfold cell, chosen_cell. generalize 0%float. induction hs as [|h hs IH]; intros x; simpl; auto.
  destruct (says N i j (snd h)); simpl; auto.
Qed.

Lemma fold_nn l : forall s, nn s -> (forall x, In x l -> nn x) -> nn (fold_left PrimFloat.add l s).
Proof.
  induction l as [|x l IH]; intros s Hs H; simpl; auto. apply IH; [apply nn_add; auto; apply H; simpl; auto|intros; apply H; simpl; auto].
Qed.

Definition nnh (hs : list hyp) : Prop := forall h, In h hs -> nn (fst h).

(** An entry is at most the total, because rounding is monotone. *)
Lemma cell_le N hs i j : nnh hs -> nn (cell N hs i j) /\ nn (wsum hs) /\
  forall W, proj (wsum hs) = Fin W -> exists c, proj (cell N hs i j) = Fin c /\ 0 <= c <= W.
Proof.
  induction hs as [|h hs IH] using rev_ind; intros Hn.
  - split; [apply nn_0|]. split; [apply nn_0|]. intros W HW. exists 0. change (cell N [] i j) with 0%float. change (wsum []) with 0%float in HW.
    rewrite proj_zero in *. inversion HW. split; auto; lra.
  - assert (Hn' : nnh hs) by (intros x Hx; apply Hn, in_app_iff; auto).
    assert (Hh : nn (fst h)) by (apply Hn, in_app_iff; simpl; auto).
    destruct (IH Hn') as (I1 & I2 & I3). rewrite wsum_snoc, cell_snoc.
    destruct (nn_add _ _ I2 Hh) as [J1 J2]. destruct (nn_add _ _ I1 Hh) as [K1 K2].
    split; [destruct (says N i j (snd h)); auto|]. split; auto. intros W HW.
    destruct (J2 W HW) as (a & b & Ea & Eb & ->). destruct (I3 a Ea) as (c & Ec & Hc).
    pose proof (nn_fin _ _ Hh Eb) as Hb.
    assert (Fa : rnd a = a).
    { apply round_generic; [apply valid_rnd_N|]. eapply proj_Fin_format; eauto. }
    destruct (says N i j (snd h)).
    + destruct K1 as [E|(r & Er & Hr)].
      * exfalso. rewrite add_proj, Ec, Eb in E. rewrite add_proj, Ea, Eb in HW.
        cbn [nadd roundN] in E, HW. unfold rnd_add, rfin in *.
        assert (Hm : rnd (c + b) <= rnd (a + b)) by (apply rnd_le; lra).
        assert (H0 : 0 <= rnd (c + b)) by (apply rnd_pos; lra).
        destruct (Rlt_bool_spec (Rabs (rnd (a + b))) (bpow radix2 emax)) as [Hlt|Hge].
        -- rewrite Rlt_bool_true in E; [discriminate|]. rewrite (Rabs_pos_eq (rnd (a + b))) in Hlt by lra. rewrite Rabs_pos_eq by lra. lra.
        -- destruct (Rlt_bool (a + b) 0); discriminate.
      * exists r. split; auto. split; auto. destruct (K2 r Er) as (c' & b' & Ec' & Eb' & ->).
        rewrite Ec in Ec'. rewrite Eb in Eb'. inversion Ec'; inversion Eb'; subst. apply rnd_le. lra.
    + exists c. split; auto. split; [lra|]. apply Rle_trans with (rnd a); [lra|]. apply rnd_le. lra.
Qed.

(** ** Exact sums *)
Definition wt (h : hyp) : R := fval (fst h).
Definition here (N i j : nat) (f : hyp -> R) (h : hyp) : R := if says N i j (snd h) then f h else 0.

Lemma vsum_cons x l : vsum (x :: l) = fval x + vsum l.
Proof. reflexivity. Qed.
Lemma vsum_sum (hs : list hyp) : vsum (map fst hs) = sumf wt hs.
Proof. induction hs as [|h hs IH]; auto. cbn [map sum_over]. rewrite <- IH. reflexivity. Qed.
Lemma vsum_cell N i j hs : vsum (map fst (chosen_cell N i j hs)) = sumf (here N i j wt) hs.
Proof.
  unfold chosen_cell. induction hs as [|h hs IH]; auto. cbn [filter sum_over]. unfold here at 1. destruct (says N i j (snd h)).
  - rewrite <- IH. reflexivity.
  - rewrite <- IH. lra.
Qed.

Notation small n := (Z.of_nat n <= 2 ^ 20)%Z.
Definition eta (n : nat) : R := 2 * INR n * uro.
Lemma eta_small n : small n -> 0 <= eta n <= bp (-32).
Proof.
  intros H. unfold eta. pose proof uro_pos. pose proof (pos_INR n). split; [nra|].
  apply Rle_trans with (2 * bp 20 * uro).
  - apply Rmult_le_compat_r; [lra|]. apply Rmult_le_compat_l; [lra|]. rewrite INR_IZR_INZ. change (bp 20) with (IZR (2 ^ 20)). apply IZR_le. auto.
  - unfold uro. change 2 with (bp 1). rewrite <- !bpow_plus. right. reflexivity.
Qed.

Section Hyps.
Variable N : nat.
Variable hs : list hyp.
Hypothesis Hnn : nnh hs.
Hypothesis Hn : small (length hs).
Variable W : R.
Hypothesis HW : proj (wsum hs) = Fin W.
Let n := length hs.
Notation We := (sumf wt hs).
Notation ex i j := (sumf (here N i j wt) hs).

Lemma hs_fin h : In h hs -> fin (fst h) /\ 0 <= wt h.
Proof.
  intros Hh. destruct (fsums_fin _ _ (wsum_fsums hs)) as [_ H].
  { intros x Hx. apply in_map_iff in Hx. destruct Hx as (h' & <- & Hh'). auto. }
  destruct (H W HW) as [Hf _]. assert (F : fin (fst h)) by (apply Hf, in_map; auto).
  split; auto. apply (nn_fin (fst h)); auto. apply proj_fin; auto.
Qed.
Lemma W_close : Rabs (W - We) <= eta n * We.
Proof.
  destruct (fsums_fin _ _ (wsum_fsums hs)) as [_ H].
  { intros x Hx. apply in_map_iff in Hx. destruct Hx as (h' & <- & Hh'). auto. }
  destruct (H W HW) as [_ Hc]. rewrite vsum_sum, map_length in Hc. apply Hc. lia.
Qed.
Lemma ex_nonneg i j : 0 <= ex i j.
Proof. apply sumf_nonneg. intros h Hh. unfold here. destruct (says N i j (snd h)); [apply hs_fin; auto|lra]. Qed.
Lemma We_nonneg : 0 <= We.
Proof. apply sumf_nonneg. intros h Hh. apply hs_fin; auto. Qed.

Lemma cell_close i j : exists c, proj (cell N hs i j) = Fin c /\ 0 <= c <= W /\ Rabs (c - ex i j) <= eta n * ex i j.
Proof.
  destruct (cell_le N hs i j Hnn) as (_ & _ & H). destruct (H W HW) as (c & Ec & Hc). exists c. split; auto. split; auto.
  destruct (fsums_fin _ _ (cell_fsums N hs i j)) as [_ Hf].
  { intros x Hx. apply in_map_iff in Hx. destruct Hx as (h' & <- & Hh'). apply filter_In in Hh'. apply Hnn. tauto. }
  destruct (Hf c Ec) as [_ Hcl]. rewrite vsum_cell, map_length in Hcl.
  assert (Hl : (length (chosen_cell N i j hs) <= n)%nat).
  { unfold chosen_cell, n. clear. induction hs as [|h l IH]; simpl; auto. destruct (says N i j (snd h)); simpl; lia. }
  eapply Rle_trans; [apply Hcl; unfold n in *; lia|]. apply Rmult_le_compat_r; [apply ex_nonneg|].
  unfold eta. apply Rmult_le_compat_r; [apply Rlt_le, uro_pos|]. apply Rmult_le_compat_l; [lra|]. apply le_INR. auto.
Qed.

(** ** Entries that exclude each other: a row or a column *)
Variable L : list (nat * nat).
Hypothesis HL : NoDup L.
Hypothesis Hone : forall h p q, In h hs -> In p L -> In q L ->
  says N (fst p) (snd p) (snd h) = true -> says N (fst q) (snd q) (snd h) = true -> p = q.

Lemma group_sum (f : hyp -> R) : (forall h, In h hs -> 0 <= f h) ->
  sumf (fun p => sumf (here N (fst p) (snd p) f) hs) L <= sumf f hs.
Proof.
  intros Hf. rewrite sumf_swap. apply sumf_le. intros h Hh. unfold here.
  apply sumf_at_most_one; auto. intros p q Hp Hq. apply Hone; auto.
Qed.

Definition entries : list float := map (fun p => (cell N hs (fst p) (snd p) / wsum hs)%float) L.

Section Positive.
Hypothesis HWp : 0 < W.

Lemma entry_ok i j : exists c, proj (cell N hs i j) = Fin c /\ 0 <= c <= W /\ Rabs (c - ex i j) <= eta n * ex i j /\
  proj (cell N hs i j / wsum hs)%float = Fin (rnd (c / W)) /\ 0 <= rnd (c / W) <= 1 /\
  Rabs (rnd (c / W) - c / W) <= uro * (c / W) + bp (-1075).
Proof.
  destruct (cell_close i j) as (c & Ec & Hc & Hcl). exists c.
  assert (Hq : 0 <= c / W <= 1).
  { split; [apply quot_ge; lra|]. apply (Rmult_le_reg_r W); auto. unfold Rdiv. rewrite Rmult_assoc, Rinv_l by lra. lra. }
  split; auto. split; auto. split; auto. split.
  - apply div_fin; auto; [lra|]. rewrite Rabs_pos_eq by lra. apply Rle_trans with 1; [lra|]. change 1 with (bp 0). apply bpow_le. lia.
  - split; [|apply rnd_rel; lra]. split; [apply rnd_pos; lra|].
    replace 1 with (rnd 1); [apply rnd_le; lra|].
    apply round_generic; [apply valid_rnd_N|]. eapply proj_Fin_format, proj_one.
Qed.

Lemma entries_in x : In x entries -> exists r, proj x = Fin r /\ 0 <= r <= 1.
Proof.
  intros Hx. unfold entries in Hx. apply in_map_iff in Hx. destruct Hx as ([i j] & <- & _). cbn [fst snd].
  destruct (entry_ok i j) as (c & _ & _ & _ & E & H & _). eauto.
Qed.

Hypothesis HLs : small (length L).

Lemma We_pos : 0 < We.
Proof.
  destruct (Req_dec We 0) as [E|E]; [|pose proof We_nonneg; lra].
  pose proof W_close as H. rewrite E, Rmult_0_r, Rminus_0_r in H. apply Rabs_le_inv in H. lra.
Qed.

Lemma vsum_entries : vsum entries <= (1 + uro) * (1 + eta n) * We / W + INR (length L) * bp (-1075).
Proof.
  assert (H : vsum entries <= sumf (fun p => (1 + uro) * (1 + eta n) / W * ex (fst p) (snd p) + bp (-1075)) L).
  { unfold entries. clear HLs HL Hone. induction L as [|[i j] l IH]; [simpl; lra|]. cbn [sum_over]. rewrite map_cons, vsum_cons. apply Rplus_le_compat; auto. cbn [fst snd].
    destruct (entry_ok i j) as (c & _ & Hc & Hcl & E & _ & Hr). apply proj_Fin in E. destruct E as [_ ->].
    apply Rabs_le_inv in Hr. apply Rabs_le_inv in Hcl. pose proof uro_pos.
    assert (Hcw : c / W <= (1 + eta n) * ex i j / W).
    { apply Rmult_le_compat_r; [left; apply Rinv_0_lt_compat; auto|lra]. }
    replace ((1 + uro) * (1 + eta n) / W * ex i j) with ((1 + uro) * ((1 + eta n) * ex i j / W)) by (field; lra).
    assert ((1 + uro) * (c / W) <= (1 + uro) * ((1 + eta n) * ex i j / W)) by (apply Rmult_le_compat_l; lra). lra. }
  eapply Rle_trans; [exact H|]. rewrite sumf_plus.
  assert (E1 : sumf (fun _ : nat * nat => bp (-1075)) L = INR (length L) * bp (-1075)).
  { clear. induction L as [|p l IH]; [simpl; lra|]. cbn [length]. rewrite S_INR. cbn [sum_over]. rewrite IH. lra. }
  rewrite E1. apply Rplus_le_compat_r.
  rewrite sumf_scal. pose proof uro_pos. pose proof (eta_small n Hn).
  replace ((1 + uro) * (1 + eta n) * We / W) with ((1 + uro) * (1 + eta n) / W * We) by (field; lra).
  apply Rmult_le_compat_l; [apply quot_ge; [nra|lra]|].
  apply (group_sum wt). intros h Hh. apply hs_fin; auto.
Qed.

(** The sum of a row or column is in [0, 1 + 7 (n + length) u]. *)
Lemma group_bound t : fsums entries t -> exists r, proj t = Fin r /\ 0 <= r <= 1 + 7 * (INR n + INR (length L)) * uro.
Proof.
  intros Ht.
  destruct (fsums_ok entries t 1 Ht) as [r Er].
  - split; [lra|]. change 1 with (bp 0). apply bpow_le. lia.
  - apply entries_in.
  - unfold entries. rewrite map_length. lia.
  - exists r. split; auto.
    destruct (fsums_fin _ _ Ht) as [Hnt Hf].
    { intros x Hx. right. destruct (entries_in x Hx) as (y & Ey & Hy). exists y. split; auto; lra. }
    split; [eapply nn_fin; eauto|]. destruct (Hf r Er) as [_ Hcl]. assert (Hle : length entries = length L) by apply map_length. rewrite Hle in Hcl.
    specialize (Hcl ltac:(lia)). fold (eta (length L)) in Hcl.
    destruct L as [|p0 L0] eqn:EL.
    { unfold entries in Hcl. rewrite EL in Hcl. simpl in Hcl. rewrite Rmult_0_r, Rminus_0_r in Hcl. apply Rabs_le_inv in Hcl.
      pose proof uro_pos. pose proof (pos_INR n). simpl. nra. }
    rewrite <- EL in *.
    pose proof vsum_entries as Hv. pose proof W_close as HWc. pose proof We_pos as HWe.
    pose proof (eta_small n Hn) as He. pose proof (eta_small (length L) HLs) as Hk.
    assert (Hn1 : 1 <= INR n).
    { unfold n. destruct hs; [exfalso; simpl in HWe; lra|]. simpl length. rewrite S_INR. pose proof (pos_INR (length l)). lra. }
    assert (Hk1 : 1 <= INR (length L)).
    { rewrite EL. simpl length. rewrite S_INR. pose proof (pos_INR (length L0)). lra. }
    set (x := INR n) in *. set (y := INR (length L)) in *. unfold eta in *. fold x y in He, Hk, Hv, HWc, Hcl.
    pose proof uro_pos as Hu. set (u := uro) in *.
    set (X := x * u) in *. set (Y := y * u) in *.
    replace (2 * x * u) with (2 * X) in * by (unfold X; ring). replace (2 * y * u) with (2 * Y) in * by (unfold Y; ring).
    assert (HX : u <= X) by (unfold X; nra). assert (HY : u <= Y) by (unfold Y; nra).
    assert (B32 : bp (-32) <= / 1000) by (apply Rle_trans with (bp (-10)); [apply bpow_le; lia|change (bp (-10)) with (/ 1024); lra]).
    apply Rabs_le_inv in HWc.
    assert (HWW : We / W <= 1 + 2.1 * X).
    { apply (Rmult_le_reg_r W); auto. unfold Rdiv. rewrite Rmult_assoc, Rinv_l by lra. nra. }
    assert (HWW0 : 0 <= We / W) by (apply quot_ge; lra).
    assert (Htiny : y * bp (-1075) <= Y * / 1000).
    { unfold Y. rewrite Rmult_assoc. apply Rmult_le_compat_l; [lra|]. unfold u, uro.
      apply Rle_trans with (bp (-53) * bp (-10)); [rewrite <- bpow_plus; apply bpow_le; lia|].
      apply Rmult_le_compat_l; [apply bpow_ge_0|]. change (bp (-10)) with (/ 1024). lra. }
    assert (Hv2 : vsum entries <= 1 + 4.2 * X + 1.1 * Y).
    { eapply Rle_trans; [exact Hv|]. replace ((1 + u) * (1 + 2 * X) * We / W) with ((1 + u) * ((1 + 2 * X) * (We / W))) by (field; lra).
      assert (H1 : (1 + 2 * X) * (We / W) <= 1 + 4.15 * X).
      { apply Rle_trans with ((1 + 2 * X) * (1 + 2.1 * X)); [apply Rmult_le_compat_l; lra|nra]. }
      assert (H2 : (1 + u) * ((1 + 2 * X) * (We / W)) <= (1 + u) * (1 + 4.15 * X)) by (apply Rmult_le_compat_l; lra).
      nra. }
    apply Rabs_le_inv in Hcl.
    assert (Hv0 : 0 <= vsum entries).
    { apply vsum_nonneg. intros z Hz. destruct (entries_in z Hz) as (q & Eq & Hq). split; [right; eauto; exists q; split; auto; lra|]. apply (proj_Fin _ _ Eq). }
    replace (7 * (x + y) * u) with (7 * X + 7 * Y) by (unfold X, Y; ring).
    assert (r <= (1 + 2 * Y) * vsum entries) by lra.
    assert ((1 + 2 * Y) * vsum entries <= (1 + 2 * Y) * (1 + 4.2 * X + 1.1 * Y)) by (apply Rmult_le_compat_l; lra).
    nra.
Qed.
End Positive.
End Hyps.
