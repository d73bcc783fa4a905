(** The total weight in doubles: when it neither overflows nor underflows. *)
From Coq Require Import List Arith Bool Lia ZArith Reals Lra Permutation.
From Flocq Require Import Core BinarySingleNaN IEEE754.PrimFloat.
From Coq Require Import Floats.
Import ListNotations.
From Verif Require Import Res Scalar Lap LapSpec LapBase LapHom LapArr LapFloatMain Murty MurtyProofs MurtyFloatMain.
From Verif Require Import FloatBase FloatExt LapRnd Cluster ClusterSpec ClusterProofs ClusterFloat FloatSum ClusterFloatLoop ClusterFloatNum ClusterFloatClose ClusterFloatMain.
Local Open Scope nat_scope.
Notation fval := FloatBase.val.

Section Range.
Variable expf : float -> float.
Variable pick : nat -> list (mstate (T := float)) -> nat.
Variable fsum : list float -> float.
Variables w_lim nhyp_max : float.
Variables (N : nat) (a : Z) (C : matrix float) (rs : list float).
Hypothesis Hin : association_input N a C.
Hypothesis Hpick : forall tick q, q <> [] -> pick tick q < length q.
Hypothesis Hacc : exp_accurate expf.
Hypothesis Hmax : PrimFloat.leb nhyp_max 1048576 = true.
Hypothesis Ha15 : (a <= 15)%Z.
Variables (fuel : nat) (out : fcorrected).
Hypothesis Hrun : fcorrect expf pick fsum w_lim nhyp_max fuel N C rs = Ok out.
Notation T := (pm proj C).

Lemma half_40 : (bp (-40) <= / 2)%R.
Proof. change (/ 2)%R with (bp (-1)). apply bpow_le. lia. Qed.

Lemma weight_upper x t : fin x -> (Rabs (fval x - t) <= bp (-27))%R -> (-250 <= t)%R ->
  exists r, proj (expf (- x)%float) = Fin r /\ (0 <= r <= bp 503)%R.
Proof.
  intros Fx Hx Ht. destruct (f_opp x Fx) as [Fo Vo]. destruct (Hacc _ Fo) as (H1 & H2 & _). rewrite Vo in *.
  apply Rabs_le_inv in Hx. assert (B27 : (bp (-27) <= 1)%R) by (change 1%R with (bp 0); apply bpow_le; lia).
  destruct (Rlt_le_dec (- fval x) (-700)) as [L|L].
  - destruct (H2 L) as [F B]. exists (fval (expf (- x)%float)). split; [apply proj_fin; auto|].
    assert (bp (-800) <= bp 503)%R by (apply bpow_le; lia). lra.
  - destruct H1 as [F B]; [lra|]. exists (fval (expf (- x)%float)). split; [apply proj_fin; auto|].
    apply Rabs_le_inv in B. set (e := exp (- fval x)) in *. assert (He : (0 < e)%R) by apply exp_pos.
    assert (Hee : (e <= bp 502)%R).
    { unfold e. apply Rle_trans with (exp (INR 251)); [|exact (exp_le_bp 251)]. apply exp_mono. simpl INR. lra. }
    pose proof half_40 as H40. assert (bp (-40) * e <= / 2 * e)%R by (apply Rmult_le_compat_r; lra).
    pose proof (bp_double 502) as D. simpl Z.add in D. rewrite D. lra.
Qed.

Lemma weight_lower x t r : fin x -> (Rabs (fval x - t) <= bp (-27))%R -> (t <= 250)%R ->
  proj (expf (- x)%float) = Fin r -> (bp (-503) <= r)%R.
Proof.
  intros Fx Hx Ht Hr. destruct (f_opp x Fx) as [Fo Vo]. destruct (Hacc _ Fo) as (H1 & _ & H3). rewrite Vo in *.
  apply Rabs_le_inv in Hx. assert (B27 : (bp (-27) <= 1)%R) by (change 1%R with (bp 0); apply bpow_le; lia).
  destruct (Rlt_le_dec 700 (- fval x)) as [L|L].
  - destruct (H3 L) as [E|(r' & E & Hr')]; [congruence|]. rewrite Hr in E. inversion E; subst r'.
    assert (bp (-503) <= bp 950)%R by (apply bpow_le; lia). lra.
  - destruct H1 as [F B]; [lra|]. apply proj_Fin in Hr. destruct Hr as [_ <-].
    apply Rabs_le_inv in B. set (e := exp (- fval x)) in *. assert (He : (0 < e)%R) by apply exp_pos.
    assert (Hee : (bp (-502) <= e)%R).
    { unfold e. apply Rle_trans with (exp (- INR 251)); [|apply exp_mono; simpl INR; lra].
      rewrite exp_Ropp. change (bp (-502)) with (bpow radix2 (Z.opp 502)). rewrite bpow_opp.
      apply Rinv_le_contravar; [apply exp_pos|exact (exp_le_bp 251)]. }
    pose proof half_40 as H40. assert (bp (-40) * e <= / 2 * e)%R by (apply Rmult_le_compat_r; lra).
    pose proof (bp_double (-503)) as D. simpl Z.add in D. rewrite D in Hee. lra.
Qed.

Lemma total_weight : exists ds, length ds = fc_n out /\ NoDup ds /\ (forall s, In s ds -> feasible T s) /\
  ((forall s, feasible T s -> In s ds) \/ 0 < length ds) /\
  ((forall s, In s ds -> (-250 <= total T s)%R) -> fin (fc_w out) /\ (0 <= fval (fc_w out) <= bp 900)%R) /\
  (fin (fc_w out) -> (exists s, In s ds /\ (total T s <= 250)%R) -> (bp (-600) <= fval (fc_w out))%R).
Proof.
  pose proof (accurate_nonneg _ Hacc) as Hexp.
  destruct (run_outcome expf pick fsum w_lim nhyp_max N a C rs Hin Hpick fuel out Hrun) as (hs & Hch & En & Ew & _ & _).
  pose proof (hs_nn expf w_lim nhyp_max a C Hexp hs Hch) as Hnn. pose proof (hs_small expf w_lim nhyp_max a C Hmax hs Hch) as Hsm.
  assert (Hw : forall h, In h hs -> exists x, fst h = expf (- x)%float /\ fin x /\ (Rabs (fval x - total T (snd h)) <= bp (-27))%R).
  { intros h Hh. destruct (proj1 (Forall_forall _ _) (ch_w _ _ _ _ _ _ Hch) h Hh) as (x & Ex & Fx & Bx). exists x. split; auto. split; auto.
    eapply Rle_trans; [exact Bx|]. apply bpow_le. lia. }
  exists (map snd hs). split; [rewrite map_length; auto|]. split; [apply Hch|]. split; [apply Hch|]. split; [|split].
  - destruct (ch_stop _ _ _ _ _ _ Hch) as [Hall|(pre & h & Eh & _)]; auto. right. rewrite map_length, Eh, app_length. simpl. lia.
  - intros Hlo. rewrite Ew.
    assert (Hx : forall x, In x (map fst hs) -> exists r, proj x = Fin r /\ (0 <= r <= bp 503)%R).
    { intros y Hy. apply in_map_iff in Hy. destruct Hy as (h & <- & Hh). destruct (Hw h Hh) as (x & -> & Fx & Bx).
      apply (weight_upper x (total T (snd h))); auto. apply Hlo. apply in_map; auto. }
    assert (Hl : (Z.of_nat (length (map fst hs)) <= 2 ^ 50)%Z) by (rewrite map_length; eapply Z.le_trans; [exact Hsm|vm_compute; discriminate]).
    destruct (fsums_ok _ _ (bp 503) (wsum_fsums hs)) as (W & HW); auto.
    { split; [apply bpow_ge_0|apply bpow_le; lia]. }
    destruct (fsums_fin _ _ (wsum_fsums hs)) as [_ HS].
    { intros x Hi. destruct (Hx x Hi) as (r & E & Hr). right. exists r. split; auto. lra. }
    destruct (HS W HW) as [_ Hc]. specialize (Hc Hl).
    destruct (INR_le50 _ Hl) as [[K0 K1] K2].
    assert (Hv : (vsum (map fst hs) <= INR (length (map fst hs)) * bp 503)%R).
    { apply vsum_le. intros x Hi. destruct (Hx x Hi) as (r & E & Hr). apply proj_Fin in E. destruct E as [_ ->]. lra. }
    assert (Hv0 : (0 <= vsum (map fst hs))%R).
    { apply vsum_nonneg. intros x Hi. destruct (Hx x Hi) as (r & E & Hr). split; [right; exists r; split; auto; lra|]. apply proj_Fin in E. apply E. }
    assert (Hv2 : (vsum (map fst hs) <= bp 553)%R).
    { eapply Rle_trans; [exact Hv|]. change 553%Z with (50 + 503)%Z. rewrite bpow_plus. apply Rmult_le_compat_r; [apply bpow_ge_0|auto]. }
    apply proj_Fin in HW. destruct HW as [F V]. split; auto. rewrite V. apply Rabs_le_inv in Hc.
    assert (2 * INR (length (map fst hs)) * uro * vsum (map fst hs) <= / 4 * vsum (map fst hs))%R by (apply Rmult_le_compat_r; auto).
    assert (bp 553 <= bp 899)%R by (apply bpow_le; lia). pose proof (bp_double 899) as D. simpl Z.add in D. rewrite D.
    pose proof (bpow_gt_0 radix2 899). lra.
  - intros Fw (s & Hs & Ht). rewrite Ew in *. apply in_map_iff in Hs. destruct Hs as (h & <- & Hh).
    pose proof (proj_fin _ Fw) as HW. destruct (Hw h Hh) as (x & Ex & Fx & Bx).
    pose proof (wt_le N hs Hnn _ HW h Hh) as [_ Hle]. destruct (hs_fin hs Hnn _ HW h Hh) as [Fh _].
    pose proof (weight_lower x _ (wt h) Fx Bx Ht) as Hlow. rewrite <- Ex in Hlow. specialize (Hlow (proj_fin _ Fh)).
    assert (bp (-600) <= bp (-503))%R by (apply bpow_le; lia). lra.
Qed.
End Range.

(** ** The same in terms of the matrix of doubles *)
Lemma input_feasible N a C s : association_input N a C -> feasible (pm proj C) s <-> feasible_double C s.
Proof.
  intros (Ha & HC & Hr & Hc & Hc1 & Ho). apply M_feasible; [apply (bounded_double C a); auto; lia|lia|auto].
Qed.

Section Double.
Variable expf : float -> float.
Variable pick : nat -> list (mstate (T := float)) -> nat.
Variable fsum : list float -> float.
Variables w_lim nhyp_max : float.
Variables (N : nat) (a : Z) (C : matrix float) (rs : list float).
Hypothesis Hin : association_input N a C.
Hypothesis Hpick : forall tick q, q <> [] -> pick tick q < length q.
Hypothesis Hacc : exp_accurate expf.
Hypothesis Hmax : PrimFloat.leb nhyp_max 1048576 = true.
Hypothesis Ha15 : (a <= 15)%Z.
Variables (fuel : nat) (out : fcorrected).
Hypothesis Hrun : fcorrect expf pick fsum w_lim nhyp_max fuel N C rs = Ok out.
Notation T := (pm proj C).
Notation pr := (fun s => exp (- total T s)).

Lemma marginals_double : (forall l, fsums l (fsum l)) ->
  fc_n out <> 0 -> fin (fc_w out) -> (bp (-600) <= fval (fc_w out) <= bp 900)%R ->
  exists ds, length ds = fc_n out /\ NoDup ds /\ (forall s, In s ds -> feasible_double C s) /\
  ((forall s, feasible_double C s -> In s ds) \/ PrimFloat.leb nhyp_max (nofnat floatN (fc_n out)) = true \/
   exists s, In s ds /\ (fin w_lim -> pr s / sum_over pr ds <= fval w_lim + bp (-20))%R) /\
  (forall i j, i < m_rows C -> j <= N -> let x := nth (i * (N + 1) + j) (fc_R out) nan in
     fin x /\ (0 <= fval x <= 1)%R /\ (Rabs (fval x - marginal N pr ds i j) <= bp (-20))%R) /\
  (forall i, i < m_rows C -> let x := nth i (fc_r out) nan in
     fin x /\ (Rabs (fval x - sum_over (marginal N pr ds i) (seq 0 (N + 1))) <= bp (-18))%R) /\
  (forall j, j < N -> let x := nth j (fc_rB out) nan in
     fin x /\ (Rabs (fval x - (1 - sum_over (fun i => marginal N pr ds i j) (seq 0 (m_rows C)))) <= bp (-19))%R).
Proof.
  intros Hs Hn Hf Hw.
  destruct (marginals_close expf pick fsum w_lim nhyp_max N a C rs Hin Hpick (accurate_nonneg _ Hacc) Hs Hmax fuel out Hrun Hacc Ha15 Hn Hf Hw)
    as (ds & H1 & H2 & H3 & H4 & H5).
  exists ds. split; auto. split; auto. split; [intros s Hi; apply (input_feasible N a C s Hin); auto|]. split; auto.
  destruct H4 as [H4|H4]; auto. left. intros s Hi. apply H4. apply (input_feasible N a C s Hin); auto.
Qed.

Lemma total_weight_double : exists ds, length ds = fc_n out /\ NoDup ds /\ (forall s, In s ds -> feasible_double C s) /\
  ((forall s, feasible_double C s -> In s ds) \/ 0 < length ds) /\
  ((forall s, In s ds -> (-250 <= total T s)%R) -> fin (fc_w out) /\ (0 <= fval (fc_w out) <= bp 900)%R) /\
  (fin (fc_w out) -> (exists s, In s ds /\ (total T s <= 250)%R) -> (bp (-600) <= fval (fc_w out))%R).
Proof.
  destruct (total_weight expf pick fsum w_lim nhyp_max N a C rs Hin Hpick Hacc Hmax Ha15 fuel out Hrun) as (ds & H1 & H2 & H3 & H4 & H5).
  exists ds. split; auto. split; auto. split; [intros s Hi; apply (input_feasible N a C s Hin); auto|]. split; auto.
  destruct H4 as [H4|H4]; auto. left. intros s Hi. apply H4. apply (input_feasible N a C s Hin); auto.
Qed.
End Double.
