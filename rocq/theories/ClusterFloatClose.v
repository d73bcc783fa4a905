(** The association table in doubles is close to the exact one. *)
From Coq Require Import List Arith Bool Lia ZArith Reals Lra Permutation.
From Flocq Require Import Core BinarySingleNaN IEEE754.PrimFloat.
From Coq Require Import Floats.
Import ListNotations.
From Verif Require Import Res Scalar Lap LapSpec LapHom Murty.
From Verif Require Import FloatBase FloatExt LapRnd Cluster ClusterSpec ClusterProofs ClusterFloat FloatSum ClusterFloatLoop ClusterFloatNum.
Local Open Scope R_scope.

Lemma bp_double k : bp (k + 1) = 2 * bp k.
Proof. rewrite bpow_plus. change (bp 1) with 2. ring. Qed.

Lemma quot_le a b c : 0 < b -> a <= c * b -> a / b <= c.
Proof. intros Hb H. apply (Rmult_le_reg_r b); auto. unfold Rdiv. rewrite Rmult_assoc, Rinv_l by lra. lra. Qed.

Section Close.
Variable N : nat.
Variable hs : list hyp.
Hypothesis Hnn : nnh hs.
Hypothesis Hn : small (length hs).
Variable W : R.
Hypothesis HW : proj (wsum hs) = Fin W.
Hypothesis HWlo : bp (-600) <= W.
Variable g : hyp -> R.
Hypothesis Hg : forall h, In h hs -> 0 <= g h.
Hypothesis Hclose : forall h, In h hs -> Rabs (wt h - g h) <= bp (-26) * g h + bp (-800).
Notation G := (sumf g hs).
Notation m i j := (sumf (here N i j g) hs).

Lemma sel_close (b : hyp -> bool) :
  Rabs (sumf (fun h => if b h then wt h else 0) hs - sumf (fun h => if b h then g h else 0) hs) <=
    bp (-26) * sumf (fun h => if b h then g h else 0) hs + bp (-780).
Proof.
  assert (H : Rabs (sumf (fun h => if b h then wt h else 0) hs - sumf (fun h => if b h then g h else 0) hs) <=
    bp (-26) * sumf (fun h => if b h then g h else 0) hs + INR (length hs) * bp (-800)).
  { pose proof (bpow_ge_0 radix2 (-26)). pose proof (bpow_ge_0 radix2 (-800)).
    clear Hn HW HWlo Hnn. induction hs as [|h l IH]; [simpl; rewrite Rminus_0_r, Rabs_R0; lra|].
    cbn [sum_over length]. rewrite S_INR.
    assert (IH' := IH (fun h Hh => Hg h (or_intror Hh)) (fun h Hh => Hclose h (or_intror Hh))).
    apply Rabs_le_inv in IH'. assert (Hh := Hclose h (or_introl eq_refl)). apply Rabs_le_inv in Hh.
    apply Rabs_le. destruct (b h); lra. }
  eapply Rle_trans; [exact H|]. apply Rplus_le_compat_l.
  apply Rle_trans with (bp 20 * bp (-800)); [|rewrite <- bpow_plus; apply Rle_refl].
  apply Rmult_le_compat_r; [apply bpow_ge_0|]. rewrite INR_IZR_INZ. change (bp 20) with (IZR (2 ^ 20)). apply IZR_le. auto.
Qed.

Lemma G_close : Rabs (W - G) <= bp (-24) * G /\ bp (-601) <= G /\ 0 < W.
Proof.
  pose proof (sel_close (fun _ => true)) as H1. cbv beta iota in H1.
  change (sumf (fun h => wt h) hs) with (sumf wt hs) in H1. change (sumf (fun h => g h) hs) with G in H1.
  pose proof (W_close hs Hnn Hn W HW) as H2. pose proof (eta_small (length hs) Hn) as He.
  pose proof (We_nonneg hs Hnn W HW) as H0.
  assert (HG : 0 <= G) by (apply sumf_nonneg; auto).
  pose proof (bpow_gt_0 radix2 (-600)) as P0. pose proof (bp_double (-601)) as D. simpl Z.add in D.
  assert (T1 : bp (-780) <= bp (-30) * bp (-601)) by (rewrite <- bpow_plus; apply bpow_le; lia).
  pose proof (bp_double (-25)) as D25. pose proof (bp_double (-26)) as D26. pose proof (bp_double (-27)) as D27. simpl Z.add in *.
  assert (T2 : bp (-32) <= / 32 * bp (-27)).
  { change (/ 32) with (bp (-5)). rewrite <- bpow_plus. apply Rle_refl. }
  assert (T3 : bp (-30) <= bp (-27)) by (apply bpow_le; lia).
  assert (T4 : bp (-27) <= / 1024) by (change (/ 1024) with (bp (-10)); apply bpow_le; lia).
  pose proof (bpow_gt_0 radix2 (-27)) as P27. pose proof (bpow_gt_0 radix2 (-30)) as P30.
  apply Rabs_le_inv in H1. apply Rabs_le_inv in H2.
  set (e := bp (-27)) in *. set (z := bp (-601)) in *. set (E := sumf wt hs) in *.
  assert (HE : eta (length hs) * E <= / 32 * e * E) by (apply Rmult_le_compat_r; lra).
  assert (Hz : bp (-30) * z <= e * z) by (apply Rmult_le_compat_r; lra).
  assert (HeE : e * E <= / 1024 * E) by (apply Rmult_le_compat_r; lra).
  assert (HeG : e * G <= / 1024 * G) by (apply Rmult_le_compat_r; lra).
  assert (Hez : e * z <= / 1024 * z) by (apply Rmult_le_compat_r; lra).
  replace (bp (-26) * G) with (2 * (e * G)) in * by (rewrite D27; ring).
  assert (HGz : z <= G) by lra.
  assert (HzG : e * z <= e * G) by (apply Rmult_le_compat_l; lra).
  assert (HEG : E <= 2 * G) by lra.
  assert (e * E <= e * (2 * G)) by (apply Rmult_le_compat_l; lra).
  assert (E24 : bp (-24) * G = 8 * (e * G)) by (rewrite D25, D26, D27; ring).
  split; [|split; lra]. apply Rabs_le. lra.
Qed.

Lemma m_bounds i j : 0 <= m i j <= G.
Proof.
  split; [apply sumf_nonneg|apply sumf_le]; intros h Hh; unfold here; pose proof (Hg h Hh); destruct (says N i j (snd h)); lra.
Qed.

Lemma quot_close c mm : 0 <= c <= W -> 0 <= mm <= G ->
  Rabs (c - mm) <= 2.1 * (bp (-27) * mm) + 2 * (bp (-120) * G) ->
  Rabs (c / W - mm / G) <= 12 * (bp (-27) * (mm / G)) + 3 * bp (-120) /\
  (Rabs (rnd (c / W) - c / W) <= uro * (c / W) + bp (-1075) ->
   Rabs (rnd (c / W) - mm / G) <= bp (-21) * (mm / G) + bp (-100)).
Proof.
  intros Hc [M0 M1] Hcm. destruct G_close as (HGc & HGlo & HWp). set (GG := G) in *.
  pose proof (bp_double (-22)) as D22. pose proof (bp_double (-23)) as D23. pose proof (bp_double (-24)) as D24.
  pose proof (bp_double (-25)) as D25. pose proof (bp_double (-26)) as D26. pose proof (bp_double (-27)) as D27. simpl Z.add in *.
  assert (T4 : bp (-27) <= / 1024) by (change (/ 1024) with (bp (-10)); apply bpow_le; lia).
  pose proof (bpow_gt_0 radix2 (-27)) as P27.
  pose proof (bpow_gt_0 radix2 (-120)) as P120. pose proof (bpow_gt_0 radix2 (-601)) as P601.
  assert (T120 : 64 * bp (-120) <= bp (-100)).
  { change 64 with (bp 6). rewrite <- bpow_plus. apply bpow_le. lia. }
  assert (Tu : uro <= / 32 * bp (-27)).
  { unfold uro. change (/ 32) with (bp (-5)). rewrite <- bpow_plus. apply bpow_le. lia. }
  assert (T1075 : bp (-1075) <= bp (-120)) by (apply bpow_le; lia).
  pose proof uro_pos as Pu.
  set (e := bp (-27)) in *. set (t := bp (-120)) in *.
  assert (D24' : bp (-24) = 8 * e) by lra. assert (D21' : bp (-21) = 64 * e) by lra.
  rewrite D24' in HGc. rewrite D21'.
  apply Rabs_le_inv in HGc. apply Rabs_le_inv in Hcm.
  assert (GGp : 0 < GG) by lra.
  (* quotients by GG *)
  set (mu := mm / GG) in *.
  assert (Hmm : mm = mu * GG) by (unfold mu; field; lra).
  assert (Hmu : 0 <= mu <= 1).
  { split; [apply quot_ge; lra|apply quot_le; lra]. }
  assert (HWg : (1 - 8 * e) * GG <= W <= (1 + 8 * e) * GG) by lra.
  set (d := c / W) in *. assert (Hd : c = d * W) by (unfold d; field; lra).
  assert (Hd0 : 0 <= d) by (apply quot_ge; lra).
  assert (Hd1 : d <= mu + 12 * (e * mu) + 3 * t).
  { apply quot_le; auto.
    assert (H1 : (mu + 12 * (e * mu) + 3 * t) * ((1 - 8 * e) * GG) <= (mu + 12 * (e * mu) + 3 * t) * W).
    { apply Rmult_le_compat_l; [|lra]. assert (0 <= e * mu) by (apply Rmult_le_pos; lra). lra. }
    eapply Rle_trans; [|exact H1].
    apply Rle_trans with ((mu + 2.1 * (e * mu) + 2 * t) * GG); [rewrite Hmm in Hcm; lra|].
    rewrite <- (Rmult_assoc _ (1 - 8 * e) GG). apply Rmult_le_compat_r; [lra|].
    assert (H2 : 0 <= e * mu) by (apply Rmult_le_pos; lra). assert (H3 : e * (e * mu) <= / 1024 * (e * mu)) by (apply Rmult_le_compat_r; lra).
    assert (H4 : e * t <= / 1024 * t) by (apply Rmult_le_compat_r; lra). lra. }
  assert (Hd2 : mu - 12 * (e * mu) - 3 * t <= d).
  { assert (H1 : mu * GG - 2.1 * (e * mu) * GG - 2 * t * GG <= d * W) by (rewrite <- Hd; rewrite Hmm in Hcm; lra).
    assert (H2 : d * W <= d * ((1 + 8 * e) * GG)) by (apply Rmult_le_compat_l; lra).
    assert (H3 : (mu - 2.1 * (e * mu) - 2 * t) <= d * (1 + 8 * e)).
    { apply (Rmult_le_reg_r GG); auto. lra. }
    assert (H4 : e * d <= e * (mu + 12 * (e * mu) + 3 * t)) by (apply Rmult_le_compat_l; lra).
    assert (H5 : 0 <= e * mu) by (apply Rmult_le_pos; lra). assert (H6 : e * (e * mu) <= / 1024 * (e * mu)) by (apply Rmult_le_compat_r; lra).
    assert (H7 : e * t <= / 1024 * t) by (apply Rmult_le_compat_r; lra). lra. }
  split; [apply Rabs_le; lra|]. intros Hr. apply Rabs_le_inv in Hr.
  assert (Hud : uro * d <= / 32 * e * d) by (apply Rmult_le_compat_r; lra).
  assert (H4 : e * d <= e * (mu + 12 * (e * mu) + 3 * t)) by (apply Rmult_le_compat_l; lra).
  assert (H5 : 0 <= e * mu) by (apply Rmult_le_pos; lra). assert (H6 : e * (e * mu) <= / 1024 * (e * mu)) by (apply Rmult_le_compat_r; lra).
  assert (H7 : e * t <= / 1024 * t) by (apply Rmult_le_compat_r; lra).
  apply Rabs_le. lra.
Qed.

Lemma entry_close i j : exists q, proj (cell N hs i j / wsum hs)%float = Fin q /\ 0 <= q <= 1 /\
  Rabs (q - m i j / G) <= bp (-21) * (m i j / G) + bp (-100).
Proof.
  destruct G_close as (HGc & HGlo & HWp).
  destruct (entry_ok N hs Hnn Hn W HW HWp i j) as (c & Ec & Hc & Hce & Eq & Hq & Hr).
  exists (rnd (c / W)). split; auto. split; auto.
  pose proof (sel_close (fun h => says N i j (snd h))) as Hs. fold (here N i j wt) in Hs. fold (here N i j g) in Hs.
  change (Rabs (sumf (here N i j wt) hs - m i j) <= bp (-26) * m i j + bp (-780)) in Hs.
  destruct (m_bounds i j) as [M0 M1]. pose proof (eta_small (length hs) Hn) as He.
  pose proof (ex_nonneg N hs Hnn W HW i j) as E0.
  set (E := sumf (here N i j wt) hs) in *. set (mm := m i j) in *. set (GG := G) in *.
  pose proof (bp_double (-22)) as D22. pose proof (bp_double (-23)) as D23. pose proof (bp_double (-24)) as D24.
  pose proof (bp_double (-25)) as D25. pose proof (bp_double (-26)) as D26. pose proof (bp_double (-27)) as D27. simpl Z.add in *.
  assert (T2 : bp (-32) <= / 32 * bp (-27)).
  { change (/ 32) with (bp (-5)). rewrite <- bpow_plus. apply Rle_refl. }
  assert (T4 : bp (-27) <= / 1024) by (change (/ 1024) with (bp (-10)); apply bpow_le; lia).
  pose proof (bpow_gt_0 radix2 (-27)) as P27.
  assert (Tz : bp (-780) <= bp (-120) * bp (-601)) by (rewrite <- bpow_plus; apply bpow_le; lia).
  pose proof (bpow_gt_0 radix2 (-120)) as P120. pose proof (bpow_gt_0 radix2 (-601)) as P601.
  assert (T780 : bp (-780) <= bp (-120) * GG).
  { eapply Rle_trans; [exact Tz|]. apply Rmult_le_compat_l; lra. }
  assert (T120 : 64 * bp (-120) <= bp (-100)).
  { change 64 with (bp 6). rewrite <- bpow_plus. apply bpow_le. lia. }
  assert (Tu : uro <= / 32 * bp (-27)).
  { unfold uro. change (/ 32) with (bp (-5)). rewrite <- bpow_plus. apply bpow_le. lia. }
  assert (T1075 : bp (-1075) <= bp (-120)) by (apply bpow_le; lia).
  pose proof uro_pos as Pu.
  set (e := bp (-27)) in *. set (t := bp (-120)) in *.
  assert (D26' : bp (-26) = 2 * e) by exact D27. assert (D24' : bp (-24) = 8 * e) by lra. assert (D21' : bp (-21) = 64 * e) by lra.
  rewrite D26' in Hs.
  apply Rabs_le_inv in Hs. apply Rabs_le_inv in Hce. 
  assert (GGp : 0 < GG) by lra.
  assert (HE : eta (length hs) * E <= / 32 * e * E) by (apply Rmult_le_compat_r; lra).
  assert (HeE : e * E <= / 1024 * E) by (apply Rmult_le_compat_r; lra).
  assert (Hem : e * mm <= / 1024 * mm) by (apply Rmult_le_compat_r; lra).
  assert (HEb : E <= 1.01 * mm + t * GG) by lra.
  assert (HeEb : e * E <= e * (1.01 * mm + t * GG)) by (apply Rmult_le_compat_l; lra).
  assert (Het : e * (t * GG) <= / 1024 * (t * GG)) by (apply Rmult_le_compat_r; [apply Rmult_le_pos; lra|lra]).
  assert (Zem : 0 <= e * mm) by (apply Rmult_le_pos; lra). assert (Ztg : 0 <= t * GG) by (apply Rmult_le_pos; lra).
  assert (Hcm : - (2.1 * (e * mm) + 2 * (t * GG)) <= c - mm <= 2.1 * (e * mm) + 2 * (t * GG)) by lra.
  apply quot_close; auto. apply Rabs_le. unfold e in Hcm. exact Hcm.
Qed.

(** A single weight is at most the total. *)
Lemma wt_le h : In h hs -> 0 <= wt h <= W.
Proof.
  intros Hh. split; [apply (hs_fin hs Hnn W HW h Hh)|].
  clear HWlo Hclose Hg Hn. revert W HW. induction hs as [|h' l IH] using rev_ind; [destruct Hh|]. intros V HV.
  assert (Hl : nnh l) by (intros x Hx; apply Hnn, in_app_iff; auto).
  assert (Hh' : nn (fst h')) by (apply Hnn, in_app_iff; simpl; auto).
  rewrite wsum_snoc in HV. destruct (cell_le N l 0 0 Hl) as (_ & Hw & _).
  destruct (proj2 (nn_add _ _ Hw Hh') V HV) as (a & b & Ea & Eb & ->).
  pose proof (nn_fin _ _ Hw Ea) as Ha. pose proof (nn_fin _ _ Hh' Eb) as Hb.
  apply in_app_iff in Hh. destruct Hh as [Hh|[<-|[]]].
  - apply Rle_trans with a; [apply IH; auto|]. replace a with (rnd a) at 1; [apply rnd_le; lra|].
    apply round_generic; [apply valid_rnd_N|]. eapply proj_Fin_format; eauto.
  - unfold wt. destruct (proj_Fin _ _ Eb) as [_ ->]. replace b with (rnd b) at 1; [apply rnd_le; lra|].
    apply round_generic; [apply valid_rnd_N|]. eapply proj_Fin_format; eauto.
Qed.

Lemma share_close h : In h hs -> exists q, proj (fst h / wsum hs)%float = Fin q /\ 0 <= q /\
  Rabs (q - g h / G) <= bp (-20).
Proof.
  intros Hh. destruct G_close as (HGc & HGlo & HWp). pose proof (wt_le h Hh) as Hw.
  pose proof (hs_fin hs Hnn W HW h Hh) as [Fh _]. pose proof (bpow_gt_0 radix2 (-601)) as P601.
  assert (Hgh : 0 <= g h <= G).
  { split; auto. clear -Hg Hh. induction hs as [|h' l IH]; [destruct Hh|]. cbn [sum_over].
    assert (0 <= sumf g l) by (apply sumf_nonneg; intros; apply Hg; simpl; auto). pose proof (Hg h' (or_introl eq_refl)).
    destruct Hh as [<-|Hh]; [lra|]. specialize (IH (fun x Hx => Hg x (or_intror Hx)) Hh). lra. }
  assert (Hq : 0 <= wt h / W <= 1) by (split; [apply quot_ge; lra|apply quot_le; lra]).
  assert (Ed : proj (fst h / wsum hs)%float = Fin (rnd (wt h / W))).
  { apply div_fin; auto; [apply proj_fin; auto|lra|]. rewrite Rabs_pos_eq by lra. apply Rle_trans with 1; [lra|]. change 1 with (bp 0). apply bpow_le. lia. }
  assert (Hmu : 0 <= g h / G <= 1) by (split; [apply quot_ge; lra|apply quot_le; lra]).
  exists (rnd (wt h / W)). split; auto. split; [apply rnd_pos; lra|].
  destruct (quot_close (wt h) (g h) Hw Hgh) as [_ Hr].
  - pose proof (Hclose h Hh) as Hc. apply Rabs_le_inv in Hc. pose proof (bp_double (-27)) as D. simpl Z.add in D. rewrite D in Hc.
    assert (Tz : bp (-800) <= bp (-120) * bp (-601)) by (rewrite <- bpow_plus; apply bpow_le; lia).
    assert (bp (-120) * bp (-601) <= bp (-120) * G) by (apply Rmult_le_compat_l; [apply bpow_ge_0|lra]).
    assert (0 <= bp (-27) * g h) by (apply Rmult_le_pos; [apply bpow_ge_0|lra]).
    assert (0 <= bp (-120) * G) by (apply Rmult_le_pos; [apply bpow_ge_0|lra]).
    apply Rabs_le. lra.
  - eapply Rle_trans; [apply Hr, rnd_rel; lra|].
    pose proof (bp_double (-21)) as D. simpl Z.add in D. rewrite D.
    assert (bp (-100) <= bp (-21)) by (apply bpow_le; lia).
    assert (bp (-21) * (g h / G) <= bp (-21) * 1) by (apply Rmult_le_compat_l; [apply bpow_ge_0|lra]). lra.
Qed.

Variable L : list (nat * nat).
Hypothesis HL : NoDup L.
Hypothesis Hone : forall h p q, In h hs -> In p L -> In q L ->
  says N (fst p) (snd p) (snd h) = true -> says N (fst q) (snd q) (snd h) = true -> p = q.
Hypothesis HLs : small (length L).

Lemma group_close t : fsums (entries N hs L) t ->
  exists r, proj t = Fin r /\ Rabs (r - sumf (fun p => m (fst p) (snd p) / G) L) <= bp (-20).
Proof.
  intros Ht. destruct G_close as (HGc & HGlo & HWp).
  destruct (group_bound N hs Hnn Hn W HW L HL Hone HWp HLs t Ht) as (r & Er & Hr). exists r. split; auto.
  set (mu := fun p => m (fst p) (snd p) / G).
  assert (GP : 0 < G) by (pose proof (bpow_gt_0 radix2 (-601)); lra).
  assert (Hmu1 : 0 <= sumf mu L <= 1).
  { unfold mu. rewrite sumf_div. split.
    - apply quot_ge; auto. apply sumf_nonneg. intros p _. apply m_bounds.
    - apply quot_le; auto. rewrite Rmult_1_l. apply (group_sum N hs L HL Hone g Hg). }
  assert (Hv : Rabs (vsum (entries N hs L) - sumf mu L) <= bp (-21) * sumf mu L + INR (length L) * bp (-100)).
  { unfold entries. clear Ht HL Hone HLs Hr Hmu1. induction L as [|[i j] l IH]; [simpl; rewrite Rminus_0_r, Rabs_R0; lra|].
    cbn [sum_over length]. rewrite map_cons, vsum_cons, S_INR. destruct (entry_close i j) as (q & Eq & _ & Hq).
    cbn [fst snd]. apply proj_Fin in Eq. destruct Eq as [_ ->]. change (mu (i, j)) with (m i j / G).
    apply Rabs_le_inv in Hq. apply Rabs_le_inv in IH. apply Rabs_le. lra. }
  destruct (fsums_fin _ _ Ht) as [_ Hf].
  { intros x Hx. right. destruct (entries_in N hs Hnn Hn W HW L HWp x Hx) as (y & Ey & Hy). exists y. split; auto; lra. }
  destruct (Hf r Er) as [_ Hcl]. assert (Hle : length (entries N hs L) = length L) by apply map_length. rewrite Hle in Hcl.
  specialize (Hcl ltac:(lia)). fold (eta (length L)) in Hcl. pose proof (eta_small (length L) HLs) as He.
  assert (Hk : INR (length L) * bp (-100) <= bp (-80)).
  { apply Rle_trans with (bp 20 * bp (-100)); [|rewrite <- bpow_plus; apply Rle_refl].
    apply Rmult_le_compat_r; [apply bpow_ge_0|]. rewrite INR_IZR_INZ. change (bp 20) with (IZR (2 ^ 20)). apply IZR_le. auto. }
  pose proof (bp_double (-21)) as D21. simpl Z.add in D21.
  assert (T4 : bp (-21) <= / 1024) by (change (/ 1024) with (bp (-10)); apply bpow_le; lia).
  assert (T80 : bp (-80) <= / 8 * bp (-21)) by (change (/ 8) with (bp (-3)); rewrite <- bpow_plus; apply bpow_le; lia).
  assert (T32 : bp (-32) <= / 8 * bp (-21)) by (change (/ 8) with (bp (-3)); rewrite <- bpow_plus; apply bpow_le; lia).
  pose proof (bpow_gt_0 radix2 (-21)) as P21.
  set (v := vsum (entries N hs L)) in *. set (S := sumf mu L) in *. set (e := bp (-21)) in *.
  assert (HeS : e * S <= e * 1) by (apply Rmult_le_compat_l; lra).
  apply Rabs_le_inv in Hv. apply Rabs_le_inv in Hcl.
  assert (Hv0 : v <= 2) by lra.
  assert (Hvn : 0 <= v).
  { apply vsum_nonneg. intros z Hz. destruct (entries_in N hs Hnn Hn W HW L HWp z Hz) as (q & Eq & Hq). split; [right; exists q; split; auto; lra|]. apply (proj_Fin _ _ Eq). }
  assert (eta (length L) * v <= / 8 * e * 2) by (apply Rmult_le_compat; lra).
  change (Rabs (r - S) <= bp (-20)). apply Rabs_le. lra.
Qed.
End Close.

Lemma f_opp x : fin x -> fin (- x)%float /\ fval (- x)%float = - fval x.
Proof.
  unfold fin, FloatBase.val. intros H. rewrite opp_equiv. rewrite is_finite_Bopp, B2R_Bopp. auto.
Qed.

(** ** The exponential function *)
(** [std::exp]: accurate where the result is neither very large nor very small. *)
Definition exp_accurate (expf : float -> float) : Prop :=
  forall x, fin x ->
    (-700 <= fval x <= 700 -> fin (expf x) /\ Rabs (fval (expf x) - exp (fval x)) <= bp (-40) * exp (fval x)) /\
    (fval x < -700 -> fin (expf x) /\ 0 <= fval (expf x) <= bp (-800)) /\
    (700 < fval x -> proj (expf x) = PInf \/ exists r, proj (expf x) = Fin r /\ bp 950 <= r).

(** [std::exp] of a number is not negative and not NaN. *)
Definition exp_nonneg (expf : float -> float) : Prop := forall x, fin x -> nn (expf x).

Lemma accurate_nonneg expf : exp_accurate expf -> exp_nonneg expf.
Proof.
  intros H x Hx. destruct (H x Hx) as (H1 & H2 & H3). destruct (Rlt_le_dec (fval x) (-700)) as [Hl|Hl].
  - destruct (H2 Hl) as [F B]. right. exists (fval (expf x)). split; [apply proj_fin; auto|lra].
  - destruct (Rle_lt_dec (fval x) 700) as [Hu|Hu].
    + destruct (H1 (conj Hl Hu)) as [F B]. right. exists (fval (expf x)). split; [apply proj_fin; auto|].
      apply Rabs_le_inv in B. pose proof (exp_pos (fval x)).
      assert (bp (-40) <= 1) by (change 1 with (bp 0); apply bpow_le; lia).
      assert (bp (-40) * exp (fval x) <= 1 * exp (fval x)) by (apply Rmult_le_compat_r; lra). lra.
    + destruct (H3 Hu) as [E|(r & E & Hr)]; [left; auto|right; exists r; split; auto]. pose proof (bpow_ge_0 radix2 950). lra.
Qed.

Lemma exp_near d : Rabs d <= bp (-27) -> Rabs (exp d - 1) <= 1.01 * bp (-27).
Proof.
  intros H. apply Rabs_le_inv in H.
  assert (T4 : bp (-27) <= / 1024) by (change (/ 1024) with (bp (-10)); apply bpow_le; lia).
  pose proof (bpow_gt_0 radix2 (-27)) as P. set (e := bp (-27)) in *.
  assert (G : forall y, 1 + y <= exp y).
  { intros y. destruct (Req_dec y 0) as [->|Hy]; [rewrite exp_0; lra|]. left. apply exp_ineq1; auto. }
  pose proof (G d) as H1. pose proof (G (- d)) as H2. rewrite exp_Ropp in H2.
  pose proof (exp_pos d) as Hp.
  assert (H3 : exp d * (1 - e) <= 1).
  { apply Rle_trans with (exp d * / exp d); [apply Rmult_le_compat_l; lra|rewrite Rinv_r; lra]. }
  apply Rabs_le. split; [lra|].
  assert ((1 + 1.01 * e) * (1 - e) >= 1). { assert (e * e <= / 1024 * e) by (apply Rmult_le_compat_r; lra). lra. }
  apply (Rmult_le_reg_r (1 - e)); [lra|]. lra.
Qed.

Lemma exp_lin y : 1 + y <= exp y.
Proof. destruct (Req_dec y 0) as [->|Hy]; [rewrite exp_0; lra|]. left. apply exp_ineq1; auto. Qed.
Lemma exp_mono x y : x <= y -> exp x <= exp y.
Proof. intros [H| ->]; [left; apply exp_increasing; auto|lra]. Qed.
Lemma bp_le_exp c k : 2 <= exp c -> bp (Z.of_nat k) <= exp (c * INR k).
Proof.
  intros H. induction k as [|k IH]; [simpl; rewrite Rmult_0_r, exp_0; lra|].
  rewrite Nat2Z.inj_succ, S_INR. unfold Z.succ. rewrite bp_double.
  replace (c * (INR k + 1)) with (c + c * INR k) by ring. rewrite exp_plus.
  apply Rmult_le_compat; auto; [lra|apply bpow_ge_0].
Qed.
Lemma exp_le_bp k : exp (INR k) <= bp (2 * Z.of_nat k).
Proof.
  induction k as [|k IH]; [simpl; rewrite exp_0; lra|].
  rewrite Nat2Z.inj_succ, S_INR. replace (2 * Z.succ (Z.of_nat k))%Z with (2 * Z.of_nat k + 1 + 1)%Z by lia. rewrite !bp_double.
  rewrite exp_plus. pose proof exp_le_3. pose proof (exp_pos (INR k)). pose proof (exp_pos 1).
  assert (exp (INR k) * exp 1 <= exp (INR k) * 3) by (apply Rmult_le_compat_l; lra).
  lra.
Qed.

Lemma exp_small y : y <= -699 -> exp y <= bp (-800).
Proof.
  intros H. apply Rle_trans with (exp (-699)); [apply exp_mono; auto|].
  change (bp (-800)) with (bpow radix2 (Z.opp 800)). rewrite bpow_opp. replace (exp (-699)) with (/ exp 699) by (rewrite <- exp_Ropp; reflexivity). apply Rinv_le; [apply bpow_gt_0|].
  change 800%Z with (Z.of_nat 800). eapply Rle_trans; [apply (bp_le_exp (699 / 800) 800)|].
  - replace (699 / 800) with (699 / 1600 + 699 / 1600) by lra. rewrite exp_plus.
    pose proof (exp_lin (699 / 1600)). assert (1.43 <= exp (699 / 1600)) by lra.
    assert (1.43 * 1.43 <= exp (699 / 1600) * exp (699 / 1600)) by (apply Rmult_le_compat; lra). lra.
  - apply exp_mono. rewrite INR_IZR_INZ. change (Z.of_nat 800) with 800%Z. lra.
Qed.

(** The weight of a hypothesis whose cost is known up to 2^-27. *)
Lemma weight_close expf x T B : exp_accurate expf -> fin x -> Rabs (fval x - T) <= bp (-27) ->
  proj (expf (- x)%float) = Fin B -> B <= bp 901 ->
  Rabs (B - exp (- T)) <= bp (-26) * exp (- T) + bp (-800).
Proof.
  intros He Fx HT EB HB.
  assert (Fo : fin (- x)%float /\ fval (- x)%float = - fval x) by (apply f_opp; auto).
  destruct Fo as [Fo Vo]. destruct (He _ Fo) as (H1 & H2 & H3). rewrite Vo in *.
  apply proj_Fin in EB. destruct EB as [FB VB].
  pose proof (exp_pos (- T)) as Hp. pose proof (bpow_gt_0 radix2 (-26)) as P26. pose proof (bpow_gt_0 radix2 (-800)) as P800.
  assert (T4 : bp (-27) <= / 1024) by (change (/ 1024) with (bp (-10)); apply bpow_le; lia).
  pose proof (bp_double (-27)) as D26. simpl Z.add in D26.
  destruct (Rlt_le_dec (- fval x) (-700)) as [Hl|Hl].
  - destruct (H2 Hl) as [_ Hb]. rewrite VB in Hb. apply Rabs_le_inv in HT.
    assert (exp (- T) <= bp (-800)) by (apply exp_small; lra).
    assert (0 <= bp (-26) * exp (- T)) by (apply Rmult_le_pos; lra). apply Rabs_le. lra.
  - destruct (Rle_lt_dec (- fval x) 700) as [Hu|Hu].
    + destruct (H1 (conj Hl Hu)) as [_ Hb]. rewrite VB in Hb.
      set (d := - fval x + T). replace (- fval x) with (- T + d) in Hb by (unfold d; ring). rewrite exp_plus in Hb.
      assert (Hd : Rabs d <= bp (-27)) by (unfold d; replace (- fval x + T) with (- (fval x - T)) by ring; rewrite Rabs_Ropp; auto).
      apply exp_near in Hd. pose proof (exp_pos d) as Hpd.
      assert (T40 : bp (-40) <= / 1024 * bp (-27)) by (change (/ 1024) with (bp (-10)); rewrite <- bpow_plus; apply bpow_le; lia).
      apply Rabs_le_inv in Hd. apply Rabs_le_inv in Hb. set (E := exp (- T)) in *. set (f := exp d) in *. set (e := bp (-27)) in *.
      assert (Pe : 0 < e) by apply bpow_gt_0.
      assert (Q1 : bp (-40) * (E * f) <= / 1024 * e * (E * 2)).
      { apply Rmult_le_compat; [apply bpow_ge_0|apply Rmult_le_pos; lra|lra|apply Rmult_le_compat_l; lra]. }
      assert (Q2 : E * (f - 1) <= E * (1.01 * e)) by (apply Rmult_le_compat_l; lra).
      assert (Q3 : E * (- (1.01 * e)) <= E * (f - 1)) by (apply Rmult_le_compat_l; lra).
      assert (Q4 : 0 <= E * e) by (apply Rmult_le_pos; lra).
      rewrite D26. apply Rabs_le. lra.
    + destruct (H3 Hu) as [E|(r & E & Hr)].
      * rewrite proj_fin in E by auto. discriminate.
      * rewrite proj_fin in E by auto. inversion E. assert (bp 901 < bp 950) by (apply bpow_lt; lia). lra.
Qed.
