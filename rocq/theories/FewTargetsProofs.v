(** A cluster of at most five targets: the correction in doubles returns, and the total
    weight of the hypotheses neither overflows nor underflows. *)
From Coq Require Import List Arith Bool Lia ZArith Reals Lra.
From Flocq Require Import Core BinarySingleNaN IEEE754.PrimFloat.
From Interval Require Import Tactic.
From Coq Require Import Floats.
Import ListNotations.
From Verif Require Import Res Scalar Lap LapSpec LapHom LapFloatMain Murty MurtyProofs MurtyFloatMain FloatBase FloatExt LapRnd Cluster ClusterSpec ClusterProofs ClusterFloat FloatSum.
From Verif Require Import ClusterFloatLoop ClusterFloatNum ClusterFloatClose ClusterFloatMain ClusterFloatRange.
From Verif Require Import GMFloat GMFloatSpec GMFloatProofs GMFloatMatch GMFloatCost GMFloatBayes KalmanFloat LikFloat LikFloatSpec MixFloat MixFloatSpec MixFloatProofs SceneFloat SceneFloatSpec SceneFloatProofs.
From Verif Require Import JoinFloatSpec StepFloat StepFloatSpec StepFloatProofs.
Local Open Scope R_scope.

(** ** The first hypothesis *)
Section First.
Variable expf : float -> float.
Variable pick : nat -> list (mstate (T := float)) -> nat.
Variable fsum : list float -> float.
Variables w_lim nhyp_max : float.
Variables (N : nat) (a : Z) (C : matrix float) (rs : list float).
Hypothesis Hin : association_input N a C.
Hypothesis Hpick : forall tick q, q <> [] -> (pick tick q < length q)%nat.
Hypothesis Htop : top_pick pick.
Variables (fuel : nat) (out : fcorrected).
Hypothesis Hrun : fcorrect expf pick fsum w_lim nhyp_max fuel N C rs = Ok out.
Notation T := (pm proj C).
Notation n := (INR (m_rows C)).

Lemma first_drawn s0 : feasible_double C s0 -> exists hs, fc_n out = length hs /\ ClusterFloat.fc_w out = wsum hs /\ Forall (weighed expf C a) hs /\
  exists h, In h hs /\ LapSpec.total T (snd h) <= LapSpec.total T s0 + n * (n + 1) ^ m_rows C * INR (m_cols C) * bp (a - 40).
Proof.
  intros Hs0. pose proof Hin as (Ha & HC & (Hr0 & Hr) & Hc & Hc1 & Ho).
  assert (Hc0 : (0 < m_cols C)%nat) by lia.
  pose proof Hrun as H. unfold fcorrect in H. destruct (murty_new floatN C) as [mu| |] eqn:Emu; try discriminate. cbn [bind] in H.
  destruct (fhyp_loop expf pick w_lim nhyp_max fuel fuel N (m_rows C) mu 0 0%float (repeat 0%float (m_rows C * (N + 1)))) as [[[n0 ws] Rm]| |] eqn:El; try discriminate.
  cbn [bind] in H. assert (Eo : fc_n out = n0 /\ ClusterFloat.fc_w out = ws) by (destruct n0; inversion H; auto). clear H. destruct Eo as [En Ew].
  destruct (loop_draws expf pick w_lim nhyp_max N (m_rows C) fuel fuel mu 0 0%float _ _ El ltac:(discriminate)) as (k & Hk).
  assert (Em : murty_run floatN pick fuel k C = draws floatN pick fuel k mu) by (unfold murty_run; rewrite Emu; reflexivity).
  rewrite <- Em in Hk.
  destruct (murty_double C a Ha HC Hr Hc1 Ho Hr0 Hc0 pick Hpick k) as [Hd _]. specialize (Hd fuel).
  destruct Hk as [Hk|(outs & Hk & Hcons)]; [rewrite Hk in Hd; destruct Hd|]. rewrite Hk in Hd. cbn [wp] in Hd.
  destruct Hd as (ds & os & D1 & D2 & D3 & D4 & D5 & D6).
  pose proof (consume_spec expf pick w_lim nhyp_max N (m_rows C) C a (k - length ds) os ds [] (repeat 0%float (m_rows C * (N + 1))) D3) as Hc'.
  rewrite <- D2 in Hc'. cbn [length] in Hc'. change (wsum []) with 0%float in Hc'. rewrite Hcons in Hc'. cbn [wp] in Hc'.
  destruct Hc' as (more & Hu & Hw & Hm & Hst & _); [constructor|apply ftable_nil|intros d Hd'; apply D4 in Hd'; apply Hd'|].
  cbn [app] in *. destruct Hu as (U1 & U2 & _). exists more. split; [congruence|]. split; [congruence|]. split; auto.
  destruct more as [|h more].
  - exfalso. destruct Hst as [[Hlt Hnil]|(pre & h & E & _)]; [|destruct pre; discriminate].
    cbn [map] in Hnil. subst ds. apply (input_feasible N a C s0 Hin) in Hs0. apply (D6 ltac:(lia) s0 Hs0).
  - exists h. split; [simpl; auto|]. cbn [map length firstn] in Hm. destruct ds as [|d ds]; [discriminate|]. injection Hm as Hh _.
    inversion D3 as [|o ? os' ? (x & Ex & _) _]; subst.
    apply (drun_near C a Ha HC Hr Hc1 Ho Hr0 Hc0 pick Hpick fuel k _ Hk 0%nat x (snd h) s0 Htop); auto.
    intros j cj Hj. lia.
Qed.

(** ** No overflow, no underflow *)
Hypothesis Hacc : exp_accurate expf.
Hypothesis Hmax : PrimFloat.leb nhyp_max 1048576 = true.
Hypothesis Ha15 : (a <= 15)%Z.

Lemma exp_591 : exp 591 <= bp 854.
Proof.
  rewrite bpow_exp. apply exp_mono. change (IZR radix2) with 2. interval.
Qed.

Lemma weight_upper' x t : fin x -> Rabs (fval x - t) <= bp (-27) -> -590 <= t ->
  exists r, proj (expf (- x)%float) = Fin r /\ 0 <= r <= bp 855.
Proof.
  intros Fx Hx Ht. destruct (f_opp x Fx) as [Fo Vo]. destruct (Hacc _ Fo) as (H1 & H2 & _). rewrite Vo in *.
  apply Rabs_le_inv in Hx. assert (B27 : bp (-27) <= 1) by (change 1 with (bp 0); apply bpow_le; lia).
  destruct (Rlt_le_dec (- fval x) (-700)) as [L|L].
  - destruct (H2 L) as [F B]. exists (fval (expf (- x)%float)). split; [apply proj_fin; auto|].
    assert (bp (-800) <= bp 855) by (apply bpow_le; lia). lra.
  - destruct H1 as [F B]; [lra|]. exists (fval (expf (- x)%float)). split; [apply proj_fin; auto|].
    apply Rabs_le_inv in B. set (e := exp (- fval x)) in *. assert (He : 0 < e) by apply exp_pos.
    assert (Hee : e <= bp 854).
    { unfold e. apply Rle_trans with (exp 591); [|exact exp_591]. apply exp_mono. lra. }
    pose proof half_40 as H40. assert (bp (-40) * e <= / 2 * e) by (apply Rmult_le_compat_r; lra).
    pose proof (bp_double 854) as D. simpl Z.add in D. rewrite D. lra.
Qed.

Lemma total_weight' s0 : feasible_double C s0 ->
  LapSpec.total T s0 + n * (n + 1) ^ m_rows C * INR (m_cols C) * bp (a - 40) <= 250 ->
  (forall s, feasible_double C s -> -590 <= LapSpec.total T s) ->
  fc_n out <> 0%nat /\ fin (ClusterFloat.fc_w out) /\ bp (-600) <= fval (ClusterFloat.fc_w out) <= bp 900.
Proof.
  intros Hs0 Hup Hlo. pose proof (accurate_nonneg _ Hacc) as Hexp.
  assert (U : fin (ClusterFloat.fc_w out) /\ 0 <= fval (ClusterFloat.fc_w out) <= bp 900).
  { destruct (run_outcome expf pick fsum w_lim nhyp_max N a C rs Hin Hpick fuel out Hrun) as (hs & Hch & En & Ew & _ & _).
    pose proof (hs_small expf w_lim nhyp_max a C Hmax hs Hch) as Hsm.
    rewrite Ew.
    assert (Hx : forall x, In x (map fst hs) -> exists r, proj x = Fin r /\ 0 <= r <= bp 855).
    { intros y Hy. apply in_map_iff in Hy. destruct Hy as (h & <- & Hh).
      destruct (proj1 (Forall_forall _ _) (ch_w _ _ _ _ _ _ Hch) h Hh) as (x & -> & Fx & Bx).
      apply (weight_upper' x (LapSpec.total T (snd h))); auto.
      - eapply Rle_trans; [exact Bx|]. apply bpow_le. lia.
      - apply Hlo. apply (input_feasible N a C _ Hin). apply Hch. apply in_map; auto. }
    assert (Hl : (Z.of_nat (length (map fst hs)) <= 2 ^ 50)%Z) by (rewrite map_length; eapply Z.le_trans; [exact Hsm|vm_compute; discriminate]).
    assert (Hl20 : INR (length (map fst hs)) <= bp 20).
    { rewrite map_length, INR_IZR_INZ. change (bp 20) with (IZR (2 ^ 20)). apply IZR_le. exact Hsm. }
    destruct (fsums_ok _ _ (bp 855) (wsum_fsums hs)) as (W & HW); auto.
    { split; [apply bpow_ge_0|apply bpow_le; lia]. }
    destruct (fsums_fin _ _ (wsum_fsums hs)) as [_ HS].
    { intros x Hi. destruct (Hx x Hi) as (r & E & Hr). right. exists r. split; auto. lra. }
    destruct (HS W HW) as [_ Hc]. specialize (Hc Hl).
    destruct (INR_le50 _ Hl) as [[K0 K1] K2].
    assert (Hv : vsum (map fst hs) <= INR (length (map fst hs)) * bp 855).
    { apply vsum_le. intros x Hi. destruct (Hx x Hi) as (r & E & Hr). apply proj_Fin in E. destruct E as [_ ->]. lra. }
    assert (Hv0 : 0 <= vsum (map fst hs)).
    { apply vsum_nonneg. intros x Hi. destruct (Hx x Hi) as (r & E & Hr). split; [right; exists r; split; auto; lra|]. apply proj_Fin in E. apply E. }
    assert (Hv2 : vsum (map fst hs) <= bp 875).
    { eapply Rle_trans; [exact Hv|]. change 875%Z with (20 + 855)%Z. rewrite bpow_plus. apply Rmult_le_compat_r; [apply bpow_ge_0|auto]. }
    apply proj_Fin in HW. destruct HW as [F V]. split; auto. rewrite V. apply Rabs_le_inv in Hc.
    assert (2 * INR (length (map fst hs)) * uro * vsum (map fst hs) <= / 4 * vsum (map fst hs)) by (apply Rmult_le_compat_r; auto).
    assert (bp 875 <= bp 899) by (apply bpow_le; lia). pose proof (bp_double 899) as D. simpl Z.add in D. rewrite D.
    pose proof (bpow_gt_0 radix2 899). lra. }
  destruct U as [Fw Bw]. destruct (first_drawn s0 Hs0) as (hs & En & Ew & Hw & h & Hh & Ht).
  split; [rewrite En; intros E; destruct hs; [destruct Hh|discriminate]|]. split; auto. split; [|lra].
  rewrite Ew in *.
  assert (Hnn : nnh hs).
  { intros h' Hh'. destruct (proj1 (Forall_forall _ _) Hw h' Hh') as (x & -> & Hx & _). apply Hexp. apply f_opp. auto. }
  destruct (proj1 (Forall_forall _ _) Hw h Hh) as (x & Ex & Fx & Bx).
  pose proof (proj_fin _ Fw) as HW. pose proof (wt_le N hs Hnn _ HW h Hh) as [_ Hle]. destruct (hs_fin hs Hnn _ HW h Hh) as [Fh _].
  assert (Bx' : Rabs (fval x - LapSpec.total T (snd h)) <= bp (-27)) by (eapply Rle_trans; [exact Bx|]; apply bpow_le; lia).
  pose proof (weight_lower expf Hacc x _ (wt h) Fx Bx' ltac:(lra)) as Hlow. rewrite <- Ex in Hlow. specialize (Hlow (proj_fin _ Fh)).
  assert (bp (-600) <= bp (-503)) by (apply bpow_le; lia). lra.
Qed.
End First.

(** ** The factors *)
Lemma sum_of_le {A} (f g : A -> R) l : (forall x, In x l -> f x <= g x) -> sum_of f l <= sum_of g l.
Proof. induction l as [|x l IH]; intros H; [apply Rle_refl|]. unfold sum_of in *. cbn [map fold_right]. apply Rplus_le_compat; [apply H; simpl; auto|apply IH; intros y Hy; apply H; simpl; auto]. Qed.
Lemma sum_of_scale {A} (f : A -> R) c l : sum_of (fun x => f x * c) l = sum_of f l * c.
Proof. induction l as [|x l IH]; unfold sum_of in *; cbn [map fold_right]; [ring|rewrite IH; ring]. Qed.
Lemma sum_of_combine {A B} (f : A -> R) (l : list A) : forall l' : list B, length l' = length l -> sum_of (fun x => f (fst x)) (combine l l') = sum_of f l.
Proof. induction l as [|x l IH]; intros [|y l'] E; try discriminate; auto. unfold sum_of in *. cbn [combine map fold_right fst]. rewrite IH by (simpl in E; lia). reflexivity. Qed.

Section Few.
Variable sum : list float -> float.
Variables (expf : float -> float) (powf : float -> float -> float) (logf : float -> float).
Hypothesis Hsm : forall l, fsums l (sum l).
Hypothesis Hexp : exp_accurate expf.
Hypothesis Hpow : square_accurate powf.
Hypothesis Hlog : log_accurate logf.
Variables (reports : list freport) (pD : float) (K : R).
Hypothesis HpD : upto (1 - bp (-20)) pD.
Hypothesis HK : 1 <= K <= 1000.
Hypothesis Hkap : forall z, In z reports -> kappa_ok (fr_kappa z).
Variable gs : list gtarget.
Hypothesis Hgs : Forall (scene_ok K reports) gs.
Hypothesis HM : (0 < length gs <= 5)%nat.
Hypothesis HN : (Z.of_nat (length reports) <= 90000)%Z.
Notation N := (length reports).
Notation M := (length gs).
Notation X := (map (described pD reports) gs).
Notation W := (ClusterSpec.weight N X).
Notation gi i := (nth i gs dG).
Notation kappas := (map fr_kappa reports).
Notation C := (fcost_of logf pD kappas (map (of_target sum expf powf reports) gs)).

Lemma weights_total g : scene_ok K reports g -> 0 <= exact_sum (map fst (gt_c g)) <= 1 + bp (-30).
Proof.
  intros (_ & (Hw & Hl & Hs) & _). split.
  - unfold exact_sum. rewrite map_map. revert Hw. generalize (gt_c g) as l. induction l as [|c l IH]; intros Hw; cbn [map fold_right]; [lra|].
    pose proof (Hw c (or_introl eq_refl)) as [_ B]. specialize (IH (fun x Hx => Hw x (or_intror Hx))). lra.
  - apply Rabs_le_inv in Hs. eapply Rle_trans; [|apply Rplus_le_compat_l].
    2:{ instantiate (1 := (4 * INR (length (gt_c g)) + 4) * bp (-53)). 
        assert (INR (length (gt_c g)) <= 1048576) by (rewrite INR_IZR_INZ; apply IZR_le; exact Hl).
        replace (bp (-30)) with (8388608 * bp (-53)); [apply Rmult_le_compat_r; [apply bpow_ge_0|lra]|].
        change 8388608 with (bp 23). rewrite <- bpow_plus. reflexivity. }
    lra.
Qed.

Lemma sum_fst (l : list (float * (fvec * fmat))) : sum_of (fun c => fval (fst c)) l = exact_sum (map fst l).
Proof. unfold exact_sum, sum_of. rewrite map_map. induction l as [|c l IH]; cbn [map fold_right]; auto. rewrite IH. reflexivity. Qed.

Lemma seen_share k : (k <= 1000)%nat -> 0 <= INR k / 1000 <= 1.
Proof.
  intros H. pose proof (pos_INR k). assert (INR k <= 1000) by (replace 1000 with (INR 1000) by (rewrite INR_IZR_INZ; reflexivity); apply le_INR; auto). lra.
Qed.

Lemma density_le g z ks : scene_ok K reports g -> In z reports -> In ks (gt_rep g) -> relative_density pD z (gt_c g) ks <= bp 168.
Proof.
  intros Hg Hz Hk. pose proof (weights_total g Hg) as [Hs0 Hs1]. pose proof Hg as (_ & (Hw & _) & _ & (_ & Hrep) & Hreg). destruct (Hrep ks Hk) as [El Hks].
  pose proof (Hkap z Hz) as [_ Hkz]. pose proof HpD as [_ Bp]. pose proof (bpow_gt_0 radix2 (-20)) as P20. pose proof (bpow_gt_0 radix2 (-50)) as P50.
  unfold relative_density. apply Rle_trans with (sum_of (fun ck => fval (fst (fst ck)) * bp 167) (combine (gt_c g) ks)).
  - apply sum_of_le. intros [[w [x P]] k] Hi. cbn [fst snd]. pose proof (in_combine_l _ _ _ _ Hi) as I1. pose proof (in_combine_r _ _ _ _ Hi) as I2.
    unfold joint_weight. cbn [fc_w fc_k fc_x fc_P MixFloat.fc_w].
    pose proof (Hw _ I1) as [_ Bw]. cbn [fst] in Bw. pose proof (seen_share k (Hks k I2)) as Bk.
    destruct (likelihood_near sum expf powf K (fr_z z) (fr_V z) x P Hsm Hexp Hpow HK (Hreg _ z I1 Hz)) as (_ & _ & BL & _).
    set (L := innovation_density P (fr_V z) (precision P (fr_V z)) x (fr_z z)) in *.
    apply Rmult_le_compat_l; [lra|].
    assert (Ei : 0 < / fval (fr_kappa z) <= bp 50).
    { split; [apply Rinv_0_lt_compat; lra|]. change (bp 50) with (bpow radix2 (- -50)). rewrite bpow_opp. apply Rinv_le_contravar; lra. }
    assert (Eq : 0 <= fval pD * (INR k / 1000) <= 1) by (split; [apply Rmult_le_pos; lra|rewrite <- (Rmult_1_l 1); apply Rmult_le_compat; lra]).
    change 167%Z with (117 + 50)%Z. rewrite bpow_plus. unfold Rdiv. apply Rmult_le_compat; try lra.
    + apply Rmult_le_pos; lra.
    + rewrite <- (Rmult_1_l (bp 117)). apply Rmult_le_compat; lra.
  - rewrite sum_of_scale. rewrite (sum_of_combine (fun c => fval (fst c))) by auto. rewrite sum_fst.
    change 168%Z with (1 + 167)%Z. rewrite bpow_plus. change (bp 1) with 2. apply Rmult_le_compat_r; [apply bpow_ge_0|].
    assert (bp (-30) <= 1) by (change 1 with (bp 0); apply bpow_le; lia). lra.
Qed.

Lemma missed_between g : scene_ok K reports g -> bp (-21) <= t_miss (described pD reports g) <= 1.
Proof.
  intros Hg. pose proof (weights_total g Hg) as [Hs0 Hs1]. pose proof Hg as (_ & (Hw & _) & (El & Hk) & _). pose proof HpD as [_ Bp].
  cbn [described t_miss]. unfold detected.
  assert (E : sum_of (fun wk => fst wk * (fval pD * (INR (snd wk) / 1000))) (combine (map fval (map fst (gt_c g))) (gt_in g)) =
              sum_of (fun ck => fval (fst (fst ck)) * (fval pD * (INR (snd ck) / 1000))) (combine (gt_c g) (gt_in g))).
  { rewrite map_map. generalize (gt_in g) as ks. generalize (gt_c g) as cs. induction cs as [|c cs IH]; intros [|k ks]; auto.
    cbn [map combine]. unfold sum_of in *. cbn [map fold_right fst snd]. rewrite IH. reflexivity. }
  rewrite E. clear E.
  assert (H0 : 0 <= sum_of (fun ck => fval (fst (fst ck)) * (fval pD * (INR (snd ck) / 1000))) (combine (gt_c g) (gt_in g))).
  { replace 0 with (sum_of (fun ck : (float * (fvec * fmat)) * nat => 0 * 0) (combine (gt_c g) (gt_in g))).
    - apply sum_of_le. intros [c k] Hi. cbn [fst snd]. pose proof (Hw c (in_combine_l _ _ _ _ Hi)) as [_ Bw]. pose proof (seen_share k (Hk k (in_combine_r _ _ _ _ Hi))) as Bk.
      rewrite Rmult_0_l. apply Rmult_le_pos; [lra|]. apply Rmult_le_pos; lra.
    - rewrite (sum_of_scale (fun _ => 0) 0). ring. }
  assert (H1 : sum_of (fun ck => fval (fst (fst ck)) * (fval pD * (INR (snd ck) / 1000))) (combine (gt_c g) (gt_in g)) <= exact_sum (map fst (gt_c g)) * fval pD).
  { rewrite <- sum_fst, <- sum_of_scale, <- (sum_of_combine (fun c => fval (fst c) * fval pD) _ (gt_in g)) by auto.
    apply sum_of_le. intros [c k] Hi. cbn [fst snd]. pose proof (Hw c (in_combine_l _ _ _ _ Hi)) as [_ Bw]. pose proof (seen_share k (Hk k (in_combine_r _ _ _ _ Hi))) as Bk.
    apply Rmult_le_compat_l; [lra|]. rewrite <- (Rmult_1_r (fval pD)) at 2. apply Rmult_le_compat_l; lra. }
  assert (H2 : exact_sum (map fst (gt_c g)) * fval pD <= (1 + bp (-30)) * (1 - bp (-20))) by (apply Rmult_le_compat; lra).
  assert (H3 : (1 + bp (-30)) * (1 - bp (-20)) <= 1 - bp (-21)).
  { change (bp (-30)) with (/ 1073741824). change (bp (-20)) with (/ 1048576). change (bp (-21)) with (/ 2097152). lra. }
  lra.
Qed.

Lemma tiny_le : 0 <= tiny <= 1.
Proof. unfold tiny. split; [left; apply exp_pos|]. rewrite <- exp_0. apply exp_mono. lra. Qed.

Lemma HM30 : (0 < M <= 30)%nat. Proof. lia. Qed.

(** No factor is above 2^168. *)
Lemma factor_le i j : (i < M)%nat -> (j < N + 2 * M)%nat -> 0 <= choice_weight N M i (nth i X no_target) j <= bp 168.
Proof.
  intros Hi Hj. rewrite (X_nth reports pD gs i Hi). pose proof (gi_ok reports K gs Hgs i Hi) as Hg.
  split.
  - destruct (cell_close sum expf powf logf Hsm Hexp Hpow Hlog reports pD K HpD HK Hkap gs Hgs HM30 i j Hi Hj) as [[_ H]|(_ & H & _)]; lra.
  - pose proof (missed_between _ Hg) as Bm. pose proof Hg as ((Hr & _) & _ & _ & (Er & _) & _). destruct Hr as [_ Br].
    assert (B1 : 1 <= bp 168) by (change 1 with (bp 0); apply bpow_le; lia). pose proof (bpow_gt_0 radix2 (-21)) as P21. pose proof tiny_le.
    unfold choice_weight. set (t := described pD reports (gi i)) in *. assert (Et : t_r t = fval (gt_r (gi i))) by reflexivity. rewrite Et.
    destruct (j <? N)%nat eqn:EjN.
    + apply Nat.ltb_lt in EjN. apply Rle_trans with (1 * bp 168); [|lra].
      set (dz := mkFR (fun _ => 0%float) (fun _ _ => 0%float) 0%float).
      unfold t. cbn [described t_lik].
      rewrite (nth_indep _ 0 ((fun zk => relative_density pD (fst zk) (gt_c (gi i)) (snd zk)) (dz, []))) by (rewrite map_length, combine_length; lia).
      rewrite (map_nth (fun zk => relative_density pD (fst zk) (gt_c (gi i)) (snd zk))).
      assert (I : In (nth j (combine reports (gt_rep (gi i))) (dz, [])) (combine reports (gt_rep (gi i)))) by (apply nth_In; rewrite combine_length; lia).
      destruct (nth j (combine reports (gt_rep (gi i))) (dz, [])) as [z ks]. cbn [fst snd].
      pose proof (density_le _ z ks Hg (in_combine_l _ _ _ _ I) (in_combine_r _ _ _ _ I)) as Hd.
      apply Rle_trans with (fval (gt_r (gi i)) * bp 168); [apply Rmult_le_compat_l; lra|apply Rmult_le_compat_r; lra].
    + destruct (j =? N + i)%nat; [|destruct (j =? N + M + i)%nat; [destruct (Req_EM_T (fval (gt_r (gi i))) 1); lra|lra]].
      apply Rle_trans with (1 * 1); [apply Rmult_le_compat; lra|lra].
Qed.

(** Every target missed or absent, whatever is likelier. *)
Definition quiet : list nat := map (fun i => if Rlt_dec (fval (gt_r (gi i))) (/ 2) then N + M + i else N + i)%nat (seq 0 M).

Lemma quiet_nth i : (i < M)%nat -> nth i quiet 0%nat = (if Rlt_dec (fval (gt_r (gi i))) (/ 2) then N + M + i else N + i)%nat.
Proof. intros H. unfold quiet. exact (nth_map_seq (fun i => if Rlt_dec (fval (gt_r (gi i))) (/ 2) then N + M + i else N + i)%nat 0%nat M i H). Qed.

Lemma quiet_ge i : (i < M)%nat -> bp (-22) <= choice_weight N M i (nth i X no_target) (nth i quiet 0%nat).
Proof.
  intros Hi. rewrite (X_nth reports pD gs i Hi), (quiet_nth i Hi). pose proof (gi_ok reports K gs Hgs i Hi) as Hg.
  pose proof (missed_between _ Hg) as Bm. pose proof Hg as ((Hr & _) & _). destruct Hr as [_ Br].
  assert (E22 : bp (-21) = 2 * bp (-22)) by (change (-21)%Z with (1 + -22)%Z; rewrite bpow_plus; reflexivity).
  assert (P22 : 0 < bp (-22) <= / 2) by (split; [apply bpow_gt_0|change (/ 2) with (bp (-1)); apply bpow_le; lia]).
  unfold choice_weight. set (t := described pD reports (gi i)) in *. assert (Et : t_r t = fval (gt_r (gi i))) by reflexivity. rewrite Et.
  destruct (Rlt_dec (fval (gt_r (gi i))) (/ 2)) as [L|L].
  - rewrite (proj2 (Nat.ltb_ge _ _)) by lia. rewrite (proj2 (Nat.eqb_neq _ _)) by lia. rewrite Nat.eqb_refl. destruct (Req_EM_T (fval (gt_r (gi i))) 1); lra.
  - rewrite (proj2 (Nat.ltb_ge _ _)) by lia. rewrite Nat.eqb_refl. apply Rle_trans with (/ 2 * bp (-21)); [lra|]. apply Rmult_le_compat; lra.
Qed.

Lemma quiet_ok : hypothesis N X quiet.
Proof.
  assert (Hl : length quiet = M) by (unfold quiet; rewrite map_length, seq_length; auto).
  unfold hypothesis. rewrite map_length. split; [exact Hl|]. split; [|split].
  - apply (NoDup_nth quiet 0%nat). intros i j Hi Hj. rewrite Hl in *. rewrite !quiet_nth by auto.
    destruct (Rlt_dec _ _); destruct (Rlt_dec _ _); lia.
  - intros j Hj. apply In_nth with (d := 0%nat) in Hj. destruct Hj as (i & Hi & <-). rewrite Hl in Hi. rewrite quiet_nth by auto. destruct (Rlt_dec _ _); lia.
  - unfold ClusterSpec.weight. rewrite map_length.
    assert (G : forall l, (forall i, In i l -> (i < M)%nat) -> 0 < prod_over (fun i => choice_weight N M i (nth i X no_target) (nth i quiet 0%nat)) l).
    { induction l as [|i l IH]; intros H; cbn [prod_over]; [lra|]. apply Rmult_lt_0_compat; [|apply IH; intros; apply H; simpl; auto].
      eapply Rlt_le_trans; [apply (bpow_gt_0 radix2 (-22))|]. apply quiet_ge, H. simpl; auto. }
    apply G. intros i Hi. apply in_seq in Hi. lia.
Qed.

Lemma prod_le (f : nat -> R) b l : (forall i, In i l -> 0 <= f i <= b) -> 0 <= prod_over f l <= b ^ length l.
Proof.
  induction l as [|i l IH]; intros H; cbn [prod_over length pow]; [lra|]. pose proof (H i (or_introl eq_refl)). specialize (IH (fun k Hk => H k (or_intror Hk))).
  split; [apply Rmult_le_pos; lra|apply Rmult_le_compat; lra].
Qed.
Lemma prod_ge (f : nat -> R) b l : 0 <= b -> (forall i, In i l -> b <= f i) -> b ^ length l <= prod_over f l.
Proof.
  intros Hb. induction l as [|i l IH]; intros H; cbn [prod_over length pow]; [lra|]. pose proof (H i (or_introl eq_refl)). specialize (IH (fun k Hk => H k (or_intror Hk))).
  apply Rmult_le_compat; try lra. apply pow_le; auto.
Qed.

Lemma small_slack : scene_slack K gs <= / 50.
Proof.
  assert (H : scene_slack K gs <= INR M * / 250).
  { unfold scene_slack. revert Hgs. clear - HK. induction gs as [|g l IH]; intros Hf; [unfold sum_of; simpl; lra|].
    inversion Hf as [|? ? Hg Hl]; subst. specialize (IH Hl). unfold sum_of in *. cbn [map fold_right length]. rewrite S_INR.
    destruct Hg as (_ & (_ & Hn & _) & _). assert (Bn : INR (length (gt_c g)) <= 1048576) by (rewrite INR_IZR_INZ; apply IZR_le; exact Hn). pose proof (pos_INR (length (gt_c g))).
    assert (KK : K * K <= 1000000) by (replace 1000000 with (1000 * 1000) by ring; apply Rmult_le_compat; lra).
    match type of IH with ?r <= _ => set (rest := r) in * end. unfold tol. change (bp (-32)) with (/ 4294967296). change (bp (-35)) with (/ 34359738368).
    set (q := K * K) in *. set (m := INR (length (gt_c g))) in *. lra. }
  assert (INR M <= 5) by (replace 5 with (INR 5) by (simpl; lra); apply le_INR; lia). lra.
Qed.

Variable pick : nat -> list (mstate (T := float)) -> nat.
Variable fsum : list float -> float.
Variables w_lim nhyp_max : float.
Hypothesis Hpick : forall tick q, q <> [] -> (pick tick q < length q)%nat.
Hypothesis Htop : top_pick pick.
Hypothesis Hsum : forall l, fsums l (fsum l).
Hypothesis Hmax : PrimFloat.leb nhyp_max 1048576 = true.

Lemma few_input : association_input N 15 C.
Proof.
  destruct (ts_ok sum expf powf Hsm Hexp Hpow reports K HK gs Hgs) as [Ht Hs].
  pose proof (Hassoc logf pD kappas (map (of_target sum expf powf reports) gs) Hlog HpD (kap_ok reports Hkap) Ht ltac:(rewrite map_length; exact HM30) ltac:(rewrite map_length; exact HN)) as HA.
  rewrite map_length in HA. exact HA.
Qed.

Lemma ln2_le : ln 2 <= 6932 / 10000. Proof. interval. Qed.
Lemma ln_bp k : ln (bp k) = IZR k * ln 2.
Proof. rewrite bpow_exp. change (IZR radix2) with 2. apply ln_exp. Qed.

Lemma few_range fuel out : fupdate sum expf powf reports logf pD pick fsum w_lim nhyp_max fuel gs = Ok out ->
  fc_n out <> 0%nat /\ fin (ClusterFloat.fc_w out) /\ bp (-600) <= fval (ClusterFloat.fc_w out) <= bp 900.
Proof.
  intros Hrun. pose proof few_input as HA. unfold fupdate, fcluster in Hrun. rewrite map_length in Hrun.
  assert (HrC : m_rows C = M) by (cbn [fcost_of m_rows]; apply map_length).
  assert (HX : length X = M) by apply map_length.
  set (stolf := fun i => tol (length (gt_c (gi i))) + bp (-35) * (K * K)).
  assert (Htol : forall i, 0 <= stolf i).
  { intros i. unfold stolf. pose proof (tol_pos (length (gt_c (gi i)))). pose proof (bpow_ge_0 radix2 (-28)). pose proof (bpow_ge_0 radix2 (-35)). assert (0 <= bp (-35) * (K * K)) by (apply Rmult_le_pos; nra). lra. }
  assert (Hch : forall i j, (i < M)%nat -> (j < N + 2 * M)%nat ->
    let x := entry nan C i j in let F := choice_weight N M i (nth i X no_target) j in
    (x = infinity /\ 0 <= F <= 1.02e-8) \/ (fin x /\ 0 < F /\ Rabs (fval x + ln F) <= stolf i)).
  { intros i j Hi Hj. rewrite (X_nth reports pD gs i Hi). apply (cell_close sum expf powf logf Hsm Hexp Hpow Hlog reports pD K HpD HK Hkap gs Hgs HM30 i j Hi Hj). }
  pose proof (weights_close N M C X stolf 1.02e-8 HA HrC HX Hch) as Hwc.
  assert (Esl : sum_over stolf (seq 0 M) = scene_slack K gs) by (symmetry; apply scene_slack_over).
  rewrite Esl in Hwc. pose proof small_slack as Hsl.
  pose proof ln2_le as L2. assert (L0 : 0 < ln 2) by (rewrite <- ln_1; apply ln_increasing; lra).
  assert (HMr : INR M <= 5) by (replace 5 with (INR 5) by (simpl; lra); apply le_INR; lia). pose proof (pos_INR M) as HM0.
  assert (Fq : feasible_double C quiet).
  { apply (hypothesis_feasible N M C X stolf 1.02e-8 HA HrC HX Hch quiet quiet_ok). intros i Hi.
    eapply Rlt_le_trans; [|apply quiet_ge; auto]. change (bp (-22)) with (/ 4194304). lra. }
  assert (Lq : -22 * 5 * ln 2 <= ln (W quiet)).
  { assert (Hge : bp (-22) ^ M <= W quiet).
    { unfold ClusterSpec.weight. rewrite HX. pose proof (prod_ge (fun i => choice_weight N M i (nth i X no_target) (nth i quiet 0%nat)) (bp (-22)) (seq 0 M) (bpow_ge_0 _ _)) as H.
      rewrite seq_length in H. apply H. intros i Hi. apply in_seq in Hi. apply quiet_ge. lia. }
    apply Rle_trans with (ln (bp (-22) ^ M)).
    - rewrite ln_pow by apply bpow_gt_0. rewrite ln_bp. assert (INR M * ln 2 <= 5 * ln 2) by (apply Rmult_le_compat_r; lra). lra.
    - destruct Hge as [Hlt|Heq]; [left; apply ln_increasing; auto; apply pow_lt, bpow_gt_0|rewrite Heq; lra]. }
  apply (total_weight' expf pick fsum w_lim nhyp_max N 15 C _ HA Hpick Htop fuel out Hrun Hexp Hmax ltac:(lia) quiet Fq).
  - destruct (Hwc quiet Fq) as (_ & Hc & _). apply Rabs_le_inv in Hc. rewrite HrC.
    assert (Hcols : INR (m_cols C) <= 100000).
    { destruct HA as (_ & _ & _ & _ & H & _). rewrite INR_IZR_INZ. apply IZR_le. lia. }
    assert (He : INR M * (INR M + 1) ^ M * INR (m_cols C) * bp (15 - 40) <= 116).
    { assert (Hp : 0 <= INR M * (INR M + 1) ^ M <= 38880).
      { clear - HM. destruct (length gs) as [|[|[|[|[|[|m]]]]]]; [lia| | | | | |lia]; simpl; lra. }
      pose proof (pos_INR (m_cols C)). change (bp (15 - 40)) with (/ 33554432).
      assert (INR M * (INR M + 1) ^ M * INR (m_cols C) <= 38880 * 100000) by (apply Rmult_le_compat; lra). lra. }
    lra.
  - intros s Hs. destruct (Hwc s Hs) as (Hp & Hc & Hj). apply Rabs_le_inv in Hc.
    assert (Hle : W s <= bp 168 ^ M).
    { unfold ClusterSpec.weight. rewrite HX. pose proof (prod_le (fun i => choice_weight N M i (nth i X no_target) (nth i s 0%nat)) (bp 168) (seq 0 M)) as H.
      rewrite seq_length in H. apply H. intros i Hi. apply in_seq in Hi. apply factor_le; [lia|]. apply Hj. lia. }
    assert (Ls : ln (W s) <= 168 * 5 * ln 2).
    { apply Rle_trans with (ln (bp 168 ^ M)).
      - destruct Hle as [Hlt|Heq]; [left; apply ln_increasing; auto|rewrite Heq; lra].
      - rewrite ln_pow by apply bpow_gt_0. rewrite ln_bp. assert (INR M * ln 2 <= 5 * ln 2) by (apply Rmult_le_compat_r; lra). lra. }
    lra.
Qed.

Lemma few_returns : (forall fuel, fupdate sum expf powf reports logf pD pick fsum w_lim nhyp_max fuel gs <> UB) /\
  exists fuel0 out, forall fuel, (fuel0 <= fuel)%nat -> fupdate sum expf powf reports logf pD pick fsum w_lim nhyp_max fuel gs = Ok out.
Proof.
  unfold fupdate, fcluster. rewrite map_length. 
  exact (fcorrect_returns expf pick fsum w_lim nhyp_max N 15 C _ few_input Hpick).
Qed.

Variables (sortf : list gcomp -> list gcomp) (cw_lim : float).
Hypothesis Hsort : sorts sortf.
Hypothesis Hcw : fin cw_lim /\ 0 <= fval cw_lim <= / 2.
Hypothesis Hbig : forall g, In g gs -> (Z.of_nat (length (gt_c g) * (N + 1)) <= 2 ^ 20)%Z.

Lemma few_ok : (forall fuel, fstep sum expf powf reports sortf cw_lim logf pD pick fsum w_lim nhyp_max fuel gs <> UB) /\
  exists fuel0 out ds ts, (forall fuel, (fuel0 <= fuel)%nat -> fstep sum expf powf reports sortf cw_lim logf pD pick fsum w_lim nhyp_max fuel gs = Ok (out, ts)) /\
  length ds = fc_n out /\ ds <> [] /\ NoDup ds /\ (forall s, In s ds -> hypothesis N X s) /\
  ((forall s, hypothesis N X s ->
      (forall i, (i < M)%nat -> 1.02e-8 < choice_weight N M i (nth i X no_target) (nth i s 0%nat)) -> In s ds) \/
   PrimFloat.leb nhyp_max (nofnat floatN (fc_n out)) = true \/
   exists s, In s ds /\ (fin w_lim -> W s / sum_over W ds <= fval w_lim + bp (-20) + 4 * scene_slack K gs)) /\
  Forall2 (fun ig rc => updated K (fval cw_lim) pD reports (scene_slack K gs) (marginal N W ds (fst ig)) (snd ig) (fst rc) (snd rc))
    (combine (seq 0 M) gs) ts.
Proof.
  destruct few_returns as [HU (fuel0 & out & Hret)]. pose proof small_slack as Hsl.
  assert (Hstep : forall fuel out', fupdate sum expf powf reports logf pD pick fsum w_lim nhyp_max fuel gs = Ok out' -> _) by
    (intros fuel out' Hr; destruct (few_range fuel out' Hr) as (R1 & R2 & R3);
     exact (step_ok sum expf powf logf reports pD K gs sortf cw_lim pick fsum w_lim nhyp_max fuel out' Hsm Hexp Hpow Hlog HpD HK Hkap Hgs HM30 HN Hbig Hsort Hcw Hpick Hsum Hmax ltac:(lra) Hr R1 R2 R3)).
  split.
  - intros fuel E. pose proof (HU fuel) as Hu. destruct (fupdate sum expf powf reports logf pD pick fsum w_lim nhyp_max fuel gs) as [o| |] eqn:Eu; [|congruence|].
    + destruct (Hstep fuel o Eu) as (ds & ts & Es & _). congruence.
    + unfold fstep in E. rewrite Eu in E. discriminate.
  - destruct (Hstep fuel0 out (Hret fuel0 (le_n _))) as (ds & ts & Es & H1 & H2).
    exists fuel0, out, ds, ts. split.
    + intros fuel Hf. rewrite <- Es. unfold fstep. rewrite (Hret fuel Hf), (Hret fuel0 (le_n _)). reflexivity.
    + split; auto. split; auto. intros ->. destruct (few_range fuel0 out (Hret fuel0 (le_n _))) as (R1 & _). apply R1. rewrite <- H1. reflexivity.
Qed.
End Few.
