(** The update of a cluster in doubles against the exact weights of hypotheses. *)
From Coq Require Import List Arith Bool Lia ZArith Reals Lra.
From Flocq Require Import Core BinarySingleNaN IEEE754.PrimFloat.
From Coq Require Import Floats.
Import ListNotations.
From Verif Require Import Res Scalar Lap LapSpec LapHom LapFloatMain Murty MurtyProofs MurtyFloatMain.
From Verif Require Import FloatBase FloatExt LapRnd Cluster ClusterSpec ClusterProofs ClusterFloat FloatSum ClusterFloatLoop ClusterFloatNum ClusterFloatClose ClusterFloatMain ClusterFloatRange.
From Verif Require Import GMFloat GMFloatSpec GMFloatProofs GMFloatMatch GMFloatCost.
Local Open Scope R_scope.

Lemma tol_pos n : bp (-28) <= tol n.
Proof.
  unfold tol. pose proof tol_ge. pose proof (pos_INR n). pose proof (bpow_ge_0 radix2 (-32)).
  assert (0 <= INR n * bp (-32)) by (apply Rmult_le_pos; auto). lra.
Qed.

(** ** A cost matrix whose entries stand for factors
    Row [i] is correct to [tolf i]; factors up to [cut] may be replaced by 0. *)
Section Marginals.
Variables (N M : nat) (C : matrix float) (X : list target_in) (tolf : nat -> R) (cut : R).
Hypothesis Hassoc : association_input N 15 C.
Hypothesis HrC : m_rows C = M.
Hypothesis HX : length X = M.
Hypothesis Htol : forall i, 0 <= tolf i.
Hypothesis Hchoice : forall i j, (i < M)%nat -> (j < N + 2 * M)%nat ->
  let x := entry nan C i j in let F := choice_weight N M i (nth i X no_target) j in
  (x = infinity /\ 0 <= F <= cut) \/ (fin x /\ 0 < F /\ Rabs (fval x + ln F) <= tolf i).
Notation slack := (sum_over tolf (seq 0 M)).

Lemma pm_entry i j : (i < M)%nat -> (j < N + 2 * M)%nat -> entry NaN (pm proj C) i j = proj (entry nan C i j).
Proof.
  intros Hi Hj. destruct Hassoc as (_ & (Hl & _) & _ & Hc & _ & Ho). unfold entry. cbn [pm m_ord m_cols m_data]. rewrite Ho.
  rewrite (nth_indep _ _ (proj nan)) by (rewrite map_length, Hl, Hc, HrC; nia). apply map_nth.
Qed.

Lemma weights_close s : feasible_double C s ->
  0 < weight N X s /\ Rabs (LapSpec.total (pm proj C) s + ln (weight N X s)) <= slack /\
  forall i, (i < M)%nat -> (nth i s 0 < N + 2 * M)%nat /\ fin (entry nan C i (nth i s 0%nat)).
Proof.
  intros Hs. apply (input_feasible N 15 C s Hassoc) in Hs. destruct Hs as [(Hl & Hnd & Hc) Hfin]. cbn [pm m_rows m_cols] in *. rewrite HrC in *.
  assert (HcC : m_cols C = (N + 2 * M)%nat) by (destruct Hassoc as (_ & _ & _ & E & _); rewrite E, HrC; reflexivity). rewrite HcC in *.
  assert (Hj : forall i, (i < M)%nat -> (nth i s 0 < N + 2 * M)%nat) by (intros i Hi; apply Hc, nth_In; lia).
  assert (HF : forall i, (i < M)%nat -> fin (entry nan C i (nth i s 0%nat)) /\ LapSpec.val (entry NaN (pm proj C) i (nth i s 0%nat)) = fval (entry nan C i (nth i s 0%nat)) /\
    0 < choice_weight N M i (nth i X no_target) (nth i s 0%nat) /\
    Rabs (fval (entry nan C i (nth i s 0%nat)) + ln (choice_weight N M i (nth i X no_target) (nth i s 0%nat))) <= tolf i).
  { intros i Hi. specialize (Hfin i Hi). rewrite (pm_entry i _ Hi (Hj i Hi)) in *. destruct (Hchoice i _ Hi (Hj i Hi)) as [[E _]|(F & HF & Hc')].
    - rewrite E in Hfin. destruct Hfin as [r Hr]. discriminate.
    - split; auto. rewrite (proj_fin _ F). auto. }
  assert (G : forall l, (forall i, In i l -> (i < M)%nat) ->
    let P := prod_over (fun i => choice_weight N M i (nth i X no_target) (nth i s 0%nat)) l in
    0 < P /\ Rabs (Rsum (map (fun i => LapSpec.val (entry NaN (pm proj C) i (nth i s 0%nat))) l) + ln P) <= sum_over (fun i => tolf i) l).
  { induction l as [|i l IH]; intros Hi P; unfold P; cbn [prod_over map Rsum sum_over].
    - split; [lra|]. rewrite ln_1, Rplus_0_r, Rabs_R0. lra.
    - destruct (IH (fun k Hk => Hi k (or_intror Hk))) as [IH1 IH2]. destruct (HF i (Hi i (or_introl eq_refl))) as (_ & V & Hp & Hc').
      split; [apply Rmult_lt_0_compat; auto|]. rewrite ln_mult by auto. rewrite V. apply Rabs_le_inv in Hc'. apply Rabs_le_inv in IH2. apply Rabs_le. lra. }
  specialize (G (seq 0 M) ltac:(intros i Hi; apply in_seq in Hi; lia)). cbv zeta in G.
  unfold weight, LapSpec.total. cbn [pm m_rows]. rewrite HX, HrC. split; [apply G|]. split; [apply G|]. intros i Hi. split; [auto|apply HF; auto].
Qed.

(** Hypotheses are the feasible assignments, but for those with a report whose
    likelihood is not above 1e-8. *)
Lemma feasible_hypothesis s : feasible_double C s -> hypothesis N X s.
Proof.
  intros Hs. destruct (weights_close s Hs) as (H1 & _ & _). destruct Hs as [(Hl & Hnd & Hc) _]. 
  assert (HcC : m_cols C = (N + 2 * M)%nat) by (destruct Hassoc as (_ & _ & _ & E & _); rewrite E, HrC; reflexivity). rewrite HrC, HcC in *.
  unfold hypothesis. rewrite HX. auto.
Qed.
Lemma hypothesis_feasible s : hypothesis N X s ->
  (forall i, (i < M)%nat -> cut < choice_weight N M i (nth i X no_target) (nth i s 0%nat)) ->
  feasible_double C s.
Proof.
  intros (Hl & Hnd & Hc & _) HF. rewrite HX in Hl, Hc.
  assert (HcC : m_cols C = (N + 2 * M)%nat) by (destruct Hassoc as (_ & _ & _ & E & _); rewrite E, HrC; reflexivity).
  apply (input_feasible N 15 C s Hassoc). split; [cbn [pm m_rows m_cols]; split; [congruence|split; [auto|rewrite HcC; auto]]|]. intros i Hi. cbn [pm m_rows] in Hi. rewrite HrC in Hi.
  assert (Hj : (nth i s 0 < N + 2 * M)%nat) by (apply Hc, nth_In; lia).
  rewrite (pm_entry i _ Hi Hj). specialize (HF i Hi).
  destruct (Hchoice i _ Hi Hj) as [[_ H]|(F & _ & _)]; [lra|]. rewrite (proj_fin _ F). eexists. reflexivity.
Qed.

(** ** Marginals *)
Notation W := (weight N X).
Notation pr := (fun s => exp (- LapSpec.total (pm proj C) s)).

Lemma slack_pos : 0 <= slack.
Proof. apply sumf_nonneg. auto. Qed.

Lemma pr_close s : feasible_double C s -> 0 < W s /\ W s * exp (- slack) <= pr s <= W s * exp slack.
Proof.
  intros Hs. destruct (weights_close s Hs) as (H1 & H2 & _). split; auto. apply Rabs_le_inv in H2. cbv beta.
  rewrite <- (exp_ln (W s)) at 1 2 by auto. rewrite <- !exp_plus. split; apply exp_mono; lra.
Qed.

Lemma exp_2 x : 0 <= x <= / 4 -> exp (2 * x) - 1 <= 4 * x.
Proof.
  intros Hx. pose proof (exp_lin (- (2 * x))) as H. rewrite exp_Ropp in H. pose proof (exp_pos (2 * x)) as Hp.
  assert (H1 : exp (2 * x) * (1 - 2 * x) <= 1).
  { apply Rle_trans with (exp (2 * x) * / exp (2 * x)); [apply Rmult_le_compat_l; lra|]. rewrite Rinv_r by lra. lra. }
  nra.
Qed.

Section Hyps.
Variable ds : list (list nat).
Hypothesis Hds : forall s, In s ds -> feasible_double C s.
Hypothesis Hne : ds <> [].
Hypothesis Hsl : slack <= / 4.

Lemma quot_slack (u : list nat -> bool) :
  let a := sum_over (fun s => if u s then pr s else 0) ds / sum_over pr ds in
  let b := sum_over (fun s => if u s then W s else 0) ds / sum_over W ds in
  0 <= b <= 1 /\ Rabs (a - b) <= 4 * slack * b.
Proof.
  intros a b. pose proof slack_pos as H0. set (k := exp slack).
  assert (Hk : 1 <= k) by (unfold k; rewrite <- exp_0; apply exp_mono; auto).
  assert (Ek : exp (- slack) = / k) by (unfold k; apply exp_Ropp).
  assert (Hsq : k * k <= 1 + 4 * slack) by (unfold k; rewrite <- exp_plus; replace (slack + slack) with (2 * slack) by ring; pose proof (exp_2 slack ltac:(lra)); lra).
  assert (Hmul : forall c f l, sum_over (fun s : list nat => f s * c) l = sum_over f l * c) by (intros c f l; induction l as [|x l IH]; cbn [sum_over]; [ring|rewrite IH; ring]).
  set (A := sum_over (fun s => if u s then pr s else 0) ds) in *. set (G := sum_over pr ds) in *.
  set (A' := sum_over (fun s => if u s then W s else 0) ds) in *. set (G' := sum_over W ds) in *.
  assert (HG' : 0 < G') by (apply sumf_pos; auto; intros s Hs; apply pr_close, Hds; auto).
  assert (HG : 0 < G) by (apply sumf_pos; auto; intros s Hs; apply exp_pos).
  assert (HA' : 0 <= A' <= G').
  { split; [apply sumf_nonneg|apply sumf_le]; intros s Hs; destruct (pr_close s (Hds s Hs)) as [Hp _]; destruct (u s); lra. }
  assert (HA : A' * / k <= A <= A' * k).
  { unfold A, A'. rewrite <- !Hmul. split; apply sumf_le; intros s Hs; destruct (pr_close s (Hds s Hs)) as [Hp Hb]; rewrite Ek in Hb; fold k in Hb; destruct (u s); lra. }
  assert (HGk : G' * / k <= G <= G' * k).
  { unfold G, G'. rewrite <- !Hmul. split; apply sumf_le; intros s Hs; destruct (pr_close s (Hds s Hs)) as [Hp Hb]; rewrite Ek in Hb; fold k in Hb; lra. }
  assert (Hb : 0 <= b <= 1).
  { unfold b. split; [apply quot_ge; lra|apply quot_le; lra]. }
  split; auto.
  assert (Eb : b * G' = A') by (unfold b; field; lra).
  assert (Hik : / k * k = 1) by (apply Rinv_l; lra).
  assert (HGk2 : G' <= G * k) by (apply Rle_trans with (G' * / k * k); [rewrite Rmult_assoc, Hik; lra|apply Rmult_le_compat_r; lra]).
  assert (HA2 : A' <= A * k) by (apply Rle_trans with (A' * / k * k); [rewrite Rmult_assoc, Hik; lra|apply Rmult_le_compat_r; lra]).
  assert (Hup : a <= b * (k * k)).
  { unfold a. apply quot_le; auto. apply Rle_trans with (A' * k); [lra|]. rewrite <- Eb. replace (b * (k * k) * G) with (b * (G * k) * k) by ring.
    apply Rmult_le_compat_r; [lra|]. apply Rmult_le_compat_l; lra. }
  assert (Hlo : b <= a * (k * k)).
  { unfold b. apply quot_le; auto. assert (Ea : a * G = A) by (unfold a; field; lra). apply Rle_trans with (A * k); auto. rewrite <- Ea.
    replace (a * (k * k) * G') with (a * (G' * k) * k) by ring. apply Rmult_le_compat_r; [lra|]. apply Rmult_le_compat_l; [|lra].
    unfold a. apply quot_ge; [|auto]. assert (0 <= A' * / k) by (apply Rmult_le_pos; [lra|apply Rlt_le, Rinv_0_lt_compat; lra]). lra. }
  assert (Ha0 : 0 <= a).
  { unfold a. apply quot_ge; [|auto]. assert (0 <= A' * / k) by (apply Rmult_le_pos; [lra|apply Rlt_le, Rinv_0_lt_compat; lra]). lra. }
  set (q := k * k) in *. apply Rabs_le. split; [|nra].
  (* b - a <= b (1 - 1/q) <= b (q - 1) *)
  assert (Hq : 1 <= q) by (unfold q; nra). destruct (Rle_lt_dec b a); nra.
Qed.

Lemma marginal_slack i j : 0 <= marginal N W ds i j /\ Rabs (marginal N pr ds i j - marginal N W ds i j) <= 4 * slack * marginal N W ds i j.
Proof. destruct (quot_slack (says N i j)) as [[H1 _] H2]. split; auto. Qed.

Lemma cells_slack (L : list (nat * nat)) : NoDup L ->
  (forall s p q, In s ds -> In p L -> In q L -> says N (fst p) (snd p) s = true -> says N (fst q) (snd q) s = true -> p = q) ->
  Rabs (sum_over (fun p => marginal N pr ds (fst p) (snd p)) L - sum_over (fun p => marginal N W ds (fst p) (snd p)) L) <= 4 * slack.
Proof.
  intros Hnd Hone. pose proof slack_pos as H0.
  assert (H1 : Rabs (sum_over (fun p => marginal N pr ds (fst p) (snd p)) L - sum_over (fun p => marginal N W ds (fst p) (snd p)) L) <=
               4 * slack * sum_over (fun p => marginal N W ds (fst p) (snd p)) L).
  { clear Hnd Hone. induction L as [|p L IH]; cbn [sum_over]; [rewrite Rminus_0_r, Rabs_R0; lra|].
    destruct (marginal_slack (fst p) (snd p)) as [_ Hp]. apply Rabs_le_inv in Hp. apply Rabs_le_inv in IH. apply Rabs_le. lra. }
  assert (H2 : sum_over (fun p => marginal N W ds (fst p) (snd p)) L <= 1).
  { unfold marginal. rewrite sumf_div. assert (HG : 0 < sum_over W ds) by (apply sumf_pos; auto; intros s Hs; apply pr_close, Hds; auto).
    apply quot_le; auto. rewrite Rmult_1_l.
    rewrite (sumf_swap (fun (p : nat * nat) s => if says N (fst p) (snd p) s then W s else 0)).
    apply sumf_le. intros s Hs. apply (sumf_at_most_one (fun p => says N (fst p) (snd p) s)); auto.
    - left. apply pr_close, Hds; auto.
    - intros p q Hp Hq. apply Hone; auto. }
  eapply Rle_trans; [exact H1|]. rewrite <- (Rmult_1_r (4 * slack)) at 2. apply Rmult_le_compat_l; lra.
Qed.

Lemma row_slack i : Rabs (sum_over (marginal N pr ds i) (seq 0 (N + 1)) - sum_over (marginal N W ds i) (seq 0 (N + 1))) <= 4 * slack.
Proof.
  pose proof (cells_slack (map (fun j => (i, j)) (seq 0 (N + 1)))) as H. rewrite !sumf_map in H. apply H.
  - apply FinFun.Injective_map_NoDup; [intros x y E; congruence|apply seq_NoDup].
  - intros s p q _ Hp Hq. apply in_map_iff in Hp. apply in_map_iff in Hq. destruct Hp as (j & <- & Hj), Hq as (j' & <- & Hj').
    cbn [fst snd]. apply in_seq in Hj. apply in_seq in Hj'. unfold says. intros E E'.
    destruct (Nat.ltb_spec j N), (Nat.ltb_spec j' N); apply Nat.eqb_eq in E; apply Nat.eqb_eq in E'; f_equal; lia.
Qed.

Lemma col_slack j : (j < N)%nat ->
  Rabs (sum_over (fun i => marginal N pr ds i j) (seq 0 M) - sum_over (fun i => marginal N W ds i j) (seq 0 M)) <= 4 * slack.
Proof.
  intros Hj. pose proof (cells_slack (map (fun i => (i, j)) (seq 0 M))) as H. rewrite !sumf_map in H. apply H.
  - apply FinFun.Injective_map_NoDup; [intros x y E; congruence|apply seq_NoDup].
  - intros s p q Hs Hp Hq. apply in_map_iff in Hp. apply in_map_iff in Hq. destruct Hp as (i & <- & Hi), Hq as (i' & <- & Hi').
    cbn [fst snd]. apply in_seq in Hi. apply in_seq in Hi'. unfold says. rewrite (proj2 (Nat.ltb_lt _ _) Hj). intros E E'.
    apply Nat.eqb_eq in E. apply Nat.eqb_eq in E'. destruct (Hds s Hs) as [(Hl & Hnd & _) _]. rewrite HrC in Hl.
    f_equal. apply (proj1 (NoDup_nth s 0%nat) Hnd); lia.
Qed.

Lemma share_slack s : NoDup ds -> In s ds -> Rabs (pr s / sum_over pr ds - W s / sum_over W ds) <= 4 * slack.
Proof.
  intros Hnd Hs. pose proof slack_pos as H0.
  assert (E : forall f : list nat -> R, sum_over (fun s' => if list_eq_dec Nat.eq_dec s s' then f s' else 0) ds = f s).
  { intros f. clear Hds Hne. induction ds as [|s' l IH]; [destruct Hs|]. cbn [sum_over]. inversion Hnd as [|? ? Hn Hnd']; subst.
    destruct (list_eq_dec Nat.eq_dec s s') as [<-|Hd].
    - replace (sum_over (fun s' => if list_eq_dec Nat.eq_dec s s' then f s' else 0) l) with 0; [ring|].
      clear - Hn. induction l as [|x l IH]; auto. cbn [sum_over]. destruct (list_eq_dec Nat.eq_dec s x) as [<-|]; [exfalso; apply Hn; simpl; auto|].
      rewrite <- IH; [ring|]. intros H; apply Hn; simpl; auto.
    - destruct Hs as [<-|Hs]; [congruence|]. rewrite IH by auto. ring. }
  destruct (quot_slack (fun s' => if list_eq_dec Nat.eq_dec s s' then true else false)) as [Hb Hc].
  assert (E' : forall f : list nat -> R, sum_over (fun s' => if (if list_eq_dec Nat.eq_dec s s' then true else false) then f s' else 0) ds = f s).
  { intros f. rewrite <- (E f). apply sumf_ext. intros s' _. destruct (list_eq_dec Nat.eq_dec s s'); auto. }
  rewrite !E' in Hc. rewrite E' in Hb. eapply Rle_trans; [exact Hc|]. rewrite <- (Rmult_1_r (4 * slack)) at 2. apply Rmult_le_compat_l; lra.
Qed.
End Hyps.

Variable expf : float -> float.
Variable pick : nat -> list (mstate (T := float)) -> nat.
Variable fsum : list float -> float.
Variables w_lim nhyp_max : float.
Hypothesis Hpick : forall tick q, q <> [] -> (pick tick q < length q)%nat.
Hypothesis Hacc : exp_accurate expf.
Hypothesis Hsum : forall l, fsums l (fsum l).
Hypothesis Hmax : PrimFloat.leb nhyp_max 1048576 = true.
Variables (rs : list float) (fuel : nat) (out : fcorrected).
Hypothesis Hrun : fcorrect expf pick fsum w_lim nhyp_max fuel N C rs = Ok out.

Lemma bayes_more : slack <= / 4 -> fc_n out <> 0%nat -> fin (fc_w out) -> bp (-600) <= fval (fc_w out) <= bp 900 ->
  exists ds, length ds = fc_n out /\ NoDup ds /\ (forall s, In s ds -> hypothesis N X s) /\
  ((forall s, hypothesis N X s ->
      (forall i, (i < M)%nat -> cut < choice_weight N M i (nth i X no_target) (nth i s 0%nat)) -> In s ds) \/
   PrimFloat.leb nhyp_max (nofnat floatN (fc_n out)) = true \/
   exists s, In s ds /\ (fin w_lim -> W s / sum_over W ds <= fval w_lim + bp (-20) + 4 * slack)) /\
  (forall i j, (i < M)%nat -> (j <= N)%nat -> let x := nth (i * (N + 1) + j) (fc_R out) nan in
     fin x /\ Rabs (fval x - marginal N W ds i j) <= bp (-20) + 4 * slack) /\
  (forall i, (i < M)%nat -> let x := nth i (fc_r out) nan in
     fin x /\ Rabs (fval x - sum_over (marginal N W ds i) (seq 0 (N + 1))) <= bp (-18) + 4 * slack) /\
  (forall j, (j < N)%nat -> let x := nth j (fc_rB out) nan in
     fin x /\ Rabs (fval x - (1 - sum_over (fun i => marginal N W ds i j) (seq 0 M))) <= bp (-19) + 4 * slack) /\
  (forall s, In s ds -> feasible_double C s) /\
  (forall i j, (i < M)%nat -> (j <= N)%nat -> 0 <= fval (nth (i * (N + 1) + j) (fc_R out) nan) <= 1 /\ 0 <= marginal N W ds i j <= 1).
Proof.
  intros Hsl Hn Hf Hw. pose proof slack_pos as H0.
  destruct (marginals_double expf pick fsum w_lim nhyp_max N 15 C rs Hassoc Hpick Hacc Hmax ltac:(lia) fuel out Hrun Hsum Hn Hf Hw)
    as (ds & H1 & H2 & H3 & H4 & H5 & H6 & H7).
  rewrite HrC in H5, H6, H7.
  assert (Hne : ds <> []) by (intros ->; apply Hn; rewrite <- H1; reflexivity).
  exists ds. split; auto. split; auto. split; [intros s Hs; apply feasible_hypothesis; auto|]. split; [|split; [|split; [|split; [|split]]]].
  - destruct H4 as [H4|[H4|(s & Hs & H4)]]; auto.
    + left. intros s Hs HF. apply H4, hypothesis_feasible; auto.
    + right. right. exists s. split; auto. intros Hl. specialize (H4 Hl). pose proof (share_slack ds H3 Hne Hsl s H2 Hs) as Hc. apply Rabs_le_inv in Hc. lra.
  - intros i j Hi Hj x. destruct (H5 i j Hi Hj) as (F & _ & Hc). split; auto. destruct (marginal_slack ds H3 Hne Hsl i j) as [Hm0 Hm].
    assert (Hm1 : marginal N W ds i j <= 1) by (destruct (quot_slack ds H3 Hne Hsl (says N i j)) as [[_ H] _]; exact H).
    assert (4 * slack * marginal N W ds i j <= 4 * slack * 1) by (apply Rmult_le_compat_l; lra).
    apply Rabs_le_inv in Hc. apply Rabs_le_inv in Hm. apply Rabs_le. unfold x. lra.
  - intros i Hi x. destruct (H6 i Hi) as (F & Hc). split; auto. pose proof (row_slack ds H3 Hne Hsl i) as Hm.
    apply Rabs_le_inv in Hc. apply Rabs_le_inv in Hm. apply Rabs_le. unfold x. lra.
  - intros j Hj x. destruct (H7 j Hj) as (F & Hc). split; auto. pose proof (col_slack ds H3 Hne Hsl j Hj) as Hm.
    apply Rabs_le_inv in Hc. apply Rabs_le_inv in Hm. apply Rabs_le. unfold x. lra.
  - exact H3.
  - intros i j Hi Hj. split; [apply (H5 i j Hi Hj)|]. destruct (quot_slack ds H3 Hne Hsl (says N i j)) as [H _]. exact H.
Qed.

Lemma bayes_gen : slack <= / 4 -> fc_n out <> 0%nat -> fin (fc_w out) -> bp (-600) <= fval (fc_w out) <= bp 900 ->
  exists ds, length ds = fc_n out /\ NoDup ds /\ (forall s, In s ds -> hypothesis N X s) /\
  ((forall s, hypothesis N X s ->
      (forall i, (i < M)%nat -> cut < choice_weight N M i (nth i X no_target) (nth i s 0%nat)) -> In s ds) \/
   PrimFloat.leb nhyp_max (nofnat floatN (fc_n out)) = true \/
   exists s, In s ds /\ (fin w_lim -> W s / sum_over W ds <= fval w_lim + bp (-20) + 4 * slack)) /\
  (forall i j, (i < M)%nat -> (j <= N)%nat -> let x := nth (i * (N + 1) + j) (fc_R out) nan in
     fin x /\ Rabs (fval x - marginal N W ds i j) <= bp (-20) + 4 * slack) /\
  (forall i, (i < M)%nat -> let x := nth i (fc_r out) nan in
     fin x /\ Rabs (fval x - sum_over (marginal N W ds i) (seq 0 (N + 1))) <= bp (-18) + 4 * slack) /\
  (forall j, (j < N)%nat -> let x := nth j (fc_rB out) nan in
     fin x /\ Rabs (fval x - (1 - sum_over (fun i => marginal N W ds i j) (seq 0 M))) <= bp (-19) + 4 * slack).
Proof.
  intros Hsl Hn Hf Hw. destruct (bayes_more Hsl Hn Hf Hw) as (ds & H1 & H2 & H3 & H4 & H5 & H6 & H7 & _). exists ds. auto 10.
Qed.
End Marginals.

Section Bayes.
Variables (logf : float -> float) (pD : float) (kappas : list float) (ts : list ftarget).
Hypothesis Hlog : log_accurate logf.
Hypothesis HpD : upto (1 - bp (-20)) pD.
Hypothesis Hkap : Forall kappa_ok kappas.
Hypothesis Hts : Forall (target_ok (length kappas)) ts.
Hypothesis Hset : Forall settled ts.
Hypothesis HM : (0 < length ts <= 30)%nat.
Hypothesis HN : (Z.of_nat (length kappas) <= 90000)%Z.
Notation N := (length kappas).
Notation M := (length ts).
Notation C := (fcost_of logf pD kappas ts).
Definition dT : ftarget := mkFT 0 [] [] [].
Notation tg i := (nth i ts dT).
Notation exact_targets := (exact_targets pD kappas ts).
Notation slack := (slack ts).
Lemma slack_over : slack = sum_over (fun i => tol (length (ft_w (tg i)))) (seq 0 M).
Proof.
  assert (G : forall l : list ftarget, sum_of (fun t => tol (length (ft_w t))) l = sum_over (fun i => tol (length (ft_w (nth i l dT)))) (seq 0 (length l))).
  { induction l as [|t l IH]; auto. cbn [length seq sum_over]. change (seq 1 (length l)) with (seq (1 + 0) (length l)).
    rewrite <- seq_shift, sumf_map. cbn [nth]. rewrite <- IH. reflexivity. }
  apply G.
Qed.

Lemma tg_in i : (i < M)%nat -> In (tg i) ts.
Proof. intros H. apply nth_In. auto. Qed.
Lemma tg_ok i : (i < M)%nat -> target_ok N (tg i) /\ settled (tg i).
Proof. intros H. rewrite Forall_forall in Hts, Hset. split; [apply Hts|apply Hset]; apply tg_in; auto. Qed.

Lemma frow_length i t : In t ts -> length (fcost_row logf pD kappas M i t) = (N + 2 * M)%nat.
Proof.
  intros Ht. rewrite Forall_forall in Hts. destruct (Hts t Ht) as (_ & _ & _ & _ & _ & (Er & _)).
  unfold fcost_row. rewrite !app_length, !map_length, !seq_length, combine_length. lia.
Qed.

Lemma fentry i j : (i < M)%nat -> (j < N + 2 * M)%nat -> entry nan C i j = nth j (fcost_row logf pD kappas M i (tg i)) nan.
Proof.
  intros Hi Hj. unfold entry, fcost_of. cbn [m_ord m_data m_cols].
  assert (HI : forall it, In it (combine (seq 0 M) ts) -> In (snd it) ts) by (intros [k t] H; apply in_combine_r in H; auto).
  rewrite (flat_map_nth _ (N + 2 * M)%nat _ i j (0%nat, dT)); auto.
  - rewrite combine_nth by (rewrite seq_length; auto). cbn [fst snd]. rewrite seq_nth by auto. reflexivity.
  - intros it H. apply frow_length, HI; auto.
  - rewrite combine_length, seq_length. lia.
Qed.

Lemma exact_nth i : (i < M)%nat -> nth i exact_targets no_target = exact_of pD kappas (tg i).
Proof.
  intros H. unfold GMFloatSpec.exact_targets. rewrite (nth_indep _ _ (exact_of pD kappas dT)) by (rewrite map_length; auto). apply map_nth.
Qed.

(** Every cost against the factor it stands for. *)
Lemma choice_close i j : (i < M)%nat -> (j < N + 2 * M)%nat ->
  let x := entry nan C i j in let F := choice_weight N M i (exact_of pD kappas (tg i)) j in
  (x = infinity /\ 0 <= F <= 1.01e-8) \/ (fin x /\ 0 < F /\ Rabs (fval x + ln F) <= tol (length (ft_w (tg i)))).
Proof.
  intros Hi Hj x F. unfold x. rewrite fentry by auto. destruct (tg_ok i Hi) as [Htok Hs]. set (t := tg i) in *.
  pose proof Htok as (Hr & Hw & Hlen & Hsum & (Ei & Hin) & (Er & Hrep)).
  assert (Hlr : length (map (fcost_rep logf pD t) (combine (ft_rep t) kappas)) = N) by (rewrite map_length, combine_length; lia).
  assert (Hbig : forall T, bp (-28) <= T -> let F := tiny in
    (30000%float = infinity /\ 0 <= F <= 1.01e-8) \/ (fin 30000%float /\ 0 < F /\ Rabs (fval 30000%float + ln F) <= T)).
  { intros T HT. right. destruct big_val as [F1 V1]. split; auto. split; [apply exp_pos|]. unfold tiny. rewrite V1, ln_exp.
    replace (30000 + - 30000) with 0 by ring. rewrite Rabs_R0. pose proof (bpow_ge_0 radix2 (-28)). lra. }
  unfold fcost_row. destruct (Nat.lt_ge_cases j N) as [HjN|HjN].
  - rewrite app_nth1 by lia. unfold F, choice_weight. rewrite (proj2 (Nat.ltb_lt _ _)) by auto.
    set (kk := nth j (combine (ft_rep t) kappas) ([], 0%float)).
    assert (Ekk : kk = (nth j (ft_rep t) [], nth j kappas 0%float)) by (unfold kk; rewrite combine_nth by auto; reflexivity).
    assert (Ikk : In kk (combine (ft_rep t) kappas)) by (apply nth_In; rewrite combine_length; lia).
    rewrite (nth_indep _ _ (fcost_rep logf pD t ([], 0%float))) by lia. rewrite map_nth. fold kk. rewrite Ekk.
    rewrite Ekk in Ikk. pose proof (in_combine_l _ _ _ _ Ikk) as I1. pose proof (in_combine_r _ _ _ _ Ikk) as I2.
    rewrite Forall_forall in Hkap.
    pose proof (rep_close logf Hlog pD HpD N t _ _ Htok Hs I1 (Hkap _ I2)) as Hc. unfold GMFloatCost.entry_close in Hc.
    assert (EF : t_r (exact_of pD kappas t) * nth j (t_lik (exact_of pD kappas t)) 0 =
                 fval (ft_r t) * fitf pD (nth j kappas 0%float) (combine (ft_w t) (nth j (ft_rep t) []))).
    { cbn [exact_of prior_of t_r t_lik]. f_equal. rewrite combine_map. rewrite map_map. cbn [fst snd].
      rewrite (nth_indep _ _ ((fun x => fits (fval pD) (fval (snd x)) (combine (map fval (ft_w t)) (map (fun kl => (fst kl, fval (snd kl))) (fst x)))) ([], 0%float))).
      - rewrite (map_nth (fun x => fits (fval pD) (fval (snd x)) (combine (map fval (ft_w t)) (map (fun kl => (fst kl, fval (snd kl))) (fst x))))). rewrite combine_nth by auto. cbn [fst snd]. apply fits_fitf.
      - rewrite map_length, combine_length. lia. }
    rewrite EF. exact Hc.
  - rewrite app_nth2 by lia. rewrite Hlr. unfold F, choice_weight. rewrite (proj2 (Nat.ltb_ge _ _)) by auto.
    destruct (Nat.lt_ge_cases (j - N) M) as [HjM|HjM].
    + rewrite app_nth1 by (rewrite map_length, seq_length; lia).
      rewrite (nth_indep _ _ ((fun k => if (k =? i)%nat then fcost_miss logf pD t else 30000%float) 0%nat)) by (rewrite map_length, seq_length; lia).
      rewrite (map_nth (fun k => if (k =? i)%nat then fcost_miss logf pD t else 30000%float)). rewrite seq_nth by auto. cbn [Nat.add].
      destruct (Nat.eqb_spec (j - N) i) as [E|E].
      * rewrite (proj2 (Nat.eqb_eq _ _)) by lia. pose proof (miss_close logf Hlog pD HpD N t Htok Hs) as Hc. unfold GMFloatCost.entry_close in Hc.
        cbn [exact_of prior_of t_r t_miss]. rewrite detected_seen. exact Hc.
      * rewrite (proj2 (Nat.eqb_neq _ _)) by lia. rewrite (proj2 (Nat.eqb_neq _ _)) by lia. apply Hbig, tol_pos.
    + rewrite app_nth2 by (rewrite map_length, seq_length; lia). rewrite map_length, seq_length.
      rewrite (nth_indep _ _ ((fun k => if (k =? i)%nat then ffalse_target logf (ft_r t) else 30000%float) 0%nat)) by (rewrite map_length, seq_length; lia).
      rewrite (map_nth (fun k => if (k =? i)%nat then ffalse_target logf (ft_r t) else 30000%float)). rewrite seq_nth by lia. cbn [Nat.add].
      rewrite (proj2 (Nat.eqb_neq j (N + i))) by lia.
      destruct (Nat.eqb_spec (j - N - M) i) as [E|E].
      * rewrite (proj2 (Nat.eqb_eq j (N + M + i))) by lia. cbn [exact_of prior_of t_r].
        destruct (absent_close logf Hlog (ft_r t) Hr) as [[E1 E2]|(H1 & H2 & H3)].
        -- destruct (Req_EM_T (fval (ft_r t)) 1); [|lra]. rewrite E2. apply Hbig, tol_pos.
        -- destruct (Req_EM_T (fval (ft_r t)) 1); [lra|]. right. split; auto. split; [lra|]. pose proof (tol_pos (length (ft_w t))). lra.
      * rewrite (proj2 (Nat.eqb_neq j (N + M + i))) by lia. apply Hbig, tol_pos.
Qed.

Variable expf : float -> float.
Variable pick : nat -> list (mstate (T := float)) -> nat.
Variable fsum : list float -> float.
Variables w_lim nhyp_max : float.
Hypothesis Hpick : forall tick q, q <> [] -> (pick tick q < length q)%nat.
Hypothesis Hacc : exp_accurate expf.
Hypothesis Hsum : forall l, fsums l (fsum l).
Hypothesis Hmax : PrimFloat.leb nhyp_max 1048576 = true.
Variables (fuel : nat) (out : fcorrected).
Hypothesis Hrun : fcluster logf pD kappas expf pick fsum w_lim nhyp_max fuel ts = Ok out.

Notation W := (weight N exact_targets).
Lemma Hassoc : association_input N 15 C.
Proof. apply assoc_ok; auto. Qed.

Lemma bayes : slack <= / 4 -> fc_n out <> 0%nat -> fin (fc_w out) -> bp (-600) <= fval (fc_w out) <= bp 900 ->
  exists ds, length ds = fc_n out /\ NoDup ds /\ (forall s, In s ds -> hypothesis N exact_targets s) /\
  ((forall s, hypothesis N exact_targets s ->
      (forall i, (i < M)%nat -> 1.01e-8 < choice_weight N M i (nth i exact_targets no_target) (nth i s 0%nat)) -> In s ds) \/
   PrimFloat.leb nhyp_max (nofnat floatN (fc_n out)) = true \/
   exists s, In s ds /\ (fin w_lim -> W s / sum_over W ds <= fval w_lim + bp (-20) + 4 * slack)) /\
  (forall i j, (i < M)%nat -> (j <= N)%nat -> let x := nth (i * (N + 1) + j) (fc_R out) nan in
     fin x /\ Rabs (fval x - marginal N W ds i j) <= bp (-20) + 4 * slack) /\
  (forall i, (i < M)%nat -> let x := nth i (fc_r out) nan in
     fin x /\ Rabs (fval x - sum_over (marginal N W ds i) (seq 0 (N + 1))) <= bp (-18) + 4 * slack) /\
  (forall j, (j < N)%nat -> let x := nth j (fc_rB out) nan in
     fin x /\ Rabs (fval x - (1 - sum_over (fun i => marginal N W ds i j) (seq 0 M))) <= bp (-19) + 4 * slack).
Proof.
  pose proof Hassoc as HA. rewrite slack_over. intros H1 H2 H3 H4.
  assert (EX : length exact_targets = M) by (unfold GMFloatSpec.exact_targets; apply map_length).
  apply (bayes_gen N M C exact_targets (fun i => tol (length (ft_w (tg i)))) 1.01e-8) with (expf := expf) (pick := pick) (fsum := fsum) (w_lim := w_lim) (nhyp_max := nhyp_max) (rs := map ft_r ts) (fuel := fuel); auto.
  - intros i. pose proof (tol_pos (length (ft_w (tg i)))). pose proof (bpow_ge_0 radix2 (-28)). lra.
  - intros i j Hi Hj. rewrite (exact_nth i Hi). apply choice_close; auto.
Qed.
End Bayes.
