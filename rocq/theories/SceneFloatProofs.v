(** The update of a cluster in doubles from means and covariances. *)
From Coq Require Import List Arith Bool Lia ZArith Reals Lra.
From Flocq Require Import Core BinarySingleNaN IEEE754.PrimFloat.
From Coq Require Import Floats.
Import ListNotations.
From Verif Require Import Res Scalar Lap LapSpec LapHom LapFloatMain Murty FloatBase FloatExt LapRnd MurtyFloatMain Cluster ClusterSpec ClusterProofs ClusterFloat FloatSum ClusterFloatClose ClusterFloatMain.
From Verif Require Import GMFloat GMFloatSpec GMFloatProofs GMFloatMatch GMFloatCost GMFloatBayes LikFloat LikFloatSpec MixFloat MixFloatSpec MixFloatProofs SceneFloat SceneFloatSpec.
Local Open Scope R_scope.

Lemma map_combine_l {A B C} (f : A -> C) (l : list A) : forall l' : list B, length l' = length l -> map (fun x => f (fst x)) (combine l l') = map f l.
Proof. induction l as [|a l IH]; intros [|b l'] H; try discriminate; auto. cbn [combine map fst]. f_equal. apply IH. simpl in H. lia. Qed.

Section Scene.
Variable sum : list float -> float.
Variables (expf : float -> float) (powf : float -> float -> float) (logf : float -> float).
Hypothesis Hsm : forall l, fsums l (sum l).
Hypothesis Hexp : exp_accurate expf.
Hypothesis Hpow : square_accurate powf.
Hypothesis Hlog : log_accurate logf.
Variables (reports : list freport) (pD : float) (K : R).
Hypothesis HpD : upto (1 - bp (-20)) pD.
Hypothesis HK : 1 <= K <= 1000.
Hypothesis Hkap : forall z, In z reports -> kappa_ok (fr_kappa z).
Notation ok := (scene_ok K reports).
Notation tgt := (of_target sum expf powf reports).
Notation kappas := (map fr_kappa reports).
Notation N := (length reports).
Notation stol g := (tol (length (gt_c g)) + bp (-35) * (K * K)).

Lemma at_weights g ks : length ks = length (gt_c g) -> map fc_w (at_report g ks) = map fst (gt_c g).
Proof. intros H. unfold at_report. rewrite map_map. cbn [fc_w]. apply (map_combine_l fst). exact H. Qed.

Lemma at_ok g ks z : ok g -> In z reports -> In ks (gt_rep g) -> forall c, In c (at_report g ks) ->
  upto 1 (fc_w c) /\ (fc_k c <= 1000)%nat /\ regular K (fr_z z) (fr_V z) (fc_x c) (fc_P c).
Proof.
  intros (_ & (Hw & _) & _ & (_ & Hr) & Hreg) Hz Hk c Hc. apply in_map_iff in Hc. destruct Hc as ([c' k] & <- & Hc). cbn [fc_w fc_k fc_x fc_P fst snd].
  pose proof (in_combine_l _ _ _ _ Hc) as I1. pose proof (in_combine_r _ _ _ _ Hc) as I2. split; [apply Hw; auto|]. split; [apply (Hr ks Hk); auto|apply Hreg; auto].
Qed.

Lemma seen_ok g ks z : ok g -> In z reports -> In ks (gt_rep g) -> forall kl, In kl (map (fseen sum expf powf (fr_z z) (fr_V z)) (at_report g ks)) ->
  (fst kl <= 1000)%nat /\ upto (bp 800) (snd kl).
Proof.
  intros Hg Hz Hk kl Hkl. apply in_map_iff in Hkl. destruct Hkl as (c & <- & Hc). destruct (at_ok g ks z Hg Hz Hk c Hc) as (_ & H1 & H2). unfold fseen. cbn [fst snd]. split; auto.
  destruct (likelihood_near sum expf powf K _ _ _ _ Hsm Hexp Hpow HK H2) as (F & B & _). split; [exact F|]. split; [lra|]. apply Rle_trans with (bp 118); [lra|apply bpow_le; lia].
Qed.

Lemma target_fine g : ok g -> target_ok N (tgt g) /\ settled (tgt g).
Proof.
  intros Hg. pose proof Hg as ((Hr & Hs) & (Hw & Hl & Hsum) & (Ei & Hi) & (Er & Hrep) & _). split; [|exact Hs]. unfold target_ok. cbn [of_target ft_r ft_w ft_in ft_rep]. rewrite !map_length.
  split; [exact Hr|]. split; [intros w H; apply in_map_iff in H; destruct H as (c & <- & H); auto|]. split; [exact Hl|]. split; [exact Hsum|]. split; [split; auto|].
  split; [rewrite combine_length; lia|]. intros kls H. apply in_map_iff in H. destruct H as ([z ks] & <- & H). cbn [fst snd]. apply seen_ok; auto; [eapply in_combine_l|eapply in_combine_r]; eauto.
Qed.

Lemma density_evidence g z ks : relative_density pD z (gt_c g) ks = evidence pD (fr_kappa z) (fr_z z) (fr_V z) (at_report g ks).
Proof.
  unfold relative_density, evidence, at_report. rewrite sum_of_map. generalize (combine (gt_c g) ks) as l.
  induction l as [|[[w [x P]] k] l IH]; [reflexivity|]. cbn [sum_of fold_right fst snd] in *. unfold sum_of in IH. rewrite IH. reflexivity.
Qed.

Lemma report_close g ks z : ok g -> In z reports -> In ks (gt_rep g) ->
  let x := fcost_rep logf pD (tgt g) (map (fseen sum expf powf (fr_z z) (fr_V z)) (at_report g ks), fr_kappa z) in
  let F := fval (gt_r g) * evidence pD (fr_kappa z) (fr_z z) (fr_V z) (at_report g ks) in
  (x = infinity /\ 0 <= F <= 1.02e-8) \/ (fin x /\ 0 < F /\ Rabs (fval x + ln F) <= stol g).
Proof.
  intros Hg Hz Hk x F. pose proof Hg as ((Hr & Hs) & (Hw & Hl & _) & _ & (_ & Hrep) & _). destruct (Hrep ks Hk) as [El _].
  pose proof (pD1 pD HpD) as HpD1. assert (Hws : forall w, In w (map fst (gt_c g)) -> upto 1 w) by (intros w H; apply in_map_iff in H; destruct H as (c & <- & H); auto).
  assert (Hla : length (at_report g ks) = length (gt_c g)) by (unfold at_report; rewrite map_length, combine_length; lia).
  pose proof (mixture_close sum expf powf pD (fr_kappa z) (fr_z z) (fr_V z) K (at_report g ks) Hsm Hexp Hpow HpD1 (Hkap z Hz) HK (at_ok g ks z Hg Hz Hk) ltac:(rewrite Hla; exact Hl)) as Hm.
  destruct (weights_near sum Hsm expf powf Hexp Hpow pD (fr_kappa z) HpD1 (Hkap z Hz) (fr_z z) (fr_V z) K HK (at_report g ks) (at_ok g ks z Hg Hz Hk)) as [T0 _].
  fold (evidence pD (fr_kappa z) (fr_z z) (fr_V z) (at_report g ks)) in T0.
  unfold fmix_correct in Hm. rewrite (at_weights g ks El), Hla in Hm. cbv zeta in Hm. cbn [fst snd] in Hm.
  pose proof (fit_close pD (fr_kappa z) HpD1 (Hkap z Hz) _ _ Hws ltac:(unfold few; rewrite map_length; exact Hl) (seen_ok g ks z Hg Hz Hk)) as Hc. cbv zeta in Hc.
  unfold x, fcost_rep. cbn [fst snd of_target ft_r ft_w]. unfold F. clear x F.
  set (eta := snd (fgm_correct pD (fr_kappa z) (map (fseen sum expf powf (fr_z z) (fr_V z)) (at_report g ks)) (map fst (gt_c g)))) in *.
  set (T := evidence pD (fr_kappa z) (fr_z z) (fr_V z) (at_report g ks)) in *. pose proof (proj2 Hr) as Br.
  assert (Zero : eta = 0%float -> T <= 1.02e-8 -> (- logf (gt_r g * eta))%float = infinity /\ 0 <= fval (gt_r g) * T <= 1.02e-8).
  { intros E HT. destruct (proj_Fin _ _ proj_zero) as [F0 V0]. split.
    - rewrite E. destruct (f_mul (gt_r g) 0%float 0 ltac:(lia) (proj1 Hr) F0) as [Fm Vm]; [rewrite V0, Rmult_0_r, Rabs_R0; simpl; lra|].
      apply (zero_cost logf Hlog); auto. rewrite Vm, V0, Rmult_0_r. apply rnd_0.
    - split; [apply Rmult_le_pos; lra|]. apply Rle_trans with (1 * T); [apply Rmult_le_compat_r; lra|lra]. }
  destruct (few_u (map fst (gt_c g)) ltac:(unfold few; rewrite map_length; exact Hl)) as (N1 & N2 & _). rewrite map_length in N1, N2. set (n := INR (length (gt_c g))) in *. pose proof uro_1000 as Hu.
  assert (KK : 1 <= K * K <= 1000000) by (split; nra).
  set (e := bp (-36) * (K * K) + (3 * n + 12) * bp (-53)) in *. change (bp (-53)) with uro in e.
  assert (He : 0 <= e <= / 8).
  { unfold e. change (bp (-36)) with (/ 68719476736). simpl in N1. assert (0 <= n * uro) by (apply Rmult_le_pos; lra). split; lra. }
  destruct Hm as [[E HT]|(Fe & HT & Ce & _)].
  - left. apply Zero; [|exact HT]. injection E as _ E'. exact E'.
  - destruct Hc as [[E _]|(_ & Be & _ & _)].
    + exfalso. destruct (proj_Fin _ _ proj_zero) as [F0 V0]. rewrite E, V0, Rminus_0_l, Rabs_Ropp, Rabs_pos_eq in Ce by lra.
      assert (e * T <= / 8 * T) by (apply Rmult_le_compat_r; lra). lra.
    + destruct Hs as [H0|H9].
      * left. destruct (mul_zero (gt_r g) eta Hr H0 Fe) as [Fm Vm]. split; [apply (zero_cost logf Hlog); auto|]. rewrite H0. lra.
      * right. pose proof (bpow_gt_0 radix2 (-900)) as P9.
        destruct (times_r logf Hlog (gt_r g) eta T e Hr H9 Fe) as [Fc Cc]; try lra.
        { split; [|lra]. apply Rle_trans with 1e-9; [|lra]. apply Rle_trans with (bp (-40)); [apply bpow_le; lia|simpl; lra]. }
        split; auto. split; [apply Rmult_lt_0_compat; lra|]. eapply Rle_trans; [exact Cc|]. unfold tol, e. fold n.
        pose proof tol_ge. assert (100 * uro <= bp (-32)). { apply Rle_trans with (bp 7 * bp (-53)); [change (bp 7) with 128; unfold uro in *; lra|]. rewrite <- bpow_plus. apply bpow_le. lia. }
        assert (n * (100 * uro) <= n * bp (-32)) by (apply Rmult_le_compat_l; lra).
        assert (E35 : bp (-35) = 2 * bp (-36)) by (change (-35)%Z with (1 + -36)%Z; rewrite bpow_plus; reflexivity). rewrite E35.
        pose proof (bpow_ge_0 radix2 (-32)). assert (0 <= n * uro) by (apply Rmult_le_pos; lra). lra.
Qed.

Variable gs : list gtarget.
Hypothesis Hgs : Forall ok gs.
Hypothesis HM : (0 < length gs <= 30)%nat.
Hypothesis HN : (Z.of_nat N <= 90000)%Z.
Notation M := (length gs).
Definition dG : gtarget := mkGT 0 [] [] [].
Notation gi i := (nth i gs dG).
Notation X := (map (described pD reports) gs).
Notation ts := (map tgt gs).
Notation C := (fcost_of logf pD kappas ts).

Lemma gi_ok i : (i < M)%nat -> ok (gi i).
Proof. intros H. rewrite Forall_forall in Hgs. apply Hgs, nth_In. exact H. Qed.
Lemma kap_ok : Forall kappa_ok kappas.
Proof. apply Forall_forall. intros k H. apply in_map_iff in H. destruct H as (z & <- & H). auto. Qed.
Lemma ts_ok : Forall (target_ok (length kappas)) ts /\ Forall settled ts.
Proof.
  rewrite map_length. rewrite Forall_forall in Hgs. split; apply Forall_forall; intros t H; apply in_map_iff in H; destruct H as (g & <- & H); apply (target_fine g (Hgs g H)).
Qed.
Lemma ts_nth i : (i < M)%nat -> nth i ts dT = tgt (gi i).
Proof. intros H. rewrite (nth_indep _ _ (tgt dG)) by (rewrite map_length; auto). apply map_nth. Qed.
Lemma X_nth i : (i < M)%nat -> nth i X no_target = described pD reports (gi i).
Proof. intros H. rewrite (nth_indep _ _ (described pD reports dG)) by (rewrite map_length; auto). apply map_nth. Qed.

Lemma cell_close i j : (i < M)%nat -> (j < N + 2 * M)%nat ->
  let x := entry nan C i j in let F := choice_weight N M i (described pD reports (gi i)) j in
  (x = infinity /\ 0 <= F <= 1.02e-8) \/ (fin x /\ 0 < F /\ Rabs (fval x + ln F) <= stol (gi i)).
Proof.
  intros Hi Hj. destruct ts_ok as [Ht Hs]. pose proof (gi_ok i Hi) as Hg. destruct (Nat.lt_ge_cases j N) as [HjN|HjN].
  - rewrite (fentry logf pD kappas ts Ht) by (rewrite ?map_length; auto). rewrite ts_nth by auto. set (g := gi i) in *.
    pose proof Hg as (_ & _ & _ & (Er & _) & _).
    unfold fcost_row. set (dz := mkFR (fun _ => 0%float) (fun _ _ => 0%float) 0%float).
    set (L := combine (ft_rep (tgt g)) kappas).
    assert (EL : L = map (fun zk => (map (fseen sum expf powf (fr_z (fst zk)) (fr_V (fst zk))) (at_report g (snd zk)), fr_kappa (fst zk))) (combine reports (gt_rep g))).
    { unfold L. cbn [of_target ft_rep]. clear - Er. revert Er. generalize (gt_rep g) as l'. generalize reports as l. induction l as [|z l IH]; intros [|k l'] E; try discriminate; auto.
      cbn [combine map fst snd]. f_equal. apply IH. simpl in E. lia. }
    assert (LL : length L = N) by (rewrite EL, map_length, combine_length; lia).
    rewrite app_nth1 by (rewrite map_length; lia). rewrite (nth_indep _ _ (fcost_rep logf pD (tgt g) ([], fr_kappa dz))) by (rewrite map_length; lia). rewrite map_nth.
    unfold choice_weight. rewrite (proj2 (Nat.ltb_lt _ _)) by auto. cbn [described t_r t_lik].
    assert (I : In (nth j (combine reports (gt_rep g)) (dz, [])) (combine reports (gt_rep g))) by (apply nth_In; rewrite combine_length; lia).
    rewrite EL. rewrite (nth_indep _ _ ((fun zk => (map (fseen sum expf powf (fr_z (fst zk)) (fr_V (fst zk))) (at_report g (snd zk)), fr_kappa (fst zk))) (dz, []))) by (rewrite map_length, combine_length; lia).
    rewrite (map_nth (fun zk => (map (fseen sum expf powf (fr_z (fst zk)) (fr_V (fst zk))) (at_report g (snd zk)), fr_kappa (fst zk)))).
    rewrite (nth_indep _ 0 ((fun zk => relative_density pD (fst zk) (gt_c g) (snd zk)) (dz, []))) by (rewrite map_length, combine_length; lia).
    rewrite (map_nth (fun zk => relative_density pD (fst zk) (gt_c g) (snd zk))).
    destruct (nth j (combine reports (gt_rep g)) (dz, [])) as [z ks]. cbn [fst snd]. rewrite density_evidence.
    apply (report_close g ks z Hg); [eapply in_combine_l|eapply in_combine_r]; eauto.
  - pose proof (choice_close logf pD kappas ts Hlog HpD kap_ok Ht Hs ltac:(rewrite map_length; exact HM) i j) as H. rewrite !map_length in H. specialize (H Hi Hj). cbv zeta in H. rewrite (ts_nth i Hi) in H.
    cbn [of_target ft_w] in H. rewrite map_length in H. cbv zeta.
    assert (EF : choice_weight N M i (exact_of pD kappas (tgt (gi i))) j = choice_weight N M i (described pD reports (gi i)) j).
    { unfold choice_weight. rewrite (proj2 (Nat.ltb_ge _ _)) by auto. reflexivity. }
    rewrite EF in H. assert (0 <= bp (-35) * (K * K)) by (apply Rmult_le_pos; [apply bpow_ge_0|nra]).
    destruct H as [[H1 H2]|(H1 & H2 & H3)]; [left; split; auto; lra|right; split; auto; split; auto; lra].
Qed.

Lemma scene_slack_over : scene_slack K gs = sum_over (fun i => stol (gi i)) (seq 0 M).
Proof.
  unfold scene_slack. clear. generalize gs as l. induction l as [|t l IH]; auto. cbn [length seq sum_over]. change (seq 1 (length l)) with (seq (1 + 0) (length l)).
  rewrite <- seq_shift, sumf_map. cbn [nth]. rewrite <- IH. reflexivity.
Qed.

Variable pick : nat -> list (mstate (T := float)) -> nat.
Variable fsum : list float -> float.
Variables w_lim nhyp_max : float.
Hypothesis Hpick : forall tick q, q <> [] -> (pick tick q < length q)%nat.
Hypothesis Hsum : forall l, fsums l (fsum l).
Hypothesis Hmax : PrimFloat.leb nhyp_max 1048576 = true.
Variables (fuel : nat) (out : fcorrected).
Hypothesis Hrun : fupdate sum expf powf reports logf pD pick fsum w_lim nhyp_max fuel gs = Ok out.
Notation W := (weight N X).

Lemma scene_more : scene_slack K gs <= / 4 -> fc_n out <> 0%nat -> fin (ClusterFloat.fc_w out) -> bp (-600) <= fval (ClusterFloat.fc_w out) <= bp 900 ->
  exists ds, length ds = fc_n out /\ NoDup ds /\ (forall s, In s ds -> hypothesis N X s) /\
  ((forall s, hypothesis N X s ->
      (forall i, (i < M)%nat -> 1.02e-8 < choice_weight N M i (nth i X no_target) (nth i s 0%nat)) -> In s ds) \/
   PrimFloat.leb nhyp_max (nofnat floatN (fc_n out)) = true \/
   exists s, In s ds /\ (fin w_lim -> W s / sum_over W ds <= fval w_lim + bp (-20) + 4 * scene_slack K gs)) /\
  (forall i j, (i < M)%nat -> (j <= N)%nat -> let x := nth (i * (N + 1) + j) (fc_R out) nan in
     fin x /\ Rabs (fval x - marginal N W ds i j) <= bp (-20) + 4 * scene_slack K gs) /\
  (forall i, (i < M)%nat -> let x := nth i (fc_r out) nan in
     fin x /\ Rabs (fval x - sum_over (marginal N W ds i) (seq 0 (N + 1))) <= bp (-18) + 4 * scene_slack K gs) /\
  (forall j, (j < N)%nat -> let x := nth j (fc_rB out) nan in
     fin x /\ Rabs (fval x - (1 - sum_over (fun i => marginal N W ds i j) (seq 0 M))) <= bp (-19) + 4 * scene_slack K gs) /\
  (forall s, In s ds -> feasible_double C s) /\
  (forall i j, (i < M)%nat -> (j <= N)%nat -> 0 <= fval (nth (i * (N + 1) + j) (fc_R out) nan) <= 1 /\ 0 <= marginal N W ds i j <= 1).
Proof.
  destruct ts_ok as [Ht Hs].
  pose proof (Hassoc logf pD kappas ts Hlog HpD kap_ok Ht ltac:(rewrite map_length; exact HM) ltac:(rewrite map_length; exact HN)) as HA. rewrite (map_length fr_kappa reports) in HA.
  rewrite scene_slack_over. intros H1 H2 H3 H4. pose proof Hrun as Hr. unfold fupdate, fcluster in Hr. rewrite (map_length fr_kappa reports) in Hr.
  assert (HC : m_rows C = M) by (cbn [fcost_of m_rows]; apply map_length).
  apply (bayes_more N M C X (fun i => stol (gi i)) 1.02e-8) with (expf := expf) (pick := pick) (fsum := fsum) (w_lim := w_lim) (nhyp_max := nhyp_max) (rs := map ft_r ts) (fuel := fuel); auto.
  - apply map_length.
  - intros i. pose proof (tol_pos (length (gt_c (gi i)))). pose proof (bpow_ge_0 radix2 (-28)). assert (0 <= bp (-35) * (K * K)) by (apply Rmult_le_pos; [apply bpow_ge_0|nra]). lra.
  - intros i j Hi Hj. rewrite (X_nth i Hi). apply cell_close; auto.
Qed.
Lemma scene : scene_slack K gs <= / 4 -> fc_n out <> 0%nat -> fin (ClusterFloat.fc_w out) -> bp (-600) <= fval (ClusterFloat.fc_w out) <= bp 900 ->
  exists ds, length ds = fc_n out /\ NoDup ds /\ (forall s, In s ds -> hypothesis N X s) /\
  ((forall s, hypothesis N X s ->
      (forall i, (i < M)%nat -> 1.02e-8 < choice_weight N M i (nth i X no_target) (nth i s 0%nat)) -> In s ds) \/
   PrimFloat.leb nhyp_max (nofnat floatN (fc_n out)) = true \/
   exists s, In s ds /\ (fin w_lim -> W s / sum_over W ds <= fval w_lim + bp (-20) + 4 * scene_slack K gs)) /\
  (forall i j, (i < M)%nat -> (j <= N)%nat -> let x := nth (i * (N + 1) + j) (fc_R out) nan in
     fin x /\ Rabs (fval x - marginal N W ds i j) <= bp (-20) + 4 * scene_slack K gs) /\
  (forall i, (i < M)%nat -> let x := nth i (fc_r out) nan in
     fin x /\ Rabs (fval x - sum_over (marginal N W ds i) (seq 0 (N + 1))) <= bp (-18) + 4 * scene_slack K gs) /\
  (forall j, (j < N)%nat -> let x := nth j (fc_rB out) nan in
     fin x /\ Rabs (fval x - (1 - sum_over (fun i => marginal N W ds i j) (seq 0 M))) <= bp (-19) + 4 * scene_slack K gs).
Proof.
  intros Hsl Hn Hf Hw. destruct (scene_more Hsl Hn Hf Hw) as (ds & H1 & H2 & H3 & H4 & H5 & H6 & H7 & _). exists ds. auto 10.
Qed.
End Scene.
