(** The correction of a cluster in doubles, up to the new mixtures. *)
From Coq Require Import List Arith Bool Lia ZArith Reals Lra.
From Flocq Require Import Core BinarySingleNaN IEEE754.PrimFloat.
From Coq Require Import Floats.
Import ListNotations.
From Verif Require Import Res Scalar Lap LapSpec LapHom LapFloatMain Murty FloatBase FloatExt LapRnd MurtyFloatMain Cluster ClusterSpec ClusterProofs ClusterFloat FloatSum ClusterFloatLoop ClusterFloatClose ClusterFloatMain.
From Verif Require Import GMFloat GMFloatSpec GMFloatProofs GMFloatMatch GMFloatCost GMFloatBayes KalmanFloat LikFloat LikFloatSpec MixFloat MixFloatSpec MixFloatProofs SceneFloat SceneFloatSpec SceneFloatProofs.
From Verif Require Import LossSpec JoinFloat JoinFloatSpec JoinFloatProofs StepFloat StepFloatSpec.
From Verif Require GMSpec MurtyProofs.
Local Open Scope R_scope.
Notation mix := (fvec * fmat)%type.
Notation one := (fun _ : mix => 1).

(** ** Blends *)
(** A mixture [D] in doubles for the exact mixture [E], with proportion [x] for [m]. *)
Definition close_at (d e : R) (x : float) (m : R) (D : list gcomp) (E : list (R * mix)) : Prop :=
  0 <= fval x <= 1 /\ 0 <= m <= 1 /\ Rabs (fval x - m) <= d /\
  ((D = [] /\ m = 0) \/
   ((forall phi, (forall g, 0 <= phi g <= 1) -> 0 <= prob phi (reals D) <= prob one (reals D) /\ 0 <= prob phi E <= prob one E /\
      Rabs (prob phi (reals D) - prob phi E) <= e) /\ 995 / 1000 <= prob one (reals D) <= 1005 / 1000)).

Lemma blend_close d e (Rf : nat -> float) m (Ds : list (list gcomp)) : forall Es j, length Es = length Ds -> 0 <= d -> 0 <= e ->
  (forall k, (k < length Ds)%nat -> close_at d e (Rf (j + k)%nat) (m (j + k)%nat) (nth k Ds []) (nth k Es [])) ->
  let ws := map Rf (seq j (length Ds)) in
  (forall phi, (forall g, 0 <= phi g <= 1) -> 0 <= mixed phi ws Ds <= mixed one ws Ds /\ 0 <= blend_from phi m j Es <= blend_from one m j Es /\
    Rabs (mixed phi ws Ds - blend_from phi m j Es) <= INR (length Ds) * (101 / 100 * d + e)) /\
  exact_sum ws <= 101 / 100 * mixed one ws Ds + INR (length Ds) * d.
Proof.
  induction Ds as [|D Ds IH]; intros [|E Es] j HL Hd He H; try discriminate.
  { cbv zeta. unfold mixed. cbn. split; [intros phi _; rewrite Rminus_0_r, Rabs_R0; lra|lra]. }
  cbv zeta. cbn [length seq map]. rewrite S_INR.
  assert (HL' : length Es = length Ds) by (cbn in HL; lia).
  destruct (IH Es (S j) HL' Hd He) as [I1 I2].
  { intros k Hk. specialize (H (S k) ltac:(cbn; lia)). cbn [nth] in H. replace (S j + k)%nat with (j + S k)%nat by lia. exact H. }
  specialize (H 0%nat ltac:(cbn; lia)). cbn [nth] in H. rewrite Nat.add_0_r in H. destruct H as (Hx & Hm & Hxm & Hc).
  set (ws := map Rf (seq (S j) (length Ds))) in *. set (x := fval (Rf j)) in *.
  assert (EM : forall phi, mixed phi (Rf j :: ws) (D :: Ds) = x * prob phi (reals D) + mixed phi ws Ds) by reflexivity.
  assert (EB : forall phi, blend_from phi m j (E :: Es) = m j * prob phi E + blend_from phi m (S j) Es) by reflexivity.
  assert (ES : exact_sum (Rf j :: ws) = x + exact_sum ws) by reflexivity.
  pose proof (pos_INR (length Ds)) as Hn. apply Rabs_le_inv in Hxm. split.
  - intros phi Hphi. rewrite !EM, !EB. destruct (I1 phi Hphi) as (A & B & C). apply Rabs_le_inv in C.
    destruct Hc as [(-> & Hm0)|(Hc & Ht)].
    + rewrite Hm0. cbn [reals map prob]. rewrite !Rmult_0_l, !Rmult_0_r, !Rplus_0_l. split; auto. split; auto. apply Rabs_le. lra.
    + destruct (Hc phi Hphi) as (P1 & P2 & P3). apply Rabs_le_inv in P3. set (p := prob phi (reals D)) in *. set (q := prob phi E) in *.
      set (t := prob one (reals D)) in *. set (u := prob one E) in *.
      assert (0 <= x * p <= x * t) by (split; [apply Rmult_le_pos; lra|apply Rmult_le_compat_l; lra]).
      assert (0 <= m j * q <= m j * u) by (split; [apply Rmult_le_pos; lra|apply Rmult_le_compat_l; lra]).
      split; [lra|]. split; [lra|].
      assert (Rabs (x * p - m j * q) <= 101 / 100 * d + e).
      { replace (x * p - m j * q) with ((x - m j) * p + m j * (p - q)) by ring. apply Rabs_le. split; nra. }
      apply Rabs_le_inv in H1. apply Rabs_le. lra.
  - rewrite EM, ES. destruct Hc as [(-> & Hm0)|(Hc & Ht)].
    + cbn [reals map prob]. rewrite Rmult_0_r. lra.
    + set (t := prob one (reals D)) in *. assert (x * (995 / 1000) <= x * t) by (apply Rmult_le_compat_l; lra). lra.
Qed.

(** Proportions of numbers that are close. *)
Lemma quotient_close A W a w e : 0 <= A <= W -> 0 <= a <= w -> 0 < W -> Rabs (A - a) <= e -> Rabs (W - w) <= e -> Rabs (A / W - a / w) <= 2 * e / W.
Proof.
  intros H1 H2 HW HA Hw. apply Rabs_le_inv in HA. apply Rabs_le_inv in Hw.
  assert (P : 0 < / W) by (apply Rinv_0_lt_compat; auto).
  destruct (Req_dec w 0) as [Z|NZ].
  - assert (a = 0) as -> by lra. unfold Rdiv. rewrite Rmult_0_l, Rminus_0_r, Rabs_pos_eq by (apply Rmult_le_pos; lra). apply Rmult_le_compat_r; lra.
  - replace (A / W - a / w) with (((A - a) + a / w * (w - W)) / W) by (field; lra).
    assert (Q : 0 <= a / w <= 1).
    { split; [apply Rmult_le_pos; [lra|left; apply Rinv_0_lt_compat; lra]|]. apply (Rmult_le_reg_r w); [lra|]. unfold Rdiv. rewrite Rmult_assoc, Rinv_l by lra. lra. }
    set (q := a / w) in *. unfold Rdiv. rewrite Rabs_mult, (Rabs_pos_eq (/ W)) by lra. apply Rmult_le_compat_r; [lra|]. apply Rabs_le. split; nra.
Qed.
Lemma quotient_01 a w : 0 <= a <= w -> 0 <= a / w <= 1.
Proof.
  intros H. destruct (Req_dec w 0) as [Z|NZ].
  - assert (a = 0) as -> by lra. unfold Rdiv. rewrite Rmult_0_l. lra.
  - split; [apply Rmult_le_pos; [lra|left; apply Rinv_0_lt_compat; lra]|]. apply (Rmult_le_reg_r w); [lra|]. unfold Rdiv. rewrite Rmult_assoc, Rinv_l by lra. lra.
Qed.

(** ** Mixtures with nearly the same weights *)
Lemma prob_mono {G} phi (c : list (R * G)) : (forall g, 0 <= phi g <= 1) -> (forall g, In g c -> 0 <= fst g) -> 0 <= prob phi c <= prob (fun _ => 1) c.
Proof.
  intros Hp. induction c as [|[w g] c IH]; intros H; cbn [prob fst snd]; [lra|].
  specialize (IH (fun g Hg => H g (or_intror Hg))). specialize (H (w, g) (or_introl eq_refl)). cbn [fst] in H. specialize (Hp g).
  assert (0 <= w * phi g <= w * 1) by (split; [apply Rmult_le_pos|apply Rmult_le_compat_l]; lra). lra.
Qed.
Lemma prob_near phi em t (D : list gcomp) (E : list (R * mix)) : (forall g, 0 <= phi g <= 1) ->
  Forall2 (fun r q => snd r = snd q /\ 0 <= fst q /\ Rabs (fval (fst r) - fst q) <= em * fst q + t) D E ->
  Rabs (prob phi (reals D) - prob phi E) <= em * prob one E + INR (length D) * t.
Proof.
  intros Hp H. induction H as [|[x a] [q b] D E (E1 & E2 & E3) H IH]; [cbn; rewrite Rminus_0_r, Rabs_R0; lra|].
  cbn [fst snd] in E1, E2, E3. subst b. cbn [reals map prob fst snd length]. fold (reals D). rewrite S_INR. specialize (Hp a).
  replace (fval x * phi a + prob phi (reals D) - (q * phi a + prob phi E)) with ((fval x - q) * phi a + (prob phi (reals D) - prob phi E)) by ring.
  eapply Rle_trans; [apply Rabs_triang|]. rewrite Rabs_mult, (Rabs_pos_eq (phi a)) by lra.
  assert (Rabs (fval x - q) * phi a <= (em * q + t) * 1) by (apply Rmult_le_compat; try lra; apply Rabs_pos). lra.
Qed.
Lemma total_reals (c : list gcomp) : prob one (reals c) = exact_sum (map fst c).
Proof.
  induction c as [|g c IH]; [reflexivity|]. change (prob one (reals (g :: c))) with (fval (fst g) * 1 + prob one (reals c)).
  change (exact_sum (map fst (g :: c))) with (fval (fst g) + exact_sum (map fst c)). rewrite IH. lra.
Qed.
Lemma total_shares {A} (f : A -> R) (h : A -> mix) T cs : prob one (map (fun c => (f c / T, h c)) cs) = sum_of f cs / T.
Proof.
  induction cs as [|c cs IH]; [cbn; lra|]. change (sum_of f (c :: cs)) with (f c + sum_of f cs). cbn [map prob fst snd]. rewrite IH. lra.
Qed.
Lemma Forall2_self {A B} (P : A -> B -> Prop) f l : (forall x, In x l -> P x (f x)) -> Forall2 P l (map f l).
Proof. induction l as [|x l IH]; intros H; constructor; [apply H; left; auto|apply IH; intros; apply H; right; auto]. Qed.

Lemma Forall2_len {A B} (P : A -> B -> Prop) l l' : Forall2 P l l' -> length l = length l'.
Proof. induction 1; cbn; auto. Qed.

Section Step.
Variable sum : list float -> float.
Variables (expf : float -> float) (powf : float -> float -> float) (logf : float -> float).
Hypothesis Hsm : forall l, fsums l (sum l).
Hypothesis Hexp : exp_accurate expf.
Hypothesis Hpow : square_accurate powf.
Hypothesis Hlog : log_accurate logf.
Variables (reports : list freport) (pD : float) (K : R).
Hypothesis HpD : upto (1 - bp (-20)) pD.
Hypothesis HK : 1 <= K <= 1000.
Hypothesis Hkap : forall z, In z reports -> kappa_ok (fr_kappa z).
Notation ok := (scene_ok K reports).
Notation tgt := (of_target sum expf powf reports).
Notation kappas := (map fr_kappa reports).
Notation N := (length reports).
Notation stol g := (tol (length (gt_c g)) + bp (-35) * (K * K)).
Notation corr g z ks := (fmix_correct sum expf powf pD (fr_kappa z) (fr_z z) (fr_V z) (at_report g ks)).

(** ** A report *)
Definition shares (g : gtarget) (z : freport) (ks : list nat) : list (R * mix) :=
  map (fun c => (joint_weight pD (fr_kappa z) (fr_z z) (fr_V z) c / evidence pD (fr_kappa z) (fr_z z) (fr_V z) (at_report g ks),
                 fmoved sum (fr_z z) (fr_V z) c)) (at_report g ks).

Lemma shares_bayes g z ks : ok g -> In z reports -> In ks (gt_rep g) -> bayes_mixture K pD z (gt_c g) ks (shares g z ks).
Proof.
  intros Hg Hz Hk. unfold bayes_mixture, shares. rewrite density_evidence.
  pose proof (at_ok reports K g ks z Hg Hz Hk) as H. revert H. set (T := evidence pD (fr_kappa z) (fr_z z) (fr_V z) (at_report g ks)). clearbody T.
  unfold at_report. intros H. rewrite map_map. apply Forall2_self. intros [[w [x P]] k] Hin. cbn [fst snd]. split; [reflexivity|].
  apply moved_near; auto. apply (H (mkFC w x P k)). apply in_map_iff. exists (w, (x, P), k). auto.
Qed.

Lemma snd_combine {A B} (l : list A) : forall l' : list B, length l = length l' -> map snd (combine l l') = l'.
Proof. induction l as [|a l IH]; intros [|b l'] H; try discriminate; auto. cbn. f_equal. apply IH. simpl in H. lia. Qed.
Lemma combine_len2 {A B} (l : list A) (l' : list B) : length (combine l l') = length l' -> map snd (combine l l') = l'.
Proof.
  intros H. revert l' H. induction l as [|a l IH]; intros [|b l'] H; try discriminate; auto. cbn. f_equal. apply IH. cbn in H. lia.
Qed.

Lemma pdf_close g z ks : ok g -> In z reports -> In ks (gt_rep g) ->
  let D := fst (corr g z ks) in
  (forall c, In c D -> upto 1 (fst c)) /\ (length D <= length (gt_c g))%nat /\
  ((D = [] /\ snd (corr g z ks) = 0%float) \/
   ((forall phi, (forall c, 0 <= phi c <= 1) -> 0 <= prob phi (reals D) <= prob one (reals D) /\ 0 <= prob phi (shares g z ks) <= prob one (shares g z ks) /\
      Rabs (prob phi (reals D) - prob phi (shares g z ks)) <= 2 * stol g) /\ 995 / 1000 <= prob one (reals D) <= 1005 / 1000)).
Proof.
  intros Hg Hz Hk D. pose proof Hg as (_ & (Hw & Hl & _) & _ & (_ & Hrep) & _). destruct (Hrep ks Hk) as [El _].
  pose proof (pD1 pD HpD) as HpD1.
  assert (Hla : length (at_report g ks) = length (gt_c g)) by (unfold at_report; rewrite map_length, combine_length; lia).
  pose proof (mixture_close sum expf powf pD (fr_kappa z) (fr_z z) (fr_V z) K (at_report g ks) Hsm Hexp Hpow HpD1 (Hkap z Hz) HK (at_ok reports K g ks z Hg Hz Hk) ltac:(rewrite Hla; exact Hl)) as Hm.
  assert (J0 : forall c, In c (at_report g ks) -> 0 <= joint_weight pD (fr_kappa z) (fr_z z) (fr_V z) c).
  { intros c Hc. destruct (weights_near sum Hsm expf powf Hexp Hpow pD (fr_kappa z) HpD1 (Hkap z Hz) (fr_z z) (fr_V z) K HK [c]) as [T0 _].
    { intros a [<-|[]]. apply (at_ok reports K g ks z Hg Hz Hk); auto. }
    unfold sum_of in T0. cbn [fold_right] in T0. lra. }
  cbv zeta in Hm. destruct Hm as [[E _]|(_ & HT & _ & HF)].
  { unfold D. rewrite E. cbn [fst snd length]. split; [intros c []|]. split; [lia|]. left. auto. }
  fold D in HF. set (T := evidence pD (fr_kappa z) (fr_z z) (fr_V z) (at_report g ks)) in *.
  set (n := INR (length (at_report g ks))) in *. set (em := 3 * bp (-36) * (K * K) + (5 * n + 30) * bp (-53)) in *.
  assert (LD : length D = length (at_report g ks)) by (symmetry; apply (Forall2_len _ _ _ HF)).
  assert (SD : map snd D = map (fmoved sum (fr_z z) (fr_V z)) (at_report g ks)).
  { unfold D, fmix_correct in LD |- *. cbn [fst] in LD |- *. apply combine_len2. rewrite map_length. exact LD. }
  assert (UD : forall c, In c D -> upto 1 (fst c)).
  { clear - HF. induction HF as [|a b l l' H HF IH]; intros c Hc; [destruct Hc|]. destruct Hc as [<-|Hc]; [apply H|auto]. }
  split; [exact UD|]. split; [lia|]. right.
  assert (HE : Forall2 (fun r q => snd r = snd q /\ 0 <= fst q /\ Rabs (fval (fst r) - fst q) <= em * fst q + bp (-150)) D (shares g z ks)).
  { unfold shares. fold T. clear - HF SD J0 HT. clearbody em. clear n. clearbody T. revert SD J0. induction HF as [|c r l l' H HF IH]; intros SD J0; [constructor|].
    cbn [map] in SD |- *. injection SD as S1 S2. constructor; [|apply IH; auto; intros; apply J0; right; auto].
    cbn [fst snd]. split; [exact S1|]. split; [|apply H]. apply Rmult_le_pos; [apply J0; left; auto|left; apply Rinv_0_lt_compat; lra]. }
  assert (TE : prob one (shares g z ks) = 1).
  { unfold shares. fold T. rewrite (total_shares (joint_weight pD (fr_kappa z) (fr_z z) (fr_V z)) (fmoved sum (fr_z z) (fr_V z)) T). change (sum_of (joint_weight pD (fr_kappa z) (fr_z z) (fr_V z)) (at_report g ks)) with T. field. lra. }
  destruct (few_u (map fst (gt_c g)) ltac:(unfold few; rewrite map_length; exact Hl)) as (N1 & N2 & _). rewrite map_length, <- Hla in N1, N2. fold n in N1, N2. pose proof uro_small as Hu.
  assert (KK : 1 <= K * K <= 1000000) by (split; nra).
  assert (B150 : bp (-150) <= uro) by (apply bpow_le; lia).
  assert (Hn150 : 0 <= n * bp (-150) <= n * uro).
  { split; [apply Rmult_le_pos; [apply pos_INR|apply bpow_ge_0]|apply Rmult_le_compat_l; [apply pos_INR|auto]]. }
  assert (Hem : em + n * bp (-150) <= 2 * stol g).
  { unfold em, tol. rewrite <- Hla. fold n. change (bp (-53)) with uro.
    assert (E35 : bp (-35) = 2 * bp (-36)) by (change (-35)%Z with (1 + -36)%Z; rewrite bpow_plus; reflexivity). rewrite E35.
    pose proof tol_ge. pose proof (bpow_ge_0 radix2 (-36)). assert (0 <= bp (-36) * (K * K)) by (apply Rmult_le_pos; lra).
    assert (U32 : uro <= bp (-32)) by (apply bpow_le; lia). assert (0 <= n) by apply pos_INR. assert (n * uro <= n * bp (-32)) by (apply Rmult_le_compat_l; auto).
    pose proof (bpow_ge_0 radix2 (-32)). assert (0 <= n * uro) by lra. lra. }
  assert (Hem2 : em + n * bp (-150) <= 5 / 1000).
  { unfold em. change (bp (-53)) with uro. assert (0 <= n) by apply pos_INR. simpl in N1. change (bp (-36)) with (/ 68719476736) in *. lra. }
  assert (Hpr : forall phi, (forall c, 0 <= phi c <= 1) -> Rabs (prob phi (reals D) - prob phi (shares g z ks)) <= em + n * bp (-150)).
  { intros phi Hphi. pose proof (prob_near phi em (bp (-150)) D (shares g z ks) Hphi HE) as H. rewrite TE, Rmult_1_r in H. eapply Rle_trans; [exact H|]. unfold n. rewrite <- LD. apply Rle_refl. }
  split.
  - intros phi Hphi. split; [|split].
    + apply prob_mono; auto. intros c Hc. apply in_map_iff in Hc. destruct Hc as (c' & <- & Hc). apply (UD c' Hc).
    + apply prob_mono; auto. intros c Hc. unfold shares in Hc. apply in_map_iff in Hc. destruct Hc as (c' & <- & Hc). cbn [fst]. fold T.
      apply Rmult_le_pos; [apply J0; auto|left; apply Rinv_0_lt_compat; lra].
    + eapply Rle_trans; [apply Hpr; auto|exact Hem].
  - specialize (Hpr one ltac:(intros; lra)). rewrite TE in Hpr. apply Rabs_le_inv in Hpr. lra.
Qed.

Lemma cleared_cost g z ks : ok g -> In z reports -> In ks (gt_rep g) -> snd (corr g z ks) = 0%float ->
  fcost_rep logf pD (tgt g) (map (fseen sum expf powf (fr_z z) (fr_V z)) (at_report g ks), fr_kappa z) = infinity.
Proof.
  intros Hg Hz Hk E. pose proof Hg as ((Hr & _) & _ & _ & (_ & Hrep) & _). destruct (Hrep ks Hk) as [El _].
  unfold fmix_correct in E. cbn [snd] in E. rewrite (at_weights g ks El) in E.
  unfold fcost_rep. cbn [fst snd of_target ft_r ft_w]. rewrite E. destruct (proj_Fin _ _ proj_zero) as [F0 V0].
  destruct (f_mul (gt_r g) 0%float 0 ltac:(lia) (proj1 Hr) F0) as [Fm Vm]; [rewrite V0, Rmult_0_r, Rabs_R0; simpl; lra|].
  apply (zero_cost logf Hlog); auto. rewrite Vm, V0, Rmult_0_r. apply rnd_0.
Qed.

(** ** Rows of association probabilities *)
Lemma correct_rows (a : Z) (C : matrix float) n0 pick fsum w_lim nhyp_max rs fuel out : association_input n0 a C ->
  (forall tick q, q <> [] -> (pick tick q < length q)%nat) ->
  fcorrect expf pick fsum w_lim nhyp_max fuel n0 C rs = Ok out -> fc_n out <> 0%nat ->
  length (fc_R out) = (m_rows C * (n0 + 1))%nat /\ fc_r out = map (fun i => fexistence fsum (row_of n0 i (fc_R out))) (seq 0 (m_rows C)).
Proof.
  intros Hin Hpick Hrun Hn. destruct Hin as (Ha & HC & Hrows & Hcols & Hc1 & Hord).
  assert (S : MurtyProofs.spec (fassociate expf pick w_lim nhyp_max n0 C) (fun r => length (snd r) = (m_rows C * (n0 + 1))%nat)).
  { destruct (fassociate_spec expf pick w_lim nhyp_max n0 C a) as [H1 H2]; auto; try lia. split; [|exact H2].
    intros f. specialize (H1 f). destruct (fassociate expf pick w_lim nhyp_max n0 C f) as [r| |]; auto. destruct H1 as (hs & Hu & _). destruct r as [[n ws] Rm]. apply Hu. }
  assert (E : fcorrect expf pick fsum w_lim nhyp_max fuel n0 C rs = bind (fassociate expf pick w_lim nhyp_max n0 C fuel) (fun r => let '(n, w_sum, Rm) := r in
    match n with
    | O => Ok (mkFCorr 0 w_sum [] rs (repeat 1%float n0))
    | _ => let Rn := map (fun x => (x / w_sum)%float) Rm in
      Ok (mkFCorr n w_sum Rn
            (map (fun i => fexistence fsum (row_of n0 i Rn)) (seq 0 (m_rows C)))
            (map (fun j => (1 - fsum (fcol_of n0 (m_rows C) j Rn))%float) (seq 0 n0)))
    end)).
  { unfold fcorrect, fassociate. destruct (murty_new floatN C); reflexivity. }
  rewrite E in Hrun. destruct S as [S _]. specialize (S fuel). destruct (fassociate expf pick w_lim nhyp_max n0 C fuel) as [[[n ws] Rm]| |]; try discriminate.
  cbn [wp snd] in S. cbn [bind] in Hrun. destruct n as [|n]; injection Hrun as <-; [cbn [fc_n] in Hn; congruence|]. cbn [fc_R fc_r]. rewrite map_length. auto.
Qed.

Variable gs : list gtarget.
Hypothesis Hgs : Forall ok gs.
Hypothesis HM : (0 < length gs <= 30)%nat.
Hypothesis HN : (Z.of_nat N <= 90000)%Z.
Notation M := (length gs).
Notation gi i := (nth i gs dG).
Notation X := (map (described pD reports) gs).
Notation ts := (map tgt gs).
Notation C := (fcost_of logf pD kappas ts).
Definition dz : freport := mkFR (fun _ => 0%float) (fun _ _ => 0%float) 0%float.
Notation zk i j := (nth j (combine reports (gt_rep (gi i))) (dz, [])).

Lemma entry_rep i j : (i < M)%nat -> (j < N)%nat ->
  entry nan C i j = fcost_rep logf pD (tgt (gi i)) (map (fseen sum expf powf (fr_z (fst (zk i j))) (fr_V (fst (zk i j)))) (at_report (gi i) (snd (zk i j))), fr_kappa (fst (zk i j))).
Proof.
  intros Hi HjN. destruct (ts_ok sum expf powf Hsm Hexp Hpow reports K HK gs Hgs) as [Ht Hs]. pose proof (gi_ok reports K gs Hgs i Hi) as Hg.
  rewrite (fentry logf pD kappas ts Ht) by (rewrite ?map_length; lia). rewrite ts_nth by auto. set (g := gi i) in *.
  pose proof Hg as (_ & _ & _ & (Er & _) & _).
  unfold fcost_row. set (L := combine (ft_rep (tgt g)) kappas).
  assert (EL : L = map (fun zk => (map (fseen sum expf powf (fr_z (fst zk)) (fr_V (fst zk))) (at_report g (snd zk)), fr_kappa (fst zk))) (combine reports (gt_rep g))).
  { unfold L. cbn [of_target ft_rep]. clear - Er. revert Er. generalize (gt_rep g) as l'. generalize reports as l. induction l as [|z l IH]; intros [|k l'] E; try discriminate; auto.
    cbn [combine map fst snd]. f_equal. apply IH. simpl in E. lia. }
  assert (LL : length L = N) by (rewrite EL, map_length, combine_length; lia).
  rewrite app_nth1 by (rewrite map_length; lia). rewrite (nth_indep _ _ (fcost_rep logf pD (tgt g) ([], fr_kappa dz))) by (rewrite map_length; lia). rewrite map_nth.
  f_equal. rewrite EL. rewrite (nth_indep _ _ ((fun zk => (map (fseen sum expf powf (fr_z (fst zk)) (fr_V (fst zk))) (at_report g (snd zk)), fr_kappa (fst zk))) (dz, []))) by (rewrite map_length, combine_length; lia).
  rewrite (map_nth (fun zk => (map (fseen sum expf powf (fr_z (fst zk)) (fr_V (fst zk))) (at_report g (snd zk)), fr_kappa (fst zk)))). reflexivity.
Qed.

Lemma cleared_marginal w ds i j : (i < M)%nat -> (j < N)%nat -> (forall s, In s ds -> feasible_double C s) ->
  entry nan C i j = infinity -> marginal N w ds i j = 0.
Proof.
  intros Hi Hj Hf E. unfold marginal. assert (Z : sum_over (fun s => if says N i j s then w s else 0) ds = 0).
  { clear - Hi Hj Hf E. induction ds as [|s ds IH]; [reflexivity|]. cbn [sum_over]. rewrite IH by (intros; apply Hf; right; auto).
    unfold says. rewrite (proj2 (Nat.ltb_lt j N) Hj). destruct (Nat.eqb_spec (nth i s 0%nat) j) as [Ej|]; [|lra]. exfalso.
    destruct (Hf s (or_introl eq_refl)) as [_ H]. specialize (H i). rewrite Ej, E in H. cbn [fcost_of m_rows] in H. rewrite map_length in H. specialize (H Hi). discriminate H. }
  rewrite Z. unfold Rdiv. apply Rmult_0_l.
Qed.

(** ** A target *)
Variables (sortf : list gcomp -> list gcomp) (cw_lim : float).
Hypothesis Hsort : sorts sortf.
Hypothesis Hcw : fin cw_lim /\ 0 <= fval cw_lim <= / 2.
Variable fsum : list float -> float.
Hypothesis Hsum : forall l, fsums l (fsum l).
Variables (Rm : list float) (m : nat -> nat -> R) (e : R).
Hypothesis HR : length Rm = (M * (N + 1))%nat.
Hypothesis He : scene_slack K gs <= e.
Hypothesis Hcell : forall i j, (i < M)%nat -> (j <= N)%nat -> let x := nth (i * (N + 1) + j) Rm nan in
  fin x /\ 0 <= fval x <= 1 /\ 0 <= m i j <= 1 /\ Rabs (fval x - m i j) <= bp (-20) + 4 * e.
Hypothesis Hinf : forall i j, (i < M)%nat -> (j < N)%nat -> entry nan C i j = infinity -> m i j = 0.

Lemma slack_ge i : (i < M)%nat -> 0 <= stol (gi i) <= e.
Proof.
  intros Hi. assert (P : forall g : gtarget, 0 <= stol g).
  { intros g. pose proof (tol_pos (length (gt_c g))). pose proof (bpow_ge_0 radix2 (-28)). assert (0 <= bp (-35) * (K * K)) by (apply Rmult_le_pos; [apply bpow_ge_0|nra]). lra. }
  split; [apply P|]. eapply Rle_trans; [|exact He]. unfold scene_slack. clear - P Hi. revert i Hi. induction gs as [|g l IH]; intros i Hi; [simpl in Hi; lia|].
  change (sum_of (fun g0 : gtarget => stol g0) (g :: l)) with (stol g + sum_of (fun g0 : gtarget => stol g0) l).
  assert (0 <= sum_of (fun g0 : gtarget => stol g0) l). { clear - P. induction l as [|a l IH]; [simpl; lra|]. change (0 <= stol a + sum_of (fun g0 : gtarget => stol g0) l). specialize (P a). lra. }
  destruct i as [|i]; cbn [nth]; [lra|]. specialize (IH i ltac:(simpl in Hi; lia)). specialize (P g). lra.
Qed.

Notation n1 := (INR (N + 1)).
Definition Dj (g : gtarget) (zk : freport * list nat) : list gcomp := fst (corr g (fst zk) (snd zk)).
Definition Ej (g : gtarget) (zk : freport * list nat) : list (R * mix) := shares g (fst zk) (snd zk).
Notation Ds g := (fpdfs sum expf powf reports pD g).
Notation Es g := (map (Ej g) (combine reports (gt_rep g)) ++ [reals (gt_c g)]).

Lemma zk_in i j : (i < M)%nat -> (j < N)%nat -> In (fst (zk i j)) reports /\ In (snd (zk i j)) (gt_rep (gi i)).
Proof.
  intros Hi Hj. pose proof (gi_ok reports K gs Hgs i Hi) as (_ & _ & _ & (Er & _) & _).
  assert (I : In (zk i j) (combine reports (gt_rep (gi i)))) by (apply nth_In; rewrite combine_length; lia).
  destruct (zk i j) as [z ks]. split; [eapply in_combine_l|eapply in_combine_r]; eauto.
Qed.

Lemma cells_close i k : (i < M)%nat -> (k < N + 1)%nat ->
  close_at (bp (-20) + 4 * e) (2 * e) (nth (i * (N + 1) + k) Rm nan) (m i k) (nth k (Ds (gi i)) []) (nth k (Es (gi i)) []).
Proof.
  intros Hi Hk. pose proof (gi_ok reports K gs Hgs i Hi) as Hg. destruct (slack_ge i Hi) as [S0 S1]. destruct (Hcell i k Hi ltac:(lia)) as (Fx & Bx & Bm & Cx).
  pose proof Hg as (_ & (Hw & Hl & Hs) & _ & (Er & _) & _). assert (LC : length (combine reports (gt_rep (gi i))) = N) by (rewrite combine_length; lia).
  split; auto. split; auto. split; auto.
  change (Ds (gi i)) with (map (Dj (gi i)) (combine reports (gt_rep (gi i))) ++ [gt_c (gi i)]).
  destruct (Nat.lt_ge_cases k N) as [HkN|HkN].
  - rewrite !app_nth1 by (rewrite map_length, LC; auto).
    rewrite (nth_indep _ _ (Dj (gi i) (dz, []))) by (rewrite map_length, LC; auto). rewrite (nth_indep (map (Ej (gi i)) _) _ (Ej (gi i) (dz, []))) by (rewrite map_length, LC; auto).
    rewrite !map_nth. destruct (zk_in i k Hi HkN) as [I1 I2]. destruct (pdf_close (gi i) _ _ Hg I1 I2) as (_ & _ & H). destruct H as [(H1 & H2)|(H1 & H2)].
    + left. split; [exact H1|]. apply Hinf; auto. rewrite entry_rep by auto. apply cleared_cost; auto.
    + right. split; [|exact H2]. intros phi Hphi. destruct (H1 phi Hphi) as (A & B & D). split; [exact A|]. split; [exact B|]. eapply Rle_trans; [exact D|]. lra.
  - assert (k = N) as -> by lia. rewrite !app_nth2 by (rewrite map_length; lia). rewrite !map_length, LC, Nat.sub_diag. cbn [nth]. right. split.
    + intros phi Hphi. assert (A : 0 <= prob phi (reals (gt_c (gi i))) <= prob one (reals (gt_c (gi i)))).
      { apply prob_mono; auto. intros c Hc. apply in_map_iff in Hc. destruct Hc as (c' & <- & Hc). apply (Hw c' Hc). }
      split; [exact A|]. split; [exact A|]. rewrite Rminus_diag_eq, Rabs_R0 by reflexivity. lra.
    + rewrite total_reals. destruct (few_u (map fst (gt_c (gi i))) ltac:(unfold few; rewrite map_length; exact Hl)) as (N2 & _ & _). rewrite map_length in N2. pose proof uro_small. assert (bp (-33) <= / 1000000000) by (simpl; lra).
      change (bp (-53)) with uro in Hs. apply Rabs_le_inv in Hs. lra.
Qed.

Lemma concat_le {A} (l : list (list A)) n : (forall p, In p l -> (length p <= n)%nat) -> (length (concat l) <= n * length l)%nat.
Proof.
  induction l as [|p l IH]; intros H; [cbn; lia|]. cbn [concat length]. rewrite app_length. specialize (IH (fun p Hp => H p (or_intror Hp))). specialize (H p (or_introl eq_refl)). lia.
Qed.

Lemma correct_r w pdf pdfs r c : ftarget_correct sortf cw_lim fsum w pdf pdfs = Ok (r, c) -> r = fexistence fsum w.
Proof.
  unfold ftarget_correct, fexistence. destruct (PrimFloat.leb 1e-6 (fsum w)); [|intros H; injection H as <- _; reflexivity].
  destruct (fjoin sortf cw_lim w pdfs) as [ce| |]; try discriminate. intros H. injection H as <- _. reflexivity.
Qed.

Lemma target_updated i : (i < M)%nat -> (Z.of_nat (length (gt_c (gi i)) * (N + 1)) <= 2 ^ 20)%Z ->
  let row := row_of N i Rm in
  Rabs (fval (fexistence fsum row) - sum_over (m i) (seq 0 (N + 1))) <= bp (-18) + 4 * e ->
  exists r c, ftarget_correct sortf cw_lim fsum row (gt_c (gi i)) (Ds (gi i)) = Ok (r, c) /\ updated K (fval cw_lim) pD reports e (m i) (gi i) r c.
Proof.
  intros Hi Hbig row Hex. pose proof (gi_ok reports K gs Hgs i Hi) as Hg. destruct (slack_ge i Hi) as [S0 S1]. set (g := gi i) in *.
  pose proof Hg as (_ & (Hw & Hl & Hs) & _ & (Er & _) & _).
  set (Rf := fun j => nth (i * (N + 1) + j) Rm nan).
  assert (ER : row = map Rf (seq 0 (N + 1))) by (apply frow_of_nth with (M := M); auto).
  assert (Lrow : length row = (N + 1)%nat) by (rewrite ER, map_length, seq_length; auto).
  assert (LD : length (Ds g) = (N + 1)%nat) by (unfold fpdfs; rewrite app_length, map_length, combine_length; cbn; lia).
  assert (Each : forall p, In p (Ds g) -> (forall c, In c p -> upto 1 (fst c)) /\ (length p <= length (gt_c g))%nat).
  { intros p Hp. unfold fpdfs in Hp. apply in_app_or in Hp. destruct Hp as [Hp|[<-|[]]]; [|split; auto].
    apply in_map_iff in Hp. destruct Hp as ([z ks] & <- & Hp). cbn [fst snd].
    destruct (pdf_close g z ks Hg) as (H1 & H2 & _); [eapply in_combine_l; eauto|eapply in_combine_r; eauto|]. split; auto. }
  assert (Hok : mixtures_ok row (Ds g)).
  { split; [|intros p c Hp Hc; apply (proj1 (Each p Hp)); auto]. intros x Hx. rewrite ER in Hx. apply in_map_iff in Hx. destruct Hx as (j & <- & Hj). apply in_seq in Hj.
    destruct (Hcell i j Hi ltac:(lia)) as (F & B & _). split; [exact F|]. fold (Rf j) in B. lra. }
  assert (Hcomp : (components row (Ds g) <= length (gt_c g) * (N + 1))%nat).
  { unfold components. rewrite firstn_all2 by exact (Nat.eq_le_incl _ _ (eq_trans LD (eq_sym Lrow))).
    eapply Nat.le_trans; [apply (concat_le _ (length (gt_c g))); intros p Hp; apply Each; auto|]. apply Nat.mul_le_mono_l. exact (Nat.eq_le_incl _ _ LD). }
  clearbody row. assert (L1 : (length row <= length (Ds g))%nat) by exact (Nat.eq_le_incl _ _ (eq_trans Lrow (eq_sym LD))).
  assert (L2 : (Z.of_nat (components row (Ds g)) <= 2 ^ 20)%Z) by (eapply Z.le_trans; [apply inj_le; exact Hcomp|exact Hbig]).
  assert (L3 : (Z.of_nat (length row) <= 2 ^ 20)%Z) by (rewrite Lrow; lia).
  destruct (correct_ok sortf cw_lim row (Ds g) Hsort L1 Hok L2 (proj1 Hcw) fsum (gt_c g) Hsum L3 (proj2 (proj2 Hcw))) as (r & c & Erun & Fr & H).
  exists r, c. split; [exact Erun|]. pose proof (correct_r _ _ _ _ _ Erun) as Er'. rewrite <- Er' in Hex.
  split; [exact Fr|]. split; [exact Hex|]. destruct H as [(H1 & H2 & _)|(H1 & H2 & H3)]; [left; auto|]. right. split; [exact H1|].
  assert (LE : length (Es g) = length (Ds g)) by (rewrite LD, app_length, map_length, combine_length; cbn; lia).
  destruct (blend_close (bp (-20) + 4 * e) (2 * e) Rf (m i) (Ds g) (Es g) 0 LE) as [B1 B2].
  { pose proof (bpow_ge_0 radix2 (-20)). lra. } { lra. }
  { intros k Hk. rewrite LD in Hk. apply cells_close; auto. }
  rewrite LD, <- ER in B1, B2. rewrite Lrow in H2. set (S := exact_sum row) in *. set (W := JoinFloatSpec.weight row (Ds g)) in *.
  change (mixed one row (Ds g)) with W in *.
  assert (Nu : 0 <= n1 * uro <= bp (-33)). { apply few_small. pose proof (few_INR row L3) as H. rewrite Lrow in H. exact H. }
  assert (H33 : bp (-33) <= / 1000000000) by (simpl; lra).
  set (d := bp (-20) + 4 * e) in *. assert (Hd : 0 <= d) by (unfold d; pose proof (bpow_ge_0 radix2 (-20)); lra).
  assert (S00 : 0 <= S). { apply vsum_nonneg. intros x Hx. destruct Hok as [Hw2 _]. destruct (Hw2 x Hx) as [F B]. split; [eapply upto_nn; split; eauto|exact F]. }
  assert (Sr : Rabs (fval r - S) <= / 100000000 * S).
  { eapply Rle_trans; [exact H2|]. apply Rmult_le_compat_r; auto. change (bp (-53)) with uro. lra. }
  apply Rabs_le_inv in Sr. assert (N0 : 1 <= n1) by (change 1 with (INR 1); apply le_INR; lia).
  assert (Nd : 0 <= n1 * d) by (apply Rmult_le_pos; lra).
  assert (CI : INR (components row (Ds g)) <= INR (length (gt_c g)) * n1) by (rewrite <- mult_INR; apply le_INR; exact Hcomp).
  destruct H3 as [(-> & H3)|(Hm & Hkp & eta & lost & J)].
  - left. split; auto. lra.
  - right. split; auto. split; auto. destruct J as (J0 & J1 & J2 & _ & J3 & _ & J4). fold W in J0, J3. exists (map (Ej g) (combine reports (gt_rep g))), lost.
    split. { apply Forall2_self. intros [z ks] Hin. cbn [fst snd]. apply shares_bayes; auto; [eapply in_combine_l|eapply in_combine_r]; eauto. }
    split; auto. split.
    { destruct J4 as [J4|J4]; [left; exact J4|right]. eapply Rle_trans; [exact J4|]. apply Rmult_le_compat_r; [|lra].
      apply Rplus_le_le_0_compat; [apply Rmult_le_pos; [lra|pose proof (bpow_ge_0 radix2 (-40)); lra]|apply bpow_ge_0]. }
    intros phi Hphi. destruct (B1 phi Hphi) as (A1 & A2 & A3). destruct (B1 one ltac:(intros; lra)) as (_ & _ & A4). specialize (J3 phi Hphi).
    change (mixed one row (Ds g)) with W in *.
    change (blend phi (m i) (map (Ej g) (combine reports (gt_rep g))) (gt_c g)) with (blend_from phi (m i) 0 (Es g)).
    change (blend one (m i) (map (Ej g) (combine reports (gt_rep g))) (gt_c g)) with (blend_from one (m i) 0 (Es g)).
    set (A := mixed phi row (Ds g)) in *. set (a := blend_from phi (m i) 0 (Es g)) in *. set (w := blend_from one (m i) 0 (Es g)) in *.
    assert (R0 : 0 < fval r) by lra. assert (IR : 0 < / fval r) by (apply Rinv_0_lt_compat; auto).
    set (q := n1 * (bp (-20) + 6 * e)). replace (4 * n1 * (bp (-20) + 6 * e) / fval r) with (4 * q / fval r) by (unfold q, Rdiv; ring).
    assert (Q0 : q = n1 * d + 2 * (n1 * e)) by (unfold q, d; ring).
    assert (NE : 0 <= n1 * e) by (apply Rmult_le_pos; lra).
    destruct (Rle_or_lt (fval r) (4 * q)) as [Hq|Hq].
    + assert (1 <= 4 * q / fval r). { apply (Rmult_le_reg_r (fval r)); auto. unfold Rdiv. rewrite Rmult_assoc, Rinv_l by lra. lra. }
      assert (Rabs (A / W - a / w) <= 1). { pose proof (quotient_01 A W A1). pose proof (quotient_01 a w A2). apply Rabs_le. lra. }
      replace (prob phi (reals c) - a / w) with ((prob phi (reals c) - A / W) + (A / W - a / w)) by ring. eapply Rle_trans; [apply Rabs_triang|]. lra.
    + assert (74 / 100 * fval r <= W) by lra.
      pose proof (quotient_close A W a w (n1 * (101 / 100 * d + 2 * e)) A1 A2 J0 A3 A4) as Hq1.
      assert (2 * (n1 * (101 / 100 * d + 2 * e)) / W <= 4 * q / fval r).
      { apply Rle_trans with (2 * (n1 * (101 / 100 * d + 2 * e)) / (74 / 100 * fval r)).
        - unfold Rdiv. apply Rmult_le_compat_l; [apply Rmult_le_pos; [lra|apply Rmult_le_pos; lra]|]. apply Rinv_le; lra.
        - replace (2 * (n1 * (101 / 100 * d + 2 * e)) / (74 / 100 * fval r)) with (100 / 74 * (2 * (n1 * (101 / 100 * d + 2 * e))) / fval r) by (field; lra).
          unfold Rdiv. apply Rmult_le_compat_r; [lra|]. lra. }
      replace (prob phi (reals c) - a / w) with ((prob phi (reals c) - A / W) + (A / W - a / w)) by ring. eapply Rle_trans; [apply Rabs_triang|]. lra.
Qed.
End Step.

(** ** The correction of a cluster *)
Lemma each_ok {A B} (f : A -> res B) (P : A -> B -> Prop) l : (forall x, In x l -> exists y, f x = Ok y /\ P x y) -> exists ys, each f l = Ok ys /\ Forall2 P l ys.
Proof.
  induction l as [|x l IH]; intros H; [exists []; split; [reflexivity|constructor]|].
  destruct (H x (or_introl eq_refl)) as (y & E1 & P1). destruct (IH (fun x Hx => H x (or_intror Hx))) as (ys & E2 & P2).
  exists (y :: ys). cbn [each]. rewrite E1. cbn [bind]. rewrite E2. cbn [bind]. auto.
Qed.
Lemma in_numbered {A} (l : list A) d x : In x (combine (seq 0 (length l)) l) -> (fst x < length l)%nat /\ snd x = nth (fst x) l d.
Proof.
  intros H. destruct (In_nth _ _ (0%nat, d) H) as (k & Hk & E). rewrite combine_length, seq_length, Nat.min_id in Hk.
  rewrite combine_nth in E by apply seq_length. rewrite seq_nth in E by auto. subst x. cbn [fst snd plus]. auto.
Qed.

Section Whole.
Variable sum : list float -> float.
Variables (expf : float -> float) (powf : float -> float -> float) (logf : float -> float).
Variables (reports : list freport) (pD : float) (K : R) (gs : list gtarget).
Notation N := (length reports).
Notation M := (length gs).
Notation X := (map (described pD reports) gs).
Notation W := (ClusterSpec.weight N X).

Lemma step_ok sortf cw_lim pick fsum w_lim nhyp_max fuel out :
  (forall l, fsums l (sum l)) -> exp_accurate expf -> square_accurate powf -> log_accurate logf ->
  upto (1 - bp (-20)) pD -> 1 <= K <= 1000 -> (forall z, In z reports -> kappa_ok (fr_kappa z)) ->
  Forall (scene_ok K reports) gs -> (0 < M <= 30)%nat -> (Z.of_nat N <= 90000)%Z ->
  (forall g, In g gs -> (Z.of_nat (length (gt_c g) * (N + 1)) <= 2 ^ 20)%Z) ->
  sorts sortf -> (fin cw_lim /\ 0 <= fval cw_lim <= / 2) ->
  (forall tick q, q <> [] -> (pick tick q < length q)%nat) -> (forall l, fsums l (fsum l)) -> PrimFloat.leb nhyp_max 1048576 = true ->
  scene_slack K gs <= / 4 ->
  fupdate sum expf powf reports logf pD pick fsum w_lim nhyp_max fuel gs = Ok out ->
  fc_n out <> 0%nat -> fin (ClusterFloat.fc_w out) -> bp (-600) <= fval (ClusterFloat.fc_w out) <= bp 900 ->
  exists ds ts, fstep sum expf powf reports sortf cw_lim logf pD pick fsum w_lim nhyp_max fuel gs = Ok (out, ts) /\
  length ds = fc_n out /\ NoDup ds /\ (forall s, In s ds -> hypothesis N X s) /\
  ((forall s, hypothesis N X s ->
      (forall i, (i < M)%nat -> 1.02e-8 < choice_weight N M i (nth i X no_target) (nth i s 0%nat)) -> In s ds) \/
   PrimFloat.leb nhyp_max (nofnat floatN (fc_n out)) = true \/
   exists s, In s ds /\ (fin w_lim -> W s / sum_over W ds <= fval w_lim + bp (-20) + 4 * scene_slack K gs)) /\
  Forall2 (fun ig rc => updated K (fval cw_lim) pD reports (scene_slack K gs) (marginal N W ds (fst ig)) (snd ig) (fst rc) (snd rc))
    (combine (seq 0 M) gs) ts.
Proof.
  intros Hsm Hexp Hpow Hlog HpD HK Hkap Hgs HM HN Hbig Hsort Hcw Hpick Hsum Hmax Hsl Hrun Hn Hf Hw.
  destruct (scene_more sum expf powf logf Hsm Hexp Hpow Hlog reports pD K HpD HK Hkap gs Hgs HM HN pick fsum w_lim nhyp_max Hpick Hsum Hmax fuel out Hrun Hsl Hn Hf Hw)
    as (ds & H1 & H2 & H3 & H4 & H5 & H6 & _ & H8 & H9).
  destruct (ts_ok sum expf powf Hsm Hexp Hpow reports K HK gs Hgs) as [Ht Hs].
  assert (Hk : Forall kappa_ok (map fr_kappa reports)) by (apply (kap_ok reports Hkap)).
  pose proof (Hassoc logf pD (map fr_kappa reports) (map (of_target sum expf powf reports) gs) Hlog HpD Hk Ht ltac:(rewrite map_length; exact HM) ltac:(rewrite map_length; exact HN)) as HA.
  pose proof Hrun as Hr. unfold fupdate, fcluster in Hr.
  destruct (correct_rows expf 15 _ _ pick fsum w_lim nhyp_max _ fuel out HA Hpick Hr Hn) as [L1 L2]. cbn [fcost_of m_rows] in L1, L2. rewrite !map_length in L1, L2.
  assert (HT : forall x, In x (combine (seq 0 M) gs) -> exists y,
    ftarget_correct sortf cw_lim fsum (row_of N (fst x) (fc_R out)) (gt_c (snd x)) (fpdfs sum expf powf reports pD (snd x)) = Ok y /\
    updated K (fval cw_lim) pD reports (scene_slack K gs) (marginal N W ds (fst x)) (snd x) (fst y) (snd y)).
  { intros [i g] Hx. destruct (in_numbered gs dG _ Hx) as [Hi Eg]. cbn [fst snd] in *. subst g.
    destruct (target_updated sum expf powf logf Hsm Hexp Hpow Hlog reports pD K HpD HK Hkap gs Hgs HM HN sortf cw_lim Hsort Hcw fsum Hsum (fc_R out) (fun i j => marginal N W ds i j) (scene_slack K gs) L1 (Rle_refl _)) with (i := i) as (r & c & E & U); auto.
    - intros i' j' Hi' Hj'. destruct (H5 i' j' Hi' Hj') as [F B]. destruct (H9 i' j' Hi' Hj') as [B1 B2]. auto.
    - intros i' j' Hi' Hj' E. eapply cleared_marginal; eauto.
    - apply Hbig. apply nth_In. exact Hi.
    - destruct (H6 i Hi) as [_ B]. rewrite L2 in B. rewrite nth_map_seq in B by exact Hi. exact B.
    - exists (r, c). auto. }
  destruct (each_ok _ _ _ HT) as (ts & E & P). exists ds, ts. split; [|auto 8].
  unfold fstep. rewrite Hrun. cbn [bind]. destruct (fc_n out); [congruence|].
  eapply eq_trans; [apply (f_equal (fun x => bind x (fun ts => Ok (out, ts))) E)|reflexivity].
Qed.
End Whole.

(** ** Mixtures as joining leaves them *)
Lemma updated_mono K cw pD reports e e' m g r c : e <= e' -> updated K cw pD reports e m g r c -> updated K cw pD reports e' m g r c.
Proof.
  intros He (Fr & Hr & H). split; [exact Fr|]. split; [lra|]. destruct H as [H|(H1 & H)]; [left; exact H|right; split; [exact H1|]].
  pose proof (pos_INR (length reports + 1)) as HN. set (n1 := INR (length reports + 1)) in *.
  assert (n1 * e <= n1 * e') by (apply Rmult_le_compat_l; auto).
  destruct H as [(H2 & H3)|(H2 & H3 & ps & lost & H4 & H5 & H6 & H7)]; [left; split; [exact H2|lra]|right].
  split; [exact H2|]. split; [exact H3|]. exists ps, lost. split; [exact H4|]. split; [exact H5|]. split; [exact H6|]. intros phi Hphi. eapply Rle_trans; [apply (H7 phi Hphi)|].
  assert (R0 : 0 < / fval r) by (apply Rinv_0_lt_compat; lra). apply Rplus_le_compat_l. unfold Rdiv. apply Rmult_le_compat_r; [lra|]. fold n1. lra.
Qed.
Lemma usual_slack K gs : 1 <= K <= 100 -> (length gs <= 30)%nat -> (forall g, In g gs -> (length (gt_c g) <= 200)%nat) -> scene_slack K gs <= / 40000.
Proof.
  intros HK HM Hn. assert (G : scene_slack K gs <= INR (length gs) * / 1200000).
  { unfold scene_slack. clear HM. induction gs as [|g gs IH]; [simpl; lra|].
    change (sum_of (fun g => tol (length (gt_c g)) + bp (-35) * (K * K)) (g :: gs)) with (tol (length (gt_c g)) + bp (-35) * (K * K) + sum_of (fun g => tol (length (gt_c g)) + bp (-35) * (K * K)) gs).
    specialize (IH (fun a Ha => Hn a (or_intror Ha))). specialize (Hn g (or_introl eq_refl)). cbn [length]. rewrite S_INR.
    assert (N200 : INR (length (gt_c g)) <= 200) by (apply (le_INR _ 200) in Hn; replace 200 with (INR 200) by (rewrite INR_IZR_INZ; reflexivity); exact Hn).
    assert (KK : K * K <= 10000) by nra. match type of IH with ?s <= _ => set (rest := s) in * end. unfold tol. change (bp (-32)) with (/ 4294967296). change (bp (-35)) with (/ 34359738368). lra. }
  assert (INR (length gs) <= 30) by (apply (le_INR _ 30) in HM; replace 30 with (INR 30) by (rewrite INR_IZR_INZ; reflexivity); exact HM). lra.
Qed.

Lemma usual_ok sum expf powf logf reports pD K gs sortf cw_lim pick fsum w_lim nhyp_max fuel out :
  (forall l, fsums l (sum l)) -> exp_accurate expf -> square_accurate powf -> log_accurate logf ->
  upto (1 - bp (-20)) pD -> 1 <= K <= 100 -> (forall z, In z reports -> kappa_ok (fr_kappa z)) ->
  Forall (scene_ok K reports) gs -> (0 < length gs <= 30)%nat -> (Z.of_nat (length reports) <= 5000)%Z ->
  (forall g, In g gs -> (length (gt_c g) <= 200)%nat) ->
  sorts sortf -> (fin cw_lim /\ 0 <= fval cw_lim <= / 2) ->
  (forall tick q, q <> [] -> (pick tick q < length q)%nat) -> (forall l, fsums l (fsum l)) -> PrimFloat.leb nhyp_max 1048576 = true ->
  fupdate sum expf powf reports logf pD pick fsum w_lim nhyp_max fuel gs = Ok out ->
  fc_n out <> 0%nat -> fin (ClusterFloat.fc_w out) -> bp (-600) <= fval (ClusterFloat.fc_w out) <= bp 900 ->
  let N := length reports in let M := length gs in let X := map (described pD reports) gs in let W := ClusterSpec.weight N X in
  exists ds ts, fstep sum expf powf reports sortf cw_lim logf pD pick fsum w_lim nhyp_max fuel gs = Ok (out, ts) /\
  length ds = fc_n out /\ NoDup ds /\ (forall s, In s ds -> hypothesis N X s) /\
  ((forall s, hypothesis N X s ->
      (forall i, (i < M)%nat -> 1.02e-8 < choice_weight N M i (nth i X no_target) (nth i s 0%nat)) -> In s ds) \/
   PrimFloat.leb nhyp_max (nofnat floatN (fc_n out)) = true \/
   exists s, In s ds /\ (fin w_lim -> W s / sum_over W ds <= fval w_lim + 11 / 100000)) /\
  Forall2 (fun ig rc => updated K (fval cw_lim) pD reports (/ 40000) (marginal N W ds (fst ig)) (snd ig) (fst rc) (snd rc)) (combine (seq 0 M) gs) ts.
Proof.
  intros Hsm Hexp Hpow Hlog HpD HK Hkap Hgs HM HN Hn Hsort Hcw Hpick Hsum Hmax Hrun H1 H2 H3 N M X W.
  pose proof (usual_slack K gs HK (proj2 HM) Hn) as Hs.
  destruct (step_ok sum expf powf logf reports pD K gs sortf cw_lim pick fsum w_lim nhyp_max fuel out Hsm Hexp Hpow Hlog HpD ltac:(lra) Hkap Hgs HM ltac:(lia)) as (ds & ts & E & D1 & D2 & D3 & D4 & D5); auto; try lra.
  { intros g Hg. specialize (Hn g Hg). rewrite Nat2Z.inj_mul, Nat2Z.inj_add. change (Z.of_nat 1) with 1%Z.
    apply Z.le_trans with (200 * 5001)%Z; [apply Z.mul_le_mono_nonneg; lia|lia]. }
  exists ds, ts. split; [exact E|]. split; [exact D1|]. split; [exact D2|]. split; [exact D3|]. split.
  - destruct D4 as [D4|[D4|(s & S1 & S2)]]; [left; exact D4|right; left; exact D4|right; right]. exists s. split; [exact S1|]. intros Fw. eapply Rle_trans; [exact (S2 Fw)|].
    change (bp (-20)) with (/ 1048576). lra.
  - revert D5. change (length gs) with M. generalize (combine (seq 0 M) gs) as l0. intros l0 D5. clear - D5 Hs. induction D5 as [|a b l l' H D5 IH]; constructor; auto. eapply updated_mono; [exact Hs|exact H].
Qed.
