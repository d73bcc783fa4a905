(** The association step in doubles as a whole. *)
From Coq Require Import List Arith Bool Lia ZArith Reals Lra Permutation.
From Flocq Require Import Core BinarySingleNaN IEEE754.PrimFloat.
From Coq Require Import Floats.
Import ListNotations.
From Verif Require Import Res Scalar Lap LapSpec LapBase LapHom LapArr Murty MurtyProofs MurtyFloatMain.
From Verif Require Import FloatBase FloatExt LapRnd Cluster ClusterSpec ClusterProofs ClusterFloat FloatSum ClusterFloatLoop ClusterFloatNum ClusterFloatClose.
Local Open Scope nat_scope.
Notation fval := FloatBase.val.

(** A cost matrix for [N] reports: finite costs of at most 2^a, or infinity; a row for
    each target, a column for each report, for each target missed and for each target absent. *)
Definition association_input (N : nat) (a : Z) (C : matrix float) : Prop :=
  (-900 <= a <= 299)%Z /\ bounded_matrix a C /\ 0 < m_rows C <= 30 /\
  m_cols C = N + 2 * m_rows C /\ (Z.of_nat (m_cols C) < 100000)%Z /\ m_ord C = RowMajor.

Lemma frow_of_nth {A} (d : A) N M i l : length l = M * (N + 1) -> i < M ->
  row_of N i l = map (fun j => nth (i * (N + 1) + j) l d) (seq 0 (N + 1)).
Proof.
  intros Hl Hi. unfold row_of. apply nth_ext with (d := d) (d' := d).
  - rewrite firstn_length, skipn_length, map_length, seq_length, Hl. nia.
  - intros k Hk. rewrite firstn_length, skipn_length, Hl in Hk.
    rewrite nth_firstn by lia. rewrite (nth_indep (map _ _) d (nth (i * (N + 1) + 0) l d)) by (rewrite map_length, seq_length; lia).
    rewrite (map_nth (fun j => nth (i * (N + 1) + j) l d)). rewrite seq_nth by lia. simpl.
    clear. revert l. induction (i * (N + 1)) as [|p IH]; intros l; simpl; auto. destruct l; simpl; auto. destruct k; auto.
Qed.

Lemma sumf_map {A B} (f : A -> B) (g : B -> R) l : sumf g (map f l) = sumf (fun x => g (f x)) l.
Proof. induction l as [|x l IH]; auto. cbn [map sum_over]. rewrite IH. auto. Qed.

Section Result.
Variable expf : float -> float.
Variable pick : nat -> list (mstate (T := float)) -> nat.
Variable fsum : list float -> float.
Variables w_lim nhyp_max : float.
Variables (N : nat) (a : Z) (C : matrix float) (rs : list float).
Hypothesis Hin : association_input N a C.
Hypothesis Hpick : forall tick q, q <> [] -> pick tick q < length q.
Hypothesis Hexp : exp_nonneg expf.
Hypothesis Hsum : forall l, fsums l (fsum l).
Hypothesis Hmax : PrimFloat.leb nhyp_max 1048576 = true.
Notation M := (m_rows C).
Notation T := (pm proj C).

Definition row_cells (i : nat) : list (nat * nat) := map (fun j => (i, j)) (seq 0 (N + 1)).
Definition col_cells (j : nat) : list (nat * nat) := map (fun i => (i, j)) (seq 0 M).

(** The outcome in terms of the hypotheses used. *)
Definition outcome (hs : list hyp) (out : fcorrected) : Prop :=
  chosen expf w_lim nhyp_max C a hs /\ fc_n out = length hs /\ fc_w out = wsum hs /\
  (hs = [] -> fc_R out = [] /\ fc_r out = rs /\ fc_rB out = repeat 1%float N) /\
  (hs <> [] ->
     (forall i j, i < M -> j <= N -> nth (i * (N + 1) + j) (fc_R out) nan = (cell N hs i j / wsum hs)%float) /\
     fc_r out = map (fun i => fexistence fsum (entries N hs (row_cells i))) (seq 0 M) /\
     fc_rB out = map (fun j => (1 - fsum (entries N hs (col_cells j)))%float) (seq 0 N)).

Lemma fcorrect_spec : spec (fun fuel => fcorrect expf pick fsum w_lim nhyp_max fuel N C rs) (fun out => exists hs, outcome hs out).
Proof.
  destruct Hin as (Ha & HC & Hrows & Hcols & Hc1 & Hord).
  apply (spec_ext _ (fun fuel => bind (fassociate expf pick w_lim nhyp_max N C fuel) (fun r => let '(n, w_sum, Rm) := r in
    match n with
    | O => Ok (mkFCorr 0 w_sum [] rs (repeat 1%float N))
    | _ => let Rn := map (fun x => (x / w_sum)%float) Rm in
      Ok (mkFCorr n w_sum Rn
            (map (fun i => fexistence fsum (row_of N i Rn)) (seq 0 M))
            (map (fun j => (1 - fsum (fcol_of N M j Rn))%float) (seq 0 N)))
    end))).
  { intros f. unfold fcorrect, fassociate. destruct (murty_new floatN C); reflexivity. }
  eapply (spec_bind (fassociate expf pick w_lim nhyp_max N C)).
  { apply (fassociate_spec expf pick w_lim nhyp_max N C a); auto; lia. }
  intros [[n ws] Rm] (hs & (-> & -> & Hlen & Hcell) & Hch). apply spec_pure.
  assert (Hnth : forall x, x < M * (N + 1) -> nth x (map (fun x => (x / wsum hs)%float) Rm) nan = (nth x Rm nan / wsum hs)%float).
  { intros x Hx. rewrite (nth_indep _ nan (nan / wsum hs)%float) by (rewrite map_length; lia).
    apply (map_nth (fun x => (x / wsum hs)%float)). }
  destruct (length hs) as [|n] eqn:En.
  - simpl. exists hs. split; auto. cbn [fc_n fc_w fc_R fc_r fc_rB]. split; auto. split; auto. split; auto.
    intros Hne. destruct hs; [congruence|discriminate].
  - simpl. exists hs. split; auto. cbn [fc_n fc_w fc_R fc_r fc_rB]. split; auto. split; auto. split.
    + intros ->. discriminate.
    + intros _. split; [|split].
      * intros i j Hi Hj. rewrite Hnth by (apply fcell_lt; auto). rewrite Hcell by auto. auto.
      * apply map_ext_in. intros i Hi. apply in_seq in Hi. f_equal.
        rewrite (frow_of_nth nan N M) by (rewrite ?map_length; lia). unfold entries, row_cells. rewrite map_map. apply map_ext_in.
        intros j Hj. apply in_seq in Hj. cbn [fst snd]. rewrite Hnth by (apply fcell_lt; lia). rewrite Hcell by lia. auto.
      * apply map_ext_in. intros j Hj. apply in_seq in Hj. do 2 f_equal.
        unfold fcol_of, entries, col_cells. rewrite map_map. apply map_ext_in. intros i Hi. apply in_seq in Hi.
        cbn [fst snd]. rewrite Hnth by (apply fcell_lt; lia). rewrite Hcell by lia. auto.
Qed.

Lemma fcorrect_returns :
  (forall fuel, fcorrect expf pick fsum w_lim nhyp_max fuel N C rs <> UB) /\
  exists fuel0 out, forall fuel, fuel0 <= fuel -> fcorrect expf pick fsum w_lim nhyp_max fuel N C rs = Ok out.
Proof.
  destruct fcorrect_spec as [H1 H2]. split; auto. intros fuel E. specialize (H1 fuel). rewrite E in H1. exact H1.
Qed.

(** ** Facts about the hypotheses used *)
Section Used.
Variable hs : list hyp.
Hypothesis Hch : chosen expf w_lim nhyp_max C a hs.

Lemma nofnat20 : nofnat floatN (Z.to_nat (2 ^ 20)) = 1048576%float.
Proof. cbn [nofnat floatN]. rewrite Z2Nat.id by lia. vm_compute. reflexivity. Qed.

Lemma hs_small : small (length hs).
Proof.
  destruct (Z_le_gt_dec (Z.of_nat (length hs)) (2 ^ 20)) as [H|H]; auto. exfalso.
  set (p := Z.to_nat (2 ^ 20)). assert (Hp : Z.of_nat p = (2 ^ 20)%Z) by (apply Z2Nat.id; lia).
  assert (Hp0 : 0 < p < length hs) by lia.
  apply (ch_min _ _ _ _ _ _ Hch p Hp0). unfold fstopped.
  assert (Hl : length (firstn p hs) = p) by (rewrite firstn_length; lia).
  destruct (exists_last (l := firstn p hs)) as (pre & h & E).
  { intros E. rewrite E in Hl. cbn [length] in Hl. lia. }
  exists pre, h. split; auto. rewrite Hl. unfold fstop. unfold p. rewrite nofnat20, Hmax. apply orb_true_r.
Qed.

Lemma hs_nn : nnh hs.
Proof.
  intros h Hh. destruct (proj1 (Forall_forall _ _) (ch_w _ _ _ _ _ _ Hch) h Hh) as (x & -> & Hx & _).
  apply Hexp. apply f_opp. auto.
Qed.

Lemma row_cells_ok i : NoDup (row_cells i) /\ length (row_cells i) = N + 1 /\
  forall h p q, In h hs -> In p (row_cells i) -> In q (row_cells i) ->
    says N (fst p) (snd p) (snd h) = true -> says N (fst q) (snd q) (snd h) = true -> p = q.
Proof.
  unfold row_cells. split; [|split].
  - apply FinFun.Injective_map_NoDup; [intros x y E; inversion E; auto|apply seq_NoDup].
  - rewrite map_length, seq_length. auto.
  - intros h p q _ Hp Hq. apply in_map_iff in Hp. apply in_map_iff in Hq. destruct Hp as (j & <- & Hj), Hq as (j' & <- & Hj').
    apply in_seq in Hj. apply in_seq in Hj'. cbn [fst snd]. unfold says. intros H1 H2. f_equal.
    destruct (Nat.ltb_spec j N), (Nat.ltb_spec j' N); apply Nat.eqb_eq in H1; apply Nat.eqb_eq in H2; lia.
Qed.
Lemma col_cells_ok j : j < N -> NoDup (col_cells j) /\ length (col_cells j) = M /\
  forall h p q, In h hs -> In p (col_cells j) -> In q (col_cells j) ->
    says N (fst p) (snd p) (snd h) = true -> says N (fst q) (snd q) (snd h) = true -> p = q.
Proof.
  intros Hj. unfold col_cells. split; [|split].
  - apply FinFun.Injective_map_NoDup; [intros x y E; inversion E; auto|apply seq_NoDup].
  - rewrite map_length, seq_length. auto.
  - intros h p q Hh Hp Hq. apply in_map_iff in Hp. apply in_map_iff in Hq. destruct Hp as (i & <- & Hi), Hq as (i' & <- & Hi').
    apply in_seq in Hi. apply in_seq in Hi'. cbn [fst snd]. unfold says. intros H1 H2. f_equal.
    rewrite (proj2 (Nat.ltb_lt j N) Hj) in *. apply Nat.eqb_eq in H1. apply Nat.eqb_eq in H2.
    destruct (ch_f _ _ _ _ _ _ Hch (snd h) (in_map snd _ _ Hh)) as [(Hl & Hnd & _) _].
    rewrite NoDup_nth in Hnd. change (m_rows T) with M in Hl. eapply Hnd; [lia|lia|]. rewrite H1, H2. auto.
Qed.
Lemma row_small i : small (length (row_cells i)).
Proof. destruct (row_cells_ok i) as (_ & -> & _). destruct Hin as (_ & _ & _ & Hc & Hc1 & _). lia. Qed.
Lemma col_small j : j < N -> small (length (col_cells j)).
Proof. intros Hj. destruct (col_cells_ok j Hj) as (_ & -> & _). destruct Hin as (_ & _ & Hc & _). lia. Qed.

(** A total weight of zero or infinity. *)
Lemma entries_zn L : (proj (wsum hs) = PInf \/ proj (wsum hs) = Fin 0%R) -> forall x, In x (entries N hs L) -> zn x.
Proof.
  intros HW x Hx. unfold entries in Hx. apply in_map_iff in Hx. destruct Hx as ([i j] & <- & _). cbn [fst snd].
  destruct (cell_le N hs i j hs_nn) as (Hc & _ & Hle). destruct HW as [HW|HW].
  - apply div_inf; auto.
  - destruct (Hle 0%R HW) as (c & Ec & Hc0). left. assert (c = 0%R) by lra. subst c. apply div_00; auto.
Qed.
Lemma wsum_cases : proj (wsum hs) = PInf \/ proj (wsum hs) = Fin 0%R \/ exists W, proj (wsum hs) = Fin W /\ (0 < W)%R.
Proof.
  destruct (cell_le N hs 0 0 hs_nn) as (_ & [H|(W & E & [HW| <-])] & _); auto.
  right. right. eauto.
Qed.

Lemma rlim_val : exists v, proj 1e-6%float = Fin v /\ (0 < v <= bp (-19))%R.
Proof.
  exists (fval 1e-6%float). split; [apply proj_fin, fin_SF; reflexivity|]. rewrite val_SF.
  change (Prim2SF 1e-6) with (S754_finite false 4722366482869645 (-72)). unfold SF2R, F2R, cond_Zopp, Fnum, Fexp.
  split; [apply Rmult_lt_0_compat; [apply IZR_lt; lia|apply bpow_gt_0]|].
  replace (bp (-19)) with (bp 53 * bp (-72))%R by (rewrite <- bpow_plus; reflexivity).
  apply Rmult_le_compat_r; [apply bpow_ge_0|]. change (bp 53) with (IZR (2 ^ 53)). apply IZR_le. lia.
Qed.

Lemma fexistence_zn l : (forall x, In x l -> zn x) -> fexistence fsum l = 0%float.
Proof.
  intros H. unfold fexistence. pose proof (zn_sum _ _ (Hsum l) H) as Hz. rewrite le_proj.
  destruct rlim_val as (v & Ev & Hv). rewrite Ev. destruct Hz as [E|E]; rewrite E.
  - reflexivity.
  - rewrite le_FF. destruct (Rleb_spec v 0%R); [lra|reflexivity].
Qed.

Lemma fexistence_val l r : proj (fsum l) = Fin r -> (0 <= r)%R ->
  exists r', proj (fexistence fsum l) = Fin r' /\ (0 <= r' <= r)%R /\ (r - r' <= bp (-19))%R.
Proof.
  intros Er Hr. unfold fexistence. rewrite le_proj, Er. destruct rlim_val as (v & Ev & Hv). rewrite Ev, le_FF.
  destruct (Rleb_spec v r) as [H|H].
  - exists r. pose proof (bpow_ge_0 radix2 (-19)). split; auto. lra.
  - exists 0%R. split; [apply proj_zero|]. split; lra.
Qed.

Lemma k7 k : (7 * INR k * uro <= INR k * bp (-50))%R.
Proof.
  unfold uro. replace (bp (-50)) with (8 * bp (-53))%R; [pose proof (pos_INR k); pose proof (bpow_gt_0 radix2 (-53)); nra|].
  change 8%R with (bp 3). rewrite <- bpow_plus. reflexivity.
Qed.

Lemma row_bound i : exists r, proj (fexistence fsum (entries N hs (row_cells i))) = Fin r /\
  (0 <= r <= 1 + INR (length hs + N + 1) * bp (-50))%R.
Proof.
  assert (Hpos : (0 <= INR (length hs + N + 1) * bp (-50))%R) by (apply Rmult_le_pos; [apply pos_INR|apply bpow_ge_0]).
  destruct wsum_cases as [H|[H|(W & HW & HWp)]].
  - rewrite fexistence_zn by (apply entries_zn; auto). exists 0%R. split; [apply proj_zero|lra].
  - rewrite fexistence_zn by (apply entries_zn; auto). exists 0%R. split; [apply proj_zero|lra].
  - destruct (row_cells_ok i) as (R1 & R2 & R3).
    destruct (group_bound N hs hs_nn hs_small W HW (row_cells i) R1 R3 HWp (row_small i) _ (Hsum _)) as (r & Er & Hr).
    destruct (fexistence_val _ r Er) as (r' & Er' & Hr' & _); [lra|]. exists r'. split; auto. rewrite R2 in Hr.
    pose proof (k7 (length hs + N + 1)) as K. 
    assert (E : INR (length hs + N + 1) = (INR (length hs) + INR (N + 1))%R) by (rewrite <- plus_INR; f_equal; lia).
    rewrite E in *. lra.
Qed.

Lemma sub_one t r : proj t = Fin r -> (0 <= r <= 2)%R -> proj (1 - t)%float = Fin (rnd (1 - r)).
Proof.
  intros Et Hr. rewrite <- proj_sub, Et, proj_one. cbn [nsub roundN]. unfold rnd_sub, rfin.
  rewrite (rnd_lt_emax (1 - r) 0); auto; [lia|]. simpl bpow. apply Rabs_le. lra.
Qed.

Lemma col_bound j W : j < N -> proj (wsum hs) = Fin W -> (0 < W)%R ->
  exists b, proj (1 - fsum (entries N hs (col_cells j)))%float = Fin b /\
    (- (INR (length hs + M) * bp (-50)) <= b <= 1)%R.
Proof.
  intros Hj HW HWp. destruct (col_cells_ok j Hj) as (R1 & R2 & R3).
  destruct (group_bound N hs hs_nn hs_small W HW (col_cells j) R1 R3 HWp (col_small j Hj) _ (Hsum _)) as (r & Er & Hr).
  rewrite R2 in Hr. rewrite <- plus_INR in Hr.
  assert (Hk : (7 * INR (length hs + M) * uro <= / 2)%R).
  { pose proof hs_small. destruct Hin as (_ & _ & HM & _).
    assert (HI : (INR (length hs + M) <= bp 21)%R).
    { rewrite INR_IZR_INZ. change (bp 21) with (IZR (2 ^ 21)). apply IZR_le. lia. }
    unfold uro. apply Rle_trans with (8 * bp 21 * bp (-53))%R.
    + apply Rmult_le_compat_r; [apply bpow_ge_0|]. pose proof (pos_INR (length hs + M)). lra.
    + change 8%R with (bp 3). rewrite <- !bpow_plus. change (/ 2)%R with (bp (-1)). apply bpow_le. lia. }
  exists (rnd (1 - r)). split; [apply sub_one; auto; lra|]. split.
  - assert (Hrnd : (Rabs (rnd (1 + - r) - (1 + - r)) <= uro * Rabs (1 + - r))%R).
    { apply rnd_plus; [eapply proj_Fin_format, proj_one|]. apply generic_format_opp. eapply proj_Fin_format; eauto. }
    replace (1 + - r)%R with (1 - r)%R in Hrnd by ring. apply Rabs_le_inv in Hrnd.
    set (k := INR (length hs + M)) in *. pose proof (pos_INR (length hs + M)) as Hk0. fold k in Hk0.
    destruct (Rle_lt_dec r 1) as [H1|H1].
    + rewrite Rabs_pos_eq in Hrnd by lra. assert (0 <= rnd (1 - r))%R by (apply rnd_pos; lra).
      assert (0 <= k * bp (-50))%R by (apply Rmult_le_pos; [auto|apply bpow_ge_0]). lra.
    + rewrite Rabs_left in Hrnd by lra.
      assert (E50 : bp (-50) = (8 * uro)%R) by (unfold uro; change 8%R with (bp 3); rewrite <- bpow_plus; reflexivity).
      rewrite E50. pose proof uro_pos as Hu. pose proof uro_le as Hu2.
      assert (H2 : (uro * (r - 1) <= / 8 * (r - 1))%R) by (apply Rmult_le_compat_r; lra).
      assert (H3 : (0 <= k * uro)%R) by (apply Rmult_le_pos; lra). lra.
  - replace 1%R with (rnd 1) at 2; [apply rnd_le; lra|]. apply round_generic; [apply valid_rnd_N|]. eapply proj_Fin_format, proj_one.
Qed.
End Used.

(** ** The results *)
Variables (fuel : nat) (out : fcorrected).
Hypothesis Hrun : fcorrect expf pick fsum w_lim nhyp_max fuel N C rs = Ok out.

Lemma run_outcome : exists hs, outcome hs out.
Proof. destruct fcorrect_spec as [H _]. specialize (H fuel). rewrite Hrun in H. exact H. Qed.

Lemma nth_map_seq {A} (f : nat -> A) d n i : i < n -> nth i (map f (seq 0 n)) d = f i.
Proof.
  intros Hi. rewrite (nth_indep _ d (f 0)) by (rewrite map_length, seq_length; auto). rewrite map_nth, seq_nth by auto. auto.
Qed.

Lemma existence_bounds : length rs = M -> (forall r, In r rs -> fin r /\ (0 <= fval r <= 1)%R) ->
  small (fc_n out) /\ length (fc_r out) = M /\
  forall i, i < M -> fin (nth i (fc_r out) nan) /\
    (0 <= fval (nth i (fc_r out) nan) <= 1 + INR (fc_n out + N + 1) * bp (-50))%R.
Proof.
  intros Hl Hrs. destruct run_outcome as (hs & Hch & En & Ew & H0 & H1).
  split; [rewrite En; apply hs_small; auto|].
  destruct hs as [|h hs'] eqn:Eh.
  - destruct (H0 eq_refl) as (_ & -> & _). split; auto. intros i Hi.
    assert (Hr : In (nth i rs nan) rs) by (apply nth_In; lia). destruct (Hrs _ Hr) as [F B]. split; auto.
    assert (0 <= INR (fc_n out + N + 1) * bp (-50))%R by (apply Rmult_le_pos; [apply pos_INR|apply bpow_ge_0]). lra.
  - rewrite <- Eh in *. destruct (H1 ltac:(subst; discriminate)) as (_ & -> & _). split; [rewrite map_length, seq_length; auto|].
    intros i Hi. rewrite nth_map_seq by auto. destruct (row_bound hs Hch i) as (r & Er & Hr). rewrite En.
    apply proj_Fin in Er. destruct Er as [F ->]. auto.
Qed.

Lemma birth_bounds : length (fc_rB out) = N /\
  forall j, j < N -> (fc_n out = 0 \/ (fin (fc_w out) /\ (0 < fval (fc_w out))%R)) ->
    fin (nth j (fc_rB out) nan) /\
    (- (INR (fc_n out + M) * bp (-50)) <= fval (nth j (fc_rB out) nan) <= 1)%R.
Proof.
  destruct run_outcome as (hs & Hch & En & Ew & H0 & H1).
  destruct hs as [|h hs'] eqn:Eh.
  - destruct (H0 eq_refl) as (_ & _ & ->). split; [apply repeat_length|]. intros j Hj _.
    rewrite (nth_indep _ nan 1%float) by (rewrite repeat_length; auto). rewrite nth_repeat.
    destruct (proj_Fin _ _ proj_one) as [F V]. rewrite V. split; auto.
    assert (0 <= INR (fc_n out + M) * bp (-50))%R by (apply Rmult_le_pos; [apply pos_INR|apply bpow_ge_0]). lra.
  - rewrite <- Eh in *. destruct (H1 ltac:(subst; discriminate)) as (_ & _ & ->). split; [rewrite map_length, seq_length; auto|].
    intros j Hj [Hn|[Hf Hw]]; [rewrite En, Eh in Hn; discriminate|]. rewrite nth_map_seq by auto. rewrite Ew in *.
    destruct (col_bound hs Hch j (fval (wsum hs)) Hj) as (b & Eb & Hb); auto; [apply proj_fin; auto|].
    apply proj_Fin in Eb. destruct Eb as [F ->]. rewrite En. auto.
Qed.

(** Total weight zero or infinite: no target exists any more. *)
Lemma lost : fc_n out <> 0 -> ~ (fin (fc_w out) /\ (0 < fval (fc_w out))%R) ->
  forall i, i < M -> nth i (fc_r out) nan = 0%float.
Proof.
  intros Hn Hw i Hi. destruct run_outcome as (hs & Hch & En & Ew & H0 & H1).
  assert (Hne : hs <> []) by (intros ->; apply Hn; auto). destruct (H1 Hne) as (_ & -> & _). rewrite nth_map_seq by auto.
  apply fexistence_zn. apply entries_zn; auto. destruct (wsum_cases hs Hch) as [H|[H|(W & H & HW)]]; auto.
  exfalso. apply Hw. rewrite Ew. apply proj_Fin in H. destruct H as [F V]. rewrite V. auto.
Qed.

(** ** Marginals *)
Hypothesis Hacc : exp_accurate expf.
Hypothesis Ha15 : (a <= 15)%Z.
Hypothesis Hn0 : fc_n out <> 0.
Hypothesis Hwf : fin (fc_w out).
Hypothesis Hwb : (bp (-600) <= fval (fc_w out) <= bp 900)%R.
Notation pr := (fun s => exp (- total T s)).

Definition gw (h : hyp) : R := pr (snd h).
Lemma sum_gw (hs : list hyp) : sumf gw hs = sumf pr (map snd hs).
Proof. induction hs as [|h l IH]; auto. cbn [map sum_over]. rewrite IH. auto. Qed.
Lemma here_gw (hs : list hyp) i j : sumf (here N i j gw) hs = sumf (fun s => if says N i j s then pr s else 0%R) (map snd hs).
Proof. induction hs as [|h l IH]; auto. cbn [map sum_over]. rewrite IH. auto. Qed.

Lemma marginals_close : exists ds, length ds = fc_n out /\ NoDup ds /\ (forall s, In s ds -> feasible T s) /\
  ((forall s, feasible T s -> In s ds) \/ PrimFloat.leb nhyp_max (nofnat floatN (fc_n out)) = true \/
   exists s, In s ds /\ (fin w_lim -> pr s / sum_over pr ds <= fval w_lim + bp (-20))%R) /\
  (forall i j, i < M -> j <= N -> let x := nth (i * (N + 1) + j) (fc_R out) nan in
     fin x /\ (0 <= fval x <= 1)%R /\ (Rabs (fval x - marginal N pr ds i j) <= bp (-20))%R) /\
  (forall i, i < M -> let x := nth i (fc_r out) nan in
     fin x /\ (Rabs (fval x - sum_over (marginal N pr ds i) (seq 0 (N + 1))) <= bp (-18))%R) /\
  (forall j, j < N -> let x := nth j (fc_rB out) nan in
     fin x /\ (Rabs (fval x - (1 - sum_over (fun i => marginal N pr ds i j) (seq 0 M))) <= bp (-19))%R).
Proof.
  destruct run_outcome as (hs & Hch & En & Ew & H0 & H1).
  assert (Hne : hs <> []) by (intros ->; apply Hn0; auto). destruct (H1 Hne) as (HR & Hr & HB). clear H0 H1.
  pose proof (hs_nn hs Hch) as Hnn. pose proof (hs_small hs Hch) as Hsm.
  set (W := fval (fc_w out)) in *. assert (HW : proj (wsum hs) = Fin W) by (rewrite <- Ew; apply proj_fin; auto).
  assert (Hgn : forall h, In h hs -> (0 <= gw h)%R) by (intros h _; left; apply exp_pos).
  assert (Hcl : forall h, In h hs -> (Rabs (wt h - gw h) <= bp (-26) * gw h + bp (-800))%R).
  { intros h Hh. destruct (proj1 (Forall_forall _ _) (ch_w _ _ _ _ _ _ Hch) h Hh) as (x & Ex & Fx & Bx).
    destruct (hs_fin hs Hnn W HW h Hh) as [Fh _]. unfold gw.
    apply (weight_close expf x); auto.
    - eapply Rle_trans; [exact Bx|]. apply bpow_le. lia.
    - rewrite <- Ex. apply proj_fin; auto.
    - apply Rle_trans with W; [apply (wt_le N hs Hnn W HW h Hh)|]. apply Rle_trans with (bp 900); [lra|]. apply bpow_le. lia. }
  assert (Hmarg : forall i j, marginal N pr (map snd hs) i j = (sumf (here N i j gw) hs / sumf gw hs)%R).
  { intros i j. unfold marginal. rewrite here_gw, sum_gw. auto. }
  pose proof (G_close hs Hnn Hsm W HW ltac:(lra) gw Hgn Hcl) as (HGc & HGlo & HWp).
  exists (map snd hs). split; [rewrite map_length; auto|]. split; [apply Hch|]. split; [apply Hch|].
  pose proof (bp_double (-20)) as D19. pose proof (bp_double (-19)) as D18. simpl Z.add in *.
  pose proof (bpow_gt_0 radix2 (-20)) as P20.
  split; [|split; [|split]].
  - destruct (ch_stop _ _ _ _ _ _ Hch) as [Hall|(pre & h & Eh & Hst)]; auto. right.
    unfold fstop in Hst. apply orb_true_iff in Hst. destruct Hst as [Hst|Hst]; [|left; rewrite En; auto].
    right. assert (Hh : In h hs) by (rewrite Eh; apply in_app_iff; simpl; auto).
    exists (snd h). split; [apply in_map; auto|]. intros Hwl.
    destruct (share_close N hs Hnn Hsm W HW ltac:(lra) gw Hgn Hcl h Hh) as (q & Eq & _ & Hq).
    apply Rabs_le_inv in Hq.
    assert (Hst' : nlt extR (proj (fst h / wsum hs)%float) (proj w_lim) = true) by (rewrite <- Hst; apply proj_lt).
    rewrite Eq, (proj_fin w_lim Hwl), lt_FF in Hst'.
    destruct (Rltb_spec q (fval w_lim)); [|discriminate].
    assert (Hfin : (gw h / sumf gw hs <= fval w_lim + bp (-20))%R) by lra. rewrite sum_gw in Hfin. exact Hfin.
  - intros i j Hi Hj x. unfold x. rewrite HR by auto. rewrite Hmarg.
    destruct (entry_close N hs Hnn Hsm W HW ltac:(lra) gw Hgn Hcl i j) as (q & Eq & Hq & Hc).
    apply proj_Fin in Eq. destruct Eq as [F ->]. split; auto. split; auto. eapply Rle_trans; [exact Hc|].
    pose proof (m_bounds N hs gw Hgn i j) as [M0 M1]. pose proof (bpow_gt_0 radix2 (-601)).
    assert (Hmu : (sumf (here N i j gw) hs / sumf gw hs <= 1)%R) by (apply quot_le; lra).
    pose proof (bp_double (-21)) as D. simpl Z.add in D. rewrite D.
    assert (bp (-100) <= bp (-21))%R by (apply bpow_le; lia).
    assert (bp (-21) * (sumf (here N i j gw) hs / sumf gw hs) <= bp (-21) * 1)%R by (apply Rmult_le_compat_l; [apply bpow_ge_0|lra]). lra.
  - intros i Hi x. unfold x. rewrite Hr, nth_map_seq by auto. destruct (row_cells_ok hs i) as (R1 & R2 & R3).
    destruct (group_close N hs Hnn Hsm W HW ltac:(lra) gw Hgn Hcl (row_cells i) R1 R3 (row_small hs i) _ (Hsum _)) as (r & Er & Hc).
    assert (E : sumf (fun p => (sumf (here N (fst p) (snd p) gw) hs / sumf gw hs)%R) (row_cells i) =
                sumf (marginal N pr (map snd hs) i) (seq 0 (N + 1))).
    { unfold row_cells. rewrite sumf_map. apply sumf_ext. intros j _. rewrite Hmarg. auto. }
    rewrite E in Hc. set (S := sumf _ (seq 0 (N + 1))) in *. change (sum_over _ (seq 0 (N + 1))) with S.
    destruct (group_bound N hs Hnn Hsm W HW (row_cells i) R1 R3 HWp (row_small hs i) _ (Hsum _)) as (r0 & Er0 & Hr0).
    rewrite Er in Er0. inversion Er0; subst r0.
    destruct (fexistence_val _ r Er ltac:(lra)) as (r' & Er' & Hr' & Hd). apply proj_Fin in Er'. destruct Er' as [F ->].
    split; auto. apply Rabs_le_inv in Hc. apply Rabs_le. lra.
  - intros j Hj x. unfold x. rewrite HB, nth_map_seq by auto. destruct (col_cells_ok hs Hch j Hj) as (R1 & R2 & R3).
    destruct (group_close N hs Hnn Hsm W HW ltac:(lra) gw Hgn Hcl (col_cells j) R1 R3 (col_small hs Hch j Hj) _ (Hsum _)) as (r & Er & Hc).
    assert (E : sumf (fun p => (sumf (here N (fst p) (snd p) gw) hs / sumf gw hs)%R) (col_cells j) =
                sumf (fun i => marginal N pr (map snd hs) i j) (seq 0 M)).
    { unfold col_cells. rewrite sumf_map. apply sumf_ext. intros i _. rewrite Hmarg. auto. }
    rewrite E in Hc.
    assert (HS : (0 <= sumf (fun i => marginal N pr (map snd hs) i j) (seq 0 M) <= 1)%R).
    { rewrite <- E, sumf_div. pose proof (bpow_gt_0 radix2 (-601)). split.
      - apply quot_ge; [|lra]. apply sumf_nonneg. intros p _. apply (m_bounds N hs gw Hgn).
      - apply quot_le; [lra|]. rewrite Rmult_1_l. apply (group_sum N hs (col_cells j) R1 R3 gw Hgn). }
    set (S := sumf _ (seq 0 M)) in *. change (sum_over _ (seq 0 M)) with S.
    destruct (group_bound N hs Hnn Hsm W HW (col_cells j) R1 R3 HWp (col_small hs Hch j Hj) _ (Hsum _)) as (r0 & Er0 & Hr0).
    rewrite Er in Er0. inversion Er0; subst r0. apply Rabs_le_inv in Hc.
    assert (P20s : (bp (-20) <= / 1024)%R) by (change (/ 1024)%R with (bp (-10)); apply bpow_le; lia).
    pose proof (sub_one _ r Er ltac:(lra)) as Es. apply proj_Fin in Es. destruct Es as [F ->]. split; auto.
    assert (Hrnd : (Rabs (rnd (1 - r) - (1 - r)) <= bp (1 - 53))%R).
    { apply rnd_err; [lia|]. change (bp 1) with 2%R. apply Rabs_le. lra. }
    assert (bp (1 - 53) <= bp (-20))%R by (apply bpow_le; lia). apply Rabs_le_inv in Hrnd. apply Rabs_le. lra.
Qed.
End Result.
