(** The overlap in doubles. *)
From Coq Require Import List Arith Lia ZArith Reals Lra Bool Sorting.Permutation.
From Flocq Require Import Core BinarySingleNaN.
From Coq Require Import Floats.
Import ListNotations.
From Verif Require Import Scalar FloatBase FloatExt FloatSum ClusterFloat GMFloat GMFloatSpec GMFloatProofs GMFloatMatch OverlapFloat OverlapFloatSpec.
Local Open Scope R_scope.
Notation fval := FloatBase.val.
Notation bp := (bpow radix2).

Lemma one_ok : fin 1%float /\ fval 1%float = 1.
Proof. split; [apply fin_SF; reflexivity|rewrite val_SF; cbv -[IZR Rmult Rplus Rinv]; lra]. Qed.

(** Counting in doubles is exact in whatever order. *)
Lemma count_exact l s : fsums l s -> (forall x, In x l -> x = 1%float) -> (length l <= 1000)%nat -> fin s /\ fval s = INR (length l).
Proof.
  intros H. induction H as [|x|l l' s s' H1 IH1 H2 IH2|l l' s HP H IH]; intros Hx Hl.
  - destruct (proj_Fin _ _ proj_zero) as [F V]. split; [exact F|]. exact V.
  - rewrite (Hx x (or_introl eq_refl)). destruct one_ok as [F V]. split; [exact F|]. rewrite V. simpl. lra.
  - rewrite app_length in *. destruct IH1 as [F V]; [intros x Hi; apply Hx, in_app_iff; auto|lia|].
    destruct IH2 as [F' V']; [intros x Hi; apply Hx, in_app_iff; auto|lia|].
    destruct (ofnat_ok (length l + length l')) as [Fk Vk]; [lia|].
    assert (E : rnd (INR (length l + length l')) = INR (length l + length l')).
    { rewrite <- Vk. unfold rnd. apply round_generic; [apply valid_rnd_N|]. apply val_format. }
    destruct (f_add s s' 10 ltac:(lia) F F') as [Fs Vs].
    { rewrite V, V', <- plus_INR, Rabs_pos_eq by apply pos_INR. apply Rle_trans with (INR 1000); [apply le_INR; exact Hl|]. rewrite INR_IZR_INZ. simpl. lra. }
    split; [exact Fs|]. rewrite Vs, V, V', <- plus_INR. exact E.
  - rewrite <- (Permutation_length HP) in *. apply IH; [|exact Hl]. intros x Hi. apply Hx, (Permutation_in _ HP), Hi.
Qed.

Lemma filter_count b : length (filter (fun b : bool => b) b) = count_occ bool_dec b true.
Proof. induction b as [|[] b IH]; cbn; auto. Qed.
Lemma count_le b : (count_occ bool_dec b true <= length b)%nat.
Proof. induction b as [|x b IH]; cbn; [lia|]. destruct (bool_dec x true); lia. Qed.

Section Overlap.
Variable fsum : list float -> float.
Hypothesis Hsum : forall l, fsums l (fsum l).

Lemma gauss_overlap b : length b = 1000%nat ->
  upto 1 (fgauss_overlap fsum b) /\ fval (fgauss_overlap fsum b) = rnd (sample_share b).
Proof.
  intros Hb. unfold fgauss_overlap, sample_share. pose proof (count_le b) as Hc. rewrite Hb in *. rewrite <- filter_count in *.
  set (f := filter _ b) in *.
  destruct (count_exact _ _ (Hsum (map (fun _ => 1%float) f))) as [F V].
  { intros x Hx. apply in_map_iff in Hx. destruct Hx as (? & <- & _). reflexivity. }
  { rewrite map_length. exact Hc. }
  rewrite map_length in V. set (s := fsum _) in *.
  assert (V1000 : fin 1000%float /\ fval 1000%float = 1000).
  { split; [apply fin_SF; reflexivity|rewrite val_SF; cbv -[IZR Rmult Rplus Rinv]; lra]. }
  replace (INR 1000) with 1000 by (rewrite INR_IZR_INZ; reflexivity).
  assert (Hk' : 0 <= INR (length f) <= 1000) by (split; [apply pos_INR|]; replace 1000 with (INR 1000) by (rewrite INR_IZR_INZ; reflexivity); apply le_INR; auto).
  assert (Hq : 0 <= INR (length f) / 1000 <= 1) by lra.
  pose proof (div_fin _ _ _ _ (proj_fin _ F) (proj_fin _ (proj1 V1000))) as Hd. rewrite V, (proj2 V1000) in Hd.
  specialize (Hd ltac:(lra)). rewrite Rabs_pos_eq in Hd by lra.
  specialize (Hd ltac:(apply Rle_trans with (bp 0); [simpl; lra|apply bpow_le; lia])).
  destruct (proj_Fin _ _ Hd) as [Fo Vo]. split; [|exact Vo]. split; [exact Fo|]. rewrite Vo.
  pose proof (rnd_pos _ (proj1 Hq)). pose proof (rnd_le _ _ (proj2 Hq)) as Hl.
  assert (E1 : rnd 1 = 1) by (change 1 with (bp 0); unfold rnd; apply round_generic; [apply valid_rnd_N|apply bpow_format; lia]). lra.
Qed.

Lemma count_all b : (count_occ bool_dec b true = length b)%nat <-> forall x, In x b -> x = true.
Proof.
  induction b as [|x b [I1 I2]]; cbn; [split; [intros _ ? []|auto]|]. pose proof (count_le b). destruct (bool_dec x true) as [->|Hx].
  - split; [intros E y [<-|Hy]; auto; apply I1; auto|intros H1; f_equal; apply I2; auto].
  - split; [lia|]. intros H1. destruct Hx. apply H1. auto.
Qed.
Lemma count_none b : (count_occ bool_dec b true = 0)%nat <-> forall x, In x b -> x = false.
Proof.
  induction b as [|x b [I1 I2]]; cbn; [split; [intros _ ? []|auto]|]. destruct (bool_dec x true) as [->|Hx].
  - split; [lia|]. intros H. specialize (H true (or_introl eq_refl)). discriminate.
  - split; [intros E y [<-|Hy]; [destruct x; congruence|apply I1; auto]|intros H1; apply I2; auto].
Qed.

Lemma gauss_ends b : length b = 1000%nat ->
  (fval (fgauss_overlap fsum b) = 1 <-> forall x, In x b -> x = true) /\ (fval (fgauss_overlap fsum b) = 0 <-> forall x, In x b -> x = false).
Proof.
  intros Hb. destruct (gauss_overlap b Hb) as [_ ->]. rewrite <- count_all, <- count_none. unfold sample_share. pose proof (count_le b) as Hc. rewrite Hb in *.
  set (k := count_occ bool_dec b true) in *. clearbody k. replace (INR 1000) with 1000 by (rewrite INR_IZR_INZ; reflexivity).
  assert (E1 : rnd 1 = 1) by (change 1 with (bp 0); unfold rnd; apply round_generic; [apply valid_rnd_N|apply bpow_format; lia]).
  assert (E10 : rnd (bp (-10)) = bp (-10)) by (unfold rnd; apply round_generic; [apply valid_rnd_N|apply bpow_format; lia]).
  assert (U : uro <= / 100000) by (unfold uro; apply Rle_trans with (bp (-20)); [apply bpow_le; lia|simpl; lra]).
  assert (H : bp (-1075) <= / 100000) by (apply Rle_trans with (bp (-20)); [apply bpow_le; lia|simpl; lra]).
  assert (P10 : 0 < bp (-10) <= / 1000) by (simpl; lra).
  assert (K999 : (k < 1000)%nat -> INR k <= 999) by (intros L; replace 999 with (INR 999) by (rewrite INR_IZR_INZ; reflexivity); apply le_INR; lia).
  assert (K1 : (0 < k)%nat -> 1 <= INR k) by (intros L; change 1 with (INR 1); apply le_INR; lia).
  split; split; intros E.
  - destruct (Nat.eq_dec k 1000) as [|D]; [assumption|]. exfalso. specialize (K999 ltac:(lia)). pose proof (pos_INR k) as K0.
    assert (Hs : 0 <= INR k / 1000 <= 999 / 1000) by lra. pose proof (rnd_rel _ (proj1 Hs)) as R. rewrite E in R. pose proof uro_pos.
    apply Rabs_le_inv in R. set (q := INR k / 1000) in *. assert (uro * q <= / 100000 * 1) by (apply Rmult_le_compat; lra). lra.
  - subst k. replace (INR 1000) with 1000 by (rewrite INR_IZR_INZ; reflexivity). replace (1000 / 1000) with 1 by lra. exact E1.
  - destruct (Nat.eq_dec k 0) as [|D]; [assumption|]. exfalso. specialize (K1 ltac:(lia)).
    assert (L : bp (-10) <= INR k / 1000) by lra. apply rnd_le in L. lra.
  - subst k. cbn [INR]. replace (0 / 1000) with 0 by lra. unfold rnd. apply round_0. apply valid_rnd_N.
Qed.

Lemma share_unit b : 0 <= sample_share b.
Proof.
  unfold sample_share. destruct b as [|x b]; [cbn; unfold Rdiv; lra|]. apply Rmult_le_pos; [apply pos_INR|]. apply Rlt_le, Rinv_0_lt_compat, lt_0_INR. cbn. lia.
Qed.

Lemma share_nonneg c : (forall g, In g c -> upto 1 (fst g)) -> 0 <= mixture_share c.
Proof.
  induction c as [|[w b] c IH]; intros H; cbn; [lra|]. destruct (H _ (or_introl eq_refl)) as [_ Hw]. cbn in Hw. pose proof (share_unit b).
  specialize (IH (fun g Hg => H g (or_intror Hg))). assert (0 <= fval w * sample_share b) by (apply Rmult_le_pos; lra). lra.
Qed.

Notation term := (fun cmp : float * list bool => (fst cmp * fgauss_overlap fsum (snd cmp))%float).

Lemma terms c : (forall g, In g c -> upto 1 (fst g) /\ length (snd g) = 1000%nat) ->
  (forall x, In x (map term c) -> upto 1 x) /\
  Rabs (vsum (map term c) - mixture_share c) <= 3 * uro * mixture_share c + INR (length c) * (3 * bp (-1075)).
Proof.
  induction c as [|[w b] c IH]; intros H.
  - split; [intros ? []|]. cbn. rewrite Rminus_0_r, Rabs_R0. lra.
  - destruct (IH (fun g Hg => H g (or_intror Hg))) as [H1 H2]. destruct (H _ (or_introl eq_refl)) as [Hw Hb]. cbn [fst snd] in Hw, Hb.
    destruct (gauss_overlap b Hb) as [Uo Vo].
    destruct (mul_close w (fgauss_overlap fsum b) (sample_share b) 1 1 Hw Uo (share_unit b)) as (U & _ & E); try lra.
    { rewrite Vo, !Rmult_1_l. apply rnd_rel, share_unit. }
    split; [intros x [<-|Hx]; auto|]. cbn [map mixture_share length]. rewrite S_INR. unfold vsum in *. cbn [map fold_right rsum]. cbn [fst snd] in *.
    apply Rabs_le_inv in E. apply Rabs_le_inv in H2. apply Rabs_le. set (e := bp (-1075)) in *. lra.
Qed.

Lemma gm_overlap c : (forall g, In g c -> upto 1 (fst g) /\ length (snd g) = 1000%nat) -> (Z.of_nat (length c) <= 2 ^ 20)%Z ->
  let n := INR (length c) in let s := fgm_overlap fsum c in
  fin s /\ 0 <= fval s /\ Rabs (fval s - mixture_share c) <= (2 * n + 4) * bp (-53) * mixture_share c + n * bp (-1073).
Proof.
  intros Hc Hlen n s. destruct (terms c Hc) as [Ht Hd]. unfold fgm_overlap in s.
  pose proof (Hsum (map term c)) as Fs. fold s in Fs.
  assert (L : (Z.of_nat (length (map term c)) <= 2 ^ 50)%Z) by (rewrite map_length; lia).
  destruct (fsums_ok _ _ 1 Fs) as [t Et]; [split; [lra|change 1 with (bp 0); apply bpow_le; lia]| |exact L|].
  { intros x Hx. destruct (Ht x Hx) as [F B]. exists (fval x). split; [apply proj_fin; exact F|exact B]. }
  destruct (fsums_fin _ _ Fs) as [Hnn Hft].
  { intros x Hx. destruct (Ht x Hx) as [F B]. right. exists (fval x). split; [apply proj_fin; exact F|lra]. }
  destruct (Hft t Et) as [_ E]. specialize (E L). pose proof (nn_fin _ _ Hnn Et) as T0. apply proj_Fin in Et. destruct Et as [Ft Vt].
  rewrite map_length in E. fold n in E, Hd. rewrite Vt. split; [exact Ft|]. split; [exact T0|].
  pose proof (share_nonneg c (fun g Hg => proj1 (Hc g Hg))) as S0. set (sh := mixture_share c) in *. set (v := vsum (map term c)) in *. clearbody sh v.
  pose proof uro_pos as U0. change (bp (-53)) with uro.
  assert (N0 : 0 <= n) by apply pos_INR.
  assert (K : 8 * n * uro <= / 8).
  { assert (N : n <= bp 20) by (unfold n; rewrite INR_IZR_INZ; change (bp 20) with (IZR (2 ^ 20)); apply IZR_le; exact Hlen).
    apply Rle_trans with (8 * bp 20 * uro); [apply Rmult_le_compat_r; lra|]. unfold uro. change 8 with (bp 3). rewrite <- !bpow_plus.
    apply Rle_trans with (bp (-3)); [apply bpow_le; lia|simpl; lra]. }
  replace (bp (-1073)) with (4 * bp (-1075)) by (change 4 with (bp 2); rewrite <- bpow_plus; reflexivity).
  pose proof (bpow_ge_0 radix2 (-1075)) as H0. set (h := bp (-1075)) in *. clearbody h.
  assert (v <= sh + (3 * uro * sh + n * (3 * h))) by (apply Rabs_le_inv in Hd; lra).
  replace (t - sh) with ((t - v) + (v - sh)) by ring. eapply Rle_trans; [apply Rabs_triang|].
  assert (A : 2 * n * uro * v <= 2 * n * uro * (sh + (3 * uro * sh + n * (3 * h)))) by (apply Rmult_le_compat_l; [apply Rmult_le_pos; lra|assumption]).
  assert (B : 2 * n * uro * (3 * uro * sh) <= uro * sh) by (assert (0 <= uro * sh) by (apply Rmult_le_pos; lra); replace (2 * n * uro * (3 * uro * sh)) with ((6 * (n * uro)) * (uro * sh)) by ring; nra).
  assert (C : 2 * n * uro * (n * (3 * h)) <= n * h) by (assert (0 <= n * h) by (apply Rmult_le_pos; lra); replace (2 * n * uro * (n * (3 * h))) with ((6 * (n * uro)) * (n * h)) by ring; nra).
  lra.
Qed.
End Overlap.
