(** Mixtures in doubles: proofs. *)
From Coq Require Import List Arith Bool Lia ZArith Reals Lra.
From Flocq Require Import Core BinarySingleNaN IEEE754.PrimFloat.
From Coq Require Import Floats.
Import ListNotations.
From Verif Require Import Res Scalar Lap Murty MurtyProofs MurtyFloatMain.
From Verif Require Import FloatBase FloatExt LapRnd Cluster ClusterFloat FloatSum ClusterFloatLoop ClusterFloatNum ClusterFloatClose ClusterFloatMain.
From Verif Require Import GMFloat GMFloatSpec.
Local Open Scope R_scope.
Notation fval := FloatBase.val.
Notation vsum l := (rsum (map fval l)).

Lemma upto_nn B x : upto B x -> nn x.
Proof. intros [F H]. right. exists (fval x). split; [apply proj_fin; auto|lra]. Qed.
Lemma upto_proj B x : upto B x -> proj x = Fin (fval x).
Proof. intros [F H]. apply proj_fin; auto. Qed.
Lemma proj_upto B x r : proj x = Fin r -> 0 <= r <= B -> upto B x.
Proof. intros H Hr. apply proj_Fin in H. destruct H as [F V]. split; auto. rewrite V. auto. Qed.

Lemma fwsum_fsums ws : fsums ws (fwsum ws).
Proof. apply (fold_fsums ws [] 0%float fs_nil). Qed.

(** The sum is at least each term. *)
Lemma fold_ge l : forall s T, nn s -> (forall x, In x l -> nn x) -> proj (fold_left PrimFloat.add l s) = Fin T ->
  exists S, proj s = Fin S /\ 0 <= S <= T /\ forall x, In x l -> exists v, proj x = Fin v /\ 0 <= v <= T.
Proof.
  induction l as [|x l IH]; intros s T Hs Hl E; simpl in E.
  - exists T. split; auto. split; [pose proof (nn_fin _ _ Hs E); lra|intros x []].
  - destruct (nn_add s x Hs (Hl x (or_introl eq_refl))) as [Hn Hp].
    destruct (IH _ T Hn (fun y Hy => Hl y (or_intror Hy)) E) as (S & ES & HS & Hx).
    destruct (Hp _ ES) as (a & b & Ea & Eb & ->).
    pose proof (nn_fin _ _ Hs Ea) as Pa. pose proof (nn_fin _ _ (Hl x (or_introl eq_refl)) Eb) as Pb.
    assert (Ga : rnd a = a) by (destruct (proj_Fin _ _ Ea) as [_ <-]; apply rnd_val).
    assert (Gb : rnd b = b) by (destruct (proj_Fin _ _ Eb) as [_ <-]; apply rnd_val).
    pose proof (rnd_le a (a + b) ltac:(lra)) as La. pose proof (rnd_le b (a + b) ltac:(lra)) as Lb.
    exists a. split; auto. split; [lra|]. intros y [<-|Hy]; [exists b; split; auto; lra|auto].
Qed.

Definition few (ws : list float) : Prop := (Z.of_nat (length ws) <= 2 ^ 20)%Z.

Lemma few_INR ws : few ws -> 0 <= INR (length ws) <= bpow radix2 20.
Proof.
  intros H. split; [apply pos_INR|]. rewrite INR_IZR_INZ. change (bpow radix2 20) with (IZR (2 ^ 20)). apply IZR_le, H.
Qed.
Lemma few_small n : 0 <= n <= bpow radix2 20 -> 0 <= n * uro <= bpow radix2 (-33).
Proof.
  intros H. pose proof uro_pos. split; [nra|]. replace (bpow radix2 (-33)) with (bpow radix2 20 * uro); [apply Rmult_le_compat_r; lra|].
  unfold uro. rewrite <- bpow_plus. reflexivity.
Qed.

Section Sum.
Variable ws : list float.
Variable B : R.
Hypothesis HB : 0 <= B <= bpow radix2 900.
Hypothesis Hw : forall w, In w ws -> upto B w.
Hypothesis Hlen : few ws.
Notation n := (INR (length ws)).

Lemma sum_ok : exists t, proj (fwsum ws) = Fin t /\ 0 <= t /\ Rabs (t - vsum ws) <= 2 * n * uro * vsum ws /\
  0 <= vsum ws <= n * B /\ (forall w, In w ws -> fval w <= t).
Proof.
  destruct (fsums_ok ws (fwsum ws) B (fwsum_fsums ws) HB) as [t Et].
  { intros x Hx. exists (fval x). split; [eapply upto_proj; eauto|apply Hw; auto]. }
  { unfold few in Hlen. lia. }
  destruct (fsums_fin ws (fwsum ws) (fwsum_fsums ws)) as [Hn Hc].
  { intros x Hx. eapply upto_nn; eauto. }
  destruct (Hc t Et) as [_ Hclose]. specialize (Hclose ltac:(unfold few in Hlen; lia)).
  exists t. split; auto. split; [apply (nn_fin _ _ Hn Et)|]. split; auto. split.
  - split; [apply vsum_nonneg; intros x Hx; split; [eapply upto_nn; eauto|apply Hw; auto]|].
    apply vsum_le. intros x Hx. apply Hw; auto.
  - intros w Hin. destruct (fold_ge ws 0%float t nn_0) as (_ & _ & _ & Hx); auto.
    { intros x Hx. eapply upto_nn; eauto. }
    destruct (Hx w Hin) as (v & Ev & Hv). rewrite (upto_proj _ _ (Hw w Hin)) in Ev. injection Ev as ->. lra.
Qed.
End Sum.

Lemma lim_val : fin 1e-8%float /\ 0 < fval 1e-8%float <= / 99999999 /\ / 100000001 <= fval 1e-8%float.
Proof.
  split; [apply fin_SF; reflexivity|]. rewrite val_SF.
  replace (Prim2SF 1e-8) with (S754_finite false 6044629098073146 (-79)) by reflexivity.
  unfold SF2R, F2R, cond_Zopp, Fnum, Fexp. simpl bpow.
  assert (0 < 604462909807314587353088) by lra. split; [split|]; lra.
Qed.

(** ** Normalising *)
Section Normalize.
Variable ws : list float.
Variable B : R.
Hypothesis HB : 0 <= B <= bpow radix2 900.
Hypothesis Hw : forall w, In w ws -> upto B w.
Hypothesis Hlen : few ws.
Notation n := (INR (length ws)).

Lemma normalize_ok : exists t, proj (fwsum ws) = Fin t /\ 0 <= t /\ Rabs (t - vsum ws) <= 2 * n * uro * vsum ws /\
  ((t <= fval 1e-8%float /\ fnormalize ws = ([], 0%float)) \/
   (fval 1e-8%float < t /\ snd (fnormalize ws) = fwsum ws /\ length (fst (fnormalize ws)) = length ws /\
    (forall w, In w (fst (fnormalize ws)) -> upto 1 w) /\
    Forall2 (fun w w' => Rabs (fval w' - fval w / vsum ws) <= (4 * n + 4) * uro * (fval w / vsum ws) + bpow radix2 (-1075)) ws (fst (fnormalize ws)) /\
    Rabs (vsum (fst (fnormalize ws)) - 1) <= (4 * n + 4) * uro)).
Proof.
  destruct (sum_ok ws B HB Hw Hlen) as (t & Et & Ht & Hc & Hs & Hle). exists t. split; auto. split; auto. split; auto.
  destruct lim_val as (Fl & Vl & _). pose proof uro_pos as Hu. pose proof (few_INR ws Hlen) as Hn. pose proof (few_small _ Hn) as Hnu.
  unfold fnormalize. destruct (proj_Fin _ _ Et) as [Ft Vt].
  assert (EL : PrimFloat.ltb 1e-8 (fwsum ws) = Rlt_bool (fval 1e-8%float) t).
  { rewrite <- Vt. apply f_lt; auto. }
  rewrite EL. destruct (Rlt_bool_spec (fval 1e-8%float) t) as [Hlt|Hge]; [right|left; auto].
  split; auto. split; auto. cbn [fst snd]. split; [apply map_length|].
  assert (Hq : forall w, In w ws -> proj (w / fwsum ws)%float = Fin (rnd (fval w / t)) /\ 0 <= rnd (fval w / t) <= 1).
  { intros w Hin. destruct (Hw w Hin) as [Fw Bw]. pose proof (Hle w Hin) as Hwt.
    assert (H01 : 0 <= fval w / t <= 1).
    { split; [apply quot_ge; lra|]. apply (Rmult_le_reg_r t); [lra|]. unfold Rdiv. rewrite Rmult_assoc, Rinv_l by lra. lra. }
    split.
    - apply div_fin; auto; [apply proj_fin; auto|lra|]. rewrite Rabs_pos_eq by lra. apply Rle_trans with 1; [lra|].
      change 1 with (bpow radix2 0). apply bpow_le. lia.
    - split; [apply rnd_pos; lra|]. replace 1 with (rnd 1); [apply rnd_le; lra|].
      destruct (proj_Fin _ _ proj_one) as [_ V1]. rewrite <- V1. apply rnd_val. }
  split.
  { intros w Hin. apply in_map_iff in Hin. destruct Hin as (w0 & <- & Hin). destruct (Hq w0 Hin) as [E H]. eapply proj_upto; eauto. }
  set (s := vsum ws) in *.
  assert (H4 : bpow radix2 (-33) <= / 1000) by (rewrite <- (Rinv_inv (bpow radix2 (-33))); apply Rinv_le; [lra|]; rewrite <- bpow_opp; simpl; lra).
  assert (Hst : 0 < s).
  { destruct (Rle_lt_or_eq_dec 0 s (proj1 Hs)) as [|E]; auto. exfalso. rewrite <- E in Hc. rewrite Rmult_0_r, Rminus_0_r in Hc.
    apply Rabs_le_inv in Hc. lra. }
  apply Rabs_le_inv in Hc.
  assert (Hqq : 0 < s / t) by (apply Rdiv_lt_0_compat; lra).
  assert (Hq1 : Rabs (s / t - 1) <= 2 * n * uro * (s / t)).
  { replace (s / t - 1) with ((s - t) / t) by (field; lra). replace (2 * n * uro * (s / t)) with (2 * n * uro * s / t) by (field; lra).
    unfold Rdiv. rewrite Rabs_mult, (Rabs_pos_eq (/ t)) by (left; apply Rinv_0_lt_compat; lra).
    apply Rmult_le_compat_r; [left; apply Rinv_0_lt_compat; lra|]. apply Rabs_le. lra. }
  apply Rabs_le_inv in Hq1.
  assert (Hq2 : s / t <= 3 / 2) by nra.
  assert (Hnu0 : 0 <= 2 * n * uro <= / 500) by lra.
  split.
  - (* each weight *)
    assert (HF : forall l, (forall w, In w l -> In w ws) ->
      Forall2 (fun w w' => Rabs (fval w' - fval w / s) <= (4 * n + 4) * uro * (fval w / s) + bpow radix2 (-1075)) l (map (fun w => (w / fwsum ws)%float) l)).
    { induction l as [|w l IH]; intros Hl; constructor.
      - destruct (Hq w (Hl w (or_introl eq_refl))) as [E H]. destruct (proj_Fin _ _ E) as [_ ->].
        destruct (Hw w (Hl w (or_introl eq_refl))) as [Fw Bw].
        set (a := fval w) in *.
        assert (Hat : 0 <= a / t) by (apply quot_ge; lra).
        pose proof (rnd_rel (a / t) Hat) as Hr. apply Rabs_le_inv in Hr.
        assert (Eat : a / t = (a / s) * (s / t)) by (field; lra).
        assert (Has : 0 <= a / s) by (apply quot_ge; lra).
        assert (Hd : Rabs (a / t - a / s) <= 2 * n * uro * (3 / 2) * (a / s)).
        { rewrite Eat. replace (a / s * (s / t) - a / s) with (a / s * (s / t - 1)) by ring. rewrite Rabs_mult, (Rabs_pos_eq (a / s)) by auto.
          rewrite (Rmult_comm (2 * n * uro * (3 / 2))). apply Rmult_le_compat_l; auto. apply Rabs_le.
          assert (2 * n * uro * (s / t) <= 2 * n * uro * (3 / 2)) by (apply Rmult_le_compat_l; lra). lra. }
        apply Rabs_le_inv in Hd.
        assert (Hat2 : a / t <= a / s * (3 / 2)) by (rewrite Eat; apply Rmult_le_compat_l; lra).
        assert (Hu2 : uro * (a / t) <= uro * (a / s * (3 / 2))) by (apply Rmult_le_compat_l; lra).
        assert (0 <= n * uro * (a / s)) by (apply Rmult_le_pos; lra). assert (0 <= uro * (a / s)) by (apply Rmult_le_pos; lra).
        apply Rabs_le. lra.
      - apply IH. intros; apply Hl; simpl; auto. }
    apply HF. auto.
  - (* the sum *)
    assert (HS : forall l, (forall w, In w l -> In w ws) ->
      Rabs (vsum (map (fun w => (w / fwsum ws)%float) l) - vsum l / t) <= uro * (vsum l / t) + INR (length l) * bpow radix2 (-1075)).
    { induction l as [|w l IH]; intros Hl.
      - simpl. unfold Rdiv. rewrite !Rmult_0_l, Rminus_0_r, Rabs_R0. lra.
      - destruct (Hq w (Hl w (or_introl eq_refl))) as [E H]. destruct (proj_Fin _ _ E) as [_ Vq].
        destruct (Hw w (Hl w (or_introl eq_refl))) as [Fw Bw].
        assert (Hat : 0 <= fval w / t) by (apply quot_ge; lra). pose proof (rnd_rel _ Hat) as Hr. apply Rabs_le_inv in Hr.
        specialize (IH (fun y Hy => Hl y (or_intror Hy))). apply Rabs_le_inv in IH.
        rewrite map_cons. rewrite !vsum_cons, Vq. change (length (w :: l)) with (S (length l)). rewrite S_INR.
        replace ((fval w + vsum l) / t) with (fval w / t + vsum l / t) by (field; lra). apply Rabs_le. lra. }
    specialize (HS ws (fun w H => H)). apply Rabs_le_inv in HS. fold s in HS.
    assert (HN : n * bpow radix2 (-1075) <= uro).
    { apply Rle_trans with (bpow radix2 20 * bpow radix2 (-1075)); [apply Rmult_le_compat_r; [apply bpow_ge_0|lra]|].
      unfold uro. rewrite <- bpow_plus. apply bpow_le. lia. }
    assert (2 * n * uro * (s / t) <= 2 * n * uro * (3 / 2)) by (apply Rmult_le_compat_l; lra).
    assert (uro * (s / t) <= uro * (3 / 2)) by (apply Rmult_le_compat_l; lra).
    apply Rabs_le. lra.
Qed.
End Normalize.

(** ** Integers as doubles and back *)
Lemma ofnat_ok k : (Z.of_nat k <= 2 ^ 32)%Z -> fin (nofnat floatN k) /\ fval (nofnat floatN k) = INR k.
Proof.
  intros Hk. cbn [nofnat floatN]. unfold fin, FloatBase.val. rewrite of_int63_equiv.
  rewrite Uint63.of_Z_spec. rewrite Z.mod_small by (split; [lia|]; apply Z.le_lt_trans with (2 ^ 32)%Z; [lia|reflexivity]).
  pose proof (binary_normalize_correct prec emax Hprec Hmax mode_NE (Z.of_nat k) 0 false) as H. cbv zeta in H.
  assert (EF : F2R (Float radix2 (Z.of_nat k) 0) = INR k).
  { unfold F2R. simpl. rewrite Rmult_1_r. symmetry. apply INR_IZR_INZ. }
  rewrite EF in H.
  assert (ER : round radix2 fexp64 (round_mode mode_NE) (INR k) = INR k).
  { apply round_generic; [apply valid_rnd_N|]. rewrite <- EF. apply generic_format_F2R. intros Hz. unfold cexp. cbn [Fexp].
    assert (Hm : (mag radix2 (F2R (Float radix2 (Z.of_nat k) 0)) <= 33)%Z).
    { apply mag_le_bpow; [rewrite EF; rewrite INR_IZR_INZ; apply not_0_IZR; exact Hz|]. rewrite EF, INR_IZR_INZ, <- abs_IZR.
      change (bpow radix2 33) with (IZR (2 ^ 33)). apply IZR_lt. lia. }
    unfold SpecFloat.fexp, SpecFloat.emin, prec, emax. lia. }
  rewrite ER in H. rewrite Rlt_bool_true in H.
  - destruct H as (H1 & H2 & _). auto.
  - rewrite Rabs_pos_eq by apply pos_INR. rewrite INR_IZR_INZ. apply Rle_lt_trans with (IZR (2 ^ 32)); [apply IZR_le; auto|].
    change (IZR (2 ^ 32)) with (bpow radix2 32). apply bpow_lt. reflexivity.
Qed.

Lemma to_unsigned_ok x : fin x -> 0 <= fval x < bpow radix2 32 ->
  exists m, to_unsigned x = Ok m /\ INR m <= fval x < INR m + 1.
Proof.
  intros F H. unfold to_unsigned. rewrite fin_SF_iff in F. rewrite val_SF in *.
  destruct (Prim2SF x) as [s|s| |s m e]; try discriminate.
  - exists 0%nat. simpl. split; auto. lra.
  - destruct s.
    { exfalso. unfold SF2R in H. assert (F2R (Float radix2 (cond_Zopp true (Z.pos m)) e) < 0) by (apply F2R_lt_0; reflexivity). lra. }
    set (t := (if e <? 0 then Z.pos m / 2 ^ (- e) else Z.pos m * 2 ^ e)%Z).
    assert (Ht : (0 <= t)%Z /\ IZR t <= SF2R radix2 (S754_finite false m e) < IZR t + 1).
    { unfold SF2R, F2R, cond_Zopp, Fnum, Fexp, t. destruct (Z.ltb_spec e 0) as [He|He].
      - set (p := (2 ^ (- e))%Z). assert (Hp : (0 < p)%Z) by (apply Z.pow_pos_nonneg; lia).
        assert (Eb : bpow radix2 e = / IZR p).
        { replace e with (- (- e))%Z by lia. rewrite bpow_opp. f_equal. unfold p. rewrite <- IZR_Zpower by lia. reflexivity. }
        rewrite Eb. pose proof (Z.div_mod (Z.pos m) p ltac:(lia)) as Ed. pose proof (Z.mod_pos_bound (Z.pos m) p Hp) as Hb.
        set (q := (Z.pos m / p)%Z) in *. split; [apply Z.div_pos; lia|].
        assert (Hp' : 0 < IZR p) by (apply IZR_lt; auto).
        assert (H1 : IZR q * IZR p <= IZR (Z.pos m)) by (rewrite <- mult_IZR; apply IZR_le; lia).
        assert (H2 : IZR (Z.pos m) < (IZR q + 1) * IZR p) by (rewrite <- (plus_IZR q 1), <- mult_IZR; apply IZR_lt; lia).
        split.
        + apply (Rmult_le_reg_r (IZR p)); auto. rewrite Rmult_assoc, Rinv_l by lra. lra.
        + apply (Rmult_lt_reg_r (IZR p)); auto. rewrite Rmult_assoc, Rinv_l by lra. lra.
      - rewrite <- IZR_Zpower by lia. rewrite <- mult_IZR. change (Z.pow (radix_val radix2) e) with (2 ^ e)%Z.
        assert (0 < 2 ^ e)%Z by (apply Z.pow_pos_nonneg; lia). split; [lia|]. lra. }
    destruct Ht as [Ht0 Ht].
    assert (Hlt : (t < 4294967296)%Z) by (apply lt_IZR; change (IZR 4294967296) with (bpow radix2 32); lra).
    rewrite (proj2 (Z.ltb_lt _ _) Hlt). exists (Z.to_nat t). split; auto. rewrite INR_IZR_INZ, Z2Nat.id by auto. lra.
Qed.

(** ** Sampling *)
Fixpoint nsum (l : list nat) : nat := match l with [] => O | n :: l => (n + nsum l)%nat end.

Section Sample.
Variable cols : nat.
Hypothesis Hcols : (Z.of_nat cols < 2 ^ 31)%Z.

Lemma cols_lt : INR cols < bpow radix2 31.
Proof. rewrite INR_IZR_INZ. change (bpow radix2 31) with (IZR (2 ^ 31)). apply IZR_lt. lia. Qed.

Lemma share_ok w : upto 1 w -> exists m, to_unsigned (w * nofnat floatN cols)%float = Ok m /\
  INR m <= fval w * INR cols * (1 + uro) + bpow radix2 (-1075) /\
  fval w * INR cols * (1 - uro) - bpow radix2 (-1075) < INR m + 1.
Proof.
  intros [Fw Hw]. destruct (ofnat_ok cols) as [Fc Vc]; [lia|]. pose proof cols_lt as Hc. pose proof (pos_INR cols) as Hc0.
  assert (H0 : 0 <= fval w * INR cols <= bpow radix2 31) by (split; [apply Rmult_le_pos; lra|]; rewrite <- (Rmult_1_l (bpow radix2 31)); apply Rmult_le_compat; lra).
  destruct (f_mul w (nofnat floatN cols) 31 ltac:(lia) Fw Fc) as [Fm Vm].
  { rewrite Vc, Rabs_pos_eq; lra. }
  rewrite Vc in Vm. pose proof (rnd_rel _ (proj1 H0)) as Hr. apply Rabs_le_inv in Hr.
  pose proof (rnd_abs (fval w * INR cols) 31 ltac:(lia)) as Hb. pose proof (rnd_pos _ (proj1 H0)) as Hp.
  rewrite !Rabs_pos_eq in Hb by lra. specialize (Hb (proj2 H0)).
  destruct (to_unsigned_ok (w * nofnat floatN cols)%float Fm) as (m & Em & Hm).
  { rewrite Vm. split; auto. eapply Rle_lt_trans; [exact Hb|]. apply bpow_lt. lia. }
  exists m. split; auto. rewrite Vm in Hm. lra.
Qed.

Definition is_share (w : float) (m : nat) : Prop :=
  to_unsigned (w * nofnat floatN cols)%float = Ok m.

Lemma fsample_fold : forall ws s (done : list (option nat)) ns,
  Forall2 is_share ws ns -> (length done + nsum ns <= cols)%nat ->
  fold_left (fun acc iw =>
      '(out, col) <- acc;;
      n <- to_unsigned (snd iw * nofnat floatN cols)%float;;
      if (cols <? col + n)%nat then UB
      else Ok (firstn col out ++ repeat (Some (fst iw)) n ++ skipn (col + n) out, col + n)%nat)
    (combine (seq s (length ws)) ws) (Ok (done ++ repeat None (cols - length done), length done)) =
  Ok (done ++ flat_map (fun i => repeat (Some (fst i)) (snd i)) (combine (seq s (length ws)) ns) ++
        repeat None (cols - (length done + nsum ns)), length done + nsum ns)%nat.
Proof.
  induction ws as [|w ws IH]; intros s done ns HF Hle; inversion HF as [|? n ? ns' E HF']; subst.
  - simpl. rewrite Nat.add_0_r. reflexivity.
  - cbn [nsum] in Hle. cbn [length seq combine fold_left fst snd bind]. unfold is_share in E. rewrite E. cbn [bind].
    rewrite (proj2 (Nat.ltb_ge _ _)) by lia.
    specialize (IH (S s) (done ++ repeat (Some s) n) ns' HF'). rewrite app_length, repeat_length in IH.
    replace (firstn (length done) (done ++ repeat None (cols - length done))) with done.
    2:{ rewrite firstn_app, Nat.sub_diag, firstn_all. simpl. rewrite app_nil_r. reflexivity. }
    replace (skipn (length done + n) (done ++ repeat None (cols - length done))) with (repeat (@None nat) (cols - (length done + n))).
    2:{ rewrite skipn_app. rewrite skipn_all2 by lia. cbn [app]. replace (length done + n - length done)%nat with n by lia.
        replace (cols - length done)%nat with (n + (cols - (length done + n)))%nat by lia. rewrite repeat_app, skipn_app, skipn_all2 by (rewrite repeat_length; lia).
        rewrite repeat_length, Nat.sub_diag. reflexivity. }
    rewrite <- app_assoc in IH. rewrite IH by lia. cbn [flat_map fst snd combine nsum]. rewrite <- !app_assoc, !Nat.add_assoc. reflexivity.
Qed.

Lemma fsample_ok ws e : (forall w, In w ws -> upto 1 w) -> few ws -> Rabs (vsum ws - 1) <= e ->
  e <= / 1000 -> e * INR cols <= / 2 ->
  exists ns, Forall2 is_share ws ns /\ (nsum ns <= cols)%nat /\ (cols - nsum ns <= length ws)%nat /\
    fsample_cols cols ws = Ok (flat_map (fun i => repeat (Some (fst i)) (snd i)) (combine (seq 0 (length ws)) ns) ++
                               repeat None (cols - nsum ns)).
Proof.
  intros Hw Hlen Hs He1 Heu. pose proof uro_pos as Hu. pose proof (pos_INR cols) as Hc0. pose proof cols_lt as Hc.
  apply Rabs_le_inv in Hs.
  assert (HX : exists ns, Forall2 is_share ws ns /\
    INR (nsum ns) <= vsum ws * INR cols * (1 + uro) + INR (length ws) * bpow radix2 (-1075) /\
    vsum ws * INR cols * (1 - uro) - INR (length ws) * bpow radix2 (-1075) <= INR (nsum ns) + INR (length ws)).
  { clear Hs He1 Heu Hlen. induction ws as [|w ws IH].
    - exists []. split; [constructor|]. simpl. lra.
    - destruct (share_ok w (Hw w (or_introl eq_refl))) as (m & Em & H1 & H2).
      destruct (IH (fun y Hy => Hw y (or_intror Hy))) as (ns & HF & H3 & H4).
      exists (m :: ns). split; [constructor; auto|]. cbn [nsum]. rewrite vsum_cons. change (length (w :: ws)) with (S (length ws)).
      rewrite plus_INR, S_INR, !Rmult_plus_distr_r. lra. }
  destruct HX as (ns & HF & H1 & H2). exists ns. split; auto.
  pose proof (few_INR ws Hlen) as Hn.
  assert (HN : INR (length ws) * bpow radix2 (-1075) <= / 1000).
  { apply Rle_trans with (bpow radix2 20 * bpow radix2 (-1075)); [apply Rmult_le_compat_r; [apply bpow_ge_0|lra]|].
    rewrite <- bpow_plus. apply Rle_trans with (bpow radix2 (-10)); [apply bpow_le; lia|simpl; lra]. }
  assert (Huc : uro * INR cols <= / 1000).
  { apply Rle_trans with (uro * bpow radix2 31); [apply Rmult_le_compat_l; lra|]. unfold uro. rewrite <- bpow_plus. simpl. lra. }
  assert (0 <= uro * INR cols) by (apply Rmult_le_pos; lra).
  assert (Hup : (nsum ns <= cols)%nat).
  { apply Nat.lt_succ_r. apply INR_lt. rewrite S_INR. eapply Rle_lt_trans; [exact H1|].
    assert (vsum ws * INR cols <= INR cols + e * INR cols) by nra.
    assert (vsum ws * INR cols * uro <= 2 * (uro * INR cols)) by nra. lra. }
  split; auto. split.
  - assert (INR cols < INR (nsum ns + length ws + 1)).
    { rewrite !plus_INR. simpl (INR 1).
      assert (INR cols - e * INR cols <= vsum ws * INR cols) by nra.
      assert (vsum ws * INR cols * uro <= 2 * (uro * INR cols)) by nra. lra. }
    apply INR_lt in H0. lia.
  - unfold fsample_cols. pose proof (fsample_fold ws 0 [] ns HF Hup) as E. cbn [app length] in E. rewrite Nat.sub_0_r in E.
    cbn [Nat.add] in E. rewrite E. reflexivity.
Qed.
End Sample.
