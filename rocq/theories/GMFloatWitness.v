(** Mixtures and costs in doubles: the witnesses. *)
From Coq Require Import List Arith Bool Lia ZArith Reals Lra.
From Flocq Require Import Core BinarySingleNaN IEEE754.PrimFloat.
From Coq Require Import Floats.
Import ListNotations.
From Verif Require Import Res Scalar Lap Murty MurtyProofs MurtyFloatMain.
From Verif Require Import FloatBase FloatExt LapRnd Cluster ClusterFloat FloatSum ClusterFloatLoop ClusterFloatNum ClusterFloatClose ClusterFloatMain ClusterFloatWitness.
From Verif Require Import GMFloat GMFloatSpec GMFloatProofs GMFloatMatch.
Local Open Scope R_scope.

(** Weights 1, 6, 3 and 3 normalised. *)
Definition four : list float := fst (fnormalize [1; 6; 3; 3]%float).
Lemma four_is : four = [0.076923076923076927; 0.46153846153846156; 0.23076923076923078; 0.23076923076923078]%float /\
  fwsum four = 1.0000000000000002%float.
Proof. split; vm_compute; reflexivity. Qed.

Lemma four_predict : fst (fpredict 1 1 four) = 1.0000000000000002%float.
Proof. vm_compute. reflexivity. Qed.
Lemma four_missed : fmissed 1 (repeat 1000%nat 4) four = (-2.2204460492503131e-16)%float.
Proof. vm_compute. reflexivity. Qed.

Lemma nan_only x : PrimFloat.is_nan x = true -> x = nan.
Proof.
  intros H. rewrite is_nan_equiv in H. rewrite <- (B2Prim_Prim2B x). destruct (Prim2B x); try discriminate. reflexivity.
Qed.
Lemma log_neg logf x : log_accurate logf -> fin x -> fval x < 0 -> logf x = nan.
Proof. intros H F V. apply nan_only, H; auto. Qed.

Lemma four_nan logf : log_accurate logf ->
  four = fst (fnormalize [1; 6; 3; 3]%float) /\ Forall (fun k => k = 1000%nat) (repeat 1000%nat 4) /\ length (repeat 1000%nat 4) = length four /\
  PrimFloat.ltb (fmissed 1 (repeat 1000%nat 4) four) 0 = true /\ fcost_miss logf 1 (mkFT 0.5 four (repeat 1000%nat 4) []) = nan.
Proof.
  intros Ha. split; [reflexivity|]. split; [apply Forall_forall; intros k Hk; apply repeat_spec in Hk; auto|]. split; [reflexivity|].
  split; [vm_compute; reflexivity|]. unfold fcost_miss. cbn [ft_r ft_in ft_w]. rewrite four_missed.
  change (0.5 * -2.2204460492503131e-16)%float with (-1.1102230246251565e-16)%float. rewrite (log_neg logf _ Ha); [reflexivity| |]; [apply fin_SF; reflexivity|]. rewrite val_SF.
  change (Prim2SF (-1.1102230246251565e-16)) with (S754_finite true 4503599627370496 (-105)). apply F2R_lt_0. reflexivity.
Qed.

Lemma ints_ok : forall w, In w [1; 6; 3; 3]%float -> upto (bp 900) w.
Proof.
  assert (G : 6 <= bp 900) by (apply Rle_trans with (bp 3); [simpl; lra|apply bpow_le; lia]).
  assert (V1 : fval 1%float = 1) by (rewrite val_SF; cbv -[IZR Rmult Rplus Rinv]; lra).
  assert (V6 : fval 6%float = 6) by (rewrite val_SF; cbv -[IZR Rmult Rplus Rinv]; lra).
  assert (V3 : fval 3%float = 3) by (rewrite val_SF; cbv -[IZR Rmult Rplus Rinv]; lra).
  intros w [<-|[<-|[<-|[<-|[]]]]]; (split; [apply fin_SF; reflexivity|lra]).
Qed.

(** ** Three targets and a report *)
(** All exist with probability 0.5.  The first is the mixture [four] with all samples in
    view; its first component fits the report. *)
Definition three : list ftarget :=
  [mkFT 0.5 four (repeat 1000%nat 4) [[(1000%nat, 13); (1000%nat, 0); (1000%nat, 0); (1000%nat, 0)]];
   mkFT 0.5 [1] [500%nat] [[(500%nat, 0.5)]];
   mkFT 0.5 [1] [750%nat] [[(750%nat, 2.6666666666666665)]]]%float.
(** The numbers they stand for. *)
Definition three_numbers : list (R * list R * list nat * list (list (nat * R))) :=
  [(1 / 2, [1 / 13; 6 / 13; 3 / 13; 3 / 13], repeat 1000%nat 4, [[(1000%nat, 13); (1000%nat, 0); (1000%nat, 0); (1000%nat, 0)]]);
   (1 / 2, [1], [500%nat], [[(500%nat, 1 / 2)]]);
   (1 / 2, [1], [750%nat], [[(750%nat, 8 / 3)]])].
Definition three_exact : list target_in :=
  map (fun t => let '(r, ws, ins, reps) := t in prior_of 1 [1] r ws ins reps) three_numbers.

(** What the logarithm and the exponential return, correctly rounded. *)
Definition log_table (logf : float -> float) : Prop :=
  logf 0.5%float = (-0.6931471805599453)%float /\ logf 0.25%float = (-1.3862943611198906)%float /\
  logf 0.125%float = (-2.0794415416798357)%float /\ logf 1%float = 0%float.
Definition exp_points : list (float * float) :=
  [(-1.3862943611198906, 0.25); (-2.0794415416798357, 0.12500000000000003); (-2.7725887222397811, 0.0625);
   (-3.4657359027997261, 0.031250000000000014); (-3.4657359027997265, 0.03125); (-4.1588830833596715, 0.015625000000000007);
   (-4.8520302639196169, 0.0078125000000000018); (-30000.693147180558, 0)]%float.
Definition exp_table (expf : float -> float) : Prop :=
  Forall (fun xy => expf (fst xy) = snd xy) exp_points.
Definition table_exp (x : float) : float :=
  fold_right (fun xy e => if PrimFloat.eqb x (fst xy) then snd xy else e) 0%float exp_points.

Definition three_costs : matrix float :=
  mkMat 3 7 RowMajor
    [0.6931471805599453; nan; 30000; 30000; 0.6931471805599453; 30000; 30000;
     2.0794415416798357; 30000; 1.3862943611198906; 30000; 30000; 0.6931471805599453; 30000;
     -0; 30000; 30000; 2.0794415416798357; 30000; 30000; 0.6931471805599453]%float.
Lemma three_costs_ok logf : log_accurate logf -> log_table logf -> fcost_of logf 1 [1%float] three = three_costs.
Proof.
  intros Ha (H1 & H2 & H3 & H4).
  assert (H5 : logf (-1.1102230246251565e-16)%float = nan).
  { apply log_neg; auto; [apply fin_SF; reflexivity|]. rewrite val_SF.
    change (Prim2SF (-1.1102230246251565e-16)) with (S754_finite true 4503599627370496 (-105)). apply F2R_lt_0. reflexivity. }
  assert (E : fcost_of logf 1 [1%float] three = mkMat 3 7 RowMajor
    [- logf 0.5; - logf (-1.1102230246251565e-16); 30000; 30000; - logf 0.5; 30000; 30000;
     - logf 0.125; 30000; - logf 0.25; 30000; 30000; - logf 0.5; 30000;
     - logf 1; 30000; 30000; - logf 0.125; 30000; 30000; - logf 0.5]%float) by (vm_compute; reflexivity).
  rewrite E, H1, H2, H3, H4, H5. reflexivity.
Qed.

Lemma three_run logf expf : log_accurate logf -> log_table logf -> exp_table expf ->
  exists out, fcluster logf 1 [1%float] expf (first_top floatN) left_sum 0.01 100 60 three = Ok out /\
    fc_n out = 12%nat /\ fc_r out = [0.30927835051546398; 0.25773195876288663; 0.46391752577319589]%float.
Proof.
  intros Ha Ht He. unfold fcluster. rewrite (three_costs_ok logf Ha Ht).
  assert (Hd : exists mu outs, murty_new floatN three_costs = Ok mu /\ draws floatN (first_top floatN) 60 12 mu = Ok outs /\
    forall c sol, In (Some (c, sol)) outs -> In (- c)%float (map fst exp_points)).
  { eexists. eexists. split; [vm_compute; reflexivity|]. split; [vm_compute; reflexivity|].
    intros c sol Hin. repeat (destruct Hin as [E|Hin]; [inversion E; vm_compute; tauto|]). destruct Hin. }
  destruct Hd as (mu & outs & Hmu & Hdr & Hc).
  assert (E : forall x, In x (map fst exp_points) -> expf x = table_exp x).
  { intros x Hx. unfold exp_table in He. rewrite Forall_forall in He. apply in_map_iff in Hx. destruct Hx as (xy & <- & Hin).
    rewrite (He xy Hin). repeat (destruct Hin as [<-|Hin]; [reflexivity|]). destruct Hin. }
  assert (Hl : exists r, fhyp_loop expf (first_top floatN) 0.01 100 12 60 1 3 mu 0 0%float (repeat 0%float (3 * (1 + 1))) = Ok r /\
    fhyp_loop table_exp (first_top floatN) 0.01 100 12 60 1 3 mu 0 0%float (repeat 0%float (3 * (1 + 1))) = Ok r).
  { rewrite !(loop_consume _ _ _ _ _ _ 60 12 mu outs) by exact Hdr.
    rewrite (consume_ext expf table_exp) by (intros c sol Hin; apply E; eapply Hc; eauto).
    assert (Hb : bind (bind (murty_new floatN three_costs) (draws floatN (first_top floatN) 60 12))
                   (fun outs => consume table_exp 0.01 100 1 3 outs 0 0%float (repeat 0%float (3 * (1 + 1)))) <> UB /\
                 bind (bind (murty_new floatN three_costs) (draws floatN (first_top floatN) 60 12))
                   (fun outs => consume table_exp 0.01 100 1 3 outs 0 0%float (repeat 0%float (3 * (1 + 1)))) <> OutOfFuel)
      by (split; vm_compute; discriminate).
    rewrite Hmu in Hb. cbn [bind] in Hb. rewrite Hdr in Hb. cbn [bind] in Hb.
    destruct (consume table_exp _ _ _ _ outs _ _ _) as [r| |]; [eauto|destruct Hb; congruence|destruct Hb; congruence]. }
  destruct Hl as (r & Hl1 & Hl2).
  assert (EF : fcorrect expf (first_top floatN) left_sum 0.01 100 60 1 three_costs [0.5; 0.5; 0.5]%float =
               fcorrect table_exp (first_top floatN) left_sum 0.01 100 60 1 three_costs [0.5; 0.5; 0.5]%float).
  { unfold fcorrect. rewrite Hmu. cbn [bind]. change (m_rows three_costs) with 3%nat. change 60%nat with (12 + 48)%nat at 1 3.
    rewrite (floop_mono _ _ _ _ _ _ 12 48 60 mu _ _ _ _ Hl1), (floop_mono _ _ _ _ _ _ 12 48 60 mu _ _ _ _ Hl2). reflexivity. }
  change (map ft_r three) with [0.5; 0.5; 0.5]%float. change (length [1%float]) with 1%nat. rewrite EF.
  eexists. split; [vm_compute; reflexivity|]. split; [reflexivity|]. reflexivity.
Qed.

(** The exact posterior of the second target. *)
Lemma three_posterior : posterior 1 three_exact 1 = 41 / 113.
Proof.
  assert (K : (INR 1000 / 1000 = 1 /\ INR 500 / 1000 = 1 / 2) /\ INR 750 / 1000 = 3 / 4).
  { rewrite !INR_IZR_INZ. change (Z.of_nat 1000) with 1000%Z. change (Z.of_nat 500) with 500%Z. change (Z.of_nat 750) with 750%Z. split; [split|]; lra. }
  destruct K as [[K1 K2] K3].
  assert (E : three_exact = [mkTin (1 / 2) [1] 0; mkTin (1 / 2) [1 / 4] (1 / 2); mkTin (1 / 2) [2] (1 / 4)]).
  { unfold three_exact, three_numbers, prior_of, detected, fits. cbn [map combine repeat fst snd sum_of fold_right]. rewrite K1, K2, K3.
    repeat (f_equal; try lra). }
  rewrite E. unfold posterior, possible.
  cbn [length explanations causes flat_map map app seq distinct sources existsb Nat.eqb orb negb andb filter exists_in nth sum_of fold_right joint factor t_r t_lik t_miss].
  lra.
Qed.

Ltac fv := rewrite val_SF; match goal with |- context [SF2R _ (Prim2SF ?x)] => let v := eval vm_compute in (Prim2SF x) in change (Prim2SF x) with v end;
  unfold SF2R, F2R, cond_Zopp, Fnum, Fexp; simpl bpow.
Lemma three_inputs :
  Forall2 stands_for [1 / 13; 6 / 13; 3 / 13; 3 / 13] four /\
  stands_for (1 / 2) 0.5%float /\ stands_for 13 13%float /\ stands_for 1 1%float /\ stands_for 0 0%float /\ stands_for (8 / 3) 2.6666666666666665%float.
Proof.
  rewrite (proj1 four_is). unfold stands_for. simpl bpow.
  repeat split; repeat (apply Forall2_cons || apply Forall2_nil); repeat split; try (apply fin_SF; reflexivity); fv;
  unfold Rabs; repeat (destruct Rcase_abs); simpl IZR in *; lra.
Qed.

Lemma three_wrong logf expf : log_accurate logf -> log_table logf -> exp_table expf ->
  exists ts exact out i,
    Forall2 (fun t x => let '(r, ws, ins, reps) := x in
      stands_for r (ft_r t) /\ Forall2 stands_for ws (ft_w t) /\ ft_in t = ins /\
      Forall2 (Forall2 (fun a b => fst b = fst a /\ stands_for (snd a) (snd b))) reps (ft_rep t)) ts exact /\
    fcluster logf 1 [1%float] expf (first_top floatN) left_sum 0.01 100 60 ts = Ok out /\
    Rabs (fval (nth i (fc_r out) nan) -
          posterior 1 (map (fun x => let '(r, ws, ins, reps) := x in prior_of 1 [1] r ws ins reps) exact) i) >= / 10.
Proof.
  intros Ha Ht He. destruct (three_run logf expf Ha Ht He) as (out & Hrun & _ & Hr).
  exists three, three_numbers, out, 1%nat. split; [|split; [exact Hrun|]].
  - destruct three_inputs as (H1 & H2 & H3 & H4 & H5 & H6).
    assert (K : forall (n : nat) (a : R) b, stands_for a b -> fst (n, b) = fst (n, a) /\ stands_for (snd (n, a)) (snd (n, b))) by (intros n a b Hab; split; auto).
    apply Forall2_cons; [|apply Forall2_cons; [|apply Forall2_cons; [|apply Forall2_nil]]];
    (split; [exact H2|]; split; [first [exact H1|apply Forall2_cons; [exact H4|apply Forall2_nil]]|]; split; [reflexivity|];
     apply Forall2_cons; [|apply Forall2_nil]; repeat (apply Forall2_cons; [apply K; assumption|]); apply Forall2_nil).
  - change (map _ three_numbers) with three_exact. rewrite three_posterior, Hr. cbn [nth]. fv. apply Rle_ge.
    rewrite Rabs_left; simpl IZR; lra.
Qed.

(** ** Two targets and a report *)
(** For which every cost is a number. *)
Definition pair : list ftarget :=
  [mkFT 0.5 [1] [1000%nat] [[(1000%nat, 1)]]; mkFT 0.5 [1] [1000%nat] [[(1000%nat, 1)]]]%float.
Definition pair_costs : matrix float :=
  mkMat 2 5 RowMajor
    [1.3862943611198906; 1.3862943611198906; 30000; 0.6931471805599453; 30000;
     1.3862943611198906; 30000; 1.3862943611198906; 30000; 0.6931471805599453]%float.
Lemma pair_costs_ok logf : log_table logf -> fcost_of logf 0.5 [1%float] pair = pair_costs.
Proof.
  intros (H1 & H2 & H3 & H4).
  assert (E : fcost_of logf 0.5 [1%float] pair = mkMat 2 5 RowMajor
    [- logf 0.25; - logf 0.25; 30000; - logf 0.5; 30000; - logf 0.25; 30000; - logf 0.25; 30000; - logf 0.5]%float) by (vm_compute; reflexivity).
  rewrite E, H1, H2. reflexivity.
Qed.

Lemma pair_run logf expf : log_table logf -> exp_table expf ->
  exists out, fcluster logf 0.5 [1%float] expf (first_top floatN) left_sum 0.01 100 60 pair = Ok out /\
    fc_n out = 9%nat /\ fc_w out = 0.9375%float /\ fc_r out = [0.46666666666666667; 0.46666666666666667]%float.
Proof.
  intros Ht He. unfold fcluster. rewrite (pair_costs_ok logf Ht).
  assert (Hd : exists mu outs, murty_new floatN pair_costs = Ok mu /\ draws floatN (first_top floatN) 60 9 mu = Ok outs /\
    forall c sol, In (Some (c, sol)) outs -> In (- c)%float (map fst exp_points)).
  { eexists. eexists. split; [vm_compute; reflexivity|]. split; [vm_compute; reflexivity|].
    intros c sol Hin. repeat (destruct Hin as [E|Hin]; [inversion E; vm_compute; tauto|]). destruct Hin. }
  destruct Hd as (mu & outs & Hmu & Hdr & Hc).
  assert (E : forall x, In x (map fst exp_points) -> expf x = table_exp x).
  { intros x Hx. unfold exp_table in He. rewrite Forall_forall in He. apply in_map_iff in Hx. destruct Hx as (xy & <- & Hin).
    rewrite (He xy Hin). repeat (destruct Hin as [<-|Hin]; [reflexivity|]). destruct Hin. }
  assert (Hl : exists r, fhyp_loop expf (first_top floatN) 0.01 100 9 60 1 2 mu 0 0%float (repeat 0%float (2 * (1 + 1))) = Ok r /\
    fhyp_loop table_exp (first_top floatN) 0.01 100 9 60 1 2 mu 0 0%float (repeat 0%float (2 * (1 + 1))) = Ok r).
  { rewrite !(loop_consume _ _ _ _ _ _ 60 9 mu outs) by exact Hdr.
    rewrite (consume_ext expf table_exp) by (intros c sol Hin; apply E; eapply Hc; eauto).
    assert (Hb : bind (bind (murty_new floatN pair_costs) (draws floatN (first_top floatN) 60 9))
                   (fun outs => consume table_exp 0.01 100 1 2 outs 0 0%float (repeat 0%float (2 * (1 + 1)))) <> UB /\
                 bind (bind (murty_new floatN pair_costs) (draws floatN (first_top floatN) 60 9))
                   (fun outs => consume table_exp 0.01 100 1 2 outs 0 0%float (repeat 0%float (2 * (1 + 1)))) <> OutOfFuel)
      by (split; vm_compute; discriminate).
    rewrite Hmu in Hb. cbn [bind] in Hb. rewrite Hdr in Hb. cbn [bind] in Hb.
    destruct (consume table_exp _ _ _ _ outs _ _ _) as [r| |]; [eauto|destruct Hb; congruence|destruct Hb; congruence]. }
  destruct Hl as (r & Hl1 & Hl2).
  assert (EF : fcorrect expf (first_top floatN) left_sum 0.01 100 60 1 pair_costs [0.5; 0.5]%float =
               fcorrect table_exp (first_top floatN) left_sum 0.01 100 60 1 pair_costs [0.5; 0.5]%float).
  { unfold fcorrect. rewrite Hmu. cbn [bind]. change (m_rows pair_costs) with 2%nat. change 60%nat with (9 + 51)%nat at 1 3.
    rewrite (floop_mono _ _ _ _ _ _ 9 51 60 mu _ _ _ _ Hl1), (floop_mono _ _ _ _ _ _ 9 51 60 mu _ _ _ _ Hl2). reflexivity. }
  change (map ft_r pair) with [0.5; 0.5]%float. change (length [1%float]) with 1%nat. rewrite EF.
  eexists. split; [vm_compute; reflexivity|]. split; [reflexivity|]. split; reflexivity.
Qed.

Lemma pair_ok : upto (1 - bp (-20)) 0.5%float /\ Forall kappa_ok [1%float] /\ Forall (target_ok 1) pair /\ Forall settled pair /\ slack pair <= / 4.
Proof.
  destruct (proj_Fin _ _ proj_one) as [F1 V1].
  assert (F5 : fin 0.5%float /\ fval 0.5%float = / 2) by (split; [apply fin_SF; reflexivity|rewrite val_SF; cbv -[IZR Rmult Rplus Rinv]; lra]).
  destruct F5 as [F5 V5]. split; [split; [exact F5|rewrite V5; simpl; lra]|].
  split; [constructor; [split; [exact F1|rewrite V1; simpl; lra]|constructor]|].
  assert (T : target_ok 1 (mkFT 0.5 [1] [1000%nat] [[(1000%nat, 1)]])%float).
  { unfold target_ok. cbn [ft_r ft_w ft_in ft_rep]. split; [split; [exact F5|lra]|].
    split; [intros w [<-|[]]; split; [exact F1|lra]|]. split; [simpl; lia|].
    split; [unfold exact_sum; cbn [map fold_right length]; rewrite V1, Rplus_0_r, Rminus_diag_eq, Rabs_R0 by auto; simpl; lra|].
    split; [split; [reflexivity|]; intros k [<-|[]]; lia|]. split; [reflexivity|].
    intros kls [<-|[]] kl [<-|[]]. cbn [fst snd]. split; [lia|]. split; [exact F1|]. rewrite V1. split; [lra|].
    change 1 with (bp 0). apply bpow_le. lia. }
  split; [repeat (constructor; [exact T|]); constructor|].
  assert (S : settled (mkFT 0.5 [1] [1000%nat] [[(1000%nat, 1)]])%float).
  { right. cbn [ft_r]. rewrite V5. apply Rle_trans with (bp (-1)); [apply bpow_le; lia|simpl; lra]. }
  split; [repeat (constructor; [exact S|]); constructor|].
  unfold slack, tol, pair. cbn [sum_of fold_right ft_w length]. simpl. lra.
Qed.

(** ** A logarithm and an exponential as assumed *)
Definition log_double (y : R) : float := if Rle_dec 0 y then to_double y else (- to_double (- y))%float.
Lemma log_double_ok y : Rabs y <= 1100 -> fin (log_double y) /\ Rabs (fval (log_double y) - y) <= bp (-40) * (1 + Rabs y).
Proof.
  assert (G : forall z, 0 <= z <= 1100 -> fin (to_double z) /\ Rabs (fval (to_double z) - z) <= bp (-40) * (1 + z)).
  { intros z Hz. destruct (to_double_ok z ltac:(lra)) as [T _].
    pose proof (rnd_abs z 11 ltac:(lia)) as Hb. pose proof (rnd_pos z (proj1 Hz)) as Hp. rewrite !Rabs_pos_eq in Hb by lra. specialize (Hb ltac:(simpl; lra)).
    assert (Hlt : rnd z < bpow radix2 emax).
    { apply Rle_lt_trans with (bp 11); [exact Hb|apply bpow_lt; reflexivity]. }
    apply T in Hlt. apply proj_Fin in Hlt. destruct Hlt as [F ->]. split; auto.
    eapply Rle_trans; [apply rnd_rel; lra|]. pose proof tiny75 as H1. pose proof tiny_le as H2. pose proof uro_pos as Hu.
    assert (uro * 2 <= bp (-40)) by (unfold uro; change 2 with (bp 1); rewrite <- bpow_plus; apply bpow_le; lia). nra. }
  intros H. unfold log_double. destruct (Rle_dec 0 y) as [Hy|Hy].
  - rewrite (Rabs_pos_eq y) in H |- * by auto. apply G. lra.
  - rewrite (Rabs_left y) in H |- * by lra. destruct (G (- y) ltac:(lra)) as [F B]. destruct (f_opp _ F) as [Fo Vo]. split; auto.
    rewrite Vo. replace (- fval (to_double (- y)) - y) with (- (fval (to_double (- y)) - - y)) by ring. rewrite Rabs_Ropp. exact B.
Qed.

Definition log_points : list (float * float) :=
  [(0.5, -0.6931471805599453); (0.25, -1.3862943611198906); (0.125, -2.0794415416798357); (1, 0)]%float.
Definition good_log (x : float) : float :=
  if PrimFloat.ltb x 0 then nan else if PrimFloat.eqb x 0 then neg_infinity else
  fold_right (fun xy e => if PrimFloat.eqb x (fst xy) then snd xy else e) (log_double (ln (fval x))) log_points.

Lemma ln_range x : fin x -> 0 < fval x -> Rabs (ln (fval x)) <= 1100.
Proof.
  intros F H. pose proof (pos_ge x H) as Hp. pose proof ln2_range as Hln.
  assert (Hlt : fval x <= bp 1024).
  { pose proof (abs_B2R_lt_emax _ _ (Prim2B x)) as Hb. change (B2R (Prim2B x)) with (fval x) in Hb. apply Rabs_lt_inv in Hb.
    change (bpow radix2 emax) with (bp 1024) in Hb. lra. }
  assert (L1 : ln (bp (-1074)) <= ln (fval x)) by (apply ln_mono; [apply bpow_gt_0|auto]).
  assert (L2 : ln (fval x) <= ln (bp 1024)) by (apply ln_mono; lra).
  rewrite !ln_bpow in *. apply Rabs_le. lra.
Qed.

From Interval Require Import Tactic.
Lemma log_points_ok : Forall (fun xy => fin (fst xy) /\ fin (snd xy) /\
  Rabs (fval (snd xy) - ln (fval (fst xy))) <= bp (-40) * (1 + Rabs (ln (fval (fst xy))))) log_points.
Proof.
  assert (V : forall x v, FloatBase.val x = v -> fval x = v) by auto.
  assert (E5 : fval 0.5%float = / 2) by (fv; simpl IZR; lra). assert (E25 : fval 0.25%float = / 4) by (fv; simpl IZR; lra).
  assert (E125 : fval 0.125%float = / 8) by (fv; simpl IZR; lra). assert (E1 : fval 1%float = 1) by (fv; simpl IZR; lra).
  assert (E0 : fval 0%float = 0) by (destruct (proj_Fin _ _ proj_zero); auto).
  assert (L5 : Rabs (fval (-0.6931471805599453)%float - -0.6931471805599453) <= 1e-15) by (fv; simpl IZR; apply Rabs_le; lra).
  assert (L25 : Rabs (fval (-1.3862943611198906)%float - -1.3862943611198906) <= 1e-15) by (fv; simpl IZR; apply Rabs_le; lra).
  assert (L125 : Rabs (fval (-2.0794415416798357)%float - -2.0794415416798357) <= 1e-15) by (fv; simpl IZR; apply Rabs_le; lra).
  assert (G : forall a b c, Rabs (a - b) <= 1e-15 -> Rabs (b - c) <= 1e-13 -> Rabs (a - c) <= bp (-40) * (1 + Rabs c)).
  { intros a b c H1 H2. assert (1e-15 + 1e-13 <= bp (-40)) by (simpl; lra). pose proof (Rabs_pos c). pose proof (bpow_gt_0 radix2 (-40)).
    apply Rabs_le_inv in H1. apply Rabs_le_inv in H2. assert (bp (-40) * 1 <= bp (-40) * (1 + Rabs c)) by (apply Rmult_le_compat_l; lra). apply Rabs_le. lra. }
  unfold log_points. repeat (apply Forall_cons || apply Forall_nil); cbn [fst snd]; (split; [apply fin_SF; reflexivity|]; split; [apply fin_SF; reflexivity|]).
  - rewrite E5. apply (G _ _ _ L5). interval with (i_prec 80).
  - rewrite E25. apply (G _ _ _ L25). interval with (i_prec 80).
  - rewrite E125. apply (G _ _ _ L125). interval with (i_prec 80).
  - rewrite E1, E0, ln_1. apply (G _ 0); rewrite Rminus_diag_eq, Rabs_R0 by auto; lra.
Qed.

Lemma good_log_ok : log_accurate good_log /\ log_table good_log.
Proof.
  split; [|repeat split; reflexivity]. intros x F. destruct (proj_Fin _ _ proj_zero) as [F0 V0].
  pose proof (f_lt x 0%float F F0) as EL. cbn [nlt floatN] in EL. unfold good_log. rewrite EL, V0. clear EL.
  destruct (Rlt_bool_spec (fval x) 0) as [Hn|Hp].
  - split; [lra|]. split; [lra|]. reflexivity.
  - destruct (PrimFloat.eqb x 0) eqn:Ez.
    { apply feq_val in Ez; auto. rewrite V0 in Ez. split; [lra|]. split; [auto|lra]. }
    assert (Hx : fval x <> 0).
    { intros E. assert (H : neq extR (proj x) (proj 0%float) = false) by (rewrite <- Ez; apply proj_eq).
      rewrite (proj_fin _ F), proj_zero in H. change (Reqb (fval x) 0 = false) in H. destruct (Reqb_spec (fval x) 0); congruence. }
    split; [|split; lra]. intros _. pose proof log_points_ok as HL.
    induction log_points as [|[a b] l IH]; cbn [fold_right fst snd].
    + apply log_double_ok, ln_range; auto. lra.
    + apply Forall_inv in HL as H1. apply Forall_inv_tail in HL. cbn [fst snd] in H1. destruct H1 as (Fa & Fb & H1).
      destruct (PrimFloat.eqb x a) eqn:E; [|auto]. apply feq_val in E; auto. rewrite E. auto.
Qed.

Definition three_exp (x : float) : float :=
  fold_right (fun xy e => if PrimFloat.eqb x (fst xy) then snd xy else e) (exp_double x) exp_points.
Lemma exp_points_ok : Forall (fun xy => fin (fst xy) /\ fin (snd xy) /\
  (-700 <= fval (fst xy) <= 0 /\ Rabs (fval (snd xy) - exp (fval (fst xy))) <= bp (-40) * exp (fval (fst xy)) \/
   fval (fst xy) < -700 /\ fval (snd xy) = 0)) exp_points.
Proof.
  unfold exp_points. repeat (apply Forall_cons || apply Forall_nil); cbn [fst snd]; (split; [apply fin_SF; reflexivity|]; split; [apply fin_SF; reflexivity|]);
  repeat match goal with |- context [fval ?x] => let v := eval vm_compute in (Prim2SF x) in
    replace (fval x) with (SF2R radix2 v) by (rewrite val_SF; reflexivity) end; unfold SF2R, F2R, cond_Zopp, Fnum, Fexp; simpl IZR; simpl bpow.
  all: try (left; split; [split; lra|]; interval with (i_prec 80)).
  right. split; [lra|reflexivity].
Qed.
Lemma three_exp_ok : exp_accurate three_exp /\ exp_table three_exp.
Proof.
  split; [|unfold exp_table; repeat (apply Forall_cons || apply Forall_nil); reflexivity].
  intros x F. unfold three_exp. pose proof exp_points_ok as HL. induction exp_points as [|[a b] l IH]; cbn [fold_right fst snd].
  - apply exp_double_accurate; auto.
  - apply Forall_inv in HL as H1. apply Forall_inv_tail in HL. cbn [fst snd] in H1. destruct H1 as (Fa & Fb & H1).
    destruct (PrimFloat.eqb x a) eqn:E; [|auto]. apply feq_val in E; auto. rewrite E. pose proof (bpow_ge_0 radix2 (-800)).
    destruct H1 as [[H1 H2]|[H1 H2]]; (split; [|split]); intros Hr; try lra; auto. rewrite H2. split; auto; lra.
Qed.
