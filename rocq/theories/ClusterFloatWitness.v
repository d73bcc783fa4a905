(** Witnesses for the association step in doubles. *)
From Coq Require Import List Arith Bool Lia ZArith Reals Lra Permutation.
From Flocq Require Import Core BinarySingleNaN IEEE754.PrimFloat.
From Coq Require Import Floats.
Import ListNotations.
From Verif Require Import Res Scalar Lap LapSpec LapBase LapHom LapArr Murty MurtyProofs MurtyFloatMain.
From Verif Require Import FloatBase FloatExt LapRnd Cluster ClusterSpec ClusterProofs ClusterFloat FloatSum ClusterFloatLoop ClusterFloatNum ClusterFloatClose ClusterFloatMain.
Local Open Scope nat_scope.

(** ** An accurate exponential exists: the exact one, rounded *)
#[local] Instance prec_pos : Prec_gt_0 prec := eq_refl.
#[local] Instance prec_emax : Prec_lt_emax prec emax := eq_refl.
Definition to_bin (y : R) : binary_float prec emax :=
  BinarySingleNaN.binary_normalize prec emax prec_pos prec_emax mode_NE (ZnearestE (scaled_mantissa radix2 fexp64 y)) (cexp radix2 fexp64 y) false.
Definition to_double (y : R) : float := B2Prim (to_bin y).

Lemma to_double_ok y : (0 <= y)%R ->
  ((rnd y < bpow radix2 emax)%R -> proj (to_double y) = Fin (rnd y)) /\
  ((bpow radix2 emax <= rnd y)%R -> proj (to_double y) = PInf).
Proof.
  intros Hy. pose proof (rnd_pos y Hy) as Hp.
  pose proof (binary_normalize_correct prec emax prec_pos prec_emax mode_NE (ZnearestE (scaled_mantissa radix2 fexp64 y)) (cexp radix2 fexp64 y) false) as B.
  cbv zeta in B. fold (to_bin y) in B. change (F2R _) with (rnd y) in B.
  change (round radix2 (SpecFloat.fexp prec emax) (round_mode mode_NE) (rnd y)) with (rnd (rnd y)) in B.
  assert (E : rnd (rnd y) = rnd y) by (apply round_generic; [apply valid_rnd_N|apply rnd_format]).
  rewrite E, (Rabs_pos_eq _ Hp) in B.
  assert (EP : Prim2B (to_double y) = to_bin y) by apply Prim2B_B2Prim.
  split; intros H.
  - rewrite Rlt_bool_true in B by exact H. destruct B as (B1 & B2 & _).
    rewrite proj_fin by (unfold fin; rewrite EP; exact B2). unfold FloatBase.val. rewrite EP, B1. auto.
  - rewrite Rlt_bool_false in B by exact H. rewrite Rlt_bool_false in B by exact Hp.
    unfold proj. rewrite EP. destruct (to_bin y) as [s0|s0| |s0 m0 e0 H0]; simpl in B; inversion B. auto.
Qed.

Definition exp_double (x : float) : float := to_double (exp (FloatBase.val x)).

Lemma exp_half b c x : (0 <= b)%R -> (c <= b * b)%R -> (b <= exp (x / 2))%R -> (c <= exp x)%R.
Proof.
  intros H H1 H2. replace x with (x / 2 + x / 2)%R by field. rewrite exp_plus. eapply Rle_trans; [exact H1|]. apply Rmult_le_compat; lra.
Qed.
Lemma exp_lo : (bp (-1030) <= exp (-700))%R.
Proof.
  assert (H : (/ 2 <= exp (- (700 / 1030)))%R).
  { apply (exp_half 0.7085); try lra. apply (exp_half 0.8418); try lra. apply (exp_half 0.9175); try lra.
    apply (exp_half 0.9579); try lra. apply (exp_half 0.97875); try lra. eapply Rle_trans; [|apply exp_lin]. lra. }
  assert (G : forall k, (bpow radix2 (- Z.of_nat k) <= exp (- (700 / 1030) * INR k))%R).
  { induction k as [|k IH]; [simpl; rewrite Rmult_0_r, exp_0; lra|].
    rewrite S_INR. replace (- (700 / 1030) * (INR k + 1))%R with (- (700 / 1030) + - (700 / 1030) * INR k)%R by ring. rewrite exp_plus.
    replace (- Z.of_nat (S k))%Z with (-1 + - Z.of_nat k)%Z by lia. rewrite bpow_plus. change (bpow radix2 (-1)) with (/ 2)%R.
    apply Rmult_le_compat; auto; [lra|apply bpow_ge_0]. }
  specialize (G 1030). change (- Z.of_nat 1030)%Z with (-1030)%Z in G. eapply Rle_trans; [exact G|]. apply exp_mono.
  rewrite INR_IZR_INZ. change (Z.of_nat 1030) with 1030%Z. lra.
Qed.
Lemma exp_hi : (bp 950 <= exp 700)%R.
Proof.
  assert (H : (2 <= exp (700 / 950))%R).
  { apply (exp_half 1.4222); try lra. apply (exp_half 1.1926); try lra. apply (exp_half 1.0921); try lra. eapply Rle_trans; [|apply exp_lin]. lra. }
  change 950%Z with (Z.of_nat 950). eapply Rle_trans; [apply (bp_le_exp _ 950 H)|]. apply exp_mono.
  rewrite INR_IZR_INZ. change (Z.of_nat 950) with 950%Z. lra.
Qed.
Lemma exp_700 : (exp 700 <= bp 1022)%R.
Proof.
  assert (H : (/ 2 <= exp (- (700 / 1022)))%R).
  { apply (exp_half 0.7085); try lra. apply (exp_half 0.84174); try lra. apply (exp_half 0.91747); try lra.
    apply (exp_half 0.95785); try lra. apply (exp_half 0.9787); try lra. apply (exp_half 0.989297); try lra. eapply Rle_trans; [|apply exp_lin]. lra. }
  assert (H2 : (exp (700 / 1022) <= 2)%R).
  { rewrite exp_Ropp in H. pose proof (exp_pos (700 / 1022)). apply Rinv_le in H; [|lra]. rewrite !Rinv_inv in H. exact H. }
  assert (G : forall k, (exp (700 / 1022 * INR k) <= bpow radix2 (Z.of_nat k))%R).
  { induction k as [|k IH]; [simpl; rewrite Rmult_0_r, exp_0; lra|].
    rewrite S_INR, Nat2Z.inj_succ. unfold Z.succ. rewrite bp_double.
    replace (700 / 1022 * (INR k + 1))%R with (700 / 1022 + 700 / 1022 * INR k)%R by ring. rewrite exp_plus.
    apply Rmult_le_compat; auto; left; apply exp_pos. }
  specialize (G 1022). change (Z.of_nat 1022)%Z with 1022%Z in G. eapply Rle_trans; [|exact G]. apply exp_mono.
  rewrite INR_IZR_INZ. change (Z.of_nat 1022) with 1022%Z. lra.
Qed.

Lemma exp_double_accurate : exp_accurate exp_double.
Proof.
  intros x Fx. unfold exp_double. set (y := exp (FloatBase.val x)). assert (Hy : (0 < y)%R) by apply exp_pos.
  destruct (to_double_ok y ltac:(lra)) as [T1 T2]. pose proof (rnd_rel y ltac:(lra)) as Hr. pose proof uro_pos as Hu.
  split; [|split].
  - intros Hx.
    assert (H1 : (bp (-1030) <= y)%R) by (eapply Rle_trans; [apply exp_lo|apply exp_mono; lra]).
    assert (H2 : (y <= bp 1022)%R) by (eapply Rle_trans; [apply exp_mono|apply exp_700]; lra).
    assert (Hlt : (rnd y < bpow radix2 emax)%R).
    { apply Rle_lt_trans with (bp 1022); [|apply bpow_lt; reflexivity].
      pose proof (rnd_abs y 1022 ltac:(lia)) as Hb. rewrite !Rabs_pos_eq in Hb by (try apply rnd_pos; lra). auto. }
    apply T1 in Hlt. apply proj_Fin in Hlt. destruct Hlt as [F ->]. split; auto. eapply Rle_trans; [exact Hr|].
    assert (bp (-1075) <= bp (-45) * y)%R.
    { apply Rle_trans with (bp (-45) * bp (-1030))%R; [rewrite <- bpow_plus; apply Rle_refl|]. apply Rmult_le_compat_l; [apply bpow_ge_0|lra]. }
    assert (uro + bp (-45) <= bp (-40))%R.
    { unfold uro. assert (bp (-53) <= bp (-45))%R by (apply bpow_le; lia).
      pose proof (bp_double (-41)). pose proof (bp_double (-42)). simpl Z.add in *. assert (bp (-45) <= bp (-42))%R by (apply bpow_le; lia). pose proof (bpow_gt_0 radix2 (-42)). lra. }
    assert ((uro + bp (-45)) * y <= bp (-40) * y)%R by (apply Rmult_le_compat_r; lra). lra.
  - intros Hx.
    assert (H2 : (y <= bp (-800))%R) by (apply exp_small; lra).
    pose proof (rnd_abs y (-800) ltac:(lia)) as Hb. pose proof (rnd_pos y ltac:(lra)) as Hp. rewrite !Rabs_pos_eq in Hb by lra.
    specialize (Hb H2).
    assert (Hlt : (rnd y < bpow radix2 emax)%R) by (eapply Rle_lt_trans; [exact Hb|apply bpow_lt; reflexivity]).
    apply T1 in Hlt. apply proj_Fin in Hlt. destruct Hlt as [F ->]. auto.
  - intros Hx. destruct (Rlt_le_dec (rnd y) (bpow radix2 emax)) as [H|H]; [right|left; auto].
    exists (rnd y). split; auto. apply Rle_trans with (rnd (bp 950)).
    + right. symmetry. apply round_generic; [apply valid_rnd_N|]. apply bpow_format. lia.
    + apply rnd_le. eapply Rle_trans; [apply exp_hi|apply exp_mono; lra].
Qed.

(** ** What the exponential returns for costs not drawn does not matter *)
Lemma consume_ext e1 e2 w_lim nhyp_max N M outs : forall n ws Rm,
  (forall c sol, In (Some (c, sol)) outs -> e1 (- c)%float = e2 (- c)%float) ->
  consume e1 w_lim nhyp_max N M outs n ws Rm = consume e2 w_lim nhyp_max N M outs n ws Rm.
Proof.
  induction outs as [|o outs IH]; intros n ws Rm H; auto. destruct o as [[c sol]|]; auto. cbn [consume].
  rewrite (H c sol) by (simpl; auto). destruct (fadd_hyp N M (e2 (- c)%float) sol Rm) as [Rm'| |]; auto. cbn [bind].
  destruct (fstop _ _ _ _ _); auto. apply IH. intros c' sol' Hin. apply (H c' sol'). simpl. auto.
Qed.

Lemma loop_draw_more fuel fuel' pick rounds : forall q tick a, fuel <= fuel' ->
  draw_loop floatN pick rounds fuel q tick = Ok a -> draw_loop floatN pick rounds fuel' q tick = Ok a.
Proof.
  induction rounds as [|rounds IH]; intros q tick a Hf H; [discriminate|]. cbn [draw_loop] in *.
  destruct (get q (pick tick q)) as [s| |]; try discriminate. cbn [bind] in *.
  destruct (remove_nth q (pick tick q)) as [q'| |]; try discriminate. cbn [bind] in *. destruct (s_solved s); auto.
  destruct (solve floatN fuel s) as [[s' ok]| |] eqn:E; try discriminate. rewrite (solve_more _ _ _ _ _ Hf E). cbn [bind] in *.
  destruct (if ok then q' ++ [s'] else q'); auto.
Qed.
Lemma draw_more pick fuel fuel' mu a : fuel <= fuel' -> draw floatN pick fuel mu = Ok a -> draw floatN pick fuel' mu = Ok a.
Proof.
  intros Hf. unfold draw. destruct (mu_queue mu) as [|s q]; auto.
  destruct (draw_loop floatN pick _ fuel _ _) as [b| |] eqn:E; try discriminate.
  rewrite (loop_draw_more _ _ _ _ _ _ _ Hf E). auto.
Qed.
Lemma draws_more pick fuel fuel' k : forall mu a, fuel <= fuel' ->
  draws floatN pick fuel k mu = Ok a -> draws floatN pick fuel' k mu = Ok a.
Proof.
  induction k as [|k IH]; intros mu a Hf H; auto. cbn [draws] in *.
  destruct (draw floatN pick fuel mu) as [[o mu']| |] eqn:E; try discriminate. rewrite (draw_more _ _ _ _ _ Hf E). cbn [bind] in *.
  destruct (draws floatN pick fuel k mu') as [rs| |] eqn:E2; try discriminate. rewrite (IH _ _ Hf E2). auto.
Qed.

(** ** A row that sums to more than one *)
(** The order of std::accumulate; one of the orders allowed by [fsums]. *)
Definition left_sum (l : list float) : float := fold_left PrimFloat.add l 0%float.
Lemma left_sum_ok l : fsums l (left_sum l).
Proof. apply (fold_fsums l [] 0%float fs_nil). Qed.

(** One target that is certain to exist (r = 1) and eight reports, all equally likely. *)
Definition nine : matrix float :=
  mkMat 1 10 RowMajor [0; 0; 0; 0; 0; 0; 0; 0; 0; 30000]%float.
Definition nine_exp (x : float) : float := if PrimFloat.eqb x 0 then 1%float else 0%float.

Lemma nine_run expf : expf (-0)%float = 1%float -> expf (-30000)%float = 0%float ->
  exists out, fcorrect expf (first_top floatN) left_sum 0.01 100 50 8 nine [1%float] = Ok out /\
    fc_r out = [1.0000000000000002%float] /\ fc_n out = 10 /\ fc_w out = 9%float.
Proof.
  intros H0 H1.
  assert (Hd : exists mu outs, murty_new floatN nine = Ok mu /\ draws floatN (first_top floatN) 50 50 mu = Ok outs /\
    forall c sol, In (Some (c, sol)) outs -> (- c = -0 \/ - c = -30000)%float).
  { eexists. eexists. split; [vm_compute; reflexivity|]. split; [vm_compute; reflexivity|].
    intros c sol Hin. repeat (destruct Hin as [E|Hin]; [inversion E; auto|]). destruct Hin. }
  destruct Hd as (mu & outs & Hmu & Hdr & Hc).
  assert (E : fcorrect expf (first_top floatN) left_sum 0.01 100 50 8 nine [1%float] =
              fcorrect nine_exp (first_top floatN) left_sum 0.01 100 50 8 nine [1%float]).
  { unfold fcorrect. rewrite Hmu. cbn [bind]. rewrite !(loop_consume _ _ _ _ _ _ 50 50 mu outs) by exact Hdr.
    rewrite (consume_ext expf nine_exp); auto. intros c sol Hin. destruct (Hc c sol Hin) as [-> | ->]; [rewrite H0|rewrite H1]; reflexivity. }
  rewrite E. eexists. split; [vm_compute; reflexivity|]. split; [|split]; reflexivity.
Qed.

(** ** An overflow *)
(** Ten targets with existence probability 0.9; each fits its own report very well
    (cost -72), is missed at cost 5 and absent at cost 2.5. *)
Definition ten : matrix float :=
  mkMat 10 30 RowMajor
    (concat (map (fun i => map (fun j =>
       if j =? i then (-72)%float else if j =? 10 + i then 5%float else if j =? 20 + i then 2.5%float else 30000%float)
       (seq 0 30)) (seq 0 10))).

Lemma ten_draws : exists mu, murty_new floatN ten = Ok mu /\
  draws floatN (first_top floatN) 60 2 mu =
    Ok [Some ((-720)%float, map Some (seq 0 10)); Some ((-645.5)%float, map Some (20 :: seq 1 9))].
Proof.
  assert (H : bind (murty_new floatN ten) (draws floatN (first_top floatN) 60 2) =
    Ok [Some ((-720)%float, map Some (seq 0 10)); Some ((-645.5)%float, map Some (20 :: seq 1 9))]) by (vm_compute; reflexivity).
  destruct (murty_new floatN ten) as [mu| |]; try discriminate. exists mu. auto.
Qed.

(** A check for [bounded_matrix 15]. *)
Definition within15 (x : float) : bool :=
  (PrimFloat.leb (-32768) x && PrimFloat.leb x 32768)%bool.
Lemma bounded_check C : length (m_data C) = m_rows C * m_cols C -> forallb within15 (m_data C) = true -> bounded_matrix 15 C.
Proof.
  intros Hl Hc. split; auto. intros x Hx. left. rewrite forallb_forall in Hc. specialize (Hc x Hx). apply andb_true_iff in Hc.
  destruct Hc as [H1 H2]. destruct (between_fin (-32768) x 32768) as [F V]; auto; try (apply fin_SF; reflexivity). split; auto.
  assert (V1 : fval 32768 = bpow radix2 15).
  { rewrite val_SF. change (Prim2SF 32768) with (S754_finite false 4503599627370496 (-37)). unfold SF2R, F2R, cond_Zopp, Fnum, Fexp.
    replace (IZR 4503599627370496) with (bpow radix2 52) by reflexivity. rewrite <- bpow_plus. reflexivity. }
  assert (V2 : fval (-32768) = (- bpow radix2 15)%R).
  { rewrite <- V1. rewrite !val_SF.
    change (Prim2SF 32768) with (S754_finite false 4503599627370496 (-37)).
    change (Prim2SF (-32768)) with (S754_finite true 4503599627370496 (-37)). unfold SF2R, F2R, cond_Zopp, Fnum, Fexp.
    change (- Z.pos 4503599627370496)%Z with (- (4503599627370496))%Z. rewrite opp_IZR. ring. }
  rewrite V1, V2 in V. apply Rabs_le. lra.
Qed.
Lemma ten_input : association_input 10 15 ten.
Proof.
  split; [lia|]. split; [apply bounded_check; vm_compute; reflexivity|]. split; [simpl; lia|]. split; [reflexivity|]. split; reflexivity.
Qed.
Lemma nine_input : association_input 8 15 nine.
Proof.
  split; [lia|]. split; [apply bounded_check; vm_compute; reflexivity|]. split; [simpl; lia|]. split; [reflexivity|]. split; reflexivity.
Qed.

Lemma first_in tick (q : list (mstate (T := float))) : q <> [] -> first_top floatN tick q < length q.
Proof.
  intros Hq. unfold first_top.
  destruct (filter _ (seq 0 (length q))) as [|k l] eqn:E.
  - destruct q; [congruence|simpl; lia].
  - assert (H : In k (k :: l)) by (simpl; auto). rewrite <- E in H. apply filter_In in H. destruct H as [H _].
    apply in_seq in H. lia.
Qed.

Lemma proj_PInf x : proj x = PInf -> x = infinity.
Proof.
  unfold proj. intros H. rewrite <- (B2Prim_Prim2B x). destruct (Prim2B x) as [s|[]| |s m e B]; try discriminate. reflexivity.
Qed.
Lemma small_share w : fin w -> PrimFloat.ltb (w / infinity) 0.01 = true.
Proof.
  intros F. assert (E : proj (w / infinity)%float = Fin 0%R).
  { revert F. unfold fin, proj. rewrite div_equiv. change (Prim2B infinity) with (Prim2B (B2Prim (B754_infinity (prec:=prec) (emax:=emax) false))).
    rewrite Prim2B_B2Prim. destruct (Prim2B w); try discriminate; reflexivity. }
  assert (V : exists v, proj 0.01%float = Fin v /\ (0 < v)%R).
  { exists (fval 0.01%float). split; [apply proj_fin, fin_SF; reflexivity|]. rewrite val_SF.
    change (Prim2SF 0.01) with (S754_finite false 5764607523034235 (-59)). unfold SF2R, F2R, cond_Zopp, Fnum, Fexp.
    apply Rmult_lt_0_compat; [apply IZR_lt; lia|apply bpow_gt_0]. }
  destruct V as (v & Ev & Hv).
  assert (H : nlt extR (proj (w / infinity)%float) (proj 0.01%float) = true).
  { rewrite E, Ev, lt_FF. destruct (Rltb_spec 0%R v); auto; lra. }
  rewrite <- H. symmetry. apply proj_lt.
Qed.

(** One assignment is so likely that its weight is +infinity. *)
Lemma ten_run expf fsum rs : exp_accurate expf -> expf 720%float = infinity -> (forall l, fsums l (fsum l)) ->
  exists out, fcorrect expf (first_top floatN) fsum 0.01 100 60 10 ten rs = Ok out /\
    fc_n out = 2 /\ fc_w out = infinity /\ forall i, i < 10 -> nth i (fc_r out) nan = 0%float.
Proof.
  intros Hacc Hinf Hsum. pose proof (accurate_nonneg _ Hacc) as Hnn.
  assert (E : exists out, fcorrect expf (first_top floatN) fsum 0.01 100 60 10 ten rs = Ok out /\ fc_n out = 2 /\ fc_w out = infinity).
  { destruct ten_draws as (mu & Hmu & Hd). unfold fcorrect. rewrite Hmu. cbn [bind]. change (m_rows ten) with 10.
    change 60 with (2 + 58) at 1.
    assert (Hl : exists Rm, fhyp_loop expf (first_top floatN) 0.01 100 2 60 10 10 mu 0 0%float (repeat 0%float (10 * (10 + 1))) = Ok (2, infinity, Rm)).
    { rewrite (loop_consume _ _ _ _ _ _ 60 2 mu _ _ _ _ Hd). cbn [consume].
      change (- (-720))%float with 720%float. rewrite Hinf.
      pose proof (fadd_hyp_spec 10 10 [] (repeat 0%float (10 * (10 + 1))) infinity (seq 0 10) (ftable_nil 10 10) eq_refl) as H1.
      destruct (fadd_hyp 10 10 infinity (map Some (seq 0 10)) _) as [R1| |]; [|destruct H1|destruct H1].
      cbn [bind]. replace (fstop 0.01 100 infinity (0 + infinity) 1) with false by reflexivity.
      change (0 + infinity)%float with infinity. change (- (-645.5))%float with 645.5%float.
      assert (Hv : fin 645.5%float /\ (-700 <= fval 645.5 <= 700)%R).
      { split; [apply fin_SF; reflexivity|]. rewrite val_SF. change (Prim2SF 645.5) with (S754_finite false 5677878045835264 (-43)).
        unfold SF2R, F2R, cond_Zopp, Fnum, Fexp. simpl bpow. lra. }
      destruct (Hacc _ (proj1 Hv)) as (Ha & _). destruct (Ha (proj2 Hv)) as [Fw _].
      destruct (Hnn _ (proj1 Hv)) as [Ew|(w & Ew & Hw)].
      { rewrite (proj_fin _ Fw) in Ew. discriminate. }
      set (w2 := expf 645.5%float) in *.
      pose proof (fadd_hyp_spec 10 10 _ R1 w2 (20 :: seq 1 9) H1 eq_refl) as H2.
      destruct (fadd_hyp 10 10 w2 (map Some (20 :: seq 1 9)) R1) as [R2| |]; [|destruct H2|destruct H2].
      cbn [bind].
      assert (Hp : proj (infinity + w2)%float = PInf) by (rewrite add_proj, Ew; reflexivity).
      assert (Hi : (infinity + w2)%float = infinity) by (apply proj_PInf; auto).
      rewrite Hi.
      replace (fstop 0.01 100 w2 infinity 2) with true; [eauto|].
      unfold fstop. symmetry. apply orb_true_iff. left.
      apply small_share; auto. }
    destruct Hl as (Rm & Hl).
    rewrite (floop_mono _ _ _ _ _ _ 2 58 60 mu _ _ _ _ Hl). cbn [bind]. eexists. split; [reflexivity|]. auto. }
  destruct E as (out & Hrun & Hn & Hw). exists out. split; auto. split; auto. split; auto.
  apply (lost expf (first_top floatN) fsum 0.01 100 10 15 ten rs ten_input first_in Hnn Hsum 60 out Hrun); [lia|].
  rewrite Hw. intros [F _]. unfold fin in F. discriminate.
Qed.

(** ** An exponential as the theorems assume it *)
Lemma exp_720 : (bp 1024 <= exp 720)%R.
Proof.
  assert (H : (2 <= exp (720 / 1024))%R).
  { apply (exp_half 1.415); try lra. apply (exp_half 1.1896); try lra. apply (exp_half 1.0907); try lra.
    apply (exp_half 1.0444); try lra. apply (exp_half 1.02196); try lra. eapply Rle_trans; [|apply exp_lin]. lra. }
  change 1024%Z with (Z.of_nat 1024). eapply Rle_trans; [apply (bp_le_exp _ 1024 H)|]. apply exp_mono.
  rewrite INR_IZR_INZ. change (Z.of_nat 1024) with 1024%Z. lra.
Qed.
Lemma exp_double_720 : exp_double 720%float = infinity.
Proof.
  apply proj_PInf. unfold exp_double. apply to_double_ok; [left; apply exp_pos|].
  assert (V : fval 720 = 720%R).
  { rewrite val_SF. change (Prim2SF 720) with (S754_finite false 6333186975989760 (-43)). unfold SF2R, F2R, cond_Zopp, Fnum, Fexp.
    simpl bpow. lra. }
  rewrite V. apply Rle_trans with (rnd (bp 1024)).
  - right. symmetry. apply round_generic; [apply valid_rnd_N|]. apply generic_format_bpow. vm_compute. discriminate.
  - apply rnd_le. apply exp_720.
Qed.

(** The exact exponential rounded, with the two values as glibc returns them. *)
Definition good_exp (x : float) : float :=
  if PrimFloat.eqb x 0 then 1%float else if PrimFloat.eqb x (-30000) then 0%float else exp_double x.
Lemma feq_val x y : fin x -> fin y -> PrimFloat.eqb x y = true -> fval x = fval y.
Proof.
  intros Fx Fy H. assert (E : neq extR (proj x) (proj y) = true) by (rewrite <- H; apply proj_eq).
  rewrite (proj_fin _ Fx), (proj_fin _ Fy) in E. change (Reqb (fval x) (fval y) = true) in E.
  destruct (Reqb_spec (fval x) (fval y)) as [|Hn]; [auto|discriminate E].
Qed.
Lemma good_exp_ok : exp_accurate good_exp /\ good_exp (-0)%float = 1%float /\ good_exp (-30000)%float = 0%float /\
  good_exp 720%float = infinity.
Proof.
  split; [|split; [reflexivity|split; [reflexivity|]]].
  - intros x Fx. unfold good_exp. destruct (PrimFloat.eqb x 0) eqn:E0.
    + destruct (proj_Fin _ _ proj_zero) as [Z0 V0]. destruct (proj_Fin _ _ proj_one) as [Z1 V1].
      apply feq_val in E0; auto. rewrite E0, V0, V1, exp_0. pose proof (bpow_gt_0 radix2 (-40)).
      split; [intros _; split; auto; rewrite Rminus_diag_eq, Rabs_R0 by auto; lra|]. split; lra.
    + destruct (PrimFloat.eqb x (-30000)) eqn:E1.
      * assert (Z3 : fin (-30000)%float) by (apply fin_SF; reflexivity).
        assert (V3 : fval (-30000) = (-30000)%R).
        { rewrite val_SF. change (Prim2SF (-30000)) with (S754_finite true 8246337208320000 (-38)). unfold SF2R, F2R, cond_Zopp, Fnum, Fexp.
          simpl bpow. simpl IZR. lra. }
        apply feq_val in E1; auto. rewrite E1, V3. destruct (proj_Fin _ _ proj_zero) as [Z0 V0]. rewrite V0. pose proof (bpow_gt_0 radix2 (-800)).
        split; [lra|]. split; [|lra]. intros _. split; auto. lra.
      * apply exp_double_accurate; auto.
  - unfold good_exp. replace (PrimFloat.eqb 720 0) with false by reflexivity. replace (PrimFloat.eqb 720 (-30000)) with false by reflexivity.
    apply exp_double_720.
Qed.
