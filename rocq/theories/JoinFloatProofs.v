(** Joining in doubles: rounding. *)
From Coq Require Import List Arith ZArith Bool Reals Lra Lia Permutation Sorted.
From Flocq Require Import Core BinarySingleNaN IEEE754.PrimFloat.
From Coq Require Import Floats.
Import ListNotations.
From Verif Require Import Res Scalar FloatBase FloatExt LapRnd Cluster ClusterFloat FloatSum ClusterFloatClose GM GMFloat GMFloatSpec GMFloatProofs.
From Verif Require Import JoinFloat JoinFloatSpec JoinFloatOrder LossSpec LossProofs.
From Verif Require GMSpec GMProofs PosteriorProofs.
Local Open Scope R_scope.
Notation total := GMSpec.total.
Notation tau := (bpow radix2 (-1075)).

Section Round.
Context {G : Type}.
Notation fcm := (fcm (G := G)).
Implicit Types (phi : G -> R).

(** A factor and a component. *)
Definition ftri : Type := float * fcm.
Definition tri_ok (t : ftri) : Prop := upto 2 (fst t) /\ upto 1 (fst (snd t)).
Definition fsc (t : ftri) : fcm := fscale (fst t) (snd t).
Definition ex (t : ftri) : R * G := (fval (fst t) * fval (fst (snd t)), snd (snd t)).
Definition tris (w : list float) (pdfs : list (list fcm)) : list ftri :=
  flat_map (fun wp => map (pair (fst wp)) (snd wp)) (combine w pdfs).

Lemma fscaled_tris w (pdfs : list (list fcm)) : fscaled w pdfs = map fsc (tris w pdfs).
Proof.
  unfold fscaled, tris. induction (combine w pdfs) as [|(x, p) l IH]; cbn [flat_map map]; auto.
  rewrite IH, map_app, map_map. reflexivity.
Qed.
Lemma exact_tris w (pdfs : list (list fcm)) : GMSpec.scaled (map fval w) (map reals pdfs) = map ex (tris w pdfs).
Proof.
  unfold GMSpec.scaled, tris. revert pdfs. induction w as [|x w IH]; intros [|p pdfs]; cbn [combine flat_map map]; auto.
  rewrite IH, map_app. f_equal. cbn [fst snd]. unfold reals. rewrite !map_map. reflexivity.
Qed.
Lemma length_tris w (pdfs : list (list fcm)) : length (tris w pdfs) = components w pdfs.
Proof.
  unfold tris, components. revert pdfs. induction w as [|x w IH]; intros [|p pdfs]; cbn [combine flat_map firstn concat length]; auto.
  rewrite !app_length, IH, map_length. reflexivity.
Qed.
Lemma tris_ok w (pdfs : list (list fcm)) : mixtures_ok w pdfs -> forall t, In t (tris w pdfs) -> tri_ok t.
Proof.
  intros [Hw Hp] t Ht. unfold tris in Ht. apply in_flat_map in Ht. destruct Ht as ((x, p) & H & Ht).
  apply in_map_iff in Ht. destruct Ht as (g & <- & Hg). split; cbn [fst snd].
  - apply Hw. eapply in_combine_l; eauto.
  - eapply Hp; eauto. eapply in_combine_r; eauto.
Qed.

Lemma total_prob (c : list (R * G)) : total c = prob (fun _ => 1) c.
Proof. induction c as [|g c IH]; cbn; auto. rewrite IH. lra. Qed.

(** Each product is rounded once. *)
Lemma products_close phi l : (forall g, 0 <= phi g <= 1) -> (forall t, In t l -> tri_ok t) ->
  0 <= prob phi (map ex l) <= total (map ex l) /\ 0 <= prob phi (reals (map fsc l)) <= total (reals (map fsc l)) /\
  Rabs (prob phi (reals (map fsc l)) - prob phi (map ex l)) <= uro * prob phi (map ex l) + INR (length l) * tau.
Proof.
  intros Hphi. pose proof uro_pos. assert (Ht : 0 < tau) by apply bpow_gt_0.
  induction l as [|t l IH]; intros H1.
  { cbn. rewrite Rminus_0_r, Rabs_R0. lra. }
  destruct IH as (A & B & C); [intros; apply H1; simpl; auto|].
  destruct (H1 t (or_introl eq_refl)) as [Ox Og]. destruct (scale_upto _ _ Ox Og) as [[_ U] V].
  cbn [map reals prob total fsc fst snd ex] in *. fold (reals (map fsc l)). change (length (t :: l)) with (S (length l)). rewrite S_INR.
  unfold fsc in *. rewrite V in *. set (p := fval (fst t) * fval (fst (snd t))) in *.
  assert (P : 0 <= p). { unfold p. destruct Ox, Og. apply Rmult_le_pos; lra. }
  pose proof (rnd_rel p P) as D. change (snd (fscale (fst t) (snd t))) with (snd (snd t)). specialize (Hphi (snd (snd t))). set (f := phi (snd (snd t))) in *.
  split; [split; [nra|]; assert (p * f <= p) by nra; lra|].
  split; [split; [nra|]; assert (rnd p * f <= rnd p) by nra; lra|].
  apply Rabs_le_inv in C. apply Rabs_le_inv in D.
  assert (X1 : (rnd p - p) * f <= (uro * p + tau) * f) by (apply Rmult_le_compat_r; lra).
  assert (X2 : - (uro * p + tau) * f <= (rnd p - p) * f) by (apply Rmult_le_compat_r; lra).
  assert (X3 : tau * f <= tau) by nra. apply Rabs_le. split; nra.
Qed.

(** Dividing by the sum. *)
Lemma normal_close phi (a : list fcm) (ws : list float) s e : (forall g, 0 <= phi g <= 1) ->
  Forall2 (fun w w' => Rabs (fval w' - fval w / s) <= e * (fval w / s) + tau) (map fst a) ws ->
  Rabs (prob phi (reals (combine ws (map snd a))) - prob phi (reals a) / s) <= e * (prob phi (reals a) / s) + INR (length a) * tau.
Proof.
  intros Hphi. assert (Ht : 0 < tau) by apply bpow_gt_0. revert ws. induction a as [|g a IH]; intros ws H; inversion H as [|x y l l' H3 H4]; subst.
  { cbn. unfold Rdiv. rewrite Rmult_0_l, Rminus_0_r, Rabs_R0. lra. }
  cbn [map combine reals prob fst snd]. fold (reals a). specialize (IH _ H4). unfold reals in IH at 1.
  change (length (g :: a)) with (S (length a)). rewrite S_INR. specialize (Hphi (snd g)). set (f := phi (snd g)) in *.
  apply Rabs_le_inv in H3. apply Rabs_le_inv in IH. set (p := fval (fst g)) in *. set (q := fval y) in *.
  replace ((p * f + prob phi (reals a)) / s) with (p / s * f + prob phi (reals a) / s) by (unfold Rdiv; ring).
  set (ps := p / s) in *.
  assert (X1 : (q - ps) * f <= (e * ps + tau) * f) by (apply Rmult_le_compat_r; lra).
  assert (X2 : - (e * ps + tau) * f <= (q - ps) * f) by (apply Rmult_le_compat_r; lra).
  assert (X3 : tau * f <= tau) by nra. apply Rabs_le. split; nra.
Qed.

Lemma vsum_total (c : list fcm) : vsum (map fst c) = total (reals c).
Proof. induction c as [|g c IH]; auto. change (fval (fst g) + vsum (map fst c) = fval (fst g) + total (reals c)). rewrite IH. reflexivity. Qed.
Lemma heaviest_reals (c rest : list fcm) : fheaviest c rest -> GMSpec.heaviest (reals c) (reals rest).
Proof.
  intros [Hd H]. split.
  - unfold GMSpec.decreasing, reals. clear H. induction Hd as [|g c Hd IH Hf]; cbn; constructor; auto.
    apply Forall_forall. intros x Hx. apply in_map_iff in Hx. destruct Hx as (y & <- & Hy). cbn. rewrite Forall_forall in Hf. auto.
  - intros x y Hx Hy. apply in_map_iff in Hx. destruct Hx as (x0 & <- & Hx). apply in_map_iff in Hy. destruct Hy as (y0 & <- & Hy). cbn. auto.
Qed.

Lemma prob_app phi (a b : list (R * G)) : prob phi (a ++ b) = prob phi a + prob phi b.
Proof. induction a as [|g a IH]; cbn; [lra|]. rewrite IH. lra. Qed.
Lemma mixed_tris phi w (pdfs : list (list fcm)) : mixed phi w pdfs = prob phi (map ex (tris w pdfs)).
Proof.
  unfold mixed, tris. revert pdfs. induction w as [|x w IH]; intros [|p pdfs]; try reflexivity. cbn [combine flat_map GMSpec.rsum fst snd].
  rewrite IH, map_app, prob_app. f_equal.
  clear. induction p as [|g p IHp]; [cbn; lra|]. cbn [map reals prob ex fst snd]. fold (reals p). rewrite <- IHp. ring.
Qed.
Lemma prob_perm phi (a b : list (R * G)) : Permutation a b -> prob phi a = prob phi b.
Proof. induction 1; cbn; lra. Qed.

(** ** Small numbers *)
Lemma uro_small : 0 < uro <= / 9007199254740992.
Proof. unfold uro. split; [apply bpow_gt_0|]. change (-53)%Z with (- (53))%Z. rewrite bpow_opp. apply Rinv_le; [lra|]. simpl. lra. Qed.
Lemma forty : bpow radix2 (-40) = 8192 * uro.
Proof. change 8192 with (bpow radix2 13). unfold uro. rewrite <- bpow_plus. reflexivity. Qed.
Notation eps := (bpow radix2 (-1025)).
Lemma tau_small m T : (Z.of_nat m <= 2 ^ 20)%Z -> / 1000000000 <= T -> 0 <= INR m * tau <= eps * T.
Proof.
  intros H HT. assert (Ht : 0 < tau) by apply bpow_gt_0. split; [apply Rmult_le_pos; [apply pos_INR|lra]|].
  assert (Hm : INR m <= bpow radix2 20).
  { rewrite INR_IZR_INZ. change (bpow radix2 20) with (IZR (2 ^ 20)). apply IZR_le, H. }
  replace tau with (eps * bpow radix2 (-50)) by (rewrite <- bpow_plus; reflexivity).
  assert (bpow radix2 20 * bpow radix2 (-50) <= / 1000000000).
  { rewrite <- bpow_plus. change (20 + -50)%Z with (- (30))%Z. rewrite bpow_opp. apply Rinv_le; [lra|]. simpl. lra. }
  assert (0 < bpow radix2 (-50)) by apply bpow_gt_0. assert (0 < eps) by apply bpow_gt_0.
  replace (INR m * (eps * bpow radix2 (-50))) with (eps * (INR m * bpow radix2 (-50))) by ring.
  apply Rmult_le_compat_l; [lra|]. apply Rle_trans with (2 := HT). apply Rle_trans with (2 := H0). apply Rmult_le_compat_r; lra.
Qed.
Lemma eps_small : 0 < eps /\ eps <= uro * / 1000 /\ 1000 * eps <= bpow radix2 (-1000).
Proof.
  split; [apply bpow_gt_0|]. split.
  - apply Rle_trans with (bpow radix2 (-53 + -10)); [apply bpow_le; lia|]. rewrite bpow_plus. apply Rmult_le_compat_l; [apply bpow_ge_0|].
    simpl. lra.
  - replace (bpow radix2 (-1000)) with (bpow radix2 25 * eps) by (rewrite <- bpow_plus; reflexivity).
    apply Rmult_le_compat_r; [apply bpow_ge_0|]. simpl. lra.
Qed.

(** Proportions of the rounded and of the exact products. *)
Lemma ratio_close PR PT Rc Tc : 0 <= PR <= Rc -> 0 <= PT <= Tc -> 0 < Tc ->
  Rabs (PR - PT) <= 2 * uro * Tc -> Rabs (Rc - Tc) <= 2 * uro * Tc -> Rabs (PR / Rc - PT / Tc) <= 5 * uro.
Proof.
  intros H1 H2 HT HP HR. pose proof uro_small as Hu. apply Rabs_le_inv in HP. apply Rabs_le_inv in HR.
  assert (R1 : 99 / 100 * Tc <= Rc) by nra. assert (R0 : 0 < Rc) by lra.
  replace (PR / Rc - PT / Tc) with (((PR - PT) + (PT / Tc) * (Tc - Rc)) / Rc) by (field; lra).
  assert (Q : 0 <= PT / Tc <= 1).
  { split; [apply Rmult_le_pos; [lra|left; apply Rinv_0_lt_compat; lra]|]. apply (Rmult_le_reg_r Tc); [lra|]. unfold Rdiv. rewrite Rmult_assoc, Rinv_l by lra. lra. }
  set (q := PT / Tc) in *. unfold Rdiv. rewrite Rabs_mult, (Rabs_pos_eq (/ Rc)) by (left; apply Rinv_0_lt_compat; lra).
  apply (Rmult_le_reg_r Rc); auto. rewrite Rmult_assoc, Rinv_l, Rmult_1_r by lra.
  apply Rabs_le. split; nra.
Qed.
(** Leaving out a part. *)
Lemma part_close Pc Pr Tc Tr : 0 <= Pc <= Tc -> 0 <= Pr <= Tr -> 0 < Tc ->
  Rabs (Pc / Tc - (Pc + Pr) / (Tc + Tr)) <= Tr / (Tc + Tr).
Proof.
  intros H1 H2 HT. replace (Pc / Tc - (Pc + Pr) / (Tc + Tr)) with ((Pc / Tc * Tr - Pr) / (Tc + Tr)) by (field; lra).
  assert (Q : 0 <= Pc / Tc <= 1).
  { split; [apply Rmult_le_pos; [lra|left; apply Rinv_0_lt_compat; lra]|]. apply (Rmult_le_reg_r Tc); [lra|]. unfold Rdiv. rewrite Rmult_assoc, Rinv_l by lra. lra. }
  set (q := Pc / Tc) in *. unfold Rdiv. rewrite Rabs_mult, (Rabs_pos_eq (/ (Tc + Tr))) by (left; apply Rinv_0_lt_compat; lra).
  apply Rmult_le_compat_r; [left; apply Rinv_0_lt_compat; lra|]. apply Rabs_le. split; nra.
Qed.

Lemma final_kept cw A X Rc A' X' e l : 0 <= cw <= 1 -> 0 <= A -> 0 <= X -> 0 < Rc -> A + X <= Rc ->
  0 <= A' + X' -> 0 <= l <= 200 -> 0 <= e <= 1000 * uro ->
  Rabs (A' - A / Rc) <= e * (A / Rc) + l * tau -> Rabs (X' - X / Rc) <= e * (X / Rc) + tau ->
  cw * ((1 - 500 * uro) * (A + X)) <= X * (1 + uro) + 2 * tau * (A + X) ->
  cw * (1 - 8192 * uro) * (A' + X') <= X' + bpow radix2 (-1000).
Proof.
  intros Hc HA HX HR Hle H0 Hl He DA DX K. pose proof uro_small as Hu. pose proof eps_small as Hs.
  assert (Ht : 0 < tau) by apply bpow_gt_0. assert (Hte : tau <= eps) by (apply bpow_le; lia).
  set (a := A / Rc) in *. set (x := X / Rc) in *.
  assert (Na : 0 <= a) by (apply Rmult_le_pos; [lra|left; apply Rinv_0_lt_compat; lra]).
  assert (Nx : 0 <= x) by (apply Rmult_le_pos; [lra|left; apply Rinv_0_lt_compat; lra]).
  assert (Nax : a + x <= 1).
  { unfold a, x. apply (Rmult_le_reg_r Rc); auto. replace ((A / Rc + X / Rc) * Rc) with (A + X) by (field; lra). lra. }
  assert (K' : cw * ((1 - 500 * uro) * (a + x)) <= x * (1 + uro) + 2 * tau * (a + x)).
  { unfold a, x. apply (Rmult_le_reg_r Rc); auto.
    replace (cw * ((1 - 500 * uro) * (A / Rc + X / Rc)) * Rc) with (cw * ((1 - 500 * uro) * (A + X))) by (field; lra).
    replace ((X / Rc * (1 + uro) + 2 * tau * (A / Rc + X / Rc)) * Rc) with (X * (1 + uro) + 2 * tau * (A + X)) by (field; lra). auto. }
  apply Rabs_le_inv in DA. apply Rabs_le_inv in DX.
  assert (LT : l * tau <= 200 * tau) by (apply Rmult_le_compat_r; lra).
  assert (TX : 2 * tau * (a + x) <= 2 * tau * 1) by (apply Rmult_le_compat_l; lra).
  (* the sum up to the component *)
  assert (U1 : A' + X' <= (1 + e) * (a + x) + 201 * tau) by lra.
  assert (CX : 0 <= cw * (a + x)) by (apply Rmult_le_pos; lra).
  assert (U2 : cw * (1 - 8192 * uro) * (A' + X') <= cw * (1 - 8192 * uro) * ((1 + e) * (a + x) + 201 * tau)).
  { apply Rmult_le_compat_l; auto. apply Rmult_le_pos; lra. }
  assert (U3 : cw * (1 - 8192 * uro) * (201 * tau) <= 201 * tau).
  { rewrite <- (Rmult_1_l (201 * tau)) at 2. apply Rmult_le_compat_r; [lra|]. nra. }
  assert (U4 : (1 - 8192 * uro) * (1 + e) <= (1 - 500 * uro) * (1 - 2000 * uro)) by nra.
  assert (U5 : cw * (1 - 8192 * uro) * ((1 + e) * (a + x)) <= (1 - 2000 * uro) * (cw * ((1 - 500 * uro) * (a + x)))).
  { replace (cw * (1 - 8192 * uro) * ((1 + e) * (a + x))) with (((1 - 8192 * uro) * (1 + e)) * (cw * (a + x))) by ring.
    replace ((1 - 2000 * uro) * (cw * ((1 - 500 * uro) * (a + x)))) with (((1 - 500 * uro) * (1 - 2000 * uro)) * (cw * (a + x))) by ring.
    apply Rmult_le_compat_r; auto. }
  assert (U6 : (1 - 2000 * uro) * (cw * ((1 - 500 * uro) * (a + x))) <= (1 - 2000 * uro) * (x * (1 + uro) + 2 * tau)).
  { apply Rmult_le_compat_l; lra. }
  assert (U7 : (1 - 2000 * uro) * (1 + uro) * x <= (1 - e) * x) by (apply Rmult_le_compat_r; [auto|]; nra).
  assert (U8 : 2000 * uro * (2 * tau) >= 0) by (apply Rle_ge, Rmult_le_pos; lra).
  lra.
Qed.

(** What joining does, up to the rounding of the products. *)
Section Main.
Variables (sortf : list fcm -> list fcm) (cw_lim : float) (w : list float) (pdfs : list (list fcm)).
Hypothesis Hs : sorts sortf.
Hypothesis Hl : (length w <= length pdfs)%nat.
Hypothesis Hok : mixtures_ok w pdfs.
Hypothesis Hn : (Z.of_nat (components w pdfs) <= 2 ^ 20)%Z.
Hypothesis Hcw : fin cw_lim.

Lemma raw : exists tc tr : list ftri,
  fjoin_raw sortf cw_lim w pdfs = Ok (map fsc tc) /\ (forall t, In t (tc ++ tr) -> tri_ok t) /\
  (forall phi, mixed phi w pdfs = prob phi (map ex tc) + prob phi (map ex tr)) /\
  (length tc + length tr = components w pdfs)%nat /\ (length tc <= 200)%nat /\
  fheaviest (map fsc tc) (map fsc tr) /\
  (tr = [] \/ length tc = 200%nat \/
   exists y, In y (map fsc tr) /\ (forall z, In z (map fsc tr) -> fval (fst z) <= fval (fst y)) /\
     PrimFloat.ltb (fst y / (fwsum (map fst (map fsc tc)) + fst y)) cw_lim = true) /\
  kept_well cw_lim 0%float (map fsc tc).
Proof.
  destruct (fjoin_raw_ok sortf cw_lim w pdfs Hs Hl Hok) as (c & rest & E & Hp & Hh & Hk & Hr & Hkw).
  rewrite fscaled_tris in Hp. apply Permutation_map_inv in Hp. destruct Hp as (l & El & Hp). symmetry in El.
  apply map_eq_app in El. destruct El as (tc & tr & -> & <- & <-). exists tc, tr. split; auto.
  split. { intros t Ht. eapply tris_ok; eauto. eapply Permutation_in; [symmetry; exact Hp|auto]. }
  split. { intros phi. rewrite mixed_tris, <- prob_app, <- map_app. apply prob_perm, Permutation_map, Hp. }
  split. { rewrite <- app_length, <- (Permutation_length Hp). apply length_tris. }
  rewrite map_length in Hk, Hr. split; [exact Hk|]. split; auto. split; auto.
  destruct Hr as [Hr|[Hr|Hr]]; auto. left. destruct tr; auto; discriminate.
Qed.

(** The stop test, when it holds. *)
Lemma stop_test (c : list fcm) (y : fcm) : (forall g, In g c -> upto 2 (fst g)) -> upto 2 (fst y) -> (length c <= 200)%nat ->
  PrimFloat.ltb (fst y / (fwsum (map fst c) + fst y)) cw_lim = true ->
  0 < fval cw_lim /\ fval (fst y) <= fval cw_lim * ((1 + 500 * uro) * (total (reals c) + fval (fst y))).
Proof.
  intros Hc Hy Hk E. pose proof uro_small as Hu.
  assert (E1 : (fwsum (map fst c) + fst y)%float = fwsum (map fst (c ++ [y]))).
  { unfold fwsum. rewrite map_app, fold_left_app. reflexivity. }
  rewrite E1 in E.
  assert (Hall : forall x, In x (map fst (c ++ [y])) -> upto 2 x).
  { intros x Hx. apply in_map_iff in Hx. destruct Hx as (g & <- & Hg). apply in_app_or in Hg. destruct Hg as [Hg|[<-|[]]]; auto. }
  destruct (sum_ok (map fst (c ++ [y])) 2) as (t & Et & Ht & Hcl & Hs0 & Hle); auto.
  { split; [lra|]. change 2 with (bpow radix2 1). apply bpow_le. lia. }
  { unfold few. rewrite map_length, app_length. simpl. lia. }
  rewrite map_length, app_length in Hcl. cbn [length] in Hcl.
  assert (ES : vsum (map fst (c ++ [y])) = total (reals c) + fval (fst y)).
  { rewrite map_app, map_app, rsum_app, vsum_total. cbn. lra. }
  rewrite ES in *. set (S := total (reals c) + fval (fst y)) in *.
  assert (Hyt : fval (fst y) <= t). { apply Hle. rewrite map_app. apply in_or_app. right. simpl. auto. }
  assert (Hk' : INR (length c + 1) <= 201).
  { replace 201 with (INR 201) by (simpl; lra). apply le_INR. lia. }
  pose proof (pos_INR (length c + 1)) as Hk0.
  destruct Hy as [Fy Vy].
  destruct (Req_dec t 0) as [Z|NZ].
  - exfalso. assert (Zy : fval (fst y) = 0) by lra.
    assert (NaN' : proj (fst y / fwsum (map fst (c ++ [y])))%float = NaN).
    { apply div_00; [rewrite <- Zy; apply proj_fin; auto|rewrite <- Z; auto]. }
    assert (E2 : nlt floatN (fst y / fwsum (map fst (c ++ [y])))%float cw_lim = nlt extR NaN (proj cw_lim)).
    { rewrite <- NaN'. symmetry. apply proj_lt. }
    change (nlt floatN (fst y / fwsum (map fst (c ++ [y])))%float cw_lim = true) in E. rewrite E2 in E. discriminate.
  - assert (H01 : 0 <= fval (fst y) / t <= 1).
    { split; [apply Rmult_le_pos; [lra|left; apply Rinv_0_lt_compat; lra]|]. apply (Rmult_le_reg_r t); [lra|]. unfold Rdiv. rewrite Rmult_assoc, Rinv_l by lra. lra. }
    assert (Ep : proj (fst y / fwsum (map fst (c ++ [y])))%float = Fin (rnd (fval (fst y) / t))).
    { apply div_fin; auto; [apply proj_fin; auto|]. rewrite Rabs_pos_eq by lra. apply Rle_trans with 1; [lra|].
      change 1 with (bpow radix2 0). apply bpow_le. lia. }
    apply proj_Fin in Ep. destruct Ep as [Fq Vq].
    rewrite ltb_val in E by auto. rewrite Vq in E. destruct (Rlt_bool_spec (rnd (fval (fst y) / t)) (fval cw_lim)) as [L|]; [|discriminate].
    assert (L' : fval (fst y) / t < fval cw_lim).
    { apply Rnot_le_lt. intros C. apply rnd_le in C. rewrite rnd_val in C. lra. }
    assert (P : 0 < fval cw_lim) by lra. split; auto.
    assert (Q : fval (fst y) <= fval cw_lim * t).
    { apply Rmult_lt_compat_r with (r := t) in L'; [|lra]. unfold Rdiv in L'. rewrite Rmult_assoc, Rinv_l in L' by lra. lra. }
    apply Rle_trans with (1 := Q). apply Rmult_le_compat_l; [lra|]. apply Rabs_le_inv in Hcl.
    assert (2 * INR (length c + 1) * uro * S <= 500 * uro * S).
    { apply Rmult_le_compat_r; [lra|]. apply Rmult_le_compat_r; lra. }
    lra.
Qed.

(** The stop test, when it fails. *)
Lemma keep_test (a : list fcm) (y : fcm) : (forall g, In g a -> upto 2 (fst g)) -> upto 2 (fst y) -> (length a < 200)%nat ->
  PrimFloat.ltb (fst y / (fwsum (map fst a) + fst y)) cw_lim = false -> 0 <= fval cw_lim <= 1 ->
  fval cw_lim * ((1 - 500 * uro) * (total (reals a) + fval (fst y))) <= fval (fst y) * (1 + uro) + 2 * tau * (total (reals a) + fval (fst y)).
Proof.
  intros Hc Hy Hk E Hcw1. pose proof uro_small as Hu. assert (Ht : 0 < tau) by apply bpow_gt_0.
  assert (E1 : (fwsum (map fst a) + fst y)%float = fwsum (map fst (a ++ [y]))).
  { unfold fwsum. rewrite map_app, fold_left_app. reflexivity. }
  rewrite E1 in E.
  assert (Hall : forall x, In x (map fst (a ++ [y])) -> upto 2 x).
  { intros x Hx. apply in_map_iff in Hx. destruct Hx as (g & <- & Hg). apply in_app_or in Hg. destruct Hg as [Hg|[<-|[]]]; auto. }
  destruct (sum_ok (map fst (a ++ [y])) 2) as (t & Et & Ht0 & Hcl & Hs0 & Hle); auto.
  { split; [lra|]. change 2 with (bpow radix2 1). apply bpow_le. lia. }
  { unfold few. rewrite map_length, app_length. simpl. lia. }
  rewrite map_length, app_length in Hcl. cbn [length] in Hcl.
  assert (ES : vsum (map fst (a ++ [y])) = total (reals a) + fval (fst y)).
  { rewrite map_app, map_app, rsum_app, vsum_total. cbn. lra. }
  rewrite ES in *. set (S := total (reals a) + fval (fst y)) in *.
  assert (Hyt : fval (fst y) <= t). { apply Hle. rewrite map_app. apply in_or_app. right. simpl. auto. }
  assert (Hk' : INR (length a + 1) <= 201).
  { replace 201 with (INR 201) by (simpl; lra). apply le_INR. lia. }
  pose proof (pos_INR (length a + 1)) as Hk0. destruct Hy as [Fy Vy]. apply Rabs_le_inv in Hcl.
  assert (HS : 0 <= 2 * INR (length a + 1) * uro * S <= 500 * uro * S).
  { split; [repeat apply Rmult_le_pos; lra|]. apply Rmult_le_compat_r; [lra|]. apply Rmult_le_compat_r; lra. }
  assert (US : 500 * uro * S <= / 1000 * S) by (apply Rmult_le_compat_r; lra).
  destruct (Req_dec t 0) as [Z|NZ].
  - assert (S = 0) as -> by lra. rewrite !Rmult_0_r, Rplus_0_r. apply Rmult_le_pos; lra.
  - assert (H01 : 0 <= fval (fst y) / t <= 1).
    { split; [apply Rmult_le_pos; [lra|left; apply Rinv_0_lt_compat; lra]|]. apply (Rmult_le_reg_r t); [lra|]. unfold Rdiv. rewrite Rmult_assoc, Rinv_l by lra. lra. }
    assert (Ep : proj (fst y / fwsum (map fst (a ++ [y])))%float = Fin (rnd (fval (fst y) / t))).
    { apply div_fin; auto; [apply proj_fin; auto|]. rewrite Rabs_pos_eq by lra. apply Rle_trans with 1; [lra|].
      change 1 with (bpow radix2 0). apply bpow_le. lia. }
    apply proj_Fin in Ep. destruct Ep as [Fq Vq].
    rewrite ltb_val in E by auto. rewrite Vq in E. destruct (Rlt_bool_spec (rnd (fval (fst y) / t)) (fval cw_lim)) as [|L]; [discriminate|].
    pose proof (rnd_rel _ (proj1 H01)) as D. apply Rabs_le_inv in D.
    assert (Q : fval cw_lim * t <= fval (fst y) * (1 + uro) + tau * t).
    { apply Rle_trans with ((fval (fst y) / t * (1 + uro) + tau) * t); [apply Rmult_le_compat_r; lra|]. right. field. lra. }
    assert (Q1 : fval cw_lim * ((1 - 500 * uro) * S) <= fval cw_lim * t) by (apply Rmult_le_compat_l; lra).
    assert (Q2 : tau * t <= tau * (2 * S)) by (apply Rmult_le_compat_l; lra). lra.
Qed.

Lemma sums_close (e s : R) (l : list fcm) (ws : list float) :
  Forall2 (fun w w' => Rabs (fval w' - fval w / s) <= e * (fval w / s) + tau) (map fst l) ws ->
  Rabs (exact_sum ws - total (reals l) / s) <= e * (total (reals l) / s) + INR (length l) * tau.
Proof.
  revert ws. induction l as [|g l IH]; intros ws H; inversion H as [|x y l1 l2 H3 H4]; subst.
  { cbn. unfold Rdiv. rewrite Rmult_0_l, Rminus_0_r, Rabs_R0. lra. }
  specialize (IH _ H4). change (exact_sum (y :: l2)) with (fval y + exact_sum l2).
  change (total (reals (g :: l))) with (fval (fst g) + total (reals l)). change (length (g :: l)) with (S (length l)). rewrite S_INR.
  replace ((fval (fst g) + total (reals l)) / s) with (fval (fst g) / s + total (reals l) / s) by (unfold Rdiv; ring).
  apply Rabs_le_inv in H3. apply Rabs_le_inv in IH. apply Rabs_le. lra.
Qed.

Lemma join_ok : exists c eta, fjoin sortf cw_lim w pdfs = Ok (c, eta) /\
  ((c = [] /\ eta = 0%float /\ (fval cw_lim <= / 2 -> weight w pdfs <= 11 / 1000000000 * (INR (components w pdfs) + 1))) \/
   (fin eta /\ mixture_ready c /\ (exists lost, joined (fval cw_lim) w pdfs c (fval eta) lost) /\
    (fval cw_lim <= 1 -> kept (fval cw_lim) c))).
Proof.
  destruct raw as (tc & tr & E & Hall & Hmix & Hlen & Hk & Hh & Hr & Hkw).
  assert (Hc : forall t, In t tc -> tri_ok t) by (intros; apply Hall, in_or_app; auto).
  assert (Hr' : forall t, In t tr -> tri_ok t) by (intros; apply Hall, in_or_app; auto).
  assert (Uc : forall g, In g (map fsc tc) -> upto 2 (fst g)).
  { intros g Hg. apply in_map_iff in Hg. destruct Hg as (t & <- & Ht). apply scale_upto; apply Hc; auto. }
  assert (Ur : forall g, In g (map fsc tr) -> upto 2 (fst g)).
  { intros g Hg. apply in_map_iff in Hg. destruct Hg as (t & <- & Ht). apply scale_upto; apply Hr'; auto. }
  pose proof uro_small as Hu. pose proof eps_small as He.
  unfold fjoin. rewrite E. cbn [bind].
  destruct (normalize_ok (map fst (map fsc tc)) 2) as (t & Et & Ht0 & Htc & Hcase).
  { split; [lra|]. change 2 with (bpow radix2 1). apply bpow_le. lia. }
  { intros x Hx. apply in_map_iff in Hx. destruct Hx as (g & <- & Hg). auto. }
  { unfold few. rewrite !map_length. lia. }
  rewrite !map_length, vsum_total in Htc, Hcase.
  assert (P1 : forall g : G, 0 <= 1 <= 1) by (intros; lra).
  destruct (products_close (fun _ => 1) tc P1 Hc) as (_ & _ & Dc). destruct (products_close (fun _ => 1) tr P1 Hr') as (_ & _ & Dr).
  assert (EW : weight w pdfs = total (map ex tc) + total (map ex tr)) by (unfold weight; rewrite Hmix, <- !total_prob; reflexivity).
  rewrite <- !total_prob in Dc, Dr.
  assert (NTc : 0 <= total (map ex tc)) by (rewrite total_prob; apply (products_close (fun _ => 1) tc P1 Hc)).
  assert (NTr : 0 <= total (map ex tr)) by (rewrite total_prob; apply (products_close (fun _ => 1) tr P1 Hr')).
  assert (NRc : 0 <= total (reals (map fsc tc))) by (rewrite total_prob; apply (products_close (fun _ => 1) tc P1 Hc)).
  assert (NRr : 0 <= total (reals (map fsc tr))) by (rewrite total_prob; apply (products_close (fun _ => 1) tr P1 Hr')).
  pose proof (cross_le _ _ (heaviest_reals _ _ Hh)) as Hx. unfold reals in Hx at 1 3. rewrite !map_length in Hx.
  assert (Hstop : tr = [] \/ length tc = 200%nat \/ 
    (0 < fval cw_lim /\ exists y, total (reals (map fsc tr)) <= INR (length tr) * y /\ 0 <= y <= total (reals (map fsc tr)) /\
      y <= fval cw_lim * ((1 + 500 * uro) * (total (reals (map fsc tc)) + y)))).
  { destruct Hr as [H|[H|(y & Hy & Hmax & H)]]; auto. right. right.
    destruct (stop_test (map fsc tc) y Uc (Ur y Hy)) as [S1 S2]; auto. { rewrite map_length. auto. }
    split; auto. exists (fval (fst y)). split.
    - pose proof (total_le (reals (map fsc tr)) (fval (fst y))) as T. unfold reals in T at 3. rewrite !map_length in T. apply T.
      intros x Hx0. apply in_map_iff in Hx0. destruct Hx0 as (z & <- & Hz). cbn. auto.
    - split; auto. split; [apply (Ur y Hy)|]. clear - Hy Ur. induction (map fsc tr) as [|z l IH]; [destruct Hy|].
      cbn [reals map GMSpec.total fst]. fold (reals l). assert (0 <= fval (fst z)) by (apply (Ur z); simpl; auto).
      assert (0 <= total (reals l)).
      { apply GMProofs.total_nonneg. intros g Hg. apply in_map_iff in Hg. destruct Hg as (g0 & <- & Hg). cbn. apply (Ur g0); simpl; auto. }
      destruct Hy as [->|Hy]; [lra|]. assert (fval (fst y) <= total (reals l)) by (apply IH; auto; intros; apply Ur; simpl; auto). lra. }
  set (k := INR (length tc)) in *. set (m := INR (length tr)) in *.
  assert (Hk0 : 0 <= k <= 200).
  { split; [apply pos_INR|]. unfold k. replace 200 with (INR 200) by (simpl; lra). apply le_INR; auto. }
  assert (Hm0 : 0 <= m) by apply pos_INR.
  assert (Hnk : INR (components w pdfs) = k + m) by (rewrite <- Hlen; apply plus_INR).
  set (Tc := total (map ex tc)) in *. set (Tr := total (map ex tr)) in *.
  set (Rc := total (reals (map fsc tc))) in *. set (Rr := total (reals (map fsc tr))) in *.
  apply Rabs_le_inv in Htc. apply Rabs_le_inv in Dc. apply Rabs_le_inv in Dr.
  destruct lim_val as (_ & Vl & Vl').
  assert (HKU : 0 <= 2 * k * uro <= / 1000000) by (split; nra).
  assert (HKR : 0 <= 2 * k * uro * Rc <= / 1000000 * Rc) by (split; [apply Rmult_le_pos; lra|apply Rmult_le_compat_r; lra]).
  assert (HUT : 0 <= uro * Tc <= / 1000000 * Tc) by (split; [apply Rmult_le_pos; lra|apply Rmult_le_compat_r; lra]).
  assert (HUR : 0 <= uro * Tr <= / 1000000 * Tr) by (split; [apply Rmult_le_pos; lra|apply Rmult_le_compat_r; lra]).
  destruct Hcase as [(Hsm & En)|(Hbig & Esn & Eln & Hup & HF & Hone)].
  - rewrite En. cbn [fst snd combine]. exists [], 0%float. split; auto. left. split; auto. split; auto. intros Hhalf. rewrite EW, Hnk.
    pose proof (tau_small (length tc) 1 ltac:(lia) ltac:(lra)) as Ktau. pose proof (tau_small (length tr) 1 ltac:(lia) ltac:(lra)) as Mtau.
    fold k in Ktau. fold m in Mtau. rewrite Rmult_1_r in Ktau, Mtau.
    assert (B1 : Rc <= 1001 / 100000000000) by lra. assert (B2 : Tc <= 1002 / 100000000000) by lra.
    assert (B3 : Rr <= m * (102 / 10000000000)).
    { destruct Hstop as [H|[H|(H0 & y & Hy1 & Hy2 & Hy3)]].
      - unfold Rr. rewrite H. cbn. lra.
      - assert (k = 200) by (unfold k; rewrite H; simpl; lra). nra.
      - assert (y <= / 2 * ((1 + 500 * uro) * (Rc + y))).
        { apply Rle_trans with (1 := Hy3). apply Rmult_le_compat_r; [|lra]. apply Rmult_le_pos; lra. }
        assert (y <= 102 / 10000000000) by nra. nra. }
    assert (B4 : Tr <= m * (103 / 10000000000) + 2 * eps) by lra. lra.
  - assert (K0 : k * tau <= eps * / 1000000000) by (apply (tau_small (length tc)); [lia|lra]).
    assert (A1 : / 200000000 <= Rc) by lra.
    assert (A2 : / 300000000 <= Tc) by lra.
    pose proof (tau_small (length tc) Tc ltac:(lia) ltac:(lra)) as Ktau. pose proof (tau_small (length tr) Tc ltac:(lia) ltac:(lra)) as Mtau.
    fold k in Ktau. fold m in Mtau.
    assert (Htr0 : tau <= eps).
    { apply bpow_le. lia. }
    destruct (fnormalize (map fst (map fsc tc))) as [ws eta] eqn:En. cbn [fst snd] in *. subst eta.
    set (c := combine ws (map snd (map fsc tc))).
    assert (Lc : length c = length tc) by (unfold c; rewrite combine_length, !map_length; lia).
    assert (Fc : map fst c = ws).
    { unfold c. assert (L : length ws = length (map snd (map fsc tc))) by (rewrite !map_length; auto). clear - L.
      revert L. generalize (map snd (map fsc tc)). induction ws as [|x ws IH]; intros [|g l] L; try discriminate; auto. cbn in *. rewrite IH; auto. }
    exists c, (fwsum (map fst (map fsc tc))). split; auto. right. apply proj_Fin in Et. destruct Et as [Ft Vt]. split; auto. split; [|split].
    + split; [rewrite Lc; split; [|auto]|split].
      * destruct tc; [|simpl; lia]. exfalso. unfold Rc in A1. cbn in A1. lra.
      * intros g Hg. apply Hup. rewrite <- Fc. apply in_map; auto.
      * rewrite Fc, Lc. exact Hone.
    + exists (Tr / (Tc + Tr)). unfold joined. rewrite Lc, Hnk, EW, Vt. fold k.
      assert (HW : 0 < Tc + Tr) by lra.
      assert (L0 : 0 <= Tr / (Tc + Tr)) by (apply Rmult_le_pos; [lra|left; apply Rinv_0_lt_compat; lra]).
      assert (EL : (1 - Tr / (Tc + Tr)) * (Tc + Tr) = Tc) by (field; lra).
      split; auto. split. { split; auto. nra. } split; [lia|]. split; [|split; [|split]].
      * rewrite EL. change (bpow radix2 (-53)) with uro.
        assert (Y1 : 2 * k * uro * Rc <= 2 * k * uro * (Tc + 2 * uro * Tc)).
        { apply Rmult_le_compat_l; [nra|]. nra. }
        assert (Y2 : 2 * k * uro * (2 * uro * Tc) <= uro * Tc).
        { replace (2 * k * uro * (2 * uro * Tc)) with ((4 * k * uro) * (uro * Tc)) by ring.
          rewrite <- (Rmult_1_l (uro * Tc)) at 2. apply Rmult_le_compat_r; nra. }
        assert (Y3 : (2 * k + 4) * uro * Tc <= (2 * k + 4) * uro * (Tc + Tr)) by (apply Rmult_le_compat_l; nra).
        assert (Y4 : eps * Tc <= uro * Tc) by (apply Rmult_le_compat_r; lra).
        apply Rabs_le. split; nra.
      * intros phi Hphi. change (bpow radix2 (-53)) with uro. rewrite Hmix.
        destruct (products_close phi tc Hphi Hc) as (Pc1 & Pc2 & Pc3). destruct (products_close phi tr Hphi Hr') as (Pr1 & _ & _).
        pose proof (normal_close phi (map fsc tc) ws Rc ((4 * k + 4) * uro) Hphi HF) as Z. rewrite map_length in Z. fold k in Z. fold c in Z.
        fold Tc in Pc1. fold Tr in Pr1. fold Rc in Pc2. fold k in Pc3.
        set (PR := prob phi (reals (map fsc tc))) in *. set (PT := prob phi (map ex tc)) in *. set (PTr := prob phi (map ex tr)) in *.
        assert (Q : 0 <= PR / Rc <= 1).
        { split; [apply Rmult_le_pos; [lra|left; apply Rinv_0_lt_compat; lra]|]. apply (Rmult_le_reg_r Rc); [lra|]. unfold Rdiv. rewrite Rmult_assoc, Rinv_l by lra. lra. }
        assert (Y4 : eps * Tc <= uro * Tc) by (apply Rmult_le_compat_r; lra).
        assert (Z1 : Rabs (PR / Rc - PT / Tc) <= 5 * uro).
        { apply ratio_close; auto; [lra| |].
          - apply Rle_trans with (1 := Pc3). assert (uro * PT <= uro * Tc) by (apply Rmult_le_compat_l; lra). lra.
          - apply Rabs_le. lra. }
        pose proof (part_close PT PTr Tc Tr Pc1 Pr1 ltac:(lra)) as Z2.
        assert (Z3 : (4 * k + 4) * uro * (PR / Rc) + k * tau <= (4 * k + 5) * uro).
        { assert ((4 * k + 4) * uro * (PR / Rc) <= (4 * k + 4) * uro) by (rewrite <- (Rmult_1_r ((4 * k + 4) * uro)) at 2; apply Rmult_le_compat_l; nra). lra. }
        apply Rabs_le_inv in Z. apply Rabs_le_inv in Z1. apply Rabs_le_inv in Z2. apply Rabs_le. lra.
      * replace (k + m - k) with m by ring. apply (Rmult_le_reg_r (Tc + Tr)); auto.
        replace (Tr / (Tc + Tr) * (k + m) * (Tc + Tr)) with (k * Tr + m * Tr) by (field; lra).
        assert (X1 : k * (Tr - uro * Tr) <= k * (Rr + m * tau)) by (apply Rmult_le_compat_l; lra).
        assert (X2 : m * (Rc + k * tau) <= m * (Tc + 3 * (uro * Tc))).
        { apply Rmult_le_compat_l; auto. assert (eps * Tc <= uro * Tc) by (apply Rmult_le_compat_r; lra). lra. }
        assert (X3 : k * Tr * (1 - uro) <= m * Tc * (1 + 3 * uro)) by lra.
        assert (HmT : 0 <= m * Tc) by (apply Rmult_le_pos; lra).
        assert (X4 : k * Tr <= m * Tc * (1 + 5 * uro)).
        { apply (Rmult_le_reg_r (1 - uro)); [lra|]. apply Rle_trans with (1 := X3). rewrite (Rmult_assoc (m * Tc)). apply Rmult_le_compat_l; auto. nra. }
        rewrite forty. assert (HmR : 0 <= m * Tr) by (apply Rmult_le_pos; lra).
        assert (0 <= uro * (m * Tc) /\ 0 <= uro * (m * Tr)) by (split; apply Rmult_le_pos; lra). lra.
      * replace (k + m - k) with m by ring. destruct Hstop as [H|[H|(H0 & y & Hy1 & Hy2 & Hy3)]]; auto.
        { right. unfold Tr, m. rewrite H. cbn. unfold Rdiv. lra. }
        right. apply (Rmult_le_reg_r (Tc + Tr)); auto. replace (Tr / (Tc + Tr) * (Tc + Tr)) with Tr by (field; lra).
        assert (Tau1 : tau <= eps * Tc).
        { pose proof (tau_small 1 Tc ltac:(lia) ltac:(lra)) as T1. change (INR 1) with 1 in T1. lra. }
        assert (ET : 0 <= eps * Tr) by (apply Rmult_le_pos; lra).
        assert (Y4 : eps * Tc <= uro * Tc) by (apply Rmult_le_compat_r; lra).
        assert (V1 : Rc + y <= (1 + 3 * uro) * (Tc + Tr)) by lra.
        set (W := Tc + Tr) in *. set (cw := fval cw_lim) in *.
        assert (V2 : (1 + 500 * uro) * (Rc + y) <= (1 + 510 * uro) * W).
        { apply Rle_trans with ((1 + 500 * uro) * ((1 + 3 * uro) * W)); [apply Rmult_le_compat_l; lra|].
          rewrite <- Rmult_assoc. apply Rmult_le_compat_r; [lra|]. nra. }
        assert (V3 : y <= cw * ((1 + 510 * uro) * W)).
        { apply Rle_trans with (1 := Hy3). apply Rmult_le_compat_l; lra. }
        assert (CW : 0 <= cw * W) by (apply Rmult_le_pos; lra).
        assert (V4 : m * (y + tau) <= m * (cw * W * (1 + 510 * uro) + eps * W)) by (apply Rmult_le_compat_l; [auto|]; unfold W in *; lra).
        assert (V5 : Tr * (1 - uro) <= m * (cw * W * (1 + 510 * uro) + eps * W)) by lra.
        assert (EW0 : 0 <= eps * W) by (apply Rmult_le_pos; lra).
        assert (V6 : Tr <= m * (cw * W * (1 + 600 * uro) + 2 * (eps * W))).
        { apply (Rmult_le_reg_r (1 - uro)); [lra|]. apply Rle_trans with (1 := V5). rewrite (Rmult_assoc m). apply Rmult_le_compat_l; auto.
          assert (cw * W * (1 + 510 * uro) <= cw * W * ((1 + 600 * uro) * (1 - uro))) by (apply Rmult_le_compat_l; auto; nra).
          assert (eps * W * 1 <= eps * W * (2 * (1 - uro))) by (apply Rmult_le_compat_l; auto; lra). lra. }
        apply Rle_trans with (1 := V6). rewrite (Rmult_assoc m). apply Rmult_le_compat_l; auto. rewrite forty.
        assert (2 * eps * W <= bpow radix2 (-1000) * W) by (apply Rmult_le_compat_r; lra).
        assert (0 <= cw * W * uro) by (apply Rmult_le_pos; lra). lra.
    + intros Hone' a x b Ec. assert (Hx1 : upto 1 (fst x) /\ forall g, In g a -> upto 1 (fst g)).
      { split; [|intros g Hg]; apply Hup; rewrite <- Fc, Ec, map_app; apply in_or_app; [right; simpl; auto|left; apply in_map; auto]. }
      destruct Hx1 as [[_ Vx] Va].
      assert (Sa : 0 <= exact_sum (map fst a)).
      { clear - Va. induction a as [|g a IH]; cbn; [lra|]. assert (0 <= fval (fst g)) by (apply Va; simpl; auto).
        assert (0 <= exact_sum (map fst a)) by (apply IH; intros; apply Va; simpl; auto). unfold exact_sum in *. lra. }
      assert (B0 : 0 < bpow radix2 (-1000)) by apply bpow_gt_0. rewrite forty.
      destruct (Rle_or_lt 0 (fval cw_lim)) as [Cw|Cw].
      2:{ assert (fval cw_lim * (1 - 8192 * uro) * (exact_sum (map fst a) + fval (fst x)) <= 0).
          { rewrite Rmult_assoc. rewrite <- (Rmult_0_l ((1 - 8192 * uro) * (exact_sum (map fst a) + fval (fst x)))).
            apply Rmult_le_compat_r; [apply Rmult_le_pos; lra|lra]. }
          lra. }
      (* the same place before normalising *)
      assert (Ews : ws = map fst a ++ fst x :: map fst b) by (rewrite <- Fc, Ec, map_app; reflexivity).
      rewrite Ews in HF. apply Forall2_app_inv_r in HF. destruct HF as (l1 & l2 & F1 & F2 & El).
      apply map_eq_app in El. destruct El as (a0 & l0 & El & E1 & E2). subst l1 l2. destruct l0 as [|x0 b0]; [inversion F2|].
      cbn [map] in F2.
      assert (Fx : Rabs (fval (fst x) - fval (fst x0) / Rc) <= (4 * k + 4) * uro * (fval (fst x0) / Rc) + tau) by (inversion F2; auto).
      apply sums_close in F1.
      assert (La : (length a0 < length tc)%nat) by (apply (f_equal (@length _)) in El; rewrite map_length, app_length in El; cbn in El; lia).
      assert (Ha0 : 0 <= total (reals a0)).
      { apply GMProofs.total_nonneg. intros g Hg. apply in_map_iff in Hg. destruct Hg as (g0 & <- & Hg). cbn. apply (Uc g0).
        rewrite El. apply in_or_app. auto. }
      assert (Hx0 : upto 2 (fst x0)) by (apply Uc; rewrite El; apply in_or_app; simpl; auto).
      assert (Hb0 : total (reals a0) + fval (fst x0) <= Rc).
      { unfold Rc. rewrite El. unfold reals. rewrite map_app, GMProofs.total_app.
        change (total (reals a0) + fval (fst x0) <= total (reals a0) + (fval (fst x0) + total (reals b0))).
        assert (0 <= total (reals b0)); [|lra]. apply GMProofs.total_nonneg. intros g Hg. apply in_map_iff in Hg. destruct Hg as (g0 & <- & Hg).
        cbn. apply (Uc g0). rewrite El. apply in_or_app. simpl. auto. }
      pose proof (keep_test a0 x0) as K. specialize (K ltac:(intros; apply Uc; rewrite El; apply in_or_app; auto) Hx0 (Nat.lt_le_trans _ _ _ La Hk)).
      specialize (K (Hkw a0 x0 b0 El) (conj Cw Hone')). destruct Hx0 as [_ Vx0].
      apply (final_kept (fval cw_lim) (total (reals a0)) (fval (fst x0)) Rc (exact_sum (map fst a)) (fval (fst x)) ((4 * k + 4) * uro) (INR (length a0))); auto; try lra.
      * split; [apply pos_INR|]. apply Rle_trans with k; [|lra]. apply le_INR. lia.
      * split; [|nra]. apply Rmult_le_pos; lra.
Qed.

(** Existence probability and mixture of a target. *)
Lemma correct_ok fsum pdf : (forall l, fsums l (fsum l)) -> (Z.of_nat (length w) <= 2 ^ 20)%Z -> fval cw_lim <= / 2 ->
  exists r c, ftarget_correct sortf cw_lim fsum w pdf pdfs = Ok (r, c) /\ fin r /\
  ((fval r = 0 /\ c = pdf /\ exact_sum w <= 1000001 / 1000000000000) \/
   (999999 / 1000000000000 <= fval r /\ Rabs (fval r - exact_sum w) <= 2 * INR (length w) * bpow radix2 (-53) * exact_sum w /\
    ((c = [] /\ weight w pdfs <= 11 / 1000000000 * (INR (components w pdfs) + 1)) \/
     (mixture_ready c /\ kept (fval cw_lim) c /\ exists eta lost, joined (fval cw_lim) w pdfs c eta lost)))).
Proof.
  intros Hsum Hlw Hhalf. destruct Hok as [Hw2 _].
  destruct (fsums_ok w (fsum w) 2 (Hsum w)) as [t Et].
  { split; [lra|]. change 2 with (bpow radix2 1). apply bpow_le. lia. }
  { intros x Hx. exists (fval x). destruct (Hw2 x Hx). split; [apply proj_fin; auto|auto]. }
  { lia. }
  destruct (fsums_fin w (fsum w) (Hsum w)) as [Hnn Hc].
  { intros x Hx. eapply upto_nn; eauto. }
  destruct (Hc t Et) as [_ Hclose]. specialize (Hclose ltac:(lia)). pose proof (nn_fin _ _ Hnn Et) as Ht0.
  change (vsum w) with (exact_sum w) in Hclose. apply proj_Fin in Et. destruct Et as [Ft Vt].
  assert (Fl : fin 1e-6%float /\ 999999 / 1000000000000 < fval 1e-6%float <= 10000001 / 10000000000000).
  { split; [apply fin_SF; reflexivity|]. rewrite val_SF.
    replace (Prim2SF 1e-6) with (S754_finite false 4722366482869645 (-72)) by reflexivity.
    unfold SF2R, F2R, cond_Zopp, Fnum, Fexp. simpl bpow. lra. }
  destruct Fl as [Fl Vl].
  assert (Hn20 : 0 <= INR (length w) * uro <= bpow radix2 (-33)).
  { apply few_small. apply few_INR. exact Hlw. }
  assert (Hs0 : 0 <= exact_sum w).
  { apply vsum_nonneg. intros x Hx. split; [eapply upto_nn; eauto|apply Hw2; auto]. }
  assert (H33 : bpow radix2 (-33) <= / 1000000000) by (simpl; lra).
  unfold ftarget_correct. change (PrimFloat.leb 1e-6 (fsum w)) with (nle floatN 1e-6%float (fsum w)). rewrite f_le by auto. rewrite Vt.
  destruct (Rle_bool_spec (fval 1e-6%float) t) as [L|L].
  - destruct join_ok as (c & eta & E & H). rewrite E. cbn [bind fst]. exists (fsum w), c. split; auto. split; auto. right.
    rewrite Vt. split; [lra|]. split; [exact Hclose|].
    destruct H as [(H1 & _ & H3)|(H1 & H2 & (lost & H3) & H4)].
    + left. auto.
    + right. split; auto. split; [apply H4; lra|]. exists (fval eta), lost. auto.
  - exists 0%float, pdf. split; auto. split; [apply fin_SF; reflexivity|]. left. split; [rewrite val_SF; reflexivity|]. split; auto.
    apply Rabs_le_inv in Hclose. change (bpow radix2 (-53)) with uro in *.
    assert (2 * INR (length w) * uro * exact_sum w <= / 100000000 * exact_sum w) by (apply Rmult_le_compat_r; lra). lra.
Qed.
End Main.
End Round.
