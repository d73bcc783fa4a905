(** Point sets on which the computed metrics are not the minimum. *)
From Coq Require Import List Arith Bool Reals Lia Lra.
Import ListNotations.
From Verif Require Import Res Scalar Lap LapSpec LapBase LapMain Metric MetricSpec MetricProofs MetricMain.
Local Open Scope nat_scope.

Lemma edist1 a b : edist [a] [b] = Rabs (a - b).
Proof.
  unfold edist. cbn. rewrite Rplus_0_r, Rmult_1_r. exact (sqrt_Rsqr_abs (a - b)).
Qed.

(** Three targets, and the same three points as truth in another order. *)
Definition Xrot : list (list R) := [[0%R]; [10%R]; [20%R]].
Definition Yrot : list (list R) := [[10%R]; [20%R]; [0%R]].

Lemma three_rows (f : nat -> nat -> R) s :
  (forall i j, i < 3 -> j < 3 -> (0 <= f i j)%R) ->
  f 1 0 = 0%R -> f 2 1 = 0%R -> f 0 2 = 0%R ->
  (0 < f 0%nat 0%nat)%R -> (0 < f 2%nat 0%nat)%R -> (0 < f 0%nat 1%nat)%R -> (0 < f 1%nat 1%nat)%R -> (0 < f 1%nat 2%nat)%R -> (0 < f 2%nat 2%nat)%R ->
  topt 3 f s -> s = [1; 2; 0].
Proof.
  intros Hf Z0 Z1 Z2 P00 P20 P01 P11 P12 P22 [(Hl & Hnd & Hlt) Ho].
  assert (Hc : complete 3 3 [1; 2; 0]).
  { split; [reflexivity|]. split.
    - repeat constructor; cbn; lia.
    - intros j Hj. cbn in Hj. repeat (destruct Hj as [<-|Hj]; [lia|]). destruct Hj. }
  specialize (Ho _ Hc).
  destruct s as [|a [|b [|d [|e s]]]]; cbn [length] in Hl; try lia.
  assert (a < 3) by (apply Hlt; cbn; auto). assert (b < 3) by (apply Hlt; cbn; auto).
  assert (d < 3) by (apply Hlt; cbn; auto).
  cbn [seq map nth Rsum] in Ho. rewrite Z0, Z1, Z2 in Ho.
  assert (0 <= f a 0%nat)%R by (apply Hf; auto). assert (0 <= f b 1%nat)%R by (apply Hf; auto).
  assert (0 <= f d 2%nat)%R by (apply Hf; auto).
  assert (Ea : f a 0 = 0%R) by lra. assert (Eb : f b 1 = 0%R) by lra. assert (Ed : f d 2 = 0%R) by lra.
  assert (a = 1) by (destruct a as [|[|[|a]]]; try lia; exfalso; lra).
  assert (b = 2) by (destruct b as [|[|[|b]]]; try lia; exfalso; lra).
  assert (d = 0) by (destruct d as [|[|[|d]]]; try lia; exfalso; lra).
  subst. reflexivity.
Qed.

Ltac dist := unfold ospa_entry, gospa_entry, pair_dist, Xrot, Yrot; cbn [length Nat.ltb Nat.leb andb nth];
  rewrite ?edist1; unfold Rabs, Rmin; repeat (destruct (Rcase_abs _) || destruct (Rle_dec _ _)); try lra.

Lemma rot_ospa p : (0 < p)%R ->
  exists fuel0 v, (forall fuel, fuel0 <= fuel -> ospa fuel Xrot Yrot 100 p = Ok (Fin v)) /\
    (10 <= v)%R /\ is_ospa Xrot Yrot 100 p 0.
Proof.
  intros Hp. assert (Hc : (0 <= 100)%R) by lra.
  assert (Hip : (0 < / p)%R) by (apply Rinv_0_lt_compat; auto).
  assert (Hn : Nat.max (length Xrot) (length Yrot) <= 30) by (cbn; lia).
  destruct (ospa_total Xrot Yrot 100 p Hc Hp Hn) as (fuel0 & v & H & Hr).
  destruct Hr as [[H0 _]|(H0 & s & Hs & ->)]; [cbn in H0; lia|].
  exists fuel0, (ospa_val Xrot Yrot 100 p s). split; auto. split.
  - assert (s = [1; 2; 0]).
    { apply (three_rows (ospa_entry Xrot Yrot 100)); try exact Hs; try (dist; fail).
      intros. apply ospa_entry_bounds; auto. }
    subst s. unfold ospa_val. cbn [length Xrot Yrot Nat.max].
    apply Rle_trans with (rpow (rpow 10 p) (/ p)); [rewrite rpow_inv; lra|].
    apply rpow_le; auto. split; [apply rpow_nonneg; lra|].
    cbn [seq map nth Rsum INR].
    assert (rpow 10 p <= rpow (ospa_entry Xrot Yrot 100 0%nat 1%nat) p)%R by (apply rpow_le; auto; dist).
    assert (rpow 10 p <= rpow (ospa_entry Xrot Yrot 100 1%nat 2%nat) p)%R by (apply rpow_le; auto; dist).
    assert (rpow 10 p <= rpow (ospa_entry Xrot Yrot 100 2%nat 0%nat) p)%R by (apply rpow_le; auto; dist).
    lra.
  - right. split; [cbn; lia|]. split.
    + exists [(0, 2); (1, 0); (2, 1)]. split.
      * split; [repeat constructor; cbn; lia|]. split; [repeat constructor; cbn; lia|].
        intros a Ha. cbn in Ha. repeat (destruct Ha as [<-|Ha]; [cbn; lia|]). destruct Ha.
      * unfold ospa_of. cbn [map Rsum fst snd nth Xrot Yrot length Nat.max Nat.sub INR].
        rewrite !edist1.
        replace (Rabs (0 - 0)) with 0%R by (unfold Rabs; destruct (Rcase_abs _); lra).
        replace (Rabs (10 - 10)) with 0%R by (unfold Rabs; destruct (Rcase_abs _); lra).
        replace (Rabs (20 - 20)) with 0%R by (unfold Rabs; destruct (Rcase_abs _); lra).
        rewrite Rmin_right by lra.
        assert (Z : forall q, rpow 0 q = 0%R) by (intros; unfold rpow; destruct (Req_EM_T 0 0); lra).
        rewrite Z. rewrite !Rplus_0_l, Rmult_0_l. unfold Rdiv. rewrite Rmult_0_l, Z. reflexivity.
    + intros g (_ & _ & _). apply rpow_nonneg.
      apply Rmult_le_pos; [|left; apply Rinv_0_lt_compat; cbn; lra].
      assert (0 <= rpow 100 p)%R by (apply rpow_nonneg; lra).
      pose proof (pos_INR (Nat.max (length Xrot) (length Yrot) - length g)).
      assert (forall l, 0 <= Rsum (map (fun a : nat * nat => rpow (Rmin 100 (edist (nth (fst a) Xrot []) (nth (snd a) Yrot []))) p) l))%R.
      { induction l as [|a l IH]; cbn [map Rsum]; [lra|].
        assert (0 <= rpow (Rmin 100 (edist (nth (fst a) Xrot []) (nth (snd a) Yrot []))) p)%R; [|lra].
        apply rpow_nonneg, Rmin_glb; [lra|apply edist_nonneg]. }
      specialize (H3 g). nra.
Qed.

Lemma rot_gospa p : (0 < p)%R ->
  exists fuel0 v, (forall fuel, fuel0 <= fuel -> gospa fuel Xrot Yrot 100 p = Ok (Fin v)) /\
    (10 <= v)%R /\ is_gospa Xrot Yrot 100 p 0.
Proof.
  intros Hp. assert (Hc : (0 <= 100)%R) by lra.
  assert (Hip : (0 < / p)%R) by (apply Rinv_0_lt_compat; auto).
  assert (Z : forall q, rpow 0 q = 0%R) by (intros; unfold rpow; destruct (Req_EM_T 0 0); lra).
  assert (Hn : Nat.max (length Xrot) (length Yrot) <= 30) by (cbn; lia).
  destruct (gospa_total Xrot Yrot 100 p Hc Hp Hn) as (fuel0 & v & H & Hr).
  destruct Hr as [[H0 _]|(H0 & s & Hs & ->)]; [cbn in H0; lia|].
  exists fuel0, (gospa_val Xrot Yrot 100 p s). split; auto. split.
  - assert (Hpos : forall x, (0 < x)%R -> (0 < rpow x p)%R).
    { intros x Hx. rewrite <- (Z p). apply rpow_lt; auto. lra. }
    assert (Hent : forall i j, i < 3 -> j < 3 ->
      gospa_entry Xrot Yrot 100 p i j = rpow (ospa_entry Xrot Yrot 100 i j) p).
    { intros i j Hi Hj. unfold gospa_entry, ospa_entry. cbn [length Xrot Yrot].
      apply Nat.ltb_lt in Hi. apply Nat.ltb_lt in Hj. rewrite Hi, Hj. reflexivity. }
    assert (s = [1; 2; 0]).
    { apply (three_rows (gospa_entry Xrot Yrot 100 p)); try exact Hs.
      { intros. apply gospa_entry_nonneg; auto. }
      all: rewrite Hent by lia.
      1-3: rewrite <- (Z p); f_equal; dist.
      all: apply Hpos; dist. }
    subst s. unfold gospa_val. cbn [length Xrot Yrot Nat.max].
    apply Rle_trans with (rpow (rpow 10 p) (/ p)); [rewrite rpow_inv; lra|].
    apply rpow_le; auto. split; [apply rpow_nonneg; lra|].
    cbn [seq map nth Rsum]. rewrite !Hent by lia.
    assert (rpow 10 p <= rpow (ospa_entry Xrot Yrot 100 0%nat 1%nat) p)%R by (apply rpow_le; auto; dist).
    assert (0 <= rpow (ospa_entry Xrot Yrot 100 1%nat 2%nat) p)%R by (apply rpow_nonneg; dist).
    assert (0 <= rpow (ospa_entry Xrot Yrot 100 2%nat 0%nat) p)%R by (apply rpow_nonneg; dist).
    lra.
  - split.
    + exists [(0, 2); (1, 0); (2, 1)]. split.
      * split; [repeat constructor; cbn; lia|]. split; [repeat constructor; cbn; lia|].
        intros a Ha. cbn in Ha. repeat (destruct Ha as [<-|Ha]; [cbn; lia|]). destruct Ha.
      * unfold gospa_of. cbn [map Rsum fst snd nth Xrot Yrot length Nat.mul Nat.add Nat.sub INR].
        rewrite !edist1.
        replace (Rabs (0 - 0)) with 0%R by (unfold Rabs; destruct (Rcase_abs _); lra).
        replace (Rabs (10 - 10)) with 0%R by (unfold Rabs; destruct (Rcase_abs _); lra).
        replace (Rabs (20 - 20)) with 0%R by (unfold Rabs; destruct (Rcase_abs _); lra).
        rewrite Z. rewrite !Rplus_0_l, Rmult_0_l, Z. reflexivity.
    + intros g _. apply rpow_nonneg.
      assert (0 <= rpow 100 p)%R by (apply rpow_nonneg; lra).
      pose proof (pos_INR (length Xrot + length Yrot - 2 * length g)).
      assert (forall l, 0 <= Rsum (map (fun a : nat * nat => rpow (edist (nth (fst a) Xrot []) (nth (snd a) Yrot [])) p) l))%R.
      { induction l as [|a l IH]; cbn [map Rsum]; [lra|].
        assert (0 <= rpow (edist (nth (fst a) Xrot []) (nth (snd a) Yrot [])) p)%R; [|lra].
        apply rpow_nonneg, edist_nonneg. }
      specialize (H3 g). nra.
Qed.

(** Two targets and order 2: the sum of distances is minimal for another
    assignment than the sum of squares. *)
Definition Xsq : list (list R) := [[0%R]; [7%R]].
Definition Ysq : list (list R) := [[6%R]; [13%R]].

Lemma rpow_2 x : (0 <= x)%R -> rpow x 2 = (x * x)%R.
Proof.
  intros H. unfold rpow. destruct (Req_EM_T x 0) as [->|]; [lra|].
  replace 2%R with (INR 2) by (cbn; lra). rewrite Rpower_pow by lra. cbn. lra.
Qed.

Ltac dist2 := unfold ospa_entry, pair_dist, Xsq, Ysq; cbn [length Nat.ltb Nat.leb andb nth];
  rewrite ?edist1; unfold Rabs, Rmin; repeat (destruct (Rcase_abs _) || destruct (Rle_dec _ _)); try lra.

Lemma sq_ospa :
  exists fuel0 v, (forall fuel, fuel0 <= fuel -> ospa fuel Xsq Ysq 10 2 = Ok (Fin v)) /\
    (7 < v)%R /\ matching 2 2 [(0, 0); (1, 1)] /\ ospa_of Xsq Ysq 10 2 [(0, 0); (1, 1)] = 6%R.
Proof.
  assert (Hc : (0 <= 10)%R) by lra. assert (Hp : (0 < 2)%R) by lra.
  assert (Hn : Nat.max (length Xsq) (length Ysq) <= 30) by (cbn; lia).
  assert (E00 : ospa_entry Xsq Ysq 10 0%nat 0%nat = 6%R) by dist2.
  assert (E01 : ospa_entry Xsq Ysq 10 0%nat 1%nat = 10%R) by dist2.
  assert (E10 : ospa_entry Xsq Ysq 10 1%nat 0%nat = 1%R) by dist2.
  assert (E11 : ospa_entry Xsq Ysq 10 1%nat 1%nat = 6%R) by dist2.
  destruct (ospa_total Xsq Ysq 10 2 Hc Hp Hn) as (fuel0 & v & H & Hr).
  destruct Hr as [[H0 _]|(H0 & s & Hs & ->)]; [cbn in H0; lia|].
  exists fuel0, (ospa_val Xsq Ysq 10 2 s). split; auto. split; [|split].
  - destruct Hs as [(Hl & Hnd & Hlt) Ho]. cbn [length Xsq Ysq Nat.max] in *.
    assert (Hc2 : complete 2 2 [1; 0]).
    { split; [reflexivity|]. split.
      - repeat constructor; cbn; lia.
      - intros j Hj. cbn in Hj. repeat (destruct Hj as [<-|Hj]; [lia|]). destruct Hj. }
    specialize (Ho _ Hc2).
    destruct s as [|a [|b [|d s]]]; cbn [length] in Hl; try lia.
    assert (a < 2) by (apply Hlt; cbn; auto). assert (b < 2) by (apply Hlt; cbn; auto).
    assert (a <> b). { intros ->. inversion Hnd; subst. apply H5. left; auto. }
    cbn [seq map nth Rsum] in Ho.
    assert (Hcase : (a = 0 /\ b = 1) \/ (a = 1 /\ b = 0)) by lia.
    destruct Hcase as [[-> ->]|[-> ->]].
    + rewrite E00, E11, E10, E01 in Ho. lra.
    + unfold ospa_val. cbn [length Xsq Ysq Nat.max seq map nth Rsum INR].
      rewrite E10, E01, !rpow_2 by lra.
      apply Rle_lt_trans with (rpow (rpow 7 2) (/ 2)); [rewrite rpow_inv; lra|].
      apply rpow_lt; [|lra]. rewrite rpow_2 by lra. lra.
  - split; [repeat constructor; cbn; lia|]. split; [repeat constructor; cbn; lia|].
    intros a Ha. cbn in Ha. repeat (destruct Ha as [<-|Ha]; [cbn; lia|]). destruct Ha.
  - unfold ospa_of. cbn [map Rsum fst snd nth Xsq Ysq length Nat.max Nat.sub INR].
    rewrite !edist1.
    replace (Rmin 10 (Rabs (0 - 6))) with 6%R by dist2.
    replace (Rmin 10 (Rabs (7 - 13))) with 6%R by dist2.
    replace ((rpow 6 2 + (rpow 6 2 + 0) + 0 * rpow 10 2) / (1 + 1))%R with (rpow 6 2) by field.
    apply rpow_inv; lra.
Qed.

(** The subset check of the solver overflows with 31 targets or true states. *)
Lemma ospa_31 fuel X Y c p : Nat.max (length X) (length Y) = 31 ->
  ospa fuel X Y c p = UB.
Proof.
  intros H31. unfold ospa. rewrite H31. cbn [Nat.ltb Nat.leb].
  pose proof (ospa_matrix X Y c False) as HC. rewrite H31 in HC.
  destruct (fill X Y (constant 31 (Fin c))) as [C0| |]; cbn [wp] in HC; try tauto. cbn [bind].
  set (C := mkMat 31 31 ColMajor _) in *. clearbody C.
  assert (HCc : cost_matrix C) by exact (cost_C 31 _ C HC).
  unfold lap_simple, lap.
  rewrite (lap_31 false C fuel (seq 0 31) HCc (im_rows _ _ _ HC)); [reflexivity|].
  apply (feasible_C 31 _ C HC). apply seq_complete.
Qed.

Lemma gospa_31 fuel X Y c p : Nat.max (length X) (length Y) = 31 -> (0 <= c)%R -> (0 < p)%R ->
  gospa fuel X Y c p = UB.
Proof.
  intros H31 Hc Hp. unfold gospa. rewrite H31. cbn [Nat.ltb Nat.leb].
  pose proof (gospa_matrix X Y c p Hc Hp False) as HC. rewrite H31 in HC.
  destruct (fill X Y _) as [C0| |]; cbn [bind wp] in HC; try tauto. cbn [bind].
  destruct (for_loop (length X) 0 _ C0) as [C| |]; cbn [wp] in HC; try tauto. cbn [bind].
  assert (HCc : cost_matrix C) by exact (cost_C 31 _ C HC).
  unfold lap_simple, lap.
  rewrite (lap_31 false C fuel (seq 0 31) HCc (im_rows _ _ _ HC)); [reflexivity|].
  apply (feasible_C 31 _ C HC). apply seq_complete.
Qed.
