(** Proofs about boxes. *)
From Coq Require Import List Bool Reals Lra Lia.
Import ListNotations.
From Verif Require Import Scalar LapBase Trig GM Box BoxSpec.
Local Open Scope R_scope.

(** ** Axis-aligned boxes *)
Lemma of4_ordered x1 y1 x2 y2 : ordered (aabb_of4 x1 y1 x2 y2).
Proof. split; cbn; eapply Rle_trans; try apply Rmin_l; apply Rmax_l. Qed.

Lemma a_within_spec b p : a_within b p = true <-> in_aabb b p.
Proof.
  unfold a_within, in_aabb. rewrite negb_true_iff, !orb_false_iff.
  destruct (Rltb_spec (fst p) (min0 b)), (Rltb_spec (max0 b) (fst p)), (Rltb_spec (snd p) (min1 b)), (Rltb_spec (max1 b) (snd p));
    (split; [intros H; try lra; intuition discriminate|intros H; try lra; auto]).
Qed.

Lemma a_intersects_spec a b : ordered a -> ordered b ->
  (a_intersects a b = true <-> exists p, in_aabb a p /\ in_aabb b p).
Proof.
  intros (A0 & A1) (B0 & B1). unfold a_intersects. rewrite negb_true_iff, !orb_false_iff. split.
  - intros (((H1 & H2) & H3) & H4).
    destruct (Rltb_spec (max0 a) (min0 b)), (Rltb_spec (max0 b) (min0 a)), (Rltb_spec (max1 b) (min1 a)), (Rltb_spec (max1 a) (min1 b));
      try discriminate.
    exists (Rmax (min0 a) (min0 b), Rmax (min1 a) (min1 b)). unfold in_aabb. cbn [fst snd].
    unfold Rmax. destruct (Rle_dec (min0 a) (min0 b)), (Rle_dec (min1 a) (min1 b)); lra.
  - intros (p & ((P1 & P2) & (P3 & P4)) & ((Q1 & Q2) & (Q3 & Q4))).
    destruct (Rltb_spec (max0 a) (min0 b)), (Rltb_spec (max0 b) (min0 a)), (Rltb_spec (max1 b) (min1 a)), (Rltb_spec (max1 a) (min1 b));
      auto; lra.
Qed.

Lemma a_intersects_sym a b : a_intersects a b = a_intersects b a.
Proof.
  unfold a_intersects. destruct (Rltb (max0 a) (min0 b)), (Rltb (max0 b) (min0 a)), (Rltb (max1 b) (min1 a)), (Rltb (max1 a) (min1 b)); reflexivity.
Qed.

Lemma fold_min {A} (f : A -> R) l x : fold_left (fun a q => Rmin a (f q)) l x <= x /\
  (forall q, In q l -> fold_left (fun a q => Rmin a (f q)) l x <= f q) /\
  (fold_left (fun a q => Rmin a (f q)) l x = x \/ exists q, In q l /\ fold_left (fun a q => Rmin a (f q)) l x = f q).
Proof.
  revert x. induction l as [|y l IH]; intros x; simpl; [split; [lra|split; [intros q []|auto]]|].
  destruct (IH (Rmin x (f y))) as (H1 & H2 & H3). pose proof (Rmin_l x (f y)). pose proof (Rmin_r x (f y)).
  split; [lra|]. split; [intros q [<-|Hq]; [lra|auto]|]. destruct H3 as [H3|(q & Hq & E)]; [|right; exists q; auto].
  rewrite H3. unfold Rmin. destruct (Rle_dec x (f y)); [auto|right; exists y; auto].
Qed.
Lemma fold_max {A} (f : A -> R) l x : x <= fold_left (fun a q => Rmax a (f q)) l x /\
  (forall q, In q l -> f q <= fold_left (fun a q => Rmax a (f q)) l x) /\
  (fold_left (fun a q => Rmax a (f q)) l x = x \/ exists q, In q l /\ fold_left (fun a q => Rmax a (f q)) l x = f q).
Proof.
  revert x. induction l as [|y l IH]; intros x; simpl; [split; [lra|split; [intros q []|auto]]|].
  destruct (IH (Rmax x (f y))) as (H1 & H2 & H3). pose proof (Rmax_l x (f y)). pose proof (Rmax_r x (f y)).
  split; [lra|]. split; [intros q [<-|Hq]; [lra|auto]|]. destruct H3 as [H3|(q & Hq & E)]; [|right; exists q; auto].
  rewrite H3. unfold Rmax. destruct (Rle_dec x (f y)); [right; exists y; auto|auto].
Qed.

(** ** The quick check *)
Lemma min4_le a b c d : min4 a b c d <= a /\ min4 a b c d <= b /\ min4 a b c d <= c /\ min4 a b c d <= d.
Proof. unfold min4, Rmin. repeat (destruct (Rle_dec _ _)); lra. Qed.
Lemma max4_ge a b c d : a <= max4 a b c d /\ b <= max4 a b c d /\ c <= max4 a b c d /\ d <= max4 a b c d.
Proof. unfold max4, Rmax. repeat (destruct (Rle_dec _ _)); lra. Qed.
Lemma min4_in a b c d : min4 a b c d = a \/ min4 a b c d = b \/ min4 a b c d = c \/ min4 a b c d = d.
Proof. unfold min4, Rmin. repeat (destruct (Rle_dec _ _)); auto. Qed.
Lemma max4_in a b c d : max4 a b c d = a \/ max4 a b c d = b \/ max4 a b c d = c \/ max4 a b c d = d.
Proof. unfold max4, Rmax. repeat (destruct (Rle_dec _ _)); auto. Qed.

Lemma b_aabbox_eq b : let m0 := min4 (fst (c0 b)) (fst (c1 b)) (fst (c2 b)) (fst (c3 b)) in
  let m1 := min4 (snd (c0 b)) (snd (c1 b)) (snd (c2 b)) (snd (c3 b)) in
  let M0 := max4 (fst (c0 b)) (fst (c1 b)) (fst (c2 b)) (fst (c3 b)) in
  let M1 := max4 (snd (c0 b)) (snd (c1 b)) (snd (c2 b)) (snd (c3 b)) in
  b_aabbox b = mkAabb m0 m1 M0 M1.
Proof.
  intros m0 m1 M0 M1. unfold b_aabbox, aabb_of4. fold m0 m1 M0 M1.
  assert (H0 : m0 <= M0) by (eapply Rle_trans; [apply (min4_le (fst (c0 b)))|apply max4_ge]).
  assert (H1 : m1 <= M1) by (eapply Rle_trans; [apply (min4_le (snd (c0 b)))|apply max4_ge]).
  rewrite !Rmin_left, !Rmax_right by auto. reflexivity.
Qed.

Lemma mix_ge m a b c d w0 w1 w2 w3 : m <= a -> m <= b -> m <= c -> m <= d -> 0 <= w0 -> 0 <= w1 -> 0 <= w2 -> 0 <= w3 ->
  w0 + w1 + w2 + w3 = 1 -> m <= w0 * a + w1 * b + w2 * c + w3 * d.
Proof. intros. replace m with ((w0 + w1 + w2 + w3) * m) by (rewrite H7; ring). nra. Qed.
Lemma mix_le m a b c d w0 w1 w2 w3 : a <= m -> b <= m -> c <= m -> d <= m -> 0 <= w0 -> 0 <= w1 -> 0 <= w2 -> 0 <= w3 ->
  w0 + w1 + w2 + w3 = 1 -> w0 * a + w1 * b + w2 * c + w3 * d <= m.
Proof. intros. replace m with ((w0 + w1 + w2 + w3) * m) by (rewrite H7; ring). nra. Qed.

Lemma bbox_aabbox b p : in_bbox b p -> in_aabb (b_aabbox b) p.
Proof.
  intros (w0 & w1 & w2 & w3 & H0 & H1 & H2 & H3 & Hs & Ex & Ey). rewrite b_aabbox_eq. unfold in_aabb. cbn [min0 min1 max0 max1].
  rewrite Ex, Ey. split; split; first [apply mix_ge; auto; apply min4_le|apply mix_le; auto; apply max4_ge].
Qed.

(** ** The edge test *)
Definition cross (ci cj x : pt) : R := (fst ci - fst x) * (snd cj - snd x) - (fst cj - fst x) * (snd ci - snd x).

Lemma edge_spec ci cj x : edge ci cj x = true <->
  (snd x < snd ci /\ snd cj <= snd x /\ cross ci cj x < 0) \/ (snd ci <= snd x /\ snd x < snd cj /\ 0 < cross ci cj x).
Proof.
  unfold edge, cross. rewrite andb_true_iff, negb_true_iff.
  set (q := (fst cj - fst ci) * (snd x - snd ci) / (snd cj - snd ci) + fst ci).
  assert (Hq : snd cj - snd ci <> 0 ->
    (q - fst x) * (snd cj - snd ci) = (fst ci - fst x) * (snd cj - snd x) - (fst cj - fst x) * (snd ci - snd x)).
  { intros Hn. unfold q. field. auto. }
  destruct (Rltb_spec (snd x) (snd ci)) as [Hi|Hi], (Rltb_spec (snd x) (snd cj)) as [Hj|Hj]; cbn [Bool.eqb].
  - split; [intros (H & _); discriminate|intros [H|H]; lra].
  - rewrite <- Hq by lra. destruct (Rltb_spec (fst x) q) as [Hx|Hx]; split; auto.
    + intros _. left. split; auto. split; [lra|nra].
    + intros (_ & H). discriminate.
    + intros [(_ & _ & H)|H]; [exfalso; nra|lra].
  - rewrite <- Hq by lra. destruct (Rltb_spec (fst x) q) as [Hx|Hx]; split; auto.
    + intros _. right. split; [lra|]. split; [lra|nra].
    + intros (_ & H). discriminate.
    + intros [H|(_ & _ & H)]; [lra|exfalso; nra].
  - split; [intros (H & _); discriminate|intros [H|H]; lra].
Qed.

(** An edge that crosses the horizontal line through [x] has a point on it; the
    test compares with this point. *)
Lemma edge_point ci cj x : Rltb (snd x) (snd ci) <> Rltb (snd x) (snd cj) ->
  exists k, 0 <= k <= 1 /\ snd ci + k * (snd cj - snd ci) = snd x /\
    (edge ci cj x = true <-> fst x < fst ci + k * (fst cj - fst ci)).
Proof.
  intros H. assert (Hn : snd cj - snd ci <> 0).
  { intros E. apply H. f_equal. lra. }
  exists ((snd x - snd ci) / (snd cj - snd ci)). split; [|split].
  - destruct (Rltb_spec (snd x) (snd ci)) as [Hi|Hi], (Rltb_spec (snd x) (snd cj)) as [Hj|Hj]; try congruence.
    + split; [|apply Rmult_le_reg_r with (snd ci - snd cj); [lra|]].
      * replace ((snd x - snd ci) / (snd cj - snd ci)) with ((snd ci - snd x) * / (snd ci - snd cj)) by (field; lra).
        apply Rmult_le_pos; [lra|]. left. apply Rinv_0_lt_compat. lra.
      * replace ((snd x - snd ci) / (snd cj - snd ci) * (snd ci - snd cj)) with (snd ci - snd x) by (field; lra). lra.
    + split; [|apply Rmult_le_reg_r with (snd cj - snd ci); [lra|]].
      * apply Rmult_le_pos; [lra|]. left. apply Rinv_0_lt_compat. lra.
      * replace ((snd x - snd ci) / (snd cj - snd ci) * (snd cj - snd ci)) with (snd x - snd ci) by (field; lra). lra.
  - field. auto.
  - unfold edge. assert (Eb : Bool.eqb (Rltb (snd x) (snd ci)) (Rltb (snd x) (snd cj)) = false).
    { destruct (Rltb (snd x) (snd ci)), (Rltb (snd x) (snd cj)); auto; congruence. }
    rewrite Eb. cbn [negb andb].
    replace (fst ci + (snd x - snd ci) / (snd cj - snd ci) * (fst cj - fst ci))
      with ((fst cj - fst ci) * (snd x - snd ci) / (snd cj - snd ci) + fst ci) by (field; auto).
    destruct (Rltb_spec (fst x) ((fst cj - fst ci) * (snd x - snd ci) / (snd cj - snd ci) + fst ci)); split; intros; auto; try lra; discriminate.
Qed.

Lemma no_edge ci cj x : Rltb (snd x) (snd ci) = Rltb (snd x) (snd cj) -> edge ci cj x = false.
Proof. intros H. unfold edge. rewrite H, eqb_reflx. reflexivity. Qed.

Lemma mix_in b p q k x : in_bbox b p -> in_bbox b q -> 0 <= k <= 1 ->
  fst x = fst p + k * (fst q - fst p) -> snd x = snd p + k * (snd q - snd p) -> in_bbox b x.
Proof.
  intros (w0 & w1 & w2 & w3 & H0 & H1 & H2 & H3 & Hs & Ex & Ey) (v0 & v1 & v2 & v3 & V0 & V1 & V2 & V3 & Vs & Fx & Fy) Hk E1 E2.
  exists ((1 - k) * w0 + k * v0), ((1 - k) * w1 + k * v1), ((1 - k) * w2 + k * v2), ((1 - k) * w3 + k * v3).
  repeat (split; [apply Rplus_le_le_0_compat; apply Rmult_le_pos; lra|]).
  split; [replace 1 with ((1 - k) * (w0 + w1 + w2 + w3) + k * (v0 + v1 + v2 + v3)) at 5 by (rewrite Hs, Vs; ring); ring|].
  rewrite E1, E2, Ex, Ey, Fx, Fy. split; ring.
Qed.

Lemma corner_in b : in_bbox b (c0 b) /\ in_bbox b (c1 b) /\ in_bbox b (c2 b) /\ in_bbox b (c3 b).
Proof.
  split; [exists 1, 0, 0, 0|split; [exists 0, 1, 0, 0|split; [exists 0, 0, 1, 0|exists 0, 0, 0, 1]]];
    (repeat (split; [lra|])); lra.
Qed.

Lemma two_edges b ci cj di dj x : in_bbox b ci -> in_bbox b cj -> in_bbox b di -> in_bbox b dj ->
  Rltb (snd x) (snd ci) <> Rltb (snd x) (snd cj) -> Rltb (snd x) (snd di) <> Rltb (snd x) (snd dj) ->
  edge ci cj x <> edge di dj x -> in_bbox b x.
Proof.
  intros Hci Hcj Hdi Hdj Hc Hd He.
  destruct (edge_point ci cj x Hc) as (k & Hk & Ek & Tk). destruct (edge_point di dj x Hd) as (m & Hm & Em & Tm).
  set (p := (fst ci + k * (fst cj - fst ci), snd x)). set (q := (fst di + m * (fst dj - fst di), snd x)).
  assert (Hp : in_bbox b p) by (apply (mix_in b ci cj k p Hci Hcj Hk); simpl; auto).
  assert (Hq : in_bbox b q) by (apply (mix_in b di dj m q Hdi Hdj Hm); simpl; auto).
  assert (Hbetween : forall p q, in_bbox b p -> in_bbox b q -> snd p = snd x -> snd q = snd x -> fst p <= fst x < fst q -> in_bbox b x).
  { intros p' q' Hp' Hq' E1 E2 Hx. apply (mix_in b p' q' ((fst x - fst p') / (fst q' - fst p')) x Hp' Hq').
    - split; [apply Rmult_le_pos; [lra|left; apply Rinv_0_lt_compat; lra]|].
      apply Rmult_le_reg_r with (fst q' - fst p'); [lra|]. replace ((fst x - fst p') / (fst q' - fst p') * (fst q' - fst p')) with (fst x - fst p') by (field; lra). lra.
    - field. lra.
    - rewrite E1, E2. ring. }
  destruct (edge ci cj x), (edge di dj x); try congruence.
  - apply (Hbetween q p); auto. cbn [p q fst]. split; [|apply Tk; auto]. apply Rnot_lt_le. intros H. apply Tm in H. discriminate.
  - apply (Hbetween p q); auto. cbn [p q fst]. split; [|apply Tm; auto]. apply Rnot_lt_le. intros H. apply Tk in H. discriminate.
Qed.

(** A point accepted by [within] is in the box, for any quadrilateral whose
    corners do not alternate above and below a horizontal line. *)
Lemma within_in b x : snd (c0 b) + snd (c2 b) = snd (c1 b) + snd (c3 b) -> b_within b x = true -> in_bbox b x.
Proof.
  intros Hy. unfold b_within. destruct (a_within (b_aabbox b) x); [|discriminate]. cbn [negb fold_left fst snd].
  destruct (corner_in b) as (H0 & H1 & H2 & H3).
  destruct (Rltb (snd x) (snd (c0 b))) eqn:B0, (Rltb (snd x) (snd (c1 b))) eqn:B1, (Rltb (snd x) (snd (c2 b))) eqn:B2, (Rltb (snd x) (snd (c3 b))) eqn:B3;
  repeat match goal with |- context [edge ?a ?c x] => rewrite (no_edge a c x) by congruence end; cbn [negb]; try discriminate;
  repeat match goal with |- context [if edge ?a ?c x then _ else _] => let E := fresh "E" in destruct (edge a c x) eqn:E end; cbn [negb]; try discriminate; intros _;
  try (match goal with E : edge ?a ?c x = true, F : edge ?d ?e x = false |- _ => apply (two_edges b a c d e x); auto; congruence end).
  all: exfalso; destruct (Rltb_spec (snd x) (snd (c0 b))), (Rltb_spec (snd x) (snd (c1 b))), (Rltb_spec (snd x) (snd (c2 b))), (Rltb_spec (snd x) (snd (c3 b))); try discriminate; lra.
Qed.

(** Points strictly inside a parallelogram are accepted. *)
Lemma inside_within b x : parallelogram b -> inside_bbox b x -> b_within b x = true.
Proof.
  intros (Hx & Hy & Hn) (w0 & w1 & w2 & w3 & W0 & W1 & W2 & W3 & Ws & Ex & Ey).
  assert (Hq : a_within (b_aabbox b) x = true).
  { apply a_within_spec, bbox_aabbox. exists w0, w1, w2, w3. repeat (split; [lra|]). auto. }
  unfold b_within. rewrite Hq. cbn [negb fold_left fst snd].
  destruct x as (px & py). destruct b as [(x0 & y0) (x1 & y1) (x2 & y2) (x3 & y3)]. cbn [fst snd c0 c1 c2 c3] in *.
  assert (E2 : x2 = x1 + x3 - x0) by lra. assert (F2 : y2 = y1 + y3 - y0) by lra.
  set (K := (y1 - y0) * (x3 - x0) - (x1 - x0) * (y3 - y0)).
  assert (W3' : w3 = 1 - w0 - w1 - w2) by lra.
  assert (X03 : cross (x0, y0) (x3, y3) (px, py) = (w1 + w2) * K).
  { unfold cross, K. cbn [fst snd]. subst px py x2 y2 w3. ring. }
  assert (X10 : cross (x1, y1) (x0, y0) (px, py) = (w2 + w3) * K).
  { unfold cross, K. cbn [fst snd]. subst px py x2 y2 w3. ring. }
  assert (X21 : cross (x2, y2) (x1, y1) (px, py) = (w0 + w3) * K).
  { unfold cross, K. cbn [fst snd]. subst px py x2 y2 w3. ring. }
  assert (X32 : cross (x3, y3) (x2, y2) (px, py) = (w0 + w1) * K).
  { unfold cross, K. cbn [fst snd]. subst px py x2 y2 w3. ring. }
  assert (Hmix : w0 * (y0 - py) + w1 * (y1 - py) + w2 * (y2 - py) + w3 * (y3 - py) = 0).
  { replace (w0 * (y0 - py) + w1 * (y1 - py) + w2 * (y2 - py) + w3 * (y3 - py))
      with (w0 * y0 + w1 * y1 + w2 * y2 + w3 * y3 - (w0 + w1 + w2 + w3) * py) by ring. rewrite <- Ey, Ws. ring. }
  assert (Hedge : forall ci cj w, 0 < w -> cross ci cj (px, py) = w * K -> edge ci cj (px, py) =
    if Rlt_dec 0 K then negb (Rltb py (snd ci)) && Rltb py (snd cj) else Rltb py (snd ci) && negb (Rltb py (snd cj))).
  { intros ci cj w Hw Hc. apply eq_iff_eq_true. rewrite edge_spec, Hc. cbn [snd].
    assert (HKn : K <> 0) by (unfold K; lra).
    destruct (Rlt_dec 0 K) as [HK|HK].
    - assert (HwK : 0 < w * K) by (apply Rmult_lt_0_compat; auto).
      destruct (Rltb_spec py (snd ci)), (Rltb_spec py (snd cj)); cbn [negb andb]; split; intros H; try discriminate; auto;
        try (destruct H as [(? & ? & ?)|(? & ? & ?)]; exfalso; lra). right. lra.
    - assert (HwK : w * K < 0) by nra.
      destruct (Rltb_spec py (snd ci)), (Rltb_spec py (snd cj)); cbn [negb andb]; split; intros H; try discriminate; auto;
        try (destruct H as [(? & ? & ?)|(? & ? & ?)]; exfalso; lra). left. lra. }
  assert (V12 : 0 < w1 + w2) by lra. assert (V23 : 0 < w2 + w3) by lra. assert (V03 : 0 < w0 + w3) by lra. assert (V01 : 0 < w0 + w1) by lra.
  rewrite (Hedge _ _ _ V12 X03), (Hedge _ _ _ V23 X10), (Hedge _ _ _ V03 X21), (Hedge _ _ _ V01 X32).
  cbn [snd].
  assert (Hpos : ~ (py < y0 /\ py < y1 /\ py < y2 /\ py < y3)).
  { intros (A0 & A1 & A2 & A3). assert (0 < w0 * (y0 - py)) by (apply Rmult_lt_0_compat; lra). assert (0 < w1 * (y1 - py)) by (apply Rmult_lt_0_compat; lra).
    assert (0 < w2 * (y2 - py)) by (apply Rmult_lt_0_compat; lra). assert (0 < w3 * (y3 - py)) by (apply Rmult_lt_0_compat; lra). lra. }
  assert (Hneg : ~ (y0 <= py /\ y1 <= py /\ y2 <= py /\ y3 <= py)).
  { intros (A0 & A1 & A2 & A3).
    assert (G0 : w0 * (y0 - py) <= 0) by nra. assert (G1 : w1 * (y1 - py) <= 0) by nra.
    assert (G2 : w2 * (y2 - py) <= 0) by nra. assert (G3 : w3 * (y3 - py) <= 0) by nra.
    assert (y0 = py) by (assert (w0 * (y0 - py) = 0) by lra; nra). assert (y1 = py) by (assert (w1 * (y1 - py) = 0) by lra; nra).
    assert (y3 = py) by (assert (w3 * (y3 - py) = 0) by lra; nra). apply Hn. rewrite H, H0, H1. ring. }
  destruct (Rlt_dec 0 K); destruct (Rltb_spec py y0), (Rltb_spec py y1), (Rltb_spec py y2), (Rltb_spec py y3); cbn; auto; exfalso; try (apply Hpos; auto; fail); try (apply Hneg; auto; fail); lra.
Qed.

(** ** Boxes from axis-aligned boxes *)
Lemma b_of_within b x : ordered b ->
  (b_within (bbox_of b) x = true <-> min0 b <= fst x < max0 b /\ min1 b <= snd x < max1 b).
Proof.
  intros (Ho0 & Ho1). destruct x as (px & py). destruct b as [a0 a1 b0 b1]. cbn [min0 min1 max0 max1 fst snd] in *.
  assert (Hq : a_within (b_aabbox (bbox_of (mkAabb a0 a1 b0 b1))) (px, py) = true <-> a0 <= px <= b0 /\ a1 <= py <= b1).
  { rewrite a_within_spec, b_aabbox_eq. unfold in_aabb. cbn. unfold min4, max4, Rmin, Rmax. repeat destruct (Rle_dec _ _); lra. }
  unfold b_within. destruct (a_within (b_aabbox (bbox_of (mkAabb a0 a1 b0 b1))) (px, py)).
  2:{ cbn [negb]. split; [discriminate|]. intros H. exfalso. destruct Hq as [_ Hq]. assert (false = true) by (apply Hq; lra). discriminate. }
  destruct (proj1 Hq eq_refl) as (Q0 & Q1). cbn [negb bbox_of c0 c1 c2 c3 fold_left fst snd min0 min1 max0 max1].
  rewrite (no_edge (b0, b1) (a0, b1)) by reflexivity. rewrite (no_edge (a0, a1) (b0, a1)) by reflexivity.
  assert (E1 : edge (b0, a1) (b0, b1) (px, py) = true <-> a1 <= py < b1 /\ px < b0).
  { rewrite edge_spec. unfold cross. cbn [fst snd]. split; [intros [H|H]; nra|intros H; right; nra]. }
  assert (E2 : edge (a0, b1) (a0, a1) (px, py) = true <-> a1 <= py < b1 /\ px < a0).
  { rewrite edge_spec. unfold cross. cbn [fst snd]. split; [intros [H|H]; nra|intros H; left; nra]. }
  assert (E2' : edge (a0, b1) (a0, a1) (px, py) = false).
  { destruct (edge (a0, b1) (a0, a1) (px, py)); auto. destruct (proj1 E2 eq_refl). lra. }
  rewrite E2'. destruct (edge (b0, a1) (b0, b1) (px, py)); cbn [negb].
  - split; auto. intros _. destruct (proj1 E1 eq_refl). lra.
  - split; [discriminate|]. intros H. assert (false = true) by (apply E1; lra). discriminate.
Qed.

(** ** Gaussians *)
Lemma decomposes_unit P d : decomposes P d ->
  (fst (e0 d) = - snd (e1 d) /\ snd (e0 d) = fst (e1 d)) \/ (fst (e0 d) = snd (e1 d) /\ snd (e0 d) = - fst (e1 d)).
Proof.
  intros (H1 & H2 & H3 & _). destruct (e0 d) as (a & b), (e1 d) as (c & e). cbn [fst snd] in *.
  (* (a,b) is orthogonal to the unit vector (c,e): (a,b) = k (-e, c) with k = b c - a e, k^2 = 1 *)
  set (k := b * c - a * e).
  assert (Ha : a = - k * e). { unfold k. replace a with (a * (c * c + e * e)) at 1 by (rewrite H2; ring). replace (- (b * c - a * e) * e) with (a * (e * e) - (b * e) * c) by ring.
    replace (b * e) with (- (a * c)) by lra. ring. }
  assert (Hb : b = k * c). { unfold k. replace b with (b * (c * c + e * e)) at 1 by (rewrite H2; ring). replace ((b * c - a * e) * c) with (b * (c * c) - (a * c) * e) by ring.
    replace (a * c) with (- (b * e)) by lra. ring. }
  assert (Hk : k * k = 1). { rewrite <- H1. rewrite Ha at 1 2. rewrite Hb at 1 2. replace (- k * e * (- k * e) + k * c * (k * c)) with (k * k * (c * c + e * e)) by ring. rewrite H2. ring. }
  assert (Hk' : (k - 1) * (k + 1) = 0) by lra. apply Rmult_integral in Hk'. destruct Hk' as [Hk'|Hk'].
  - left. assert (k = 1) by lra. rewrite H in Ha, Hb. lra.
  - right. assert (k = -1) by lra. rewrite H in Ha, Hb. lra.
Qed.

Lemma eig_nonneg P d : decomposes P d -> 0 <= p00 P -> 0 <= p11 P -> 0 <= det P -> 0 <= l0 d.
Proof.
  intros Hd H0 H0' H1. pose proof (decomposes_unit P d Hd) as Hu. destruct Hd as (N0 & N1 & _ & E00 & E01 & E11 & Hl).
  destruct (e0 d) as (a & b), (e1 d) as (c & e). cbn [fst snd] in *.
  assert (Hdet : det P = l0 d * l1 d).
  { unfold det. rewrite E00, E01, E11. destruct Hu as [(-> & ->)|(-> & ->)].
    - replace (l0 d * l1 d) with (l0 d * l1 d * ((c * c + e * e) * (c * c + e * e))) by (rewrite N1; ring). ring.
    - replace (l0 d * l1 d) with (l0 d * l1 d * ((c * c + e * e) * (c * c + e * e))) by (rewrite N1; ring). ring. }
  rewrite Hdet in H1. destruct (Rle_lt_dec 0 (l0 d)) as [|Hneg]; auto. exfalso.
  assert (Hl1 : l1 d <= 0) by nra.
  assert (Htr : p00 P + p11 P = l0 d * (a * a + b * b) + l1 d * (c * c + e * e)) by (rewrite E00, E11; ring).
  rewrite N0, N1 in Htr. lra.
Qed.

Lemma a_gaussian_extent x P d nstd : decomposes P d -> 0 <= p00 P -> 0 <= p11 P -> 0 <= det P -> 0 <= nstd ->
  a_gaussian x d nstd = mkAabb (fst x - nstd * sqrt (p11 P)) (snd x - nstd * sqrt (p00 P))
                               (fst x + nstd * sqrt (p11 P)) (snd x + nstd * sqrt (p00 P)).
Proof.
  intros Hd H0 H0' H1 Hn. pose proof (eig_nonneg P d Hd H0 H0' H1) as Hl0. pose proof (decomposes_unit P d Hd) as Hu.
  destruct Hd as (N0 & N1 & _ & E00 & E01 & E11 & Hl).
  destruct (e0 d) as (a & b) eqn:Ee0, (e1 d) as (c & e) eqn:Ee1. cbn [fst snd] in *.
  assert (Hnz : c <> 0 \/ e <> 0) by (destruct (Req_dec c 0); auto; right; intros ->; subst; lra).
  unfold a_gaussian. rewrite Ee1. cbn [fst snd]. destruct (atan2_cos_sin c e Hnz) as (Hc & Hs).
  rewrite N1, sqrt_1 in Hc, Hs. set (t := atan2 e c) in *.
  assert (Hc2 : cos (t + PI / 2) = - e). { rewrite cos_plus, cos_PI2, sin_PI2, Hs. field. }
  assert (Hs2 : sin (t + PI / 2) = c). { rewrite sin_plus, cos_PI2, sin_PI2, Hc. field. }
  rewrite Hc2, Hs2, Hc, Hs.
  assert (Hsq : forall u v, nstd * sqrt (l0 d) * u * (nstd * sqrt (l0 d) * u) + nstd * sqrt (l1 d) * v * (nstd * sqrt (l1 d) * v) =
    nstd * nstd * (l0 d * (u * u) + l1 d * (v * v))).
  { intros u v. assert (S0 : sqrt (l0 d) * sqrt (l0 d) = l0 d) by (apply sqrt_sqrt; lra). assert (S1 : sqrt (l1 d) * sqrt (l1 d) = l1 d) by (apply sqrt_sqrt; lra).
    rewrite <- S0 at 3. rewrite <- S1 at 3. ring. }
  assert (Hroot : forall z, 0 <= z -> sqrt (nstd * nstd * z) = nstd * sqrt z).
  { intros z Hz. rewrite sqrt_mult_alt by nra. f_equal. apply sqrt_square. auto. }
  rewrite !Hsq. replace (l0 d * (c / 1 * (c / 1)) + l1 d * (- e * - e)) with (p11 P).
  2:{ rewrite E11. destruct Hu as [(_ & ->)|(_ & ->)]; field. }
  replace (l0 d * (e / 1 * (e / 1)) + l1 d * (c * c)) with (p00 P).
  2:{ rewrite E00. destruct Hu as [(-> & _)|(-> & _)]; field. }
  rewrite !Hroot; auto.
Qed.

Lemma b_gaussian_ellipse x P d nstd p : decomposes P d -> positive P -> 0 <= nstd ->
  mahalanobis2 x P p <= nstd * nstd ->
  in_bbox (b_gaussian x d nstd) p /\ (mahalanobis2 x P p < nstd * nstd -> inside_bbox (b_gaussian x d nstd) p /\ parallelogram (b_gaussian x d nstd)).
Proof.
  intros Hd (H0 & H1) Hn Hm. assert (H0' : 0 <= p11 P) by (unfold det in H1; nra). pose proof (eig_nonneg P d Hd (Rlt_le _ _ H0) H0' (Rlt_le _ _ H1)) as Hl0. pose proof (decomposes_unit P d Hd) as Hu.
  destruct Hd as (N0 & N1 & N2 & E00 & E01 & E11 & Hl).
  destruct (e0 d) as (a & b) eqn:Ee0, (e1 d) as (c & e) eqn:Ee1. cbn [fst snd] in *.
  assert (Hdet : det P = l0 d * l1 d).
  { unfold det. rewrite E00, E01, E11. destruct Hu as [(-> & ->)|(-> & ->)];
    (replace (l0 d * l1 d) with (l0 d * l1 d * ((c * c + e * e) * (c * c + e * e))) by (rewrite N1; ring)); ring. }
  assert (Hl0' : 0 < l0 d) by (rewrite Hdet in H1; destruct Hl0 as [|E]; auto; rewrite <- E in H1; lra).
  set (dx := fst p - fst x) in *. set (dy := snd p - snd x) in *.
  set (al := a * dx + b * dy). set (be := c * dx + e * dy).
  assert (Hmaha : mahalanobis2 x P p = al * al / l0 d + be * be / l1 d).
  { unfold mahalanobis2. fold dx dy. rewrite Hdet.
    apply Rmult_eq_reg_r with (l0 d * l1 d); [|nra].
    replace ((p11 P * (dx * dx) - 2 * p01 P * (dx * dy) + p00 P * (dy * dy)) / (l0 d * l1 d) * (l0 d * l1 d))
      with (p11 P * (dx * dx) - 2 * p01 P * (dx * dy) + p00 P * (dy * dy)) by (field; lra).
    replace ((al * al / l0 d + be * be / l1 d) * (l0 d * l1 d)) with (al * al * l1 d + be * be * l0 d) by (field; lra).
    unfold al, be. rewrite E00, E01, E11. destruct Hu as [(-> & ->)|(-> & ->)]; ring. }
  set (r1 := nstd * sqrt (l0 d)). set (r2 := nstd * sqrt (l1 d)).
  assert (Sq0 : sqrt (l0 d) * sqrt (l0 d) = l0 d) by (apply sqrt_sqrt; lra). assert (Sq1 : sqrt (l1 d) * sqrt (l1 d) = l1 d) by (apply sqrt_sqrt; lra).
  assert (R1 : r1 * r1 = nstd * nstd * l0 d) by (unfold r1; rewrite <- Sq0 at 3; ring).
  assert (R2 : r2 * r2 = nstd * nstd * l1 d) by (unfold r2; rewrite <- Sq1 at 3; ring).
  assert (P1 : 0 <= r1) by (unfold r1; apply Rmult_le_pos; auto; apply sqrt_pos). assert (P2 : 0 <= r2) by (unfold r2; apply Rmult_le_pos; auto; apply sqrt_pos).
  assert (A2 : al * al / l0 d * l0 d = al * al) by (field; lra). assert (B2 : be * be / l1 d * l1 d = be * be) by (field; lra).
  assert (Z1 : 0 <= al * al / l0 d) by (apply Rmult_le_pos; [nra|left; apply Rinv_0_lt_compat; auto]).
  assert (Z2 : 0 <= be * be / l1 d) by (apply Rmult_le_pos; [nra|left; apply Rinv_0_lt_compat; lra]).
  assert (Hx : fst p = fst x + al * a + be * c).
  { replace (fst p) with (fst x + dx) by (unfold dx; ring). unfold al, be.
    replace dx with (dx * (c * c + e * e)) at 1 by (rewrite N1; ring). destruct Hu as [(-> & ->)|(-> & ->)]; ring. }
  assert (Hy : snd p = snd x + al * b + be * e).
  { replace (snd p) with (snd x + dy) by (unfold dy; ring). unfold al, be.
    replace dy with (dy * (c * c + e * e)) at 1 by (rewrite N1; ring). destruct Hu as [(-> & ->)|(-> & ->)]; ring. }
  assert (Habs : forall u v, 0 <= v -> u * u <= v * v -> - v <= u <= v) by (intros u v Hv H; split; nra).
  assert (Habs' : forall u v, 0 <= v -> u * u < v * v -> - v < u < v) by (intros u v Hv H; split; nra).
  assert (Hcorner : forall s t, s * r1 = al -> t * r2 = be ->
    fst p = (1 + s) / 2 * ((1 + t) / 2) * fst (c0 (b_gaussian x d nstd)) + (1 - s) / 2 * ((1 + t) / 2) * fst (c1 (b_gaussian x d nstd)) +
            (1 - s) / 2 * ((1 - t) / 2) * fst (c2 (b_gaussian x d nstd)) + (1 + s) / 2 * ((1 - t) / 2) * fst (c3 (b_gaussian x d nstd)) /\
    snd p = (1 + s) / 2 * ((1 + t) / 2) * snd (c0 (b_gaussian x d nstd)) + (1 - s) / 2 * ((1 + t) / 2) * snd (c1 (b_gaussian x d nstd)) +
            (1 - s) / 2 * ((1 - t) / 2) * snd (c2 (b_gaussian x d nstd)) + (1 + s) / 2 * ((1 - t) / 2) * snd (c3 (b_gaussian x d nstd))).
  { intros s t Es Et. rewrite Hx, Hy, <- Es, <- Et. unfold b_gaussian. fold r1 r2. rewrite Ee0, Ee1. unfold padd, psub, pscale. cbn. split; field. }
  split.
  - assert (Hal : - r1 <= al <= r1) by (apply Habs; auto; nra). assert (Hbe : - r2 <= be <= r2) by (apply Habs; auto; nra).
    assert (Hs : exists s, s * r1 = al /\ -1 <= s <= 1).
    { destruct P1 as [P1|P1]; [|exists 0; lra]. exists (al / r1). split; [field; lra|]. split; apply Rmult_le_reg_r with r1; auto;
        replace (al / r1 * r1) with al by (field; lra); lra. }
    assert (Ht : exists t, t * r2 = be /\ -1 <= t <= 1).
    { destruct P2 as [P2|P2]; [|exists 0; lra]. exists (be / r2). split; [field; lra|]. split; apply Rmult_le_reg_r with r2; auto;
        replace (be / r2 * r2) with be by (field; lra); lra. }
    destruct Hs as (s & Es & Hs), Ht as (t & Et & Ht).
    exists ((1 + s) / 2 * ((1 + t) / 2)), ((1 - s) / 2 * ((1 + t) / 2)), ((1 - s) / 2 * ((1 - t) / 2)), ((1 + s) / 2 * ((1 - t) / 2)).
    repeat (split; [apply Rmult_le_pos; lra|]). split; [field|]. apply Hcorner; auto.
  - intros Hlt. assert (Hal : - r1 < al < r1) by (apply Habs'; auto; nra). assert (Hbe : - r2 < be < r2) by (apply Habs'; auto; nra).
    assert (P1' : 0 < r1) by lra. assert (P2' : 0 < r2) by lra. split.
    + set (s := al / r1). set (t := be / r2).
      assert (Es : s * r1 = al) by (unfold s; field; lra). assert (Et : t * r2 = be) by (unfold t; field; lra).
      assert (Hs : -1 < s < 1) by (split; apply Rmult_lt_reg_r with r1; auto; rewrite Es; lra).
      assert (Ht : -1 < t < 1) by (split; apply Rmult_lt_reg_r with r2; auto; rewrite Et; lra).
      exists ((1 + s) / 2 * ((1 + t) / 2)), ((1 - s) / 2 * ((1 + t) / 2)), ((1 - s) / 2 * ((1 - t) / 2)), ((1 + s) / 2 * ((1 - t) / 2)).
      repeat (split; [apply Rmult_lt_0_compat; lra|]). split; [field|]. apply Hcorner; auto.
    + unfold parallelogram, b_gaussian. fold r1 r2. rewrite Ee0, Ee1. unfold padd, psub, pscale. cbn. split; [ring|]. split; [ring|].
      assert (Hcr : a * e - b * c = 1 \/ a * e - b * c = -1) by (destruct Hu as [(-> & ->)|(-> & ->)]; nra).
      assert (Hrr : 0 < r1 * r2) by (apply Rmult_lt_0_compat; auto).
      replace ((fst x - r1 * a + r2 * c - (fst x + r1 * a + r2 * c)) * (snd x + r1 * b - r2 * e - (snd x + r1 * b + r2 * e)) -
        (snd x - r1 * b + r2 * e - (snd x + r1 * b + r2 * e)) * (fst x + r1 * a - r2 * c - (fst x + r1 * a + r2 * c)))
        with (4 * (r1 * r2) * (a * e - b * c)) by ring.
      destruct Hcr as [-> | ->]; lra.
Qed.

(** ** Statements of the properties *)
Lemma of4_box x1 y1 x2 y2 : ordered (aabb_of4 x1 y1 x2 y2) /\
  in_aabb (aabb_of4 x1 y1 x2 y2) (x1, y1) /\ in_aabb (aabb_of4 x1 y1 x2 y2) (x2, y2).
Proof.
  split; [apply of4_ordered|]. unfold in_aabb, aabb_of4. cbn.
  pose proof (Rmin_l x1 x2). pose proof (Rmin_r x1 x2). pose proof (Rmin_l y1 y2). pose proof (Rmin_r y1 y2).
  pose proof (Rmax_l x1 x2). pose proof (Rmax_r x1 x2). pose proof (Rmax_l y1 y2). pose proof (Rmax_r y1 y2). lra.
Qed.

Lemma sqrt_4 : sqrt 4 = 2.
Proof. replace 4 with (2 * 2) by ring. apply sqrt_square. lra. Qed.

Lemma extents_refuted : ~ (forall x P d nstd, decomposes P d -> positive P -> 0 <= nstd ->
  a_gaussian x d nstd = mkAabb (fst x - nstd * sqrt (p00 P)) (snd x - nstd * sqrt (p11 P))
                               (fst x + nstd * sqrt (p00 P)) (snd x + nstd * sqrt (p11 P))).
Proof.
  intros H. set (P := mkMat2 4 0 1). set (d := mkEig 1 4 (0, 1) (1, 0)).
  assert (Hd : decomposes P d) by (unfold decomposes, P, d; cbn; lra).
  assert (Hp : positive P) by (unfold positive, det, P; cbn; lra).
  specialize (H (0, 0) P d 1 Hd Hp ltac:(lra)).
  rewrite (a_gaussian_extent (0, 0) P d 1 Hd) in H by (unfold det, P; cbn; lra).
  injection H as H. cbn in H. rewrite sqrt_4, sqrt_1 in H. lra.
Qed.

Lemma ellipse_refuted : ~ (forall x P d nstd p, decomposes P d -> positive P -> 0 <= nstd ->
  mahalanobis2 x P p <= nstd * nstd -> in_aabb (a_gaussian x d nstd) p).
Proof.
  intros H. set (P := mkMat2 4 0 1). set (d := mkEig 1 4 (0, 1) (1, 0)).
  assert (Hd : decomposes P d) by (unfold decomposes, P, d; cbn; lra).
  assert (Hp : positive P) by (unfold positive, det, P; cbn; lra).
  assert (Hm : mahalanobis2 (0, 0) P (3 / 2, 0) <= 1 * 1) by (unfold mahalanobis2, det, P; cbn; lra).
  specialize (H (0, 0) P d 1 (3 / 2, 0) Hd Hp ltac:(lra) Hm).
  rewrite (a_gaussian_extent (0, 0) P d 1 Hd) in H by (unfold det, P; cbn; lra).
  unfold in_aabb in H. cbn in H. rewrite sqrt_4, sqrt_1 in H. lra.
Qed.

Lemma ellipse_in_box x P d nstd p : decomposes P d -> positive P -> 0 <= nstd ->
  mahalanobis2 x P p <= nstd * nstd ->
  in_bbox (b_gaussian x d nstd) p /\ in_aabb (b_aabbox (b_gaussian x d nstd)) p /\
  (mahalanobis2 x P p < nstd * nstd -> b_within (b_gaussian x d nstd) p = true).
Proof.
  intros Hd Hp Hn Hm. destruct (b_gaussian_ellipse x P d nstd p Hd Hp Hn Hm) as (H1 & H2).
  split; auto. split; [apply bbox_aabbox; auto|]. intros Hlt. destruct (H2 Hlt) as (H3 & H4). apply inside_within; auto.
Qed.

Lemma within_oriented b x : parallelogram b -> (inside_bbox b x -> b_within b x = true) /\ (b_within b x = true -> in_bbox b x).
Proof. intros H. split; [apply inside_within; auto|apply within_in, H]. Qed.

Lemma within_false b x : ordered b -> ~ (min0 b <= fst x < max0 b /\ min1 b <= snd x < max1 b) -> b_within (bbox_of b) x = false.
Proof. intros Ho H. destruct (b_within (bbox_of b) x) eqn:E; auto. apply b_of_within in E; auto. contradiction. Qed.

Lemma intersects_center a b : existsb (b_within b) [c0 a; c1 a; c2 a; c3 a] = false -> existsb (b_within a) [c0 b; c1 b; c2 b; c3 b] = false ->
  c0 a <> c0 b ->
  b_intersects a b =
    let denom := (fst (c0 a) - fst (c2 a)) * (snd (c0 b) - snd (c2 b)) - (snd (c0 a) - snd (c2 a)) * (fst (c0 b) - fst (c2 b)) in
    if Rltb denom (1 / 1000000000) then false
    else b_within a (((fst (c0 a) * snd (c2 a) - snd (c0 a) * fst (c2 a)) * (fst (c0 b) - fst (c2 b)) -
                      (fst (c0 a) - fst (c2 a)) * (fst (c0 b) * snd (c2 b) - snd (c0 b) * fst (c2 b))) / denom,
                     ((fst (c0 a) * snd (c2 a) - snd (c0 a) * fst (c2 a)) * (snd (c0 b) - snd (c2 b)) -
                      (snd (c0 a) - snd (c2 a)) * (fst (c0 b) * snd (c2 b) - snd (c0 b) * fst (c2 b))) / denom).
Proof.
  intros H1 H2 H3. unfold b_intersects. rewrite H1, H2.
  assert (E : pt_eqb (c0 a) (c0 b) = false).
  { unfold pt_eqb. destruct (Reqb_spec (fst (c0 a)) (fst (c0 b))), (Reqb_spec (snd (c0 a)) (snd (c0 b))); auto.
    exfalso. apply H3. rewrite (surjective_pairing (c0 a)), (surjective_pairing (c0 b)). congruence. }
  rewrite E. cbn [andb]. destruct (c0 a), (c2 a), (c0 b), (c2 b). reflexivity.
Qed.

Lemma bars_asymmetric : let wide := mkAabb (-5) (-1) 5 1 in let tall := mkAabb (-1) (-5) 1 5 in
  b_intersects (bbox_of wide) (bbox_of tall) = true /\ b_intersects (bbox_of tall) (bbox_of wide) = false.
Proof.
  intros wide tall. assert (O1 : ordered wide) by (split; cbn; lra). assert (O2 : ordered tall) by (split; cbn; lra).
  assert (N1 : existsb (b_within (bbox_of tall)) [c0 (bbox_of wide); c1 (bbox_of wide); c2 (bbox_of wide); c3 (bbox_of wide)] = false).
  { cbn [existsb]. rewrite !within_false; auto; cbn; lra. }
  assert (N2 : existsb (b_within (bbox_of wide)) [c0 (bbox_of tall); c1 (bbox_of tall); c2 (bbox_of tall); c3 (bbox_of tall)] = false).
  { cbn [existsb]. rewrite !within_false; auto; cbn; lra. }
  assert (Hne : (5, 1) <> (1, 5)) by (intros E; injection E as E1 E2; lra).
  split.
  - rewrite intersects_center; auto. cbn [bbox_of c0 c1 c2 c3 wide tall fst snd min0 min1 max0 max1]. cbv zeta.
    destruct (Rltb_spec ((5 - -5) * (5 - -5) - (1 - -1) * (1 - -1)) (1 / 1000000000)) as [H|H]; [lra|].
    apply b_of_within; auto. cbn. lra.
  - rewrite intersects_center; auto. cbn [bbox_of c0 c1 c2 c3 wide tall fst snd min0 min1 max0 max1]. cbv zeta.
    destruct (Rltb_spec ((1 - -1) * (1 - -1) - (5 - -5) * (5 - -5)) (1 / 1000000000)) as [H|H]; [auto|lra].
Qed.

Lemma bbox_of_parallelogram b : min0 b < max0 b -> min1 b < max1 b -> parallelogram (bbox_of b).
Proof. intros H0 H1. unfold parallelogram, bbox_of. cbn. split; [ring|]. split; [ring|]. nra. Qed.

Lemma missed_refuted : ~ (forall a b, parallelogram a -> parallelogram b ->
  (exists p, inside_bbox a p /\ inside_bbox b p) -> b_intersects a b = true).
Proof.
  intros H. destruct bars_asymmetric as (_ & E). rewrite H in E; [discriminate| | |].
  - apply bbox_of_parallelogram; cbn; lra.
  - apply bbox_of_parallelogram; cbn; lra.
  - exists (0, 0). split; exists (1 / 4), (1 / 4), (1 / 4), (1 / 4); cbn; lra.
Qed.

Lemma disjoint_refuted : ~ (forall a b, parallelogram a -> parallelogram b ->
  b_intersects a b = true -> exists p, in_bbox a p /\ in_bbox b p).
Proof.
  intros H. set (a := mkAabb (-1) (-1) 1 1). set (b := mkAabb (19 / 2) 19 (21 / 2) 21).
  assert (Oa : ordered a) by (split; cbn; lra). assert (Ob : ordered b) by (split; cbn; lra).
  assert (E : b_intersects (bbox_of a) (bbox_of b) = true).
  { rewrite intersects_center.
    - cbn [bbox_of c0 c1 c2 c3 a b fst snd min0 min1 max0 max1]. cbv zeta.
      destruct (Rltb_spec ((1 - -1) * (21 - 19) - (1 - -1) * (21 / 2 - 19 / 2)) (1 / 1000000000)) as [H'|H']; [lra|].
      apply b_of_within; auto. cbn. lra.
    - cbn [existsb]. rewrite !within_false; auto; cbn; lra.
    - cbn [existsb]. rewrite !within_false; auto; cbn; lra.
    - cbn. intros E. injection E as E1 E2. lra. }
  destruct (H (bbox_of a) (bbox_of b)) as (p & H1 & H2); auto.
  - apply bbox_of_parallelogram; cbn; lra.
  - apply bbox_of_parallelogram; cbn; lra.
  - apply bbox_aabbox in H1. apply bbox_aabbox in H2. rewrite b_aabbox_eq in H1, H2. unfold in_aabb in *. cbn in *.
    pose proof (min4_le (21 / 2) (21 / 2) (19 / 2) (19 / 2)).
    destruct (max4_in 1 1 (-1) (-1)) as [E1|[E1|[E1|E1]]], (min4_in (21 / 2) (21 / 2) (19 / 2) (19 / 2)) as [E2|[E2|[E2|E2]]]; rewrite E1 in *; rewrite E2 in *; lra.
Qed.

Lemma corner_partial a b : parallelogram a -> parallelogram b ->
  (forall p, In p [c0 a; c1 a; c2 a; c3 a] -> inside_bbox b p -> b_intersects a b = true /\ b_intersects b a = true) /\
  (b_intersects a b = true -> b_intersects b a = true -> exists p, in_bbox a p /\ in_bbox b p).
Proof.
  intros Ha Hb. split.
  - intros p Hp Hin. apply (inside_within b p Hb) in Hin.
    assert (E : existsb (b_within b) [c0 a; c1 a; c2 a; c3 a] = true) by (apply existsb_exists; eauto).
    split; unfold b_intersects; rewrite E; auto. destruct (existsb (b_within a) _); auto.
  - intros H1 H2. destruct (corner_in a) as (A0 & A1 & A2 & A3). destruct (corner_in b) as (B0 & B1 & B2 & B3).
    destruct (existsb (b_within b) [c0 a; c1 a; c2 a; c3 a]) eqn:E1.
    { apply existsb_exists in E1. destruct E1 as (p & Hp & E1). exists p. split; [|apply within_in; auto; apply Hb].
      destruct Hp as [<-|[<-|[<-|[<-|[]]]]]; auto. }
    destruct (existsb (b_within a) [c0 b; c1 b; c2 b; c3 b]) eqn:E2.
    { apply existsb_exists in E2. destruct E2 as (p & Hp & E2). exists p. split; [apply within_in; auto; apply Ha|].
      destruct Hp as [<-|[<-|[<-|[<-|[]]]]]; auto. }
    assert (Hd : {c0 a = c0 b} + {c0 a <> c0 b}).
    { destruct (c0 a) as (x & y), (c0 b) as (u & v). destruct (Req_EM_T x u), (Req_EM_T y v); [left; congruence|right; congruence..]. }
    destruct Hd as [Hd|Hd]; [exists (c0 a); rewrite Hd at 2; auto|].
    rewrite intersects_center in H1 by auto. rewrite intersects_center in H2 by auto. cbv zeta in H1, H2.
    destruct (Rltb_spec ((fst (c0 a) - fst (c2 a)) * (snd (c0 b) - snd (c2 b)) - (snd (c0 a) - snd (c2 a)) * (fst (c0 b) - fst (c2 b))) (1 / 1000000000)); [discriminate|].
    destruct (Rltb_spec ((fst (c0 b) - fst (c2 b)) * (snd (c0 a) - snd (c2 a)) - (snd (c0 b) - snd (c2 b)) * (fst (c0 a) - fst (c2 a))) (1 / 1000000000)); [discriminate|].
    exfalso. lra.
Qed.

Lemma a_points_smallest ps b : a_points ps = Some b -> smallest_box b ps.
Proof.
  destruct ps as [|p ps]; [discriminate|]. intros H. injection H as <-.
  destruct (fold_min (fun q : pt => fst q) ps (fst p)) as (A1 & A2 & A3). destruct (fold_min (fun q : pt => snd q) ps (snd p)) as (B1 & B2 & B3).
  destruct (fold_max (fun q : pt => fst q) ps (fst p)) as (C1 & C2 & C3). destruct (fold_max (fun q : pt => snd q) ps (snd p)) as (D1 & D2 & D3).
  unfold pt in *. cbn beta in *. split.
  - intros q [<-|Hq]; unfold in_aabb; cbn [min0 min1 max0 max1]; [lra|].
    specialize (A2 q Hq). specialize (B2 q Hq). specialize (C2 q Hq). specialize (D2 q Hq). lra.
  - intros b' Hb. cbn [min0 min1 max0 max1].
    assert (Hp : in_aabb b' p) by (apply Hb; left; auto). unfold in_aabb in *.
    split; [destruct A3 as [->|(q & Hq & ->)]; [lra|specialize (Hb q (or_intror Hq)); lra]|].
    split; [destruct B3 as [->|(q & Hq & ->)]; [lra|specialize (Hb q (or_intror Hq)); lra]|].
    split; [destruct C3 as [->|(q & Hq & ->)]; [lra|specialize (Hb q (or_intror Hq)); lra]|].
    destruct D3 as [->|(q & Hq & ->)]; [lra|specialize (Hb q (or_intror Hq)); lra].
Qed.

Lemma b_aabbox_smallest b : smallest_box (b_aabbox b) [c0 b; c1 b; c2 b; c3 b].
Proof.
  rewrite b_aabbox_eq.
  pose proof (min4_le (fst (c0 b)) (fst (c1 b)) (fst (c2 b)) (fst (c3 b))). pose proof (min4_le (snd (c0 b)) (snd (c1 b)) (snd (c2 b)) (snd (c3 b))).
  pose proof (max4_ge (fst (c0 b)) (fst (c1 b)) (fst (c2 b)) (fst (c3 b))). pose proof (max4_ge (snd (c0 b)) (snd (c1 b)) (snd (c2 b)) (snd (c3 b))).
  split.
  - intros p [<-|[<-|[<-|[<-|[]]]]]; unfold in_aabb; cbn [min0 min1 max0 max1]; lra.
  - intros b' Hb. pose proof (Hb (c0 b) ltac:(simpl; auto)). pose proof (Hb (c1 b) ltac:(simpl; auto)).
    pose proof (Hb (c2 b) ltac:(simpl; auto)). pose proof (Hb (c3 b) ltac:(simpl; auto)). unfold in_aabb in *. cbn [min0 min1 max0 max1].
    split; [destruct (min4_in (fst (c0 b)) (fst (c1 b)) (fst (c2 b)) (fst (c3 b))) as [->|[->|[->| ->]]]; lra|].
    split; [destruct (min4_in (snd (c0 b)) (snd (c1 b)) (snd (c2 b)) (snd (c3 b))) as [->|[->|[->| ->]]]; lra|].
    split; [destruct (max4_in (fst (c0 b)) (fst (c1 b)) (fst (c2 b)) (fst (c3 b))) as [->|[->|[->| ->]]]; lra|].
    destruct (max4_in (snd (c0 b)) (snd (c1 b)) (snd (c2 b)) (snd (c3 b))) as [->|[->|[->| ->]]]; lra.
Qed.
