From Coq Require Import List Reals Lra Lia.
Import ListNotations.
From Verif Require Import PosPdf PosPdfSpec.
Local Open Scope R_scope.

Lemma definite_det c : symmetric c -> (definite c <-> 0 < pc_00 c /\ 0 < det c).
Proof.
  unfold symmetric, definite, det. intros Hs. rewrite Hs. split.
  - intros H. assert (A : 0 < pc_00 c). { specialize (H 1 0 ltac:(intros E; inversion E; lra)). lra. }
    split; auto. specialize (H (- pc_01 c) (pc_00 c) ltac:(intros E; inversion E; lra)).
    assert (0 < pc_00 c * (pc_00 c * pc_11 c - pc_01 c * pc_01 c)) by lra. apply (Rmult_lt_reg_l (pc_00 c)); auto. lra.
  - intros [A D] u v Huv. apply (Rmult_lt_reg_l (pc_00 c)); auto. rewrite Rmult_0_r.
    replace (pc_00 c * (pc_00 c * (u * u) + (pc_01 c + pc_01 c) * (u * v) + pc_11 c * (v * v)))
      with ((pc_00 c * u + pc_01 c * v) * (pc_00 c * u + pc_01 c * v) + (pc_00 c * pc_11 c - pc_01 c * pc_01 c) * (v * v)) by ring.
    set (q := pc_00 c * u + pc_01 c * v). pose proof (Rle_0_sqr q) as Q. unfold Rsqr in Q.
    destruct (Req_dec v 0) as [->|Hv].
    + assert (u <> 0) by (intros ->; apply Huv; reflexivity). assert (Eq : q = pc_00 c * u) by (unfold q; ring). rewrite Eq.
      assert (P : 0 < Rsqr (pc_00 c * u)) by (apply Rsqr_pos_lt; apply Rmult_integral_contrapositive; split; lra). unfold Rsqr in P. lra.
    + assert (P : 0 < Rsqr v) by (apply Rsqr_pos_lt; auto). unfold Rsqr in P. assert (0 < (pc_00 c * pc_11 c - pc_01 c * pc_01 c) * (v * v)) by (apply Rmult_lt_0_compat; auto). lra.
Qed.

Lemma chol_cases c : symmetric c ->
  (definite c /\ exists l0 l1 l2, chol c = Some (l0, l1, l2) /\ 0 < l0 /\ 0 < l2 /\ l0 * l0 = pc_00 c /\ l0 * l1 = pc_10 c /\ l1 * l1 + l2 * l2 = pc_11 c) \/
  (~ definite c /\ chol c = None).
Proof.
  intros Hs. pose proof (definite_det c Hs) as HD. unfold symmetric in Hs. unfold chol. destruct (Rlt_dec 0 (pc_00 c)) as [A|A].
  - set (l0 := sqrt (pc_00 c)). assert (L0 : 0 < l0) by (apply sqrt_lt_R0; auto). assert (S0 : l0 * l0 = pc_00 c) by (apply sqrt_sqrt; lra).
    set (l1 := pc_10 c / l0). assert (E1 : l0 * l1 = pc_10 c) by (unfold l1; field; lra).
    assert (EX : det c = pc_00 c * (pc_11 c - l1 * l1)). { unfold det. rewrite <- Hs, <- E1, <- S0. ring. }
    destruct (Rlt_dec 0 (pc_11 c - l1 * l1)) as [B|B].
    + left. split. { apply HD. split; auto. rewrite EX. apply Rmult_lt_0_compat; auto. }
      exists l0, l1, (sqrt (pc_11 c - l1 * l1)). split; [reflexivity|]. split; auto. split; [apply sqrt_lt_R0; auto|]. split; auto. split; auto. rewrite sqrt_sqrt by lra. lra.
    + right. split; [|reflexivity]. intros H. apply HD in H. destruct H as [_ H]. rewrite EX in H. apply B. apply (Rmult_lt_reg_l (pc_00 c)); auto. lra.
  - right. split; [|reflexivity]. intros H. apply HD in H. tauto.
Qed.

Lemma point_density c l0 l1 l2 p : symmetric c -> 0 < l0 -> 0 < l2 -> l0 * l0 = pc_00 c -> l0 * l1 = pc_10 c -> l1 * l1 + l2 * l2 = pc_11 c ->
  point_pdf c (l0, l1, l2) p = density c p.
Proof.
  intros Hs P0 P2 E0 E1 E2. unfold point_pdf, density. set (u := fst p - fst (pc_x c)). set (v := snd p - snd (pc_x c)).
  unfold symmetric in Hs. assert (D : det c = (l0 * l2) * (l0 * l2)). { unfold det. rewrite <- Hs, <- E0, <- E1, <- E2. ring. }
  assert (P : 0 < l0 * l2) by (apply Rmult_lt_0_compat; auto). rewrite D, sqrt_square by lra. pose proof PI_RGT_0 as HPI.
  replace (2 * (1 / 2 * ln (2 * PI))) with (ln (2 * PI)) by field.
  unfold Rminus at 1. rewrite exp_plus, exp_Ropp, exp_ln by lra.
  replace (- (1 / 2) * (u / l0 * (u / l0) + (v - l1 * (u / l0)) / l2 * ((v - l1 * (u / l0)) / l2)))
    with (- (pc_11 c * (u * u) - (pc_01 c + pc_10 c) * (u * v) + pc_00 c * (v * v)) / (2 * (l0 * l2 * (l0 * l2)))).
  - field. lra.
  - rewrite <- Hs, <- E0, <- E1, <- E2. field. lra.
Qed.

Lemma total_map {A} (f : A -> R) l : total (map f l) = sum_at f l.
Proof. induction l as [|x l IH]; [reflexivity|]. cbn. unfold total, sum_at in *. cbn. rewrite IH. reflexivity. Qed.

Lemma add_parts (points : list (R * R)) (f g : R * R -> R) : forall res, length res = length points ->
  map (fun ab => fst ab + snd ab) (combine (map (fun ab => fst ab + snd ab) (combine res (map f points))) (map g points)) =
  map (fun ab => fst ab + snd ab) (combine res (map (fun p => f p + g p) points)).
Proof.
  induction points as [|p points IH]; intros [|x res] H; try discriminate; auto. cbn [map combine fst snd]. f_equal; [lra|]. apply IH. cbn in H. lia.
Qed.
Lemma add_scaled (points : list (R * R)) (f : R * R -> R) k s : forall res,
  map (fun ab => fst ab + snd ab * k / s) (combine res (map f points)) = map (fun ab => fst ab + snd ab) (combine res (map (fun p => k * (f p / s)) points)).
Proof. induction points as [|p points IH]; intros [|x res]; auto. cbn [map combine fst snd]. f_equal; [unfold Rdiv; ring|apply IH]. Qed.
Lemma add_zero (points : list (R * R)) k : forall res, length res = length points ->
  map (fun ab => fst ab + snd ab) (combine res (map (fun _ => k * 0) points)) = res.
Proof. induction points as [|p points IH]; intros [|x res] H; try discriminate; auto. cbn [map combine fst snd]. f_equal; [lra|]. apply IH. cbn in H. lia. Qed.

Notation added points f res := (map (fun ab => fst ab + snd ab) (combine res (map f points))).

Lemma comp_ok points k c res : symmetric c -> length res = length points ->
  (definite c -> comp_pdf points k c res = Some (added points (fun p => k * part c points p) res)) /\ (~ definite c -> comp_pdf points k c res = None).
Proof.
  intros Hs Hl. unfold comp_pdf. destruct (chol_cases c Hs) as [(HD & l0 & l1 & l2 & -> & P0 & P2 & E0 & E1 & E2)|(HD & ->)]; [|split; [tauto|auto]].
  split; [|tauto]. intros _. f_equal.
  assert (EM : map (point_pdf c (l0, l1, l2)) points = map (density c) points) by (apply map_ext; intros p; apply point_density; auto).
  rewrite EM, total_map. unfold part. destruct (Rlt_dec (1 / 10000000) (sum_at (density c) points)).
  - apply add_scaled.
  - symmetry. apply add_zero; auto.
Qed.

Lemma added_len (points : list (R * R)) (f : R * R -> R) (res : list R) : length res = length points -> length (added points f res) = length points.
Proof. intros H. rewrite map_length, combine_length, map_length. lia. Qed.

Lemma mix_ok points r cs : forall res, Forall symmetric cs -> length res = length points ->
  (Forall definite cs -> mix_pdf points r cs res = Some (added points (fun p => sum_at (fun c => r * pc_w c * part c points p) cs) res)) /\
  (~ Forall definite cs -> mix_pdf points r cs res = None).
Proof.
  induction cs as [|c cs IH]; intros res Hs Hl.
  - split; [|intros H; exfalso; apply H; constructor]. intros _. cbn [mix_pdf sum_at fold_right]. f_equal. symmetry.
    rewrite <- (add_zero points 0 res Hl) at 2. do 2 f_equal. apply map_ext. intros; lra.
  - inversion Hs as [|a l Hc Hcs]; subst. destruct (comp_ok points (r * pc_w c) c res Hc Hl) as [H1 H2]. cbn [mix_pdf]. split.
    + intros HD. inversion HD as [|a l D1 D2]; subst. rewrite (H1 D1). rewrite (proj1 (IH _ Hcs (added_len _ _ _ Hl)) D2). f_equal. rewrite add_parts by auto. reflexivity.
    + intros HN. destruct (chol_cases c Hc) as [[D1 _]|[D1 _]].
      * rewrite (H1 D1). apply (proj2 (IH _ Hcs (added_len _ _ _ Hl))). intros D2. apply HN. constructor; auto.
      * rewrite (H2 D1). reflexivity.
Qed.

Lemma density_pos c p : 0 < det c -> 0 < density c p.
Proof. intros H. unfold density. apply Rdiv_lt_0_compat; [apply exp_pos|]. pose proof PI_RGT_0. apply Rmult_lt_0_compat; [lra|apply sqrt_lt_R0; auto]. Qed.
Lemma sum_at_div {A} (f : A -> R) s l : sum_at (fun x => f x / s) l = sum_at f l / s.
Proof. induction l as [|x l IH]; cbn; [lra|]. unfold sum_at in *. cbn. rewrite IH. lra. Qed.
Lemma sum_at_scale {A} (f : A -> R) k l : sum_at (fun x => k * f x) l = k * sum_at f l.
Proof. induction l as [|x l IH]; unfold sum_at in *; cbn; [lra|]. rewrite IH. lra. Qed.
Lemma sum_at_plus {A} (f g : A -> R) l : sum_at (fun x => f x + g x) l = sum_at f l + sum_at g l.
Proof. induction l as [|x l IH]; unfold sum_at in *; cbn; [lra|]. rewrite IH. lra. Qed.
Lemma sum_at_zero {A} (l : list A) : sum_at (fun _ => 0) l = 0.
Proof. induction l as [|x l IH]; unfold sum_at in *; cbn; [lra|]. rewrite IH. lra. Qed.
Lemma parts_total c points : sum_at (part c points) points = if Rlt_dec (1 / 10000000) (sum_at (density c) points) then 1 else 0.
Proof.
  unfold part. destruct (Rlt_dec (1 / 10000000) (sum_at (density c) points)) as [H|H]; [|apply sum_at_zero].
  rewrite sum_at_div. field. lra.
Qed.
Lemma swap_sums points r cs : sum_at (fun p => sum_at (fun c => r * pc_w c * part c points p) cs) points =
  r * sum_at (fun c => if Rlt_dec (1 / 10000000) (sum_at (density c) points) then pc_w c else 0) cs.
Proof.
  induction cs as [|c cs IH].
  - cbn. rewrite Rmult_0_r. apply sum_at_zero.
  - change (sum_at (fun p => r * pc_w c * part c points p + sum_at (fun c => r * pc_w c * part c points p) cs) points =
      r * ((if Rlt_dec (1 / 10000000) (sum_at (density c) points) then pc_w c else 0) + sum_at (fun c => if Rlt_dec (1 / 10000000) (sum_at (density c) points) then pc_w c else 0) cs)).
    rewrite sum_at_plus, IH, sum_at_scale, parts_total. destruct (Rlt_dec _ _); ring.
Qed.
Lemma added_total (points : list (R * R)) (f : R * R -> R) : forall res : list R, length res = length points -> total (added points f res) = total res + sum_at f points.
Proof.
  induction points as [|p points IH]; intros [|x res] H; try discriminate; [cbn; lra|]. cbn [map combine fst snd]. unfold total in *. cbn [fold_right]. rewrite IH by (cbn in H; lia).
  unfold sum_at. cbn [fold_right]. lra.
Qed.
Lemma added_nth (points : list (R * R)) (f : R * R -> R) : forall (res : list R) k, length res = length points -> (k < length points)%nat -> nth k (added points f res) 0 = nth k res 0 + f (nth k points (0, 0)).
Proof.
  induction points as [|p points IH]; intros [|x res] k H Hk; try discriminate; [cbn in Hk; lia|]. destruct k as [|k]; [reflexivity|]. cbn [map combine nth]. apply IH; cbn in *; lia.
Qed.
Lemma part_range c points p : 0 < det c -> In p points -> 0 <= part c points p <= 1.
Proof.
  intros HD Hp. unfold part. destruct (Rlt_dec _ _) as [H|H]; [|lra]. pose proof (density_pos c p HD) as Hd.
  assert (density c p <= sum_at (density c) points).
  { clear H. induction points as [|q l IH]; [destruct Hp|]. unfold sum_at in *. cbn [fold_right].
    assert (T : 0 <= fold_right (fun x s => density c x + s) 0 l). { clear - HD. induction l as [|a l IH]; cbn; [lra|]. pose proof (density_pos c a HD). lra. }
    destruct Hp as [->|Hp]; [lra|]. pose proof (density_pos c q HD). specialize (IH Hp). lra. }
  split; [left; apply Rdiv_lt_0_compat; lra|]. apply (Rmult_le_reg_r (sum_at (density c) points)); [lra|]. unfold Rdiv. rewrite Rmult_assoc, Rinv_l by lra. lra.
Qed.

(** ** The call *)
Lemma phd_value r cs points res : Forall symmetric cs -> length res = length points ->
  (pos_phd r cs points res = None <-> ~ Forall definite cs) /\
  (forall out, pos_phd r cs points res = Some out ->
     length out = length points /\
     (forall k, (k < length points)%nat -> nth k out 0 = nth k res 0 + r * sum_at (fun c => pc_w c * part c points (nth k points (0, 0))) cs) /\
     total out = total res + r * sum_at (fun c => if Rlt_dec (1 / 10000000) (sum_at (density c) points) then pc_w c else 0) cs).
Proof.
  intros Hs Hl. destruct (mix_ok points r cs res Hs Hl) as [H1 H2]. unfold pos_phd.
  assert (Dec : Forall definite cs \/ ~ Forall definite cs).
  { clear - Hs. induction Hs as [|c cs Hc Hs IH]; [left; constructor|]. destruct (chol_cases c Hc) as [[D _]|[D _]]; [|right; intros H; inversion H; auto].
    destruct IH as [IH|IH]; [left; constructor; auto|right; intros H; inversion H; auto]. }
  split.
  - split; [|exact H2]. intros E HD. rewrite (H1 HD) in E. discriminate.
  - intros out E. destruct Dec as [HD|HD]; [|rewrite (H2 HD) in E; discriminate]. rewrite (H1 HD) in E. injection E as <-. split; [apply added_len; auto|]. split.
    + intros k Hk. rewrite added_nth by auto. f_equal. rewrite <- sum_at_scale. generalize (nth k points (0, 0)) as p. intros p. clear. induction cs as [|c cs IH]; [reflexivity|].
      unfold sum_at in *. cbn [fold_right]. rewrite IH. ring.
    + rewrite added_total by auto. rewrite swap_sums. reflexivity.
Qed.

Lemma phd_bounds r cs points res out : Forall symmetric cs -> length res = length points -> 0 <= r -> (forall c, In c cs -> 0 <= pc_w c) ->
  pos_phd r cs points res = Some out ->
  (forall k, (k < length points)%nat -> nth k res 0 <= nth k out 0 <= nth k res 0 + r * sum_at pc_w cs) /\
  total res <= total out <= total res + r * sum_at pc_w cs /\
  (Forall (near points) cs -> total out = total res + r * sum_at pc_w cs).
Proof.
  intros Hs Hl Hr Hw E. destruct (phd_value r cs points res Hs Hl) as [H0 H1]. destruct (H1 out E) as (H2 & H3 & H4).
  assert (HD : Forall definite cs). { apply Forall_forall. intros c Hc. destruct (chol_cases c) as [[D _]|[D _]]; auto; [rewrite Forall_forall in Hs; auto|]. exfalso.
    assert (N : pos_phd r cs points res = None) by (apply H0; intros H; rewrite Forall_forall in H; auto). congruence. }
  assert (B : forall f : pcomp -> R, (forall c, In c cs -> 0 <= f c <= pc_w c) -> 0 <= r * sum_at f cs <= r * sum_at pc_w cs).
  { intros f Hf. assert (0 <= sum_at f cs <= sum_at pc_w cs).
    { clear - Hf. induction cs as [|c cs IH]; unfold sum_at in *; cbn [fold_right]; [lra|]. specialize (IH (fun c Hc => Hf c (or_intror Hc))). specialize (Hf c (or_introl eq_refl)). lra. }
    split; [apply Rmult_le_pos; lra|apply Rmult_le_compat_l; lra]. }
  split; [|split].
  - intros k Hk. rewrite H3 by auto. assert (Hin : In (nth k points (0, 0)) points) by (apply nth_In; auto).
    destruct (B (fun c => pc_w c * part c points (nth k points (0, 0)))) as [B1 B2]; [|lra]. intros c Hc. specialize (Hw c Hc). rewrite Forall_forall in HD, Hs.
    destruct (part_range c points (nth k points (0, 0))) as [P1 P2]; auto; [apply (definite_det c (Hs c Hc)); auto|]. split; [apply Rmult_le_pos; auto|]. rewrite <- (Rmult_1_r (pc_w c)) at 2. apply Rmult_le_compat_l; auto.
  - rewrite H4. destruct (B (fun c => if Rlt_dec (1 / 10000000) (sum_at (density c) points) then pc_w c else 0)) as [B1 B2]; [|lra]. intros c Hc. specialize (Hw c Hc). destruct (Rlt_dec _ _); lra.
  - intros HN. rewrite H4. do 2 f_equal. clear - HN. induction HN as [|c cs H HN IH]; [reflexivity|]. unfold sum_at in *. cbn [fold_right]. rewrite IH. unfold near in H. fold (sum_at (density c) points).
    unfold sum_at in H |- *. destruct (Rlt_dec _ _); [reflexivity|tauto].
Qed.
