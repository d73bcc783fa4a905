(** Proofs about corrections and places on the Earth. *)
From Coq Require Import List Arith NArith Bool Reals Lra Lia Permutation.
Import ListNotations.
From Interval Require Import Tactic.
From Verif Require Cf CfSpec EvalGeo ViewProofs.
From Verif Require Import Res Scalar LapBase RTree RTreeSpec RTreeInst Murty MurtyMain Cluster ClusterSpec ClusterMain
  GM GMSpec GMProofs Tracker TrackerSpec TrackerHist TrackerOps TrackerOpsSpec TrackerOpsProofs StepSpec StepProofs NearSpec.
Local Open Scope nat_scope.

Section Near.
Context {G BB Rep : Type}.
Variable op : ops G BB Rep.
Variable pm : params.
Notation comp := (comp (G := G)).
Notation pdf := (pdf (G := G) (BB := BB)).
Notation target := (target (P := pdf)).
Implicit Types c : list comp.

Lemma carried_in (f : G -> G) c c' g : carried f c c' -> In g c' -> exists h, In h c /\ fst g = fst h /\ snd g = f (snd h).
Proof.
  unfold carried. induction 1 as [|h h' c c' (H1 & H2) H IH]; intros Hin; [destruct Hin|]. destruct Hin as [<-|Hin]; [exists h; simpl; auto|].
  destruct (IH Hin) as (k & Hk & E). exists k. simpl. auto.
Qed.

Lemma weighed_in (s : sensor (BB := BB)) id j z i c g : In g (weighed op s id j z i c) -> exists h, In h c /\ snd g = gain op z (snd h).
Proof.
  revert i. induction c as [|h c IH]; intros i Hin; [destruct Hin|]. simpl in Hin. destruct Hin as [<-|Hin]; [exists h; simpl; auto|].
  destruct (IH _ Hin) as (k & Hk & E). exists k. simpl. auto.
Qed.

Lemma normalised_in c c' eta g : normalised c c' eta -> In g c' -> exists h, In h c /\ snd h = snd g.
Proof.
  intros [(_ & _ & Hm & _)|(_ & -> & _)] Hin; [|destruct Hin]. apply (in_map snd) in Hin. rewrite Hm in Hin. apply in_map_iff in Hin. destruct Hin as (h & E & Hh). eauto.
Qed.

Lemma scaled_in w (pdfs : list (list comp)) g : In g (scaled w pdfs) -> exists p h, In p pdfs /\ In h p /\ snd h = snd g.
Proof.
  unfold scaled. rewrite in_flat_map. intros ((x, p) & Hp & Hg). apply in_combine_r in Hp. cbn [fst snd] in Hg. apply in_map_iff in Hg.
  destruct Hg as (h & <- & Hh). exists p, h. auto.
Qed.

Lemma mixed_in w (pdfs : list (list comp)) c' g : mixed pm w pdfs c' -> In g c' -> exists p h, In p pdfs /\ In h p /\ snd h = snd g.
Proof.
  intros (c & rest & eta & Hp & _ & _ & _ & _ & Hn) Hin. destruct (normalised_in _ _ _ _ Hn Hin) as (h & Hh & E).
  destruct (scaled_in w pdfs h) as (p & k & Hpp & Hk & E2); [eapply Permutation_in; [exact Hp|apply in_or_app; auto]|]. exists p, k. split; auto. split; auto. congruence.
Qed.

(** Where the components of a corrected target come from. *)
Lemma sources (s : sensor (BB := BB)) rs (ts ts' : list target) rs' i t' g' : cluster_result op pm s rs ts ts' rs' ->
  nth_error ts' i = Some t' -> In g' (p_c (tg_pdf t')) ->
  exists t g, nth_error ts i = Some t /\ In g (p_c (tg_pdf t)) /\
    let o := center op rs ts in
    (snd g' = g_global op o (g_local op o (snd g)) \/
     exists z, In z rs /\ snd g' = g_global op o (gain op (r_local op o z) (g_local op o (snd g)))).
Proof.
  unfold cluster_result. cbv zeta. pose proof (center_ok op rs ts) as Ho. cbv zeta in Ho. rewrite <- Ho. clear Ho.
  set (o := center op rs ts). intros (frames & tins & css & ds & Hfr & Hl1 & Hl2 & Hl3 & _ & Hall & _) Et' Hg'.
  assert (Hi : i < length ts) by (rewrite <- Hl3; apply nth_error_Some; congruence).
  destruct (nth_error ts i) as [t|] eqn:Et; [|apply nth_error_None in Et; lia].
  destruct (Forall2_nth _ _ _ Hfr) as (_ & Hn). destruct (Hn i t Et) as (c & Ec & Hc).
  destruct (Hall i t c Et Ec) as (tin & cs & u & c' & _ & _ & Eu & Hw & _ & _ & _ & _ & Hcar & _ & Hlow & Hhigh).
  assert (u = t') by congruence. subst u. destruct (carried_in _ _ _ _ Hcar Hg') as (h & Hh & _ & Eh). exists t.
  assert (Hsrc : (exists k, In k c /\ snd k = snd h) \/ exists k j z, In k c /\ nth_error rs j = Some z /\ snd h = gain op (r_local op o z) (snd k)).
  { destruct (Rlt_le_dec (sum_over (marginal (length rs) (weight (length rs) tins) ds i) (seq 0 (length rs + 1))) (1 / 1000000)) as [H|H].
    - destruct (Hlow H) as (_ & ->). left. eauto.
    - destruct (Hhigh H) as (_ & Hm). destruct (mixed_in _ _ _ _ Hm Hh) as (p & k & Hp & Hk & Ek). apply in_app_or in Hp. destruct Hp as [Hp|[<-|[]]]; [|left; eauto].
      right. destruct Hw as (_ & Hlc & Hll & Hnorm & _). apply In_nth with (d := []) in Hp. destruct Hp as (j & Hj & Ep). rewrite Hlc, map_length in Hj.
      destruct (nth_error rs j) as [z|] eqn:Ez; [|apply nth_error_None in Ez; lia].
      specialize (Hnorm j (r_local op o z)). rewrite nth_error_map, Ez in Hnorm. specialize (Hnorm eq_refl). rewrite Ep in Hnorm.
      destruct (normalised_in _ _ _ _ Hnorm Hk) as (q & Hq & Eq). destruct (weighed_in _ _ _ _ _ _ _ Hq) as (q' & Hq' & Eq'). exists q', j, z. split; auto. split; auto. congruence. }
  destruct Hsrc as [(k & Hk & Ek)|(k & j & z & Hk & Ez & Ek)]; destruct (carried_in _ _ _ _ Hc Hk) as (g & Hg & _ & Eg); exists g; split; auto; split; auto; cbv zeta.
  - left. rewrite Eh. f_equal. congruence.
  - right. exists z. split; [eapply nth_error_In; eauto|]. rewrite Eh. f_equal. congruence.
Qed.

(** ** The equator *)
Lemma atan_sin_le l : (0 <= l <= PI / 2)%R -> (0 <= atan (sin l) <= l)%R.
Proof.
  intros (H0 & H1). pose proof PI_RGT_0. assert (Hs : (0 <= sin l <= l)%R).
  { split; [apply sin_ge_0; lra|]. destruct (Req_dec l 0) as [->|]; [rewrite sin_0; lra|]. left. apply sin_lt_x. lra. }
  split; [rewrite <- atan_0; destruct (Req_dec (sin l) 0) as [->|]; [lra|left; apply atan_increasing; lra]|].
  destruct (Req_dec l 0) as [->|]; [rewrite sin_0, atan_0; lra|].
  destruct (Rle_lt_dec (atan (sin l)) l) as [|Hlt]; auto. exfalso. pose proof (atan_bound (sin l)) as Hb.
  assert (Hl2 : (l < PI / 2)%R) by lra. pose proof (tan_increasing l (atan (sin l)) ltac:(lra) Hlt ltac:(lra)) as Ht. rewrite tan_atan in Ht.
  unfold tan in Ht. assert (Hc : (0 < cos l)%R) by (apply cos_gt_0; lra). pose proof (COS_bound l) as Hcb.
  assert (sin l <= sin l / cos l)%R; [|lra]. apply Rmult_le_reg_r with (cos l); auto. replace (sin l / cos l * cos l)%R with (sin l) by (field; lra).
  assert (0 <= sin l)%R by lra. nra.
Qed.

Lemma deg_between p q e : (0 <= p <= 90)%R -> (0 <= q <= 90)%R -> (- (Cf.wgs_a * Cf.sind p) <= e <= Cf.wgs_a * Cf.sind q)%R ->
  (- p <= atan (e / Cf.wgs_a) * 180 / PI <= q)%R.
Proof.
  pose proof PI_RGT_0 as HPI. assert (Ha : (0 < Cf.wgs_a)%R) by (unfold Cf.wgs_a; lra).
  assert (Hmono : forall x y, (x <= y)%R -> (atan x <= atan y)%R) by (intros x y [H| ->]; [left; apply atan_increasing; auto|lra]).
  assert (Hup : forall m e, (0 <= m <= 90)%R -> (e <= Cf.wgs_a * Cf.sind m)%R -> (atan (e / Cf.wgs_a) * 180 / PI <= m)%R).
  { intros m x Hm He. set (l := (m * PI / 180)%R). assert (Hl : (0 <= l <= PI / 2)%R) by (unfold l; split; [apply Rmult_le_pos; [apply Rmult_le_pos; lra|lra]|nra]).
    destruct (atan_sin_le l Hl) as (_ & Hle). assert (Hq : (x / Cf.wgs_a <= sin l)%R).
    { unfold Cf.sind in He. fold l in He. apply Rmult_le_reg_r with Cf.wgs_a; auto; replace (x / Cf.wgs_a * Cf.wgs_a)%R with x by (field; lra); lra. }
    pose proof (Hmono _ _ Hq) as H1. replace m with (l * 180 / PI)%R by (unfold l; field; lra).
    apply Rmult_le_compat_r; [left; apply Rinv_0_lt_compat; auto|lra]. }
  intros Hp Hq He. split; [|apply Hup; lra]. pose proof (Hup p (- e)%R Hp ltac:(lra)) as H.
  replace (- e / Cf.wgs_a)%R with (- (e / Cf.wgs_a))%R in H by (field; lra). rewrite atan_opp in H.
  replace (- atan (e / Cf.wgs_a) * 180 / PI)%R with (- (atan (e / Cf.wgs_a) * 180 / PI))%R in H by (field; lra). lra.
Qed.

Lemma sind_mono x y : (-90 <= x)%R -> (y <= 90)%R -> (x <= y)%R -> (Cf.sind x <= Cf.sind y)%R.
Proof. intros H1 H2 H. pose proof PI_RGT_0. unfold Cf.sind. apply sin_incr_1; nra. Qed.

(** East of the origin by [e], within the chords of [p] degrees west and [q] east. *)
Definition chord (p q e : R) : Prop := (- (Cf.wgs_a * Cf.sind p) <= e <= Cf.wgs_a * Cf.sind q)%R.

Lemma local_equator o l : Cf.ll2ne (0, l)%R (0, o)%R = (0, Cf.wgs_a * Cf.sind (l - o))%R.
Proof. replace l with (o + (l - o))%R at 1 by ring. apply EvalGeo.ll2ne_equator. Qed.

Lemma chord_near o p q l : (0 <= p <= 90)%R -> (0 <= q <= 90)%R -> (o - p <= l <= o + q)%R -> chord p q (Cf.wgs_a * Cf.sind (l - o)).
Proof.
  intros Hp Hq Hl. assert (Ha : (0 < Cf.wgs_a)%R) by (unfold Cf.wgs_a; lra).
  pose proof (sind_mono (l - o) q ltac:(lra) ltac:(lra) ltac:(lra)) as H1. pose proof (sind_mono (- p) (l - o) ltac:(lra) ltac:(lra) ltac:(lra)) as H2.
  rewrite ViewProofs.sind_opp in H2. unfold chord. nra.
Qed.

Lemma global_equator o p q e : (0 <= p <= 90)%R -> (0 <= q <= 90)%R -> (-180 < o - p)%R -> (o + q <= 180)%R -> chord p q e ->
  exists l, Cf.ne2ll (0, e)%R (0, o)%R = Some (0, l)%R /\ (o - p <= l <= o + q)%R.
Proof.
  intros Hp Hq H1 H2 He. pose proof (deg_between p q e Hp Hq He) as Hd.
  assert (Hs : forall m, (Cf.sind m <= 1)%R) by (intros; unfold Cf.sind; apply SIN_bound). pose proof (Hs p). pose proof (Hs q).
  assert (Ha : Cf.wgs_a = 6378137%R) by reflexivity. unfold chord in He.
  destruct (EvalGeo.ne2ll_equator 0 e o) as (lat & E & _ & Hz); [rewrite Rabs_R0; lra|apply Rabs_le; nra|lra|].
  rewrite (Hz eq_refl) in E. exists (o + atan (e / Cf.wgs_a) * 180 / PI)%R. split; auto. lra.
Qed.

Hypothesis Hearth : earthly op.
Hypothesis Htow : towards op.

Lemma between_bound a b x lo hi : (lo <= a <= hi)%R -> (lo <= b <= hi)%R -> between a b x -> (lo <= x <= hi)%R.
Proof.
  intros Ha Hb (H1 & H2). unfold Rmin, Rmax in *. destruct (Rle_dec a b); lra.
Qed.


Lemma between_point a x : between a a x -> x = a.
Proof. unfold between, Rmin, Rmax. destruct (Rle_dec a a); lra. Qed.

(** Where targets and reports on the equator go, by their distances to the
    frame's origin. *)
Lemma moved_equator (s : sensor (BB := BB)) rs (ts ts' : list target) rs' o p q :
  (0 <= p <= 90)%R -> (0 <= q <= 90)%R -> (-180 < o - p)%R -> (o + q <= 180)%R ->
  center op rs ts = (0, o)%R ->
  (forall t g, In t ts -> In g (p_c (tg_pdf t)) -> exists l, place op (snd g) = (0, l)%R /\ chord p q (Cf.wgs_a * Cf.sind (l - o))) ->
  (forall z, In z rs -> exists l, r_pos op z = (0, l)%R /\ chord p q (Cf.wgs_a * Cf.sind (l - o))) ->
  cluster_result op pm s rs ts ts' rs' ->
  (forall t' g', In t' ts' -> In g' (p_c (tg_pdf t')) -> exists l, place op (snd g') = (0, l)%R /\ (o - p <= l <= o + q)%R) /\
  (forall z, In z (map fst rs') -> exists l, r_pos op z = (0, l)%R /\ (o - p <= l <= o + q)%R).
Proof.
  intros Hp Hq H1 H2 Ho Ht Hz Hres. destruct Hearth as (E1 & E2 & E3 & E4). split.
  - intros t' g' Ht' Hg'. apply In_nth_error in Ht'. destruct Ht' as (i & Et').
    destruct (sources s rs ts ts' rs' i t' g' Hres Et' Hg') as (t & g & Et & Hg & Hsrc). cbv zeta in Hsrc. rewrite Ho in Hsrc.
    destruct (Ht t g (nth_error_In _ _ Et) Hg) as (l & El & Hl).
    assert (Hloc : place op (g_local op (0, o)%R (snd g)) = (0, Cf.wgs_a * Cf.sind (l - o))%R) by (rewrite E1, El; apply local_equator).
    destruct Hsrc as [->|(z & Hzin & ->)].
    + destruct (global_equator o p q _ Hp Hq H1 H2 Hl) as (l' & En & Hl'). exists l'. split; auto. apply E2. rewrite Hloc. exact En.
    + destruct (Hz z Hzin) as (lz & Elz & Hlz). assert (Hlocz : r_pos op (r_local op (0, o)%R z) = (0, Cf.wgs_a * Cf.sind (lz - o))%R) by (rewrite E3, Elz; apply local_equator).
      set (h := gain op _ _). destruct (Htow (r_local op (0, o)%R z) (g_local op (0, o)%R (snd g))) as (B0 & B1). fold h in B0, B1.
      unfold place in Hloc. injection Hloc as L0 L1. rewrite Hlocz in B0, B1. cbn [fst snd] in B0, B1. rewrite L0 in B0. rewrite L1 in B1. apply between_point in B0.
      destruct (global_equator o p q (g_x1 op h) Hp Hq H1 H2 (between_bound _ _ _ _ _ Hlz Hl B1)) as (l' & En & Hl'). exists l'. split; auto. apply E2. unfold place. rewrite B0. exact En.
  - intros z' Hz'. unfold cluster_result in Hres. cbv zeta in Hres. pose proof (center_ok op rs ts) as Hoo. cbv zeta in Hoo. rewrite <- Hoo, Ho in Hres. clear Hoo.
    destruct Hres as (frames & tins & css & ds & _ & _ & _ & _ & _ & _ & Hlen & Hr). apply in_map_iff in Hz'. destruct Hz' as ((z1, w) & <- & Hin). apply In_nth_error in Hin. destruct Hin as (j & Ej).
    assert (Hj : j < length rs) by (rewrite <- Hlen; apply nth_error_Some; congruence). destruct (nth_error rs j) as [z|] eqn:Ez; [|apply nth_error_None in Ez; lia].
    specialize (Hr j z Ez). rewrite Ej in Hr. apply (f_equal (option_map fst)) in Hr. cbn [option_map fst] in Hr. apply (f_equal (fun x => match x with Some y => y | None => z1 end)) in Hr. cbn beta iota in Hr. subst z1. cbn [fst]. destruct (Hz z (nth_error_In _ _ Ez)) as (l & El & Hl).
    destruct (global_equator o p q _ Hp Hq H1 H2 Hl) as (l' & En & Hl'). exists l'. split; auto. apply E4. rewrite E3, El, local_equator. exact En.
Qed.

(** The mean of normalised mixtures and reports within a range. *)
Lemma mean_range (f : comp -> R) c lo hi : nonneg c -> total c = 1%R -> (forall g, In g c -> (lo <= f g <= hi)%R) ->
  (lo <= rsum (fun g => fst g * f g)%R c <= hi)%R.
Proof.
  intros Hn Ht Hf. assert (H : (lo * total c <= rsum (fun g => fst g * f g)%R c <= hi * total c)%R); [|rewrite Ht in H; lra].
  clear Ht. unfold total. induction c as [|g c IH]; simpl; [lra|].
  assert (Hg : (0 <= fst g)%R) by (apply Hn; simpl; auto). destruct (Hf g ltac:(simpl; auto)) as (F1 & F2).
  specialize (IH ltac:(intros x Hx; apply Hn; simpl; auto) ltac:(intros x Hx; apply Hf; simpl; auto)). nra.
Qed.

Lemma rsum_range (f : point -> R) l lo hi : (forall x, In x l -> (lo <= f x <= hi)%R) -> (lo * INR (length l) <= rsum f l <= hi * INR (length l))%R.
Proof.
  induction l as [|x l IH]; intros H; [simpl; lra|]. cbn [length rsum]. rewrite S_INR. pose proof (H x ltac:(simpl; auto)). specialize (IH ltac:(intros; apply H; simpl; auto)). lra.
Qed.

Lemma center_range rs (ts : list target) lo hi : (rs <> [] \/ ts <> []) ->
  (forall t, In t ts -> nonneg (p_c (tg_pdf t)) /\ total (p_c (tg_pdf t)) = 1%R) ->
  (forall t g, In t ts -> In g (p_c (tg_pdf t)) -> exists l, place op (snd g) = (0, l)%R /\ (lo <= l <= hi)%R) ->
  (forall z, In z rs -> exists l, r_pos op z = (0, l)%R /\ (lo <= l <= hi)%R) ->
  exists o, center op rs ts = (0, o)%R /\ (lo <= o <= hi)%R.
Proof.
  intros Hne Hd Ht Hz. pose proof (center_ok op rs ts) as Ho. cbv zeta in Ho. rewrite Ho. clear Ho.
  set (places := map (r_pos op) rs ++ _).
  assert (Hpl : forall x, In x places -> fst x = 0%R /\ (lo <= snd x <= hi)%R).
  { intros x Hx. unfold places in Hx. apply in_app_or in Hx. destruct Hx as [Hx|Hx]; apply in_map_iff in Hx.
    - destruct Hx as (z & <- & Hin). destruct (Hz z Hin) as (l & -> & Hl). auto.
    - destruct Hx as (t & <- & Hin). destruct (Hd t Hin) as (N1 & N2). unfold position. cbn [fst snd]. split.
      + assert (H : (0 <= rsum (fun g => fst g * g_x0 op (snd g))%R (p_c (tg_pdf t)) <= 0)%R); [|lra].
        apply (mean_range (fun g => g_x0 op (snd g))); auto. intros g Hg. destruct (Ht t g Hin Hg) as (l & El & _). unfold place in El. injection El as -> _. lra.
      + apply (mean_range (fun g => g_x1 op (snd g))); auto. intros g Hg. destruct (Ht t g Hin Hg) as (l & El & Hl). unfold place in El. injection El as _ ->. auto. }
  assert (Hlen : (0 < INR (length places))%R).
  { apply lt_0_INR. unfold places. rewrite app_length, !map_length. destruct Hne as [H|H]; [destruct rs|destruct ts]; simpl; try congruence; lia. }
  exists (rsum snd places / INR (length places))%R. split.
  - f_equal. assert (H : (0 * INR (length places) <= rsum fst places <= 0 * INR (length places))%R) by (apply rsum_range; intros x Hx; destruct (Hpl x Hx) as (-> & _); lra).
    replace (rsum fst places) with 0%R by lra. unfold Rdiv. ring.
  - pose proof (rsum_range snd places lo hi ltac:(intros x Hx; apply Hpl; auto)) as H. clearbody places. unfold point in *. set (N := INR (length places)) in *.
    assert (E : (rsum snd places / N * N = rsum snd places)%R) by (field; lra). split; apply Rmult_le_reg_r with N; auto; rewrite E; lra.
Qed.

(** On the equator away from the date line nothing leaves the range of the
    cluster. *)
Lemma stays_equator (s : sensor (BB := BB)) rs (ts ts' : list target) rs' lo hi :
  (-180 < lo)%R -> (hi <= 180)%R -> (hi - lo <= 90)%R -> (rs <> [] \/ ts <> []) ->
  (forall t, In t ts -> nonneg (p_c (tg_pdf t)) /\ total (p_c (tg_pdf t)) = 1%R) ->
  (forall t g, In t ts -> In g (p_c (tg_pdf t)) -> exists l, place op (snd g) = (0, l)%R /\ (lo <= l <= hi)%R) ->
  (forall z, In z rs -> exists l, r_pos op z = (0, l)%R /\ (lo <= l <= hi)%R) ->
  cluster_result op pm s rs ts ts' rs' ->
  (forall t' g', In t' ts' -> In g' (p_c (tg_pdf t')) -> exists l, place op (snd g') = (0, l)%R /\ (lo <= l <= hi)%R) /\
  (forall z, In z (map fst rs') -> exists l, r_pos op z = (0, l)%R /\ (lo <= l <= hi)%R).
Proof.
  intros H1 H2 H3 Hne Hd Ht Hz Hres. destruct (center_range rs ts lo hi Hne Hd Ht Hz) as (o & Ho & Hoo).
  destruct (moved_equator s rs ts ts' rs' o (o - lo) (hi - o) ltac:(lra) ltac:(lra) ltac:(lra) ltac:(lra) Ho) as (A & B); auto.
  - intros t g Hin Hg. destruct (Ht t g Hin Hg) as (l & El & Hl). exists l. split; auto. apply chord_near; lra.
  - intros z Hin. destruct (Hz z Hin) as (l & El & Hl). exists l. split; auto. apply chord_near; lra.
  - split.
    + intros t' g' Hin Hg. destruct (A t' g' Hin Hg) as (l & El & Hl). exists l. split; auto. lra.
    + intros z Hin. destruct (B z Hin) as (l & El & Hl). exists l. split; auto. lra.
Qed.
End Near.
