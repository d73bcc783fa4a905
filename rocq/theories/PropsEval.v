(** Properties of evaluation calls (C32, C34, C68). *)
From Coq Require Import List Arith NArith ZArith Bool Reals Lra Lia Permutation.
Import ListNotations.
From Verif Require Cf EvalGeo.
From Verif Require Import Res Scalar LapBase RTree RTreeSpec RTreeInst CC Murty MurtyMain Cluster ClusterSpec ClusterMain GM GMSpec GMProofs
  Tracker TrackerSpec TrackerProofs TrackerCluster TrackerMain TrackerHist PropsTracker TrackerOps TrackerOpsSpec TrackerOpsProofs TrackerOpsMain PropsGM
  PropsTrackerOps Metric MetricMain Eval EvalSpec EvalProofs EvalMain EvalFlat EvalWitness.
Local Open Scope nat_scope.

(** *** C34 *)
(** After any history of predictions and corrections, for any samples, whenever
    the call returns. *)
Theorem C34_phd_bound : forall (P Rep : Type) local global unit (box : P -> rect (ext R)) covnorm r_lim cov_lim rB_max
    (cs : list (call (P := P) (Rep := Rep))) st fov o nebox nx ny samples m st',
  (0 < unit)%R -> (forall p, real_box (box p)) -> (0 < r_lim)%R -> (0 <= rB_max <= 1)%R ->
  Forall sane_call cs -> Forall prob_call cs -> calls (volR unit) box covnorm r_lim cov_lim rB_max new_tracker cs (Ok st) ->
  real_corners fov -> pos_phd local global fov o nebox nx ny samples st = Ok (m, st') ->
  exists sel rs xs, inside box fov st sel /\ map (fun x => tg_r (snd x)) sel = map Fin rs /\
    m = map Fin xs /\ length xs = nx * ny /\ (forall x, In x xs -> (0 <= x)%R) /\ (Rsum xs <= Rsum rs)%R.
Proof.
  intros P Rep local global unit box covnorm r_lim cov_lim rB_max cs st fov o nebox nx ny samples m st' Hu Hb Hr HrB Hs Hp H Hq E.
  exact (phd_bound local global box st st' fov o nebox nx ny samples m
    (calls_ok unit Hu box Hb covnorm r_lim cov_lim rB_max _ _ _ H (consistent_new box) Hs) Hq
    (C19_history_bounds P Rep unit Hu box Hb covnorm r_lim cov_lim rB_max cs st Hr HrB Hs Hp H) E).
Qed.
Print Assumptions C34_phd_bound.

(** What the call returns: the histogram of the samples, weighted with the
    existence probabilities. *)
Theorem C34_phd_value : forall (P Rep : Type) local global unit (box : P -> rect (ext R)) covnorm r_lim cov_lim rB_max
    (cs : list (call (P := P) (Rep := Rep))) st fov o x0 x1 y0 y1 nx ny (f : nat -> nat -> R * R),
  (0 < unit)%R -> (forall p, real_box (box p)) -> (0 < r_lim)%R -> (0 <= rB_max <= 1)%R ->
  Forall sane_call cs -> Forall prob_call cs -> calls (volR unit) box covnorm r_lim cov_lim rB_max new_tracker cs (Ok st) ->
  real_corners fov -> (x0 < x1)%R -> (y0 < y1)%R -> 0 < nx -> 0 < ny ->
  (forall k s, s < 1000 -> near x0 x1 nx (fst (f k s)) /\ near y0 y1 ny (snd (f k s))) ->
  exists sel rs xs st', inside box fov st sel /\ map (fun x => tg_r (snd x)) sel = map Fin rs /\
    pos_phd local global fov o (mkRect (Fin x0) (Fin y0) (Fin x1) (Fin y1)) nx ny (fun k s => (Fin (fst (f k s)), Fin (snd (f k s)))) st = Ok (map Fin xs, st') /\
    length xs = nx * ny /\ forall i j, i < nx -> j < ny -> nth (i * ny + j) xs 0%R = share_of x0 x1 y0 y1 nx ny rs f i j.
Proof.
  intros P Rep local global unit box covnorm r_lim cov_lim rB_max cs st fov o x0 x1 y0 y1 nx ny f Hu Hb Hr HrB Hs Hp H Hq Hx Hy Hnx Hny Hf.
  exact (phd_value local global box st fov o x0 x1 y0 y1 nx ny f
    (calls_ok unit Hu box Hb covnorm r_lim cov_lim rB_max _ _ _ H (consistent_new box) Hs) Hq
    (C19_history_bounds P Rep unit Hu box Hb covnorm r_lim cov_lim rB_max cs st Hr HrB Hs Hp H) Hx Hy Hnx Hny Hf).
Qed.
Print Assumptions C34_phd_value.

(** *** C68 *)
(** Full statement: after any history, pos_phd is defined for every area with real
    corners.  It is not for an area without height or width that meets the box of
    a target, whatever the samples are. *)
Theorem C68_phd_defined_refuted : forall (P Rep : Type) local global unit (box : P -> rect (ext R)) covnorm r_lim cov_lim rB_max
    (cs : list (call (P := P) (Rep := Rep))) st fov o x0 x1 y0 y1 nx ny samples x,
  (0 < unit)%R -> (forall p, real_box (box p)) -> Forall sane_call cs -> calls (volR unit) box covnorm r_lim cov_lim rB_max new_tracker cs (Ok st) ->
  real_corners fov -> In x (live st) -> meets fov (box (tg_pdf (snd x))) -> x0 = x1 \/ y0 = y1 ->
  pos_phd local global fov o (mkRect (Fin x0) (Fin y0) (Fin x1) (Fin y1)) nx ny samples st = UB.
Proof.
  intros P Rep local global unit box covnorm r_lim cov_lim rB_max cs st fov o x0 x1 y0 y1 nx ny samples x Hu Hb Hs H Hq Hx Hm Hd.
  exact (phd_degenerate local global box st fov o x0 x1 y0 y1 nx ny samples x
    (calls_ok unit Hu box Hb covnorm r_lim cov_lim rB_max _ _ _ H (consistent_new box) Hs) Hq Hx Hm Hd).
Qed.
Print Assumptions C68_phd_defined_refuted.

(** A history with one target of existence probability 1/2. *)
Lemma ex_one : exists st a t, let cs := [Correct (ex_correction [0%R])] in
  Forall sane_call cs /\ Forall prob_call cs /\ calls (volR 3) ex_box ex_cov (5 / 100) 150 (8 / 10) new_tracker cs (Ok st) /\
  live st = [(a, t)] /\ tg_r t = Fin (1 / 2)%R.
Proof.
  pose proof (consistent_new ex_box) as H0. destruct (ex_correct [0%R] new_tracker H0) as (st & C1).
  destruct (correct_births 3 ltac:(lra) ex_box ex_box_real ex_cov (5 / 100) 150 (8 / 10) (ex_correction [0%R]) new_tracker st ltac:(lra) H0
      (ex_sane_correction _) (ex_weighted _) C1) as (old & new & ws & rs & El & _ & Hold & Hl & _ & Hsrc & Er & Hp & _).
  assert (Hold' : old = []) by (destruct old as [|(a, t) old]; auto; destruct (Hold a t ltac:(simpl; auto)) as (t0 & [] & _)).
  assert (Hrs : rs = [1 / 2]%R).
  { destruct ws as [|w [|? ?]]; try discriminate. destruct (Hsrc w ltac:(simpl; auto)) as (x & b & c & d & e & E & Hin).
    simpl in E. inversion E; subst. apply in_map_iff in Hin. destruct Hin as (r & Ex & _). inversion Ex; subst.
    cbn [s_lambdaB ex_correction] in Hp. unfold birth_rs, Rsum in Hp. cbn [fold_right flat_map] in Hp.
    destruct (Rle_dec (5 / 100) (1 + 0)); [|exfalso; lra]. destruct (Rle_dec (5 / 100) (1 * (1 / 2) / (1 + 0))); [|exfalso; lra].
    cbn [app] in Hp. apply Permutation_sym, Permutation_length_1_inv in Hp. rewrite Hp. f_equal. rewrite Rmin_left; lra. }
  subst old rs. destruct new as [|(a, t) [|? ?]]; try discriminate. cbn in Er. injection Er as Er. exists st, a, t. cbv zeta.
  split; [constructor; [apply ex_sane_correction|constructor]|]. split; [|split; [|auto]].
  - pose proof ex_prob as Hx. unfold ex_calls in Hx. inversion Hx; subst. auto.
  - eapply cl_cons; [apply cs_correct; exact C1|apply cl_nil].
Qed.

(** One target, all samples in the first of two by two cells: the entries are 1/2,
    0, 0, 0. *)
Example C34_example : exists st a t sel rs xs st', live st = [(a, t)] /\ inside ex_box (ex_box (tg_pdf t)) st sel /\ sel = [(a, t)] /\
  map (fun x => tg_r (snd x)) sel = map Fin rs /\
  pos_phd (fun o p => (p - fst o)%R) (fun p => p) (ex_box (tg_pdf t)) (1, 1)%R (mkRect (Fin 0%R) (Fin 0%R) (Fin 10%R) (Fin 10%R)) 2 2
    (fun _ _ => (Fin 1%R, Fin 2%R)) st = Ok (map Fin xs, st') /\ xs = [1 / 2; 0; 0; 0]%R /\ rs = [1 / 2]%R.
Proof.
  destruct ex_one as (st & a & t & Hs & Hp & H & El & Er).
  destruct (C34_phd_value R R (fun o p => (p - fst o)%R) (fun p => p) 3 ex_box ex_cov (5 / 100) 150 (8 / 10) [Correct (ex_correction [0%R])] st (ex_box (tg_pdf t)) (1, 1)%R 0 10 0 10 2 2 (fun _ _ => (1, 2)%R))
    as (sel & rs & xs & st' & Hi & Ers & E & L & V); auto; try lra; try apply ex_box_real; try lia.
  { intros k s _. cbn [fst snd]. unfold near. simpl INR. rewrite !Rabs_pos_eq by lra. lra. }
  assert (Hsel : sel = [(a, t)]).
  { destruct Hi as (Hn & Hi). assert (Hin : In (a, t) sel).
    { apply Hi. rewrite El. split; [simpl; auto|]. cbn [snd]. unfold ex_box. repeat split; cbn; apply le_FF_iff; lra. }
    destruct sel as [|x [|y sel]]; [contradiction| |].
    - destruct Hin as [->|[]]. reflexivity.
    - exfalso. pose proof (proj1 (proj1 (Hi x) (or_introl eq_refl))) as Hx. pose proof (proj1 (proj1 (Hi y) (or_intror (or_introl eq_refl)))) as Hy.
      rewrite El in Hx, Hy. destruct Hx as [<-|[]], Hy as [<-|[]]. inversion Hn as [|? ? Hno _]. apply Hno. simpl. auto. }
  assert (Hrs : rs = [1 / 2]%R).
  { rewrite Hsel in Ers. cbn in Ers. rewrite Er in Ers. destruct rs as [|r [|? ?]]; inversion Ers. reflexivity. }
  exists st, a, t, sel, rs, xs, st'. split; auto. split; auto. split; auto. split; auto. split; auto. split; auto.
  assert (Hhit : forall i j, i < 2 -> j < 2 -> hits 0 10 0 10 2 2 i j 1000 (fun _ => (1, 2)%R) = if (i =? 0) && (j =? 0) then 1000 else 0).
  { intros i j Hi' Hj'. unfold hits. cbn [fst snd].
    assert (Eb : in_part 0 10 2 i 1 && in_part 0 10 2 j 2 = (i =? 0) && (j =? 0)).
    { unfold in_part. destruct i as [|[|i]], j as [|[|j]]; try lia; simpl INR;
        repeat match goal with |- context [Rle_dec ?a ?b] => destruct (Rle_dec a b); try (exfalso; lra) | |- context [Rlt_dec ?a ?b] => destruct (Rlt_dec a b); try (exfalso; lra) end;
        reflexivity. }
    rewrite Eb. destruct ((i =? 0) && (j =? 0)); clear; generalize 1000; intros n; [rewrite <- (seq_length n 0) at 2|]; generalize (seq 0 n); intros l; induction l; simpl; auto. }
  assert (Hv : forall i j, i < 2 -> j < 2 -> nth (i * 2 + j) xs 0%R = if (i =? 0) && (j =? 0) then (1 / 2)%R else 0%R).
  { intros i j Hi' Hj'. rewrite (V i j Hi' Hj'). unfold share_of. rewrite Hrs. cbn [length seq map nth]. rewrite (Hhit i j Hi' Hj').
    unfold Rsum. cbn [fold_right]. destruct ((i =? 0) && (j =? 0)); [replace (INR 1000) with 1000%R by (rewrite INR_IZR_INZ; reflexivity)|cbn [INR]]; lra. }
  pose proof (Hv 0 0 ltac:(lia) ltac:(lia)) as V0. pose proof (Hv 0 1 ltac:(lia) ltac:(lia)) as V1. pose proof (Hv 1 0 ltac:(lia) ltac:(lia)) as V2.
  pose proof (Hv 1 1 ltac:(lia) ltac:(lia)) as V3. destruct xs as [|v0 [|v1 [|v2 [|v3 [|? ?]]]]]; try discriminate. cbn in V0, V1, V2, V3. subst. reflexivity.
Qed.

(** A target met by an area of zero height. *)
Example C68_example : exists st fov x, reached R R 3 ex_box ex_cov (5 / 100) 150 (8 / 10) st /\ real_corners fov /\ In x (live st) /\ meets fov (ex_box (tg_pdf (snd x))) /\
  RTree.min0 fov = RTree.max0 fov.
Proof.
  destruct ex_one as (st & a & t & Hs & Hp & H & El & Er).
  exists st, (mkRect (Fin (tg_pdf t)) (Fin 0%R) (Fin (tg_pdf t)) (Fin 1%R)), (a, t). split; [eexists; split; [exact Hs|exact H]|].
  split; [repeat split; eexists; reflexivity|]. split; [rewrite El; simpl; auto|]. split; auto.
  cbn [snd]. unfold ex_box. repeat split; cbn; apply le_FF_iff; lra.
Qed.

(** *** C32 *)
(** Full statement: ospa, gospa and pos_phd leave targets and index as they are,
    so that later calls behave as without them.

    On the ellipsoid they do not: nine targets at longitude 30, a call of ospa
    with nine true states at longitude -30 (its common frame is centred at
    longitude 0) and two corrections without reports end in undefined behaviour;
    without the call of ospa they do not. *)
Theorem C32_evaluation_harmless_refuted : exists f1 f2 f3,
  let c1 := w_corr f1 (repeat tt 9) in
  let c3 := w_corr f3 [] in
  let e := Score false f2 w_truth None 100 2 in
  Forall (request w_op ex_pm exp (first_top extR) isort 9) [c1; c3; c3] /\
  ecalls (fun p => p_pos w_op (p_c p)) w_mean (pdf_local w_op) (pdf_global w_op) w_ne
    (volR 3) p_box (p_norm w_op) (r_lim ex_pm) (cov_lim ex_pm) (rB_max ex_pm) new_tracker [Call c1; e; Call c3; Call c3] UB /\
  forall o, calls (volR 3) p_box (p_norm w_op) (r_lim ex_pm) (cov_lim ex_pm) (rB_max ex_pm) new_tracker [c1; c3; c3] o -> o <> UB.
Proof. exact w_evaluation. Qed.
Print Assumptions C32_evaluation_harmless_refuted.

(** How far: an evaluation in a frame centred on the equator at longitude o moves
    a position lam degrees east of it towards the centre, every time. *)
Theorem C32_position_kept_refuted : forall lam o, (0 < lam <= 90)%R -> (-90 < o < 90)%R ->
  exists lam', Cf.ne2ll (Cf.ll2ne (0, o + lam)%R (0, o)%R) (0, o)%R = Some (0, o + lam')%R /\ (0 < lam' < lam)%R.
Proof.
  intros lam o Hl Ho. exists (atan (Cf.sind lam) * 180 / PI)%R. split; [exact (EvalGeo.drift lam o Ho)|exact (EvalGeo.drift_inward lam Hl)].
Qed.
Print Assumptions C32_position_kept_refuted.

Example C32_position_example : (0 < 30 <= 90)%R /\ (-90 < 10 < 90)%R.
Proof. lra. Qed.

(** Where changing frames is exact, evaluations change nothing. *)
Theorem C32_exact_frames_partial : forall (P : Type) (pos : P -> point) mean local global ne (st st' : tracker (P := P)),
  (forall o p, global (local o p) = p) ->
  (exists fov o nebox nx ny samples m, pos_phd local global fov o nebox nx ny samples st = Ok (m, st')) \/
  (exists g fuel truth origin c p v, score pos mean local global ne g fuel truth origin c p st = Ok (v, st')) ->
  targets st' = targets st /\ tree st' = tree st /\ next_id st' = next_id st /\ (forall a, heap st' a = heap st a) /\ live st' = live st.
Proof.
  intros P pos mean local global ne st st' Hg [(fov & o & nebox & nx & ny & samples & m & E)|(g & fuel & truth & origin & c & p & v & E)]; apply similar_eq.
  - exact (phd_similar local global (fun _ p p' => p' = p) (fun _ p => eq_refl) (fun _ p q r H1 H2 => eq_trans H2 H1) (fun o _ p => Hg o p) fov o nebox nx ny samples st m st' E).
  - exact (score_similar pos mean local global ne (fun _ p p' => p' = p) (fun _ p => eq_refl) (fun _ p q r H1 H2 => eq_trans H2 H1) (fun o _ p => Hg o p) g fuel truth origin c p st v st' E).
Qed.
Print Assumptions C32_exact_frames_partial.

(** Where only the boxes of mixtures are the same in every frame (the origin that
    a mixture remembers changes), the index stays right and later calls stay
    defined, in every history of calls and evaluations. *)
Theorem C32_flat_world_partial : forall (G BB Rep : Type) (op : ops G BB Rep) pm expf pick sortf unit B pos mean ne n cs st,
  sound_ops op -> valid_sort sortf -> valid_pick pick -> (forall N ts, no_underflow expf N ts) ->
  (0 < tscale pm)%R -> (0 < r_lim pm)%R -> (0 <= rB_max pm <= 1)%R -> (0 < unit)%R ->
  (forall o g, g_global op o (g_local op o g) = g) ->
  (forall o c b, local_aabbox (g_x0 op) (g_x1 op) (g_box op) c = Some b -> llaabbox op o b = B (gm_linear (g_global op o) c)) ->
  (cw_lim pm <= 1)%R -> (1 / 100000000 * INR (200 * (n + 1)) < r_lim pm)%R ->
  Forall (asked op pm expf pick sortf n) cs ->
  ecalls pos mean (pdf_local op) (pdf_global op) ne (volR unit) p_box (p_norm op) (r_lim pm) (cov_lim pm) (rB_max pm) new_tracker cs (Ok st) ->
  consistent p_box st /\ (forall x, In x (live st) -> prob (tg_r (snd x)) /\ density (p_c (tg_pdf (snd x)))) /\
  forall c o, request op pm expf pick sortf n c -> call_step (volR unit) p_box (p_norm op) (r_lim pm) (cov_lim pm) (rB_max pm) st c o -> o <> UB.
Proof.
  intros G BB Rep op pm expf pick sortf unit B pos mean ne n cs st H1 H2 H3 H4 H5 H6 H7 H8 Hb Hx Hcw Hn Ha H.
  exact (flat_evaluations op pm expf pick sortf H1 H2 H3 H4 H5 H6 H7 unit H8 B Hb Hx pos mean ne n cs st Hcw Hn Ha H).
Qed.
Print Assumptions C32_flat_world_partial.

(** The flat world of PropsTrackerOps: two targets are born and scored. *)
Definition ex_B (c : list (comp (G := point))) : aabb :=
  match local_aabbox fst snd ex_g_box c with Some b => b | None => mkAabb 0 0 0 0 end.
Definition move_box (o : point) (b : aabb) : aabb := mkAabb (GM.min0 b + fst o) (GM.min1 b + snd o) (GM.max0 b + fst o) (GM.max1 b + snd o).

Definition ex_grow (b : aabb) (h : comp (G := point)) : aabb :=
  mkAabb (Rmin (GM.min0 b) (GM.min0 (ex_g_box (snd h)))) (Rmin (GM.min1 b) (GM.min1 (ex_g_box (snd h))))
         (Rmax (GM.max0 b) (GM.max0 (ex_g_box (snd h)))) (Rmax (GM.max1 b) (GM.max1 (ex_g_box (snd h)))).

Lemma ex_boxes o c b : local_aabbox (g_x0 ex_op) (g_x1 ex_op) (g_box ex_op) c = Some b -> llaabbox ex_op o b = ex_B (gm_linear (g_global ex_op o) c).
Proof.
  cbn [g_x0 g_x1 g_box g_global ex_op]. intros E. unfold ex_B.
  assert (Em : local_aabbox fst snd ex_g_box (gm_linear (ex_shift o) c) = option_map (move_box o) (local_aabbox fst snd ex_g_box c)).
  { assert (Ef : forall l b0, fold_left ex_grow (map (fun h : comp => (fst h, ex_shift o (snd h))) l) (move_box o b0) = move_box o (fold_left ex_grow l b0)).
    { induction l as [|(w, g) l IH]; intros b0; auto. cbn [map fold_left fst snd]. rewrite <- IH. f_equal.
      unfold ex_grow, move_box, ex_g_box, ex_shift. cbn [GM.min0 GM.min1 GM.max0 GM.max1 fst snd].
      f_equal; unfold Rmin, Rmax; repeat destruct (Rle_dec _ _); lra. }
    destruct c as [|(w, g) c]; auto. exact (f_equal Some (Ef ((w, g) :: c) (mkAabb (fst g) (snd g) (fst g) (snd g)))). }
  rewrite Em. replace (local_aabbox fst snd ex_g_box c) with (Some b) by (symmetry; exact E). cbn [option_map]. unfold llaabbox. cbn [ne2ll ex_op ex_shift fst snd].
  assert (Ho : (GM.min0 b <= GM.max0 b)%R /\ (GM.min1 b <= GM.max1 b)%R).
  { destruct c as [|(w, g) c]; [discriminate|]. unfold local_aabbox in E. injection E as <-. cbn [snd].
    assert (Hm : forall l (b0 : aabb), (GM.min0 b0 <= GM.max0 b0)%R /\ (GM.min1 b0 <= GM.max1 b0)%R ->
      let b1 := fold_left ex_grow l b0 in
      (GM.min0 b1 <= GM.max0 b1)%R /\ (GM.min1 b1 <= GM.max1 b1)%R).
    { induction l as [|h l IH]; intros b0 H0; [exact H0|]. cbn [fold_left]. apply IH. cbn [GM.min0 GM.min1 GM.max0 GM.max1].
      split; (eapply Rle_trans; [apply Rmin_l|]; eapply Rle_trans; [|apply Rmax_l]; apply H0). }
    exact (Hm ((w, g) :: c) (mkAabb (fst g) (snd g) (fst g) (snd g)) (conj (Rle_refl _) (Rle_refl _))). }
  rewrite !Rmin_left, !Rmax_right by lra. reflexivity.
Qed.

Example C32_flat_example : exists f1 f2 st1 st2, let c1 := ex_corr f1 [(0, 0)%R; (50, 50)%R] 0%R in
  Forall (asked ex_op ex_pm exp (first_top extR) isort 2) [Call c1; Score false f2 [[1; 1]; [40; 40]]%R (Some (7, 7)%R) 100 2] /\
  ex_run new_tracker [c1] (Ok st1) /\ length (live st1) = 2 /\
  ecalls (fun p => p_pos ex_op (p_c p)) (fun p => [fst (p_pos ex_op (p_c p)); snd (p_pos ex_op (p_c p))]) (pdf_local ex_op) (pdf_global ex_op) (fun _ y => y)
    (volR 3) p_box (p_norm ex_op) (r_lim ex_pm) (cov_lim ex_pm) (rB_max ex_pm) new_tracker
    [Call c1; Score false f2 [[1; 1]; [40; 40]]%R (Some (7, 7)%R) 100 2] (Ok st2) /\
  (forall o g, g_global ex_op o (g_local ex_op o g) = g).
Proof.
  destruct ex_history as (f1 & f1' & st1 & st1' & H). cbv zeta in H. destruct H as (Hreq & Hrun & Hlen & _).
  assert (Hr1 : ex_req (ex_corr f1 [(0, 0)%R; (50, 50)%R] 0%R)) by (inversion Hreq; auto).
  assert (Hc : consistent (p_box (G := point) (BB := Datatypes.unit)) st1).
  { refine (calls_ok 3 ltac:(lra) _ (p_box_real (G := point) (BB := Datatypes.unit)) _ _ _ _ _ _ _ Hrun (consistent_new _) _).
    constructor; [eapply request_sane; [exact ex_op_sound|exact Hr1]|constructor]. }
  destruct Hc as ((Hnd & Hheap) & _).
  assert (Hal : forall a, In a (targets st1) -> heap st1 a <> None) by (intros a Ha; apply Hheap; auto).
  destruct (for_all_apply (reframe (pdf_local ex_op) (pdf_global ex_op) (7, 7)%R) (targets st1) st1 Hnd Hal) as (st2 & E2 & _).
  assert (Hts : exists ts, map_res (deref st1) (targets st1) = Ok ts /\ length ts = 2).
  { rewrite <- Hlen. unfold live. clear -Hal. induction (targets st1) as [|a l IH]; [exists []; auto|].
    destruct IH as (ts & E & L); [intros; apply Hal; simpl; auto|]. destruct (heap st1 a) as [t|] eqn:Et; [|destruct (Hal a ltac:(simpl; auto) Et)].
    exists (t :: ts). cbn [map_res]. unfold deref at 1. rewrite Et. cbn [bind]. rewrite E. cbn [bind]. split; auto. cbn [flat_map]. rewrite Et. cbn. auto. }
  destruct Hts as (ts & Ets & Lts).
  destruct (ospa_bounded (map (fun t => [fst (p_pos ex_op (p_c (pdf_local ex_op (7, 7)%R (tg_pdf t)))); snd (p_pos ex_op (p_c (pdf_local ex_op (7, 7)%R (tg_pdf t))))]) ts)
    (map (fun y => y) [[1; 1]; [40; 40]]%R) 100 2) as (_ & f2 & v & Ho & _); [rewrite map_length, Lts; simpl; lia|lra|lra|].
  exists f1, f2, st1, st2. cbv zeta. split; [constructor; [exact Hr1|constructor; [exact Logic.I|constructor]]|]. split; auto. split; auto. split.
  - inversion Hrun as [|? ? ? st3 ? Hstep Hnil| |]; subst. inversion Hnil; subst. eapply el_cons; [apply es_call; exact Hstep|].
    eapply el_cons; [|apply el_nil].
    match goal with |- ecall_step ?a ?b ?c ?d ?e _ _ _ _ _ _ ?s (Score ?g ?f ?tr ?og ?cc ?pp) _ => assert (Es : score a b c d e g f tr og cc pp s = Ok (Fin v, st2)) end.
    { unfold score. cbn [bind]. unfold evaluate. rewrite Ets. cbn [bind]. rewrite E2. cbn [bind]. rewrite Ho by lia. reflexivity. }
    match type of Es with ?x = _ => replace (Ok st2) with (after x) by (rewrite Es; reflexivity) end. apply es_score.
  - intros o g. cbn. unfold ex_shift, ex_unshift. destruct g. cbn. f_equal; lra.
Qed.
