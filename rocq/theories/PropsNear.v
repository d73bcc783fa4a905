(** Corrections and places on the Earth (C73). *)
From Coq Require Import List Arith NArith Bool Reals Lra Lia Permutation.
Import ListNotations.
From Verif Require Cf.
From Verif Require Import Res Scalar LapBase RTree RTreeSpec RTreeInst Murty MurtyMain Cluster ClusterSpec ClusterMain
  GM GMSpec GMProofs Tracker TrackerSpec TrackerProofs TrackerCluster TrackerMain TrackerHist TrackerOps TrackerOpsSpec TrackerOpsProofs TrackerOpsMain
  PropsGM PropsTrackerOps StepSpec StepProofs NearSpec NearProofs NearWitness.
Local Open Scope nat_scope.

(** *** C73 *)
(** Full statement: for all [earthly] and [towards] operations, when all targets
    and reports of a cluster are close together, the corrected targets are still
    close to them, say: all of them within 1 km before ([apart]) implies within
    10 km of each after.

    It is false at the date line.  The origin of the cluster's frame is the mean
    of the longitudes, on the other side of the Earth; the local positions there
    are the same up to sign, and are taken back to global ones there.  A run of
    two corrections: one target at longitude 180, then a report 112 m to its
    east; every target then is 12 000 km away from both. *)
Theorem C73_stays_near_refuted :
  earthly d_op /\ towards d_op /\ sound_ops d_op /\ (apart d_z1 d_z2 <= 112)%R /\
  exists f1 f2 st1 st2 a t1 t2,
  let c1 := d_corr f1 [d_z1] 0%R in
  let c2 := d_corr f2 [d_z2] 0%R in
  Forall d_req [c1; c2] /\
  d_run new_tracker [c1] (Ok st1) /\ live st1 = [(a, t1)] /\ p_c (tg_pdf t1) = [(1%R, d_z1)] /\
  d_run new_tracker [c1; c2] (Ok st2) /\ In (a, t2) (live st2) /\
  forall x g, In x (live st2) -> In g (p_c (tg_pdf (snd x))) ->
    (12000000 <= apart (place d_op (snd g)) d_z1)%R /\ (12000000 <= apart (place d_op (snd g)) d_z2)%R.
Proof. exact (conj d_earthly (conj d_towards (conj d_op_sound (conj d_close d_history)))). Qed.
Print Assumptions C73_stays_near_refuted.

(** What holds: on the equator, when all longitudes are between [lo] and [hi] as
    numbers, not more than 90 degrees apart, all targets (and the reports, which
    become new targets) stay between.  Missing: other latitudes. *)
Theorem C73_stays_near_partial : forall (G BB Rep : Type) (op : ops G BB Rep) pm s rs
    (ts ts' : list (target (P := pdf (G := G) (BB := BB)))) rs' lo hi,
  earthly op -> towards op -> (-180 < lo)%R -> (hi <= 180)%R -> (hi - lo <= 90)%R -> (rs <> [] \/ ts <> []) ->
  (forall t, In t ts -> nonneg (p_c (tg_pdf t)) /\ total (p_c (tg_pdf t)) = 1%R) ->
  (forall t g, In t ts -> In g (p_c (tg_pdf t)) -> exists l, place op (snd g) = (0, l)%R /\ (lo <= l <= hi)%R) ->
  (forall z, In z rs -> exists l, r_pos op z = (0, l)%R /\ (lo <= l <= hi)%R) ->
  cluster_result op pm s rs ts ts' rs' ->
  (forall t' g', In t' ts' -> In g' (p_c (tg_pdf t')) -> exists l, place op (snd g') = (0, l)%R /\ (lo <= l <= hi)%R) /\
  (forall z, In z (map fst rs') -> exists l, r_pos op z = (0, l)%R /\ (lo <= l <= hi)%R).
Proof.
  intros G BB Rep op pm s rs ts ts' rs' lo hi H1 H2 H3 H4 H5 H6 H7 H8 H9 H.
  exact (stays_equator op pm H1 H2 s rs ts ts' rs' lo hi H3 H4 H5 H6 H7 H8 H9 H).
Qed.
Print Assumptions C73_stays_near_partial.

Example ex_near : exists (t t' : target (P := pdf (G := point) (BB := Datatypes.unit))) z' w,
  p_c (tg_pdf t) = [(1%R, (0, 10)%R)] /\
  cluster_result d_op ex_pm d_sensor [(0, 11)%R] [t] [t'] [(z', w)] /\
  forall g, In g (p_c (tg_pdf t')) -> exists l, place d_op (snd g) = (0, l)%R /\ (10 <= l <= 11)%R.
Proof.
  set (t := mkTarget 0 (Fin (8 / 10)%R) (mkPdf [(1%R, (0, 10)%R)] tt (mkAabb 0 0 0 0) (0, 0)%R) 0 false 0 : target (P := pdf (G := point) (BB := Datatypes.unit))).
  assert (Hg : Forall good [t]).
  { constructor; [|constructor]. split; [exists (8 / 10)%R; split; [reflexivity|lra]|]. split; [intros g [<-|[]]; simpl; lra|]. right. unfold total. simpl. lra. }
  destruct (cluster_update_returns d_op ex_pm exp (first_top extR) isort d_op_sound d_sensor d_sensor_sound (isort_valid point) first_top_valid (fun N ts => exp_no_underflow N ts) [(0, 11)%R] [t] Hg ltac:(simpl; lia)) as (f0 & Hf).
  destruct (cluster_update d_op ex_pm exp (first_top extR) isort d_sensor f0 [(0, 11)%R] [t]) as [(ts', rs')|] eqn:E; [|destruct (Hf f0 (Nat.le_refl _) E)].
  pose proof (cluster_value d_op ex_pm (first_top extR) isort d_op_sound d_sensor d_sensor_sound (isort_valid point) first_top_valid f0 _ _ _ _ Hg E) as Hres.
  assert (Hlen : length ts' = 1 /\ length rs' = 1).
  { destruct Hres as (? & ? & ? & ? & _ & _ & _ & L & _ & _ & L' & _). auto. }
  destruct ts' as [|t' [|? ?]]; try (destruct Hlen; discriminate). destruct rs' as [|(z', w) [|? ?]]; try (destruct Hlen; discriminate).
  exists t, t', z', w. split; [reflexivity|]. split; [exact Hres|].
  destruct (C73_stays_near_partial _ _ _ d_op ex_pm d_sensor [(0, 11)%R] [t] [t'] [(z', w)] 10 11 d_earthly d_towards ltac:(lra) ltac:(lra) ltac:(lra)) as (H & _); auto.
  - left. discriminate.
  - intros u [<-|[]]. split; [intros g [<-|[]]; simpl; lra|unfold total; simpl; lra].
  - intros u g [<-|[]] [<-|[]]. exists 10%R. split; [reflexivity|lra].
  - intros z [<-|[]]. exists 11%R. split; [reflexivity|lra].
  - intros g Hin. apply (H t' g); simpl; auto.
Qed.
