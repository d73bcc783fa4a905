(** C75: covariances over whole histories. *)
From Coq Require Import Reals List Lra Lia.
From mathcomp Require Import all_ssreflect ssralg ssrnum zmodp matrix mxalgebra.
From Verif Require Import Res Scalar RTree RTreeSpec RTreeInst Murty MurtyMain GM GMSpec Tracker TrackerSpec TrackerOps TrackerOpsSpec
  PropsGM PropsTrackerOps CompSpec Kalman KalmanSpec RField KalmanWitness GaussOps CovSpec CompProofs CovProofs CovMain Lively.
Set Implicit Arguments. Unset Strict Implicit. Unset Printing Implicit Defensive.
Local Open Scope ring_scope.

(** After any history of calls every component of every target has a positive
    definite covariance, the matrix that a correction by any report inverts is the
    block of positions plus the report's covariance and positive definite, and so are the covariance of the whole density and its
    position block. *)
Theorem C75_covariances : forall BB ll2ne ne2ll gbox bof bll rlo rhi pm pick sortf unit n cs st,
  let op := @gauss_ops BB ll2ne ne2ll gbox bof bll rlo rhi in
  valid_sort sortf -> valid_pick pick -> Rlt 0 (tscale pm) -> Rlt 0 (r_lim pm) -> Rle 0 (rB_max pm) /\ Rle (rB_max pm) 1 -> Rlt 0 unit ->
  Rle (cw_lim pm) 1 -> Rlt (Rmult (Rdiv 1 100000000) (INR (200 * (n + 1)))) (r_lim pm) ->
  Forall (valid_request good_model good_report op pm Rtrigo_def.exp pick sortf n) cs ->
  calls (volR unit) (@p_box gauss BB) (p_norm op) (r_lim pm) (cov_lim pm) (rB_max pm) new_tracker cs (Ok st) ->
  forall x, In x (live st) ->
  let c := p_c (tg_pdf (snd x)) in
  (forall w g, In (w, g) c -> @pd RF _ (gP g) /\
     forall z, good_report z ->
       let S := innovation obs (as_gaussian g) (as_report z) in
       S = ulsubmx (gP g) + zP z /\ @pd RF _ S /\ @inverse RF _ S (invmx S)) /\
  @pd RF _ (mixcov c) /\ @pd RF _ (ulsubmx (mixcov c)).
Proof. exact: covariances. Qed.
Print Assumptions C75_covariances.

(** Two targets of two reports with unit covariance, a prediction with CV, another
    correction. *)
Definition u_shift (s : R) (p o : point) : point := (Rplus (fst p) (Rmult s (fst o)), Rplus (snd p) (Rmult s (snd o))).
Definition u_box (g : gauss) : aabb := mkAabb (gx g i0 0) (gx g i1 0) (gx g i0 0) (gx g i1 0).
Definition u_op : ops gauss Datatypes.unit rep :=
  gauss_ops (u_shift (-1)) (u_shift 1) u_box (fun _ => tt) (fun _ b => b)
    (fun z => (zx z 0 0, zx z 1 0)) (fun z => (zx z 0 0, zx z 1 0)).
Definition u_rep (a : R) : rep := Rep (const_mx a) 1%:M (mkposreal 1 Rlt_0_1) 1%:M.

Example C75_hypotheses_met : exists f1 f2 st1 st2,
  let corr f scan t := correct_op u_op ex_pm Rtrigo_def.exp (first_top extR) isort tt ex_sensor f scan t in
  let run := calls (volR 3) (@p_box gauss Datatypes.unit) (p_norm u_op) (r_lim ex_pm) (cov_lim ex_pm) (rB_max ex_pm) in
  let c1 := corr f1 (u_rep 0 :: u_rep 50 :: nil) 0 in
  let c2 := predict_op u_op ex_pm (CV (99 / 100) 1) 1 0 in
  let c3 := corr f2 (u_rep 1 :: nil) 1 in
  Forall (valid_request good_model good_report u_op ex_pm Rtrigo_def.exp (first_top extR) isort 2) (c1 :: c2 :: c3 :: nil) /\
  run new_tracker (c1 :: nil) (Ok st1) /\ length (live st1) = 2%N /\
  run new_tracker (c1 :: c2 :: c3 :: nil) (Ok st2) /\
  Rlt (Rmult (Rdiv 1 100000000) (INR (200 * (2 + 1)))) (r_lim ex_pm).
Proof.
have Hs : sound_ops u_op by exact: gauss_sound.
have [f1 [st1 [R1 L1]]] := lively_births u_op Hs tt ex_sensor (u_rep 0) (u_rep 50) 0 ex_sensor_sound erefl.
have Hz a : good_report (u_rep a) by split; exact: one_pd.
set c1 := correct_op _ _ _ _ _ _ _ f1 _ _ in R1.
set c2 := predict_op u_op ex_pm (CV (99 / 100) 1) 1 0.
have Q1 : valid_request good_model good_report u_op ex_pm Rtrigo_def.exp (first_top extR) isort 2 c1.
  by constructor; [exact: ex_sensor_sound | apply: le_n | move=> z /= [<-|[<-|[]]]].
have Q2 : valid_request good_model good_report u_op ex_pm Rtrigo_def.exp (first_top extR) isort 2 c2.
  by constructor => /=; lra.
have V c := valid_is_request u_op ex_pm good_model good_report Rtrigo_def.exp (first_top extR) isort 2 c.
have [st2 [R2 L2]] := lively_predict u_op Hs 2 (c1 :: nil) st1 (CV (99 / 100) 1) 1 0 (Forall_cons _ (V _ Q1) (Forall_nil _)) R1.
have L30 : Peano.le (length (live st2)) 30 by rewrite L1 in L2; lia.
have [f2 [st3 R3]] := lively_correct u_op Hs tt 2 ex_sensor (u_rep 1 :: nil) 1 (c1 :: c2 :: nil) st2 ex_sensor_sound
  (Forall_cons _ (V _ Q1) (Forall_cons _ (V _ Q2) (Forall_nil _))) R2 L30.
exists f1, f2, st1, st3; split.
  constructor => //; constructor => //; constructor => //; constructor; first exact: ex_sensor_sound.
    by apply: le_S; apply: le_n.
  by move=> z /= [<-|[]].
split=> //; split=> //; split=> //.
have -> : INR (200 * (2 + 1)) = IZR 600 by rewrite INR_IZR_INZ.
by simpl r_lim; lra.
Qed.
