(** Properties C57 and C58: the Python binding (lmb/lmb.cpp). *)
From Coq Require Import List Arith Bool Reals String Lia Lra Permutation.
Import ListNotations.
From Verif Require Import Res Scalar Lap LapSpec Murty MurtyMain Cluster ClusterSpec ClusterMain GM Box BoxSpec Bind BindProofs.
Local Open Scope nat_scope.

(** *** C57 *)
(** The 2 x 4 corners, whatever the values (also NaN and infinities). *)
Theorem C57_bbox_round_trip : forall (A : Type) (m : storage A), List.length m = 8 ->
  exists t, bbox_getstate m = Ok t /\ List.length t = 8 /\ bbox_setstate t = Ok (Some m).
Proof.
  intros A m H. destruct (bbox_round_trip m H) as (t & H1 & H2). exists t. split; auto. split; auto.
  destruct (Nat.eq_dec (List.length t) 8) as [|Hn]; auto. rewrite (bbox_set_bad t Hn) in H2. discriminate.
Qed.
Print Assumptions C57_bbox_round_trip.

Theorem C57_bbox_rejects : forall (A : Type) (t : list A), List.length t <> 8 -> bbox_setstate t = Ok None.
Proof. exact @bbox_set_bad. Qed.
Print Assumptions C57_bbox_rejects.

(** An axis aligned box comes back exactly when its corners are in order (min and
    max are writable in Python, so they need not be). *)
Theorem C57_aabb_round_trip : forall b, aabb_setstate (aabb_getstate b) = Some b <-> ordered b.
Proof. exact aabb_round_trip. Qed.
Print Assumptions C57_aabb_round_trip.

Theorem C57_target_round_trip : forall (X P : Type) (s : summary X P), sum_setstate (sum_getstate s) = Some s.
Proof. exact @sum_round_trip. Qed.
Print Assumptions C57_target_round_trip.

Theorem C57_report_round_trip : forall (X P : Type) (r : greport X P),
  exists r', rep_setstate (rep_getstate r) = Some r' /\ rep_attrs r' = rep_attrs r.
Proof. exact @rep_round_trip. Qed.
Print Assumptions C57_report_round_trip.

(** Eight different corners: entry (r, c) is 4 r + c. *)
Example ex_bbox_pickle : let m := [0; 4; 1; 5; 2; 6; 3; 7] in
  List.length m = 8 /\ bbox_getstate m = Ok m /\ comma [0; 1; 2; 3; 4; 5; 6; 7] = Ok m /\
  (forall r c, r < 2 -> c < 4 -> coeff m r c = Ok (4 * r + c)) /\ bbox_setstate m = Ok (Some m) /\ bbox_setstate [1; 2; 3] = Ok None.
Proof.
  cbn zeta. split; [reflexivity|]. split; [reflexivity|]. split; [reflexivity|]. split; [|split; reflexivity].
  intros r c Hr Hc. do 2 (destruct r as [|r]; [do 4 (destruct c as [|c]; [reflexivity|]); lia|]). lia.
Qed.

Example ex_aabb_pickle : ordered (mkAabb 1 2 3 5) /\ ~ ordered (mkAabb 3 2 1 5) /\
  aabb_setstate (aabb_getstate (mkAabb 3 2 1 5)) = Some (mkAabb 1 2 3 5).
Proof.
  split; [split; cbn; lra|]. split; [intros [H _]; cbn in H; lra|]. unfold aabb_setstate, aabb_getstate, aabb_of4. cbn.
  rewrite Rmin_right, Rmax_left, (Rmin_left 2 5), (Rmax_right 2 5) by lra. reflexivity.
Qed.

(** A report made from a pickle: the hidden weight is 1 and rB is not kept. *)
Example ex_report_pickle : rep_setstate (rep_getstate (mkRep nat nat 7 8 1%R (Some (1 / 2)%R) (3 / 100)%R 4)) =
  Some (mkRep nat nat 7 8 1%R None (3 / 100)%R 4).
Proof. reflexivity. Qed.

(** *** C58 *)
(** The two other statistics are right, and so is the number of hypotheses kept
    inside the tracker, whatever the order in which the clusters are done and
    whatever the vectors held before. *)
Theorem C58_other_statistics : forall corr st cl order st',
  Permutation order (seq 0 (List.length cl)) -> write_stats corr st cl order = Ok st' ->
  py_stat "cluster_ntargets" st' = Some (map (fun c => List.length (snd c)) cl) /\
  py_stat "cluster_nreports" st' = Some (map fst cl) /\
  (forall outs, Forall2 (fun c out => corr (fst c) (snd c) = Ok out) cl outs -> n_hyps st' = map c_n outs).
Proof.
  intros corr st cl order st' Hp Hr. destruct (stats_lists corr cl st order st' Hp Hr) as (H1 & H2 & H3).
  split; [|split]; [cbn; f_equal; exact H1|cbn; f_equal; exact H2|exact H3].
Qed.
Print Assumptions C58_other_statistics.

(** But cluster_nhyps does not show it: every cluster with targets and without
    reports is listed with 0 hypotheses although at least one was drawn. *)
Theorem C58_nhyps_wrong : forall pick wl K fuel st cl order st' id ts,
  valid_pick pick -> Permutation order (seq 0 (List.length cl)) ->
  write_stats (correct exp pick wl (INR K) fuel) st cl order = Ok st' ->
  nth_error cl id = Some (0, ts) -> ts <> [] -> (forall t, In t ts -> valid_target 0 t) -> List.length ts <= 30 ->
  exists l out, py_stat "cluster_nhyps" st' = Some l /\ nth_error l id = Some 0 /\
    correct exp pick wl (INR K) fuel 0 ts = Ok out /\ 1 <= c_n out.
Proof. exact nhyps_wrong. Qed.
Print Assumptions C58_nhyps_wrong.

(** One target, missed: the correction returns and its statistics are wrong. *)
Theorem C58_nhyps_refuted : exists fuel cl st',
  write_stats (correct exp (first_top extR) 0.01 (INR 100) fuel) (mkStats [] [] []) cl [0] = Ok st' /\
  ~ (exists l outs, py_stat "cluster_nhyps" st' = Some l /\ l = map c_n outs /\
       Forall2 (fun c out => correct exp (first_top extR) 0.01 (INR 100) fuel (fst c) (snd c) = Ok out) cl outs).
Proof.
  set (ts := [mkTin (1/2) [] (1/10)]%R).
  assert (Ht : forall t, In t ts -> valid_target 0 t).
  { intros t [<-|[]]. unfold valid_target. simpl. repeat split; try lra; tauto. }
  assert (Hl : List.length ts <= 30) by (simpl; lia).
  destruct (correct_returns exp (first_top extR) first_top_valid 0.01 (INR 100) 0 ts Ht Hl) as [_ (f & o & H)].
  specialize (H f (le_n f)). exists f, [(0, ts)].
  destruct (stats_run (correct exp (first_top extR) 0.01 (INR 100) f) [(0, ts)] (mkStats [] [] []) [0] (Permutation_refl _)) as [st' Hs].
  { intros c [<-|[]]. eauto. }
  exists st'. split; auto. intros (l & outs & H1 & H2 & H3).
  destruct (nhyps_wrong (first_top extR) 0.01 100 f _ _ _ _ 0 ts first_top_valid (Permutation_refl _) Hs eq_refl ltac:(discriminate) Ht Hl) as (l' & out & E1 & E2 & E3 & E4).
  rewrite E1 in H1. injection H1 as ->. inversion H3 as [|c o' cl' outs' Hc HF]; subst. inversion HF; subst. cbn in Hc, E2. assert (o' = out) as -> by (assert (Ok o' = Ok out) by (rewrite <- Hc, <- E3; reflexivity); congruence).
  injection E2 as E2. lia.
Qed.
Print Assumptions C58_nhyps_refuted.

(** Two clusters done in the reverse order. *)
Example ex_stats : let corr := fun N ts => Ok (mkCorr (3 + N) [] [] []) in let t := mkTin (1/2)%R [] (1/10)%R in
  Permutation [1; 0] (seq 0 2) /\
  write_stats corr (mkStats [9; 9; 9] [] [4]) [(2, [t; t; t]); (0, [t])] [1; 0] = Ok (mkStats [3; 1] [2; 0] [5; 3]).
Proof. split; [apply perm_swap|reflexivity]. Qed.
