(** Specification of the tracker's state: which targets exist and what the
    index must contain. *)
From Coq Require Import List Arith NArith Bool Reals Permutation Relations.
Import ListNotations.
From Verif Require Import Res Scalar RTree RTreeSpec RTreeInst CC Tracker.
Local Open Scope nat_scope.

Section Spec.
Context {P Rep : Type}.
Variable box : P -> rect (ext R).
Notation tracker := (tracker (P := P)).
Notation target := (target (P := P)).

(** A real rectangle with min <= max; one with arbitrary real corners. *)
Definition real_box (r : rect (ext R)) : Prop := good extR finite r.
Definition real_corners (r : rect (ext R)) : Prop := fine finite r.
(** Rectangles with a common point. *)
Definition meets (a b : rect (ext R)) : Prop := touches (le extR) a b.

(** The targets in existence with their addresses, in the order of creation. *)
Definition live (st : tracker) : list (addr * target) :=
  flat_map (fun a => match heap st a with Some t => [(a, t)] | None => [] end) (targets st).

(** Every target object is listed once in [targets] and nothing else is. *)
Definition listed (st : tracker) : Prop :=
  NoDup (targets st) /\ forall a, heap st a <> None <-> In a (targets st).

(** The index holds exactly the live targets, each once, with its current box. *)
Definition indexed (st : tracker) : Prop :=
  Permutation (entries (tree st)) (map (fun x => (box (tg_pdf (snd x)), fst x)) (live st)).

(** The index is a well-formed R-tree (C05). *)
Definition tree_ok (st : tracker) : Prop := balanced (le extR) real_box (tree st).

Definition consistent (st : tracker) : Prop := listed st /\ indexed st /\ tree_ok st.

(** The numerical part of a correction keeps the number of targets and reports
    and does not touch the targets' ids (it has no access to [id]); the boxes
    used for queries have real corners. *)
Definition sane_correction (s : correction (P := P) (Rep := Rep)) : Prop :=
  real_corners (s_fov s) /\
  (forall r, In r (s_scan s) -> real_corners (s_rbox s r)) /\
  (forall rs ts ts' rs', s_update s rs ts = Some (ts', rs') ->
     map tg_id ts' = map tg_id ts /\ length rs' = length rs).

Definition sane_call (c : call (P := P) (Rep := Rep)) : Prop :=
  match c with
  | Predict f => forall a t, tg_id (f a t) = tg_id t
  | Correct s => sane_correction s
  end.

(** ** Clustering *)

(** Report [j] of the scan and the target at [a] gate each other. *)
Definition gated (rbox : Rep -> rect (ext R)) (scan : list Rep) (st : tracker) (j : nat) (a : addr) : Prop :=
  exists r t, nth_error scan j = Some r /\ In (a, t) (live st) /\ meets (rbox r) (box (tg_pdf t)).

(** Reports that share a gated target. *)
Definition share rbox scan st (i j : nat) : Prop :=
  exists a, gated rbox scan st i a /\ gated rbox scan st j a.
Definition linked_reports rbox scan st : nat -> nat -> Prop := clos_refl_trans nat (share rbox scan st).

(** What clustering the targets [all] and the reports of [scan0] must give: the
    clusters [cls], and the cluster ids written to targets and reports. *)
Record clustering (rbox : Rep -> rect (ext R)) (all : list addr) (st0 : tracker) (scan0 : list (report (Rep := Rep)))
    (st : tracker) (scan : list (report (Rep := Rep))) (cls : list cluster) : Prop := mkClustering {
  (* ids *)
  k_ids : map cl_id cls = seq 0 (length cls);
  (* every report in exactly one cluster *)
  k_reports_once : NoDup (concat (map cl_reports cls));
  k_reports : forall j, In j (concat (map cl_reports cls)) <-> j < length scan0;
  (* every target in view or gated by a report in exactly one cluster *)
  k_targets_once : NoDup (concat (map cl_targets cls));
  k_targets : forall a, In a (concat (map cl_targets cls)) <->
    In a all \/ exists j, gated rbox (map rp scan0) st0 j a;
  (* reports are together iff linked by a chain of shared targets *)
  k_linked : forall c i j, In c cls -> In i (cl_reports c) ->
    (In j (cl_reports c) <-> linked_reports rbox (map rp scan0) st0 i j);
  (* a cluster with reports has the targets gated by them *)
  k_gated : forall c a, In c cls -> cl_reports c <> [] ->
    (In a (cl_targets c) <-> exists j, In j (cl_reports c) /\ gated rbox (map rp scan0) st0 j a);
  (* a cluster without reports is one target gated by no report *)
  k_lone : forall c, In c cls -> cl_reports c = [] ->
    exists a, cl_targets c = [a] /\ forall j, ~ gated rbox (map rp scan0) st0 j a;
  (* only cluster ids are written *)
  k_state : targets st = targets st0 /\ tree st = tree st0 /\ next_id st = next_id st0;
  k_cid : forall c a t, In c cls -> In a (cl_targets c) -> heap st0 a = Some t ->
    heap st a = Some (mkTarget (tg_id t) (tg_r t) (tg_pdf t) (cl_id c) (tg_new t) (tg_t0 t));
  k_other : forall a, ~ In a (concat (map cl_targets cls)) -> heap st a = heap st0 a;
  k_scan : map rp scan = map rp scan0 /\ map rp_rB scan = map rp_rB scan0;
  k_rcid : forall c j r, In c cls -> In j (cl_reports c) -> nth_error scan j = Some r -> rp_cid r = cl_id c }.

(** ** Histories *)

(** The ids of the live targets, oldest target first. *)
Definition ids (st : tracker) : list N := map (fun x => tg_id (snd x)) (live st).

(** Existence probability at least [r_lim] and position uncertainty at most
    [cov_lim], as far as these are numbers at all. *)
Definition fit (covnorm : P -> ext R) (r_lim cov_lim : R) (t : target) : Prop :=
  (forall x, tg_r t = Fin x -> (r_lim <= x)%R) /\ tg_r t <> NInf /\
  (forall x, covnorm (tg_pdf t) = Fin x -> (x <= cov_lim)%R) /\ covnorm (tg_pdf t) <> PInf.

(** The target is seen by the sensor, or matched by a report. *)
Definition touched (s : correction (P := P) (Rep := Rep)) (st : tracker) (a : addr) (t : target) : Prop :=
  (meets (s_fov s) (box (tg_pdf t)) /\ s_sees s (tg_pdf t) = true) \/
  exists j, gated (s_rbox s) (s_scan s) st j a.

(** A probability. *)
Definition prob (x : ext R) : Prop := exists r, x = Fin r /\ (0 <= r <= 1)%R.

(** The association gives every report a non-negative birth weight. *)
Definition weighted (s : correction (P := P) (Rep := Rep)) : Prop :=
  forall rs ts ts' rs', s_update s rs ts = Some (ts', rs') ->
  forall dx, In dx rs' -> exists w, snd dx = Fin w /\ (0 <= w)%R.

(** The same, for targets that satisfy [I] (of existence probability and
    density). *)
Definition weighted_on (I : ext R -> P -> Prop) (s : correction (P := P) (Rep := Rep)) : Prop :=
  forall rs ts ts' rs', s_update s rs ts = Some (ts', rs') -> Forall (fun t => I (tg_r t) (tg_pdf t)) ts ->
  forall dx, In dx rs' -> exists w, snd dx = Fin w /\ (0 <= w)%R.

(** Calls that keep [I] for all targets which stay alive, and start new targets
    with [I]. *)
Definition keeps covnorm (r_lim cov_lim : R) (I : ext R -> P -> Prop) (c : call (P := P) (Rep := Rep)) : Prop :=
  match c with
  | Predict f => forall a t, I (tg_r t) (tg_pdf t) -> fit covnorm r_lim cov_lim (f a t) -> I (tg_r (f a t)) (tg_pdf (f a t))
  | Correct s => weighted_on I s /\ (0 <= s_lambdaB s)%R /\ (forall r d, (0 <= r <= 1)%R -> I (Fin r) (s_init s d)) /\
      forall rs ts ts' rs', s_update s rs ts = Some (ts', rs') -> Forall (fun t => I (tg_r t) (tg_pdf t)) ts ->
        Peano.le (length rs) (length (s_scan s)) -> Forall (fun t => fit covnorm r_lim cov_lim t -> I (tg_r t) (tg_pdf t)) ts'
  end.

(** Calls that keep probabilities probabilities. *)
Definition prob_call (c : call (P := P) (Rep := Rep)) : Prop :=
  match c with
  | Predict f => forall a t, prob (tg_r t) -> prob (tg_r (f a t))
  | Correct s => weighted s /\ (0 <= s_lambdaB s)%R /\
      forall rs ts ts' rs', s_update s rs ts = Some (ts', rs') ->
        Forall (fun t => prob (tg_r t)) ts -> Forall (fun t => prob (tg_r t)) ts'
  end.

Definition Rsum (l : list R) : R := fold_right Rplus 0%R l.

(** The existence probabilities of the targets born of reports with the birth
    weights [ws], by the paper's formula with the code's limits. *)
Definition birth_rs (r_lim rB_max lambdaB : R) (ws : list R) : list R :=
  if Rle_dec r_lim (Rsum ws)
  then flat_map (fun w => let nr := (w * lambdaB / Rsum ws)%R in
                          if Rle_dec r_lim nr then [Rmin nr rB_max] else []) ws
  else [].

(** Everything about a target but its id and address. *)
Definition content (x : addr * target) := (tg_r (snd x), tg_pdf (snd x), tg_cid (snd x), tg_new (snd x), tg_t0 (snd x)).

(** The live targets whose box meets the area [q], each once. *)
Definition inside (q : rect (ext R)) (st : tracker) (sel : list (addr * target)) : Prop :=
  NoDup sel /\ forall x, In x sel <-> In x (live st) /\ meets q (box (tg_pdf (snd x))).
End Spec.
