(** Model of the tracker: include/lmb.hpp (class SILMB), include/targettree.hpp,
    the non-numerical part of include/cluster.hpp (Cluster_::correct) and of
    include/target.hpp.

    - A density (template parameter PDF) is a value of the type [P]; [box] is
      its llaabbox() and [covnorm] its poscov().norm().  What a prediction and
      the numerical part of a correction do to targets is given by functions
      that belong to the call (so each call may use other sensors, models and
      random numbers).  TrackerOps.v defines these functions as the code does.
    - A target lives at an address; reading, writing or deleting at an address
      where there is none is undefined behaviour.  The allocator may return any
      free address.
    - The index is the R-tree of RTree.v, over exact real numbers with infinities
      and NaN; [vol] is its CalcRectVolume.
    - [last_action] (only printed) and [pdfs] (working storage of one correction)
      are not in the state. *)
From Coq Require Import List Arith NArith Bool Reals Permutation.
Import ListNotations.
From Verif Require Import Res Scalar RTree CC Cluster.
Local Open Scope nat_scope.

(** [for (x : l) s = body(x, s)] (any range-for of the files above). *)
Fixpoint for_each {A S} (body : A -> S -> res S) (l : list A) (s : S) : res S :=
  match l with
  | [] => Ok s
  | x :: l => s <- body x s;; for_each body l s
  end.

Fixpoint map_res {A B} (f : A -> res B) (l : list A) : res (list B) :=
  match l with
  | [] => Ok []
  | x :: l => y <- f x;; ys <- map_res f l;; Ok (y :: ys)
  end.

(** Division of doubles with IEEE special values. *)
Definition xdiv (a b : ext R) : ext R :=
  match a, b with
  | NaN, _ | _, NaN => NaN
  | Fin x, Fin y => ediv x y
  | Fin _, _ => Fin 0%R
  | PInf, Fin y => if Rltb y 0 then NInf else PInf
  | NInf, Fin y => if Rltb y 0 then PInf else NInf
  | _, _ => NaN
  end.

Section Tracker.
Context {P Rep : Type}.
Variable vol : rect (ext R) -> ext R.
(** PDF::llaabbox() and PDF::poscov().norm() *)
Variable box : P -> rect (ext R).
Variable covnorm : P -> ext R.
(** Params (params.hpp) *)
Variables r_lim cov_lim rB_max : R.

(** Target_, target.hpp:44-78. *)
Record target := mkTarget {
  tg_id : N;
  tg_r : ext R;
  tg_pdf : P;
  tg_cid : nat;
  tg_new : bool;
  tg_t0 : R }.

(** TargetTree_, targettree.hpp:18-29, with the memory holding the targets.
    [next_id] is the number of targets created so far; the 32-bit unsigned
    id_counter is this number modulo 2^32. *)
Record tracker := mkTracker {
  heap : addr -> option target;
  targets : list addr;
  tree : node (ext R) addr;
  next_id : N }.

(** SILMB(), lmb.hpp:48-50. *)
Definition new_tracker : tracker := mkTracker (fun _ => None) [] RTree.empty 0%N.

Definition deref (st : tracker) (a : addr) : res target :=
  match heap st a with Some t => Ok t | None => UB end.

Definition heap_upd (h : addr -> option target) (a : addr) (o : option target) : addr -> option target :=
  fun b => if b =? a then o else h b.

(** Assignment to the members of an existing target. *)
Definition write (st : tracker) (a : addr) (t : target) : res tracker :=
  _ <- deref st a;;
  Ok (mkTracker (heap_upd (heap st) a (Some t)) (targets st) (tree st) (next_id st)).

(** Target_::viable, target.hpp:80-90. *)
Definition viable (t : target) : bool :=
  if nlt extR (tg_r t) (Fin r_lim) then false
  else if nlt extR (Fin cov_lim) (covnorm (tg_pdf t)) then false
  else true.

Definition with_tree (st : tracker) (tr : node (ext R) addr) : tracker :=
  mkTracker (heap st) (targets st) tr (next_id st).

(** TargetTree_::remove, targettree.hpp:40-43. *)
Definition index_remove (a : addr) (st : tracker) : res tracker :=
  t <- deref st a;;
  tr <- RTree.remove extR Nat.eqb vol (box (tg_pdf t)) a (tree st);;
  Ok (with_tree st tr).

(** TargetTree_::replace, targettree.hpp:55-58. *)
Definition index_insert (a : addr) (st : tracker) : res tracker :=
  t <- deref st a;;
  tr <- RTree.insert extR vol (box (tg_pdf t)) a (tree st);;
  Ok (with_tree st tr).

(** TargetTree_::erase, targettree.hpp:49-53. *)
Definition erase (a : addr) (st : tracker) : res tracker :=
  _ <- deref st a;;
  Ok (mkTracker (heap_upd (heap st) a None)
        (filter (fun b => negb (b =? a)) (targets st)) (tree st) (next_id st)).

(** TargetTree_::new_target, targettree.hpp:60-70, when the allocator returns
    [a]. *)
Definition new_target (a : addr) (r : ext R) (p : P) (time : R) (cid : nat) (st : tracker) : res tracker :=
  let t := mkTarget (next_id st mod 2 ^ 32)%N r p cid true time in
  tr <- RTree.insert extR vol (box p) a (tree st);;
  Ok (mkTracker (heap_upd (heap st) a (Some t)) (targets st ++ [a]) tr
        (next_id st + 1)%N).

(** TargetTree_::query, targettree.hpp:72-81. *)
Definition query (q : rect (ext R)) (st : tracker) : res (list addr) := RTree.search extR q (tree st).

(** lmb.hpp:84-88 and cluster.hpp:147-151. *)
Definition restore (a : addr) (st : tracker) : res tracker :=
  t <- deref st a;;
  if viable t then index_insert a st else erase a st.

(** Replace a target by its new value, computed by [f]. *)
Definition apply_to (f : addr -> target -> target) (a : addr) (st : tracker) : res tracker :=
  t <- deref st a;; write st a (f a t).

(** SILMB::predict, lmb.hpp:53-91.  [f] is what lines 69, 73 and 77 do to one
    target.  The iterations of the parallel loop 63-81 touch different targets
    only; the model runs them in order. *)
Definition predict (f : addr -> target -> target) (st : tracker) : res tracker :=
  let all := targets st in
  let st := with_tree st RTree.empty in
  st <- for_each (apply_to f) all st;;
  for_each restore all st.

(** ** Clustering *)

(** A report of the scan: its data, birth weight and cluster id (report.hpp:18-20);
    a Report* is the index in the scan. *)
Record report := mkReport { rp : Rep; rp_rB : ext R; rp_cid : nat }.

(** Cluster_, cluster.hpp:17-34. *)
Record cluster := mkCluster { cl_id : nat; cl_reports : list nat; cl_targets : list addr }.

(** std::sort of pointers (lmb.hpp:400, 407): insertion keeps equal ones. *)
Fixpoint sorted_insert (x : nat) (l : list nat) : list nat :=
  match l with
  | [] => [x]
  | y :: l' => if x <=? y then x :: l else y :: sorted_insert x l'
  end.
Definition sort (l : list nat) : list nat := fold_right sorted_insert [] l.

(** std::unique + erase (lmb.hpp:401-403): drop repetitions of the previous
    element. *)
Fixpoint unique (l : list nat) : list nat :=
  match l with
  | [] => []
  | x :: l' => match l' with
               | [] => [x]
               | y :: _ => if x =? y then unique l' else x :: unique l'
               end
  end.

(** std::set_difference of two sorted ranges (lmb.hpp:408-410). *)
Fixpoint set_difference (l1 : list nat) : list nat -> list nat :=
  match l1 with
  | [] => fun _ => []
  | x :: l1' =>
      fix inner (l2 : list nat) : list nat :=
        match l2 with
        | [] => l1
        | y :: l2' => if x <? y then x :: set_difference l1' l2
                      else if y <? x then inner l2'
                      else set_difference l1' l2'
        end
  end.

(** matching_reports[a] (lmb.hpp:362, 368), from matching_targets: one entry for
    each occurrence of [a]. *)
Definition matching_reports (mt : list (list addr)) (a : addr) : list nat :=
  flat_map (fun j => map (fun _ => j) (filter (Nat.eqb a) (nth j mt []))) (seq 0 (length mt)).

(** The calls of init and connect, lmb.hpp:376-384. *)
Definition cc_calls (mt : list (list addr)) : list cc_op :=
  flat_map (fun j => Init j :: map (fun a => Connect j (matching_reports mt a)) (nth j mt []))
           (seq 0 (length mt)).

(** t->cid = cid (lmb.hpp:420, 441). *)
Definition set_cid (cid : nat) (a : addr) (st : tracker) : res tracker :=
  apply_to (fun _ t => mkTarget (tg_id t) (tg_r t) (tg_pdf t) cid (tg_new t) (tg_t0 t)) a st.

(** r->cid = cid (lmb.hpp:396) for the report at index [j]. *)
Definition set_report_cid (cid : nat) (j : nat) (scan : list report) : res (list report) :=
  r <- get scan j;; set scan j (mkReport (rp r) (rp_rB r) cid).

(** The body of the loop lmb.hpp:388-436 for one component. *)
Definition component_cluster (mt : list (list addr)) (comp : list nat)
    (s : tracker * list report * list addr * list cluster) :
    res (tracker * list report * list addr * list cluster) :=
  let '(st, scan, all, cls) := s in
  let cid := length cls in
  mts <- map_res (get mt) comp;;
  scan <- for_each (set_report_cid cid) comp scan;;
  let cts := unique (sort (concat mts)) in
  let all := set_difference (sort all) cts in
  st <- for_each (set_cid cid) cts st;;
  Ok (st, scan, all, cls ++ [mkCluster cid comp cts]).

(** The body of the loop lmb.hpp:439-443. *)
Definition lone_cluster (a : addr) (s : tracker * list cluster) : res (tracker * list cluster) :=
  let '(st, cls) := s in
  st <- set_cid (length cls) a st;;
  Ok (st, cls ++ [mkCluster (length cls) [] [a]]).

(** SILMB::cluster, lmb.hpp:344-446.  The components are drawn by get_component
    (CC.v), which the loop body does not influence.  nof_clusters is the number
    of clusters. *)
Definition make_clusters (rbox : Rep -> rect (ext R)) (all : list addr) (st : tracker) (scan : list report) :
    res (tracker * list report * list cluster) :=
  mt <- map_res (fun r => query (rbox (rp r)) st) scan;;
  comps <- components (cc_build (cc_calls mt));;
  '(st, scan, all, cls) <- for_each (component_cluster mt) comps (st, scan, all, []);;
  '(st, cls) <- for_each lone_cluster all (st, cls);;
  Ok (st, scan, cls).

(** ** Correction *)

(** What belongs to one call of correct: the sensor's field of view (bounding
    box and exact test), the reports' boxes, the numerical part of
    Cluster_::correct on one cluster (cluster.hpp:50-141), the birth rate and
    the initial density.  If the numerical part has no result, the call ends
    there without one. *)
Record correction := mkCorrection {
  s_scan : list Rep;
  s_fov : rect (ext R);
  s_sees : P -> bool;
  s_rbox : Rep -> rect (ext R);
  s_update : list Rep -> list target -> option (list target * list (Rep * ext R));
  s_lambdaB : R;
  s_init : Rep -> P;
  s_time : R }.

(** PositionSensor::get_targets, sensors.hpp:48-64. *)
Definition in_view (s : correction) (st : tracker) : res (list addr) :=
  l <- query (s_fov s) st;;
  ts <- map_res (deref st) l;;
  Ok (map fst (filter (fun at_ => s_sees s (tg_pdf (snd at_))) (combine l ts))).

(** Cluster_::correct, cluster.hpp:36-154, in three sections: lines 43-48 and
    144-153 are critical sections; the lines between touch only the cluster's
    own targets and reports and are one step of the model. *)
Definition section1 (c : cluster) (st : tracker) : res tracker :=
  for_each index_remove (cl_targets c) st.

Definition store_report (jr : nat * (Rep * ext R)) (scan : list report) : res (list report) :=
  r <- get scan (fst jr);;
  set scan (fst jr) (mkReport (fst (snd jr)) (snd (snd jr)) (rp_cid r)).

Definition store_target (at_ : addr * target) (st : tracker) : res tracker :=
  write st (fst at_) (snd at_).

Definition section2 (s : correction) (c : cluster) (st : tracker) (scan : list report) :
    res (tracker * list report) :=
  ts <- map_res (deref st) (cl_targets c);;
  rs <- map_res (get scan) (cl_reports c);;
  match s_update s (map rp rs) ts with
  | None => OutOfFuel
  | Some (ts', rs') =>
      st <- for_each store_target (combine (cl_targets c) ts') st;;
      scan <- for_each store_report (combine (cl_reports c) rs') scan;;
      Ok (st, scan)
  end.

Definition section3 (c : cluster) (st : tracker) : res tracker :=
  for_each restore (cl_targets c) st.

Definition section (s : correction) (pc : nat) (c : cluster) (st : tracker) (scan : list report) :
    res (tracker * list report) :=
  match pc with
  | 0 => st <- section1 c st;; Ok (st, scan)
  | 1 => section2 s c st scan
  | _ => st <- section3 c st;; Ok (st, scan)
  end.

(** The parallel loop over the clusters (lmb.hpp:124-130): [pcs] says how many
    sections each cluster has executed; any cluster may execute its next one.
    The statistics vectors (lmb.hpp:126-129) are not modelled. *)
Record conf := mkConf { c_st : tracker; c_scan : list report; c_pcs : list nat }.

Definition exec (s : correction) (cls : list cluster) (k : nat) (cf : conf) : res conf :=
  c <- get cls k;;
  pc <- get (c_pcs cf) k;;
  '(st, scan) <- section s pc c (c_st cf) (c_scan cf);;
  Ok (mkConf st scan (upd (c_pcs cf) k (S pc))).

Definition ready (cf : conf) (k : nat) : Prop := nth k (c_pcs cf) 3 < 3.

Inductive par_run (s : correction) (cls : list cluster) : conf -> res conf -> Prop :=
| pr_done cf : (forall k, ~ ready cf k) -> par_run s cls cf (Ok cf)
| pr_step cf k cf' o : ready cf k -> exec s cls k cf = Ok cf' -> par_run s cls cf' o -> par_run s cls cf o
| pr_ub cf k : ready cf k -> exec s cls k cf = UB -> par_run s cls cf UB
| pr_end cf k : ready cf k -> exec s cls k cf = OutOfFuel -> par_run s cls cf OutOfFuel.

(** lmb.hpp:451-457: the total birth weight. *)
Definition rB_sum (scan : list report) : ext R :=
  fold_left (fun x r => nadd extR x (rp_rB r)) scan (Fin 0%R).

(** lmb.hpp:462-463, 467: the existence probability of the target born of a
    report, if any; std::min(nr, rB_max). *)
Definition birth_r (lambdaB : R) (rBsum : ext R) (r : report) : option (ext R) :=
  let nr := xdiv (nmul extR (rp_rB r) (Fin lambdaB)) rBsum in
  if nle extR (Fin r_lim) nr
  then Some (if nlt extR (Fin rB_max) nr then Fin rB_max else nr)
  else None.

(** One iteration of lmb.hpp:462-473 for the report [j]. *)
Inductive birth_step (s : correction) (scan : list report) (rBsum : ext R) (j : nat) (st : tracker) :
    res tracker -> Prop :=
| bs_bad : get scan j = UB -> birth_step s scan rBsum j st UB
| bs_none r : get scan j = Ok r -> birth_r (s_lambdaB s) rBsum r = None -> birth_step s scan rBsum j st (Ok st)
| bs_new r x a : get scan j = Ok r -> birth_r (s_lambdaB s) rBsum r = Some x -> heap st a = None ->
    birth_step s scan rBsum j st (new_target a x (s_init s (rp r)) (s_time s) (rp_cid r) st).

Inductive births (s : correction) (scan : list report) (rBsum : ext R) : list nat -> tracker -> res tracker -> Prop :=
| b_nil st : births s scan rBsum [] st (Ok st)
| b_cons j js st st' o : birth_step s scan rBsum j st (Ok st') -> births s scan rBsum js st' o ->
    births s scan rBsum (j :: js) st o
| b_ub j js st : birth_step s scan rBsum j st UB -> births s scan rBsum (j :: js) st UB
| b_end j js st : birth_step s scan rBsum j st OutOfFuel -> births s scan rBsum (j :: js) st OutOfFuel.

(** SILMB::birth, lmb.hpp:448-475: the parallel loops visit the reports of the
    clusters in any order. *)
Inductive birth (s : correction) (cls : list cluster) (scan : list report) (st : tracker) : res tracker -> Prop :=
| birth_few : nle extR (Fin r_lim) (rB_sum scan) = false -> birth s cls scan st (Ok st)
| birth_all order o : nle extR (Fin r_lim) (rB_sum scan) = true ->
    Permutation order (concat (map cl_reports cls)) ->
    births s scan (rB_sum scan) order st o -> birth s cls scan st o.

(** SILMB::correct, lmb.hpp:93-134, from line 118 on, for the targets in view
    [affected].  The reports' birth weights are uninitialised at first. *)
Definition start_scan (s : correction) : list report := map (fun r => mkReport r NaN 0) (s_scan s).

Inductive correct_rest (s : correction) (affected : list addr) (st : tracker) : res tracker -> Prop :=
| cr_bad : make_clusters (s_rbox s) affected st (start_scan s) = UB -> correct_rest s affected st UB
| cr_end : make_clusters (s_rbox s) affected st (start_scan s) = OutOfFuel -> correct_rest s affected st OutOfFuel
| cr_par_bad st1 scan cls :
    make_clusters (s_rbox s) affected st (start_scan s) = Ok (st1, scan, cls) ->
    par_run s cls (mkConf st1 scan (repeat 0 (length cls))) UB -> correct_rest s affected st UB
| cr_par_end st1 scan cls :
    make_clusters (s_rbox s) affected st (start_scan s) = Ok (st1, scan, cls) ->
    par_run s cls (mkConf st1 scan (repeat 0 (length cls))) OutOfFuel -> correct_rest s affected st OutOfFuel
| cr_all st1 scan cls cf o :
    make_clusters (s_rbox s) affected st (start_scan s) = Ok (st1, scan, cls) ->
    par_run s cls (mkConf st1 scan (repeat 0 (length cls))) (Ok cf) ->
    birth s cls (c_scan cf) (c_st cf) o -> correct_rest s affected st o.

Inductive correct_call (s : correction) (st : tracker) : res tracker -> Prop :=
| cc_bad : in_view s st = UB -> correct_call s st UB
| cc_end : in_view s st = OutOfFuel -> correct_call s st OutOfFuel
| cc_go affected o : in_view s st = Ok affected -> correct_rest s affected st o -> correct_call s st o.

(** ** Histories of calls *)

Inductive call :=
| Predict (f : addr -> target -> target)
| Correct (s : correction).

Inductive call_step (st : tracker) : call -> res tracker -> Prop :=
| cs_predict f : call_step st (Predict f) (predict f st)
| cs_correct s o : correct_call s st o -> call_step st (Correct s) o.

Inductive calls : tracker -> list call -> res tracker -> Prop :=
| cl_nil st : calls st [] (Ok st)
| cl_cons st c cs st' o : call_step st c (Ok st') -> calls st' cs o -> calls st (c :: cs) o
| cl_ub st c cs : call_step st c UB -> calls st (c :: cs) UB
| cl_end st c cs : call_step st c OutOfFuel -> calls st (c :: cs) OutOfFuel.

(** ** Read-only calls, lmb.hpp:136-208 *)

Definition r_sum (st : tracker) (l : list addr) : res (ext R) :=
  for_each (fun a x => t <- deref st a;; Ok (nadd extR x (tg_r t))) l (Fin 0%R).
Definition r_count (lim : R) (st : tracker) (l : list addr) : res nat :=
  for_each (fun a n => t <- deref st a;; Ok (if nle extR (Fin lim) (tg_r t) then S n else n)) l 0.

(** enof_targets, lmb.hpp:136-156. *)
Definition enof_targets (st : tracker) : res (ext R) := r_sum st (targets st).
Definition enof_targets_in (q : rect (ext R)) (st : tracker) : res (ext R) := l <- query q st;; r_sum st l.
(** nof_targets, lmb.hpp:158-178. *)
Definition nof_targets (lim : R) (st : tracker) : res nat := r_count lim st (targets st).
Definition nof_targets_in (q : rect (ext R)) (lim : R) (st : tracker) : res nat := l <- query q st;; r_count lim st l.
(** get_targets, lmb.hpp:180-208; [summary] is pdf.mean(), pdf.cov(). *)
Context {S : Type} (summary : P -> S).
Definition summaries (st : tracker) (l : list addr) : res (list (S * ext R * N * nat)) :=
  map_res (fun a => t <- deref st a;; Ok (summary (tg_pdf t), tg_r t, tg_id t, tg_cid t)) l.
Definition get_targets (st : tracker) : res (list (S * ext R * N * nat)) := summaries st (targets st).
Definition get_targets_in (q : rect (ext R)) (st : tracker) : res (list (S * ext R * N * nat)) :=
  l <- query q st;; summaries st l.
End Tracker.
