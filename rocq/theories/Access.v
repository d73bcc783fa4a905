(** Which memory the tracker's calls access, in which threads, under which locks.

    The computation itself is left out (Tracker.v and TrackerOps.v model it): what
    is read and written is that of the code for any numbers of components,
    samples, hypotheses and any outcome of the tests. *)
From Coq Require Import List Arith Bool.
Import ListNotations.
From Verif Require Import Race Tracker.
Notation addr := nat (only parsing).

(** Locations.  Targets are named by address, reports by their index in the
    scan, clusters by id; candidates, components, rows and columns by index. *)
Inductive loc :=
| Gen                      (* gen and ndist: statistics.inc:8-11 *)
| SensorObj                (* the sensor, the model and the parameters *)
| Tree                     (* targettree.tree: targettree.hpp:24 *)
| TargetList               (* targettree.targets and id_counter: targettree.hpp:23, 25 *)
| NofClusters              (* nof_clusters: lmb.hpp:43 *)
| Vectors                  (* the vectors cluster_ntargets, ...: lmb.hpp:44-46 *)
| Entry (c : nat)          (* their elements [c] *)
| TObj (a : addr)          (* id, params, t0, last_action, is_new of a target: target.hpp:51-60 *)
| TExist (a : addr)        (* r *)
| TCid (a : addr)          (* cid *)
| TPdf (a : addr)          (* pdf but its components: boxes, eta, origin: gm.hpp:25-31 *)
| TComp (a : addr) (i : nat)              (* component [i] of pdf *)
| TCands (a : addr)                       (* the vector pdfs: target.hpp:54 *)
| TCand (a : addr) (j : nat)              (* pdfs[j] but its components *)
| TCandComp (a : addr) (j i : nat)        (* component [i] of pdfs[j] *)
| Sample (a : addr) (j i n : nat)         (* column [n] of samples in overlap: gaussian.hpp:122-134 *)
| RState (r : nat)         (* x, P, kappa of a report *)
| RBirth (r : nat)         (* rB *)
| RCid (r : nat)           (* cid *)
| Clu (c : nat)            (* origin, n of a cluster: cluster.hpp:21-26 *)
| Work (c : nat)           (* murty, w, w_sum, ... in Cluster_::correct *)
| Hyp (c : nat)            (* res: cluster.hpp:84 *)
| Cost (c i k : nat)       (* C(i, k): cluster.hpp:66 *)
| Assoc (c i k : nat).     (* R(i, k): cluster.hpp:88 *)

Definition rd (x : loc) : cmd loc := Acc false x.
Definition wr (x : loc) : cmd loc := Acc true x.
Definition each {A} (l : list A) (f : A -> cmd loc) : cmd loc := seqs (map f l).
Definition all {A} (l : list A) (f : A -> cmd loc) : cmd loc := pars (map f l).
Definition upto (n : nat) : list nat := seq 0 n.

(** Locks: Python's global interpreter lock and [critical(ttree)]. *)
Definition gil : nat := 0.
Definition ttree : nat := 1.

(** What the data determine: components of a target's density, samples per
    overlap and draws per sample, hypotheses drawn in a cluster (for each row
    the entry of R that is increased), whether a target stays, and where a
    report's new target is allocated, if it gets one. *)
Record shape := mkShape {
  h_comps : addr -> nat;
  h_samples : nat;
  h_draws : nat;
  h_hyps : nat -> list (nat -> nat);
  h_stays : addr -> bool;
  h_born : nat -> option addr }.

Section Program.
Variable h : shape.

(** The whole density of a target. *)
Definition read_pdf (a : addr) : cmd loc := Seq (rd (TPdf a)) (each (upto (h_comps h a)) (fun i => rd (TComp a i))).
Definition write_pdf (a : addr) : cmd loc :=
  Seq (read_pdf a) (Seq (each (upto (h_comps h a)) (fun i => wr (TComp a i))) (wr (TPdf a))).

(** ** Correction *)

(** Gaussian_::overlap with nrand, gaussian.hpp:122-134 and statistics.hpp:9-18. *)
Definition overlap (a : addr) (j i : nat) : cmd loc :=
  Seq (each (upto (h_samples h)) (fun n => Seq (each (upto (h_draws h)) (fun _ => Seq (rd Gen) (wr Gen))) (wr (Sample a j i n))))
      (all (upto (h_samples h)) (fun n => rd (Sample a j i n))).

(** Gaussian_::correct, gaussian.hpp:30-42. *)
Definition gaussian_correct (a : addr) (j i r : nat) : cmd loc :=
  seqs [rd (RState r); rd SensorObj; rd (TCand a j); rd (TCandComp a j i); overlap a j i; wr (TCandComp a j i)].

(** GM::correct, gm.hpp:92-104. *)
Definition gm_correct (a : addr) (j r : nat) : cmd loc :=
  seqs [all (upto (h_comps h a)) (fun i => gaussian_correct a j i r);
        each (upto (h_comps h a)) (fun i => Seq (rd (TCandComp a j i)) (wr (TCandComp a j i)));
        wr (TCand a j)].

(** GM::missed, gm.hpp:106-113. *)
Definition gm_missed (a : addr) (j : nat) : cmd loc :=
  Seq (each (upto (h_comps h a)) (fun i => seqs [rd SensorObj; rd (TCand a j); rd (TCandComp a j i); overlap a j i])) (wr (TCand a j)).

(** Target_::match, target.hpp:111-141, for row [i] of the cost matrix of
    cluster [c]. *)
Definition match_target (c i : nat) (a : addr) (reports : list nat) : cmd loc :=
  let n := length reports in
  seqs [wr (TCands a); read_pdf a;
        each (upto (S n)) (fun j => Seq (wr (TCand a j)) (each (upto (h_comps h a)) (fun k => wr (TCandComp a j k))));
        all (combine (upto n) reports) (fun jr =>
          seqs [rd (TObj a); rd (TCands a); rd (TExist a); gm_correct a (fst jr) (snd jr); wr (Cost c i (fst jr))]);
        wr (TObj a);
        gm_missed a n; rd (TExist a); wr (Cost c i (n + i))].

(** Target_::correct with GM::join, target.hpp:161-170 and gm.hpp:166-197. *)
Definition correct_target (c i : nat) (a : addr) (n : nat) : cmd loc :=
  seqs [each (upto (S n)) (fun k => rd (Assoc c i k)); wr (TExist a); rd (TCands a);
        each (upto (S n)) (fun j => Seq (wr (TCand a j)) (each (upto (h_comps h a)) (fun k => Seq (rd (TCandComp a j k)) (wr (TCandComp a j k)))));
        write_pdf a; wr (TObj a)].

(** Cluster_::transform_to_local and transform_to_global, cluster.hpp:156-223. *)
Definition to_local (c : cluster) : cmd loc :=
  seqs [each (cl_reports c) (fun r => rd (RState r)); each (cl_targets c) read_pdf; wr (Clu (cl_id c));
        each (cl_reports c) (fun r => Seq (rd (RState r)) (wr (RState r))); each (cl_targets c) write_pdf].
Definition to_global (c : cluster) : cmd loc :=
  seqs [rd (Clu (cl_id c)); each (cl_reports c) (fun r => Seq (rd (RState r)) (wr (RState r))); each (cl_targets c) write_pdf].

(** Removing from and returning to the index, deleting: cluster.hpp:43-48 and
    144-153, targettree.hpp:40-58. *)
Definition take_out (a : addr) : cmd loc := seqs [rd (TPdf a); rd Tree; wr Tree].
Definition put_back (a : addr) : cmd loc :=
  seqs [rd (TObj a); rd (TExist a); read_pdf a;
        if h_stays h a then Seq (rd Tree) (wr Tree)
        else seqs [rd TargetList; wr TargetList; wr (TObj a); wr (TExist a); wr (TCid a); write_pdf a; wr (TCands a)]].

(** Cluster_::correct, cluster.hpp:36-154. *)
Definition correct_cluster (c : cluster) : cmd loc :=
  let m := length (cl_targets c) in
  let n := length (cl_reports c) in
  let id := cl_id c in
  seqs [wr (Clu id);
        Crit ttree (each (cl_targets c) take_out);
        to_local c;
        each (upto m) (fun i => each (upto (n + 2 * m)) (fun k => wr (Cost id i k)));
        each (combine (upto m) (cl_targets c)) (fun ia =>
          seqs [match_target id (fst ia) (snd ia) (cl_reports c); rd (TExist (snd ia)); wr (Cost id (fst ia) (n + m + fst ia))]);
        each (upto m) (fun i => each (upto (n + 2 * m)) (fun k => rd (Cost id i k))); wr (Work id);
        each (upto m) (fun i => each (upto (S n)) (fun k => wr (Assoc id i k)));
        each (h_hyps h id) (fun hyp =>
          seqs [rd (Work id); wr (Work id); wr (Hyp id);
                all (upto m) (fun i => seqs [rd (Hyp id); rd (Work id); rd (Assoc id i (hyp i)); wr (Assoc id i (hyp i))]);
                rd (Clu id); wr (Clu id); rd SensorObj]);
        each (combine (upto m) (cl_targets c)) (fun ia => correct_target id (fst ia) (snd ia) n);
        each (upto m) (fun i => each (upto (S n)) (fun k => rd (Assoc id i k)));
        each (cl_reports c) (fun r => wr (RBirth r));
        to_global c;
        Crit ttree (each (cl_targets c) put_back)].

(** The parallel loop of SILMB::correct, lmb.hpp:124-130. *)
Definition clusters_loop (cls : list cluster) : cmd loc :=
  all cls (fun c => seqs [rd Vectors; wr (Entry (cl_id c)); correct_cluster c; rd Vectors; rd (Clu (cl_id c)); wr (Entry (cl_id c))]).

(** SILMB::birth, lmb.hpp:448-476. *)
Definition birth_report (r : nat) : cmd loc :=
  seqs [rd (RBirth r); rd SensorObj;
        match h_born h r with
        | None => Done
        | Some a => Crit ttree (seqs [rd (RState r); wr TargetList; wr (TObj a); wr (TExist a); write_pdf a; wr (TCands a); rd Tree; wr Tree; rd (RCid r); wr (TCid a)])
        end].
Definition birth_loop (cls : list cluster) : cmd loc :=
  Seq (each cls (fun c => each (cl_reports c) (fun r => rd (RBirth r))))
      (all cls (fun c => all (cl_reports c) birth_report)).

(** SILMB::correct, lmb.hpp:93-134: get_targets of the sensor
    (sensors.hpp:48-64), clustering (lmb.hpp:344-446), the two loops.
    [found] are the targets the index returns for the field of view. *)
Definition correct_body (found : list addr) (cls : list cluster) : cmd loc :=
  seqs [rd SensorObj; Crit ttree (rd Tree); each found (fun a => rd (TPdf a));
        each cls (fun c => each (cl_reports c) (fun r => Seq (rd (RState r)) (rd Tree)));
        each cls (fun c => Seq (each (cl_reports c) (fun r => wr (RCid r))) (each (cl_targets c) (fun a => wr (TCid a))));
        wr NofClusters; wr Vectors;
        clusters_loop cls;
        birth_loop cls].

(** ** Prediction: SILMB::predict, lmb.hpp:53-91; linear_update is a parallel
    loop over the components (gm.hpp:115-121). *)
Definition predict_target (a : addr) : cmd loc :=
  seqs [write_pdf a; rd SensorObj; rd (TObj a);
        all (upto (h_comps h a)) (fun i => Seq (rd (TComp a i)) (wr (TComp a i)));
        rd (TExist a); wr (TExist a); write_pdf a; wr (TObj a); write_pdf a].
Definition predict_body (ts : list addr) : cmd loc :=
  Crit ttree (seqs [rd TargetList; wr Tree; all ts predict_target; each ts put_back]).

(** ** Queries, lmb.hpp:136-340.  [ts] are the targets concerned. *)
Definition summary_body (area : bool) (ts : list addr) : cmd loc :=
  Crit ttree (Seq (rd (if area then Tree else TargetList)) (each ts (fun a => seqs [read_pdf a; rd (TExist a); rd (TObj a); rd (TCid a)]))).
Definition count_body (area : bool) (ts : list addr) : cmd loc :=
  Crit ttree (Seq (rd (if area then Tree else TargetList)) (each ts (fun a => rd (TExist a)))).
(** ospa and gospa: first the origin, then the distances in a local frame. *)
Definition distance_body (ts : list addr) : cmd loc :=
  seqs [Crit ttree (Seq (rd TargetList) (each ts read_pdf));
        Crit ttree (Seq (rd TargetList) (each ts (fun a => seqs [write_pdf a; read_pdf a; write_pdf a])))].
(** pos_phd, lmb.hpp:210-239. *)
Definition phd_body (ts : list addr) : cmd loc :=
  Crit ttree (Seq (rd Tree) (each ts (fun a => seqs [write_pdf a; read_pdf a;
    each (upto (h_samples h)) (fun _ => Seq (rd Gen) (wr Gen)); write_pdf a; rd (TExist a)]))).

(** ** Calls from Python, lmb.cpp:190-204: predict and correct release the
    interpreter lock while they run, the queries keep it. *)
Inductive tcall :=
| CallPredict (ts : list addr)
| CallCorrect (found : list addr) (cls : list cluster)
| CallSummaries (area : bool) (ts : list addr)
| CallCounts (area : bool) (ts : list addr)
| CallDistance (ts : list addr)
| CallPhd (ts : list addr).

Definition thread_call (c : tcall) : cmd loc :=
  match c with
  | CallPredict ts => seqs [Crit gil (rd SensorObj); predict_body ts; Crit gil (rd SensorObj)]
  | CallCorrect found cls => seqs [Crit gil (rd SensorObj); correct_body found cls; Crit gil (rd SensorObj)]
  | CallSummaries area ts => Crit gil (summary_body area ts)
  | CallCounts area ts => Crit gil (count_body area ts)
  | CallDistance ts => Crit gil (distance_body ts)
  | CallPhd ts => Crit gil (phd_body ts)
  end.
End Program.

(** Threads, each making its calls in turn; every call has its own shape. *)
Definition threads (ths : list (list (shape * tcall))) : cmd loc :=
  all ths (fun calls => each calls (fun hc => thread_call (fst hc) (snd hc))).
