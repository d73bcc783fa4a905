(** The Python binding: lmb/lmb.cpp, 63-208.  Objects are pickled as tuples. *)
From Coq Require Import List Arith Bool Reals String.
Import ListNotations.
From Verif Require Import Res Scalar Cluster GM Box.
Local Open Scope nat_scope.

(** ** BBox, lmb.cpp:63-80 *)

(** A 2 x 4 Eigen matrix, stored column by column; [A] stands for double, whose
    values are copied as they are. *)
Definition storage (A : Type) := list A.

(** The coefficient access corners(k) with one index goes through the storage. *)
Definition linear {A} (m : storage A) (k : nat) : res A := get m k.
(** corners(r, c). *)
Definition coeff {A} (m : storage A) (r c : nat) : res A := get m (2 * c + r).

(** The comma initialiser of Corners() fills row by row, 4 columns. *)
Definition comma {A} (vals : list A) : res (storage A) :=
  (fix build (ks : list nat) : res (storage A) :=
     match ks with
     | [] => Ok []
     | k :: ks => x <- get vals (4 * (k mod 2) + k / 2);; l <- build ks;; Ok (x :: l)
     end) (seq 0 8).

(** __getstate__, lmb.cpp:64-69. *)
Definition bbox_getstate {A} (m : storage A) : res (list A) :=
  a0 <- linear m 0;; a1 <- linear m 1;; a2 <- linear m 2;; a3 <- linear m 3;;
  a4 <- linear m 4;; a5 <- linear m 5;; a6 <- linear m 6;; a7 <- linear m 7;;
  Ok [a0; a1; a2; a3; a4; a5; a6; a7].

(** __setstate__, lmb.cpp:70-79; [None] is the exception "Invalid state!". *)
Definition bbox_setstate {A} (t : list A) : res (option (storage A)) :=
  if negb (List.length t =? 8) then Ok None
  else
    t0 <- get t 0;; t1 <- get t 1;; t2 <- get t 2;; t3 <- get t 3;;
    t4 <- get t 4;; t5 <- get t 5;; t6 <- get t 6;; t7 <- get t 7;;
    m <- comma [t0; t2; t4; t6; t1; t3; t5; t7];; Ok (Some m).

(** ** AABBox, lmb.cpp:90-106 *)
Definition aabb_getstate (b : aabb) : list R := [min0 b; min1 b; max0 b; max1 b].
Definition aabb_setstate (t : list R) : option aabb :=
  match t with
  | [a; b; c; d] => Some (aabb_of4 a b c d)
  | _ => None
  end.

(** ** Target summaries, lmb.cpp:115-143, target.hpp:19-31 *)
(** The reference member r is bound to w by the constructor (target.hpp:31). *)
Record summary {X P : Type} := mkSum { s_x : X; s_P : P; s_w : R; s_id : nat; s_cid : nat }.
Arguments summary : clear implicits.
(** The attributes visible in Python, lmb.cpp:116-122 ("r" reads w). *)
Definition sum_attrs {X P} (s : summary X P) : X * P * R * nat * nat := (s_x s, s_P s, s_w s, s_id s, s_cid s).
(** Values in a tuple. *)
Inductive pyval {X P : Type} := PX (x : X) | PP (p : P) | PD (d : R) | PU (n : nat).
Arguments pyval : clear implicits.
Definition sum_getstate {X P} (s : summary X P) : list (pyval X P) := [PX (s_x s); PP (s_P s); PD (s_w s); PU (s_id s); PU (s_cid s)].
(** [None]: "Invalid state!" or a failing cast. *)
Definition sum_setstate {X P} (t : list (pyval X P)) : option (summary X P) :=
  match t with
  | [PX x; PP p; PD w; PU id; PU cid] => Some (mkSum X P x p w id cid)
  | _ => None
  end.

(** ** Reports, lmb.cpp:144-175, report.hpp:11-31 *)
Record greport {X P : Type} := mkRep { r_x : X; r_P : P; r_w : R; r_rB : option R; r_kappa : R; r_cid : nat }.
Arguments greport : clear implicits.
(** The constructor report.hpp:30: w = 1 (gaussian.hpp:24), rB uninitialised. *)
Definition rep_new {X P} (x : X) (p : P) (kappa : R) : greport X P := mkRep X P x p 1%R None kappa 0.
(** lmb.cpp:151-154. *)
Definition rep_attrs {X P} (r : greport X P) : X * P * R * nat := (r_x r, r_P r, r_kappa r, r_cid r).
Definition rep_getstate {X P} (r : greport X P) : list (pyval X P) := [PX (r_x r); PP (r_P r); PD (r_kappa r); PU (r_cid r)].
Definition rep_setstate {X P} (t : list (pyval X P)) : option (greport X P) :=
  match t with
  | [PX x; PP p; PD kappa; PU cid] =>
      let r := rep_new x p kappa in
      Some (mkRep X P (r_x r) (r_P r) (r_w r) (r_rB r) (r_kappa r) cid)
  | _ => None
  end.

(** ** Statistics per cluster, lmb.hpp:44-46, 120-130; lmb.cpp:205-207 *)
Record stats := mkStats { n_targets : list nat; n_reports : list nat; n_hyps : list nat }.

(** std::vector<int>::resize. *)
Definition resize (l : list nat) (n : nat) : list nat := firstn n l ++ repeat 0 (n - List.length l).

(** The loop body for the cluster [id] with [N] reports and the targets [ts],
    lmb.hpp:126-129; [corr] is Cluster_::correct, of which only n is used here. *)
Definition write_cluster (corr : nat -> list target_in -> res corrected) (st : stats) (id N : nat) (ts : list target_in) : res stats :=
  a <- set (n_targets st) id (List.length ts);;
  b <- set (n_reports st) id N;;
  out <- corr N ts;;
  h <- set (n_hyps st) id (c_n out);;
  Ok (mkStats a b h).

(** lmb.hpp:120-130.  [order] is the order in which the parallel loop reaches
    the clusters; [cl] lists them by id (lmb.hpp:414-441: the id is the position). *)
Definition write_stats corr (st : stats) (cl : list (nat * list target_in)) (order : list nat) : res stats :=
  let k := List.length cl in
  fold_left (fun acc id => st <- acc;; '(N, ts) <- get cl id;; write_cluster corr st id N ts) order
    (Ok (mkStats (resize (n_targets st) k) (resize (n_reports st) k) (resize (n_hyps st) k))).

(** The attributes of the Python class, lmb.cpp:205-207. *)
Definition py_stat (name : string) (st : stats) : option (list nat) :=
  if string_dec name "cluster_ntargets" then Some (n_targets st)
  else if string_dec name "cluster_nreports" then Some (n_reports st)
  else if string_dec name "cluster_nhyps" then Some (n_reports st)
  else None.
