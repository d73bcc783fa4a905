(** What an optimal assignment is, independent of the solver.  The entries of a
    matrix are read through [entry], i.e. as the caller writes [C(i, j)]. *)
From Coq Require Import List Arith Reals.
Import ListNotations.
From Verif Require Import Scalar Lap.
Open Scope R_scope.

(** C(i, j) of an Eigen matrix (0 <= i < rows, 0 <= j < cols). *)
Definition entry {T} (d : T) (C : matrix T) (i j : nat) : T :=
  nth (match m_ord C with
       | RowMajor => i * m_cols C + j
       | ColMajor => j * m_rows C + i
       end)%nat (m_data C) d.

Definition is_fin (x : ext R) : Prop := exists r, x = Fin r.
Definition val (x : ext R) : R := match x with Fin r => r | _ => 0 end.

(** A cost matrix: every entry is a number or +infinity. *)
Definition cost_matrix (C : matrix (ext R)) : Prop :=
  length (m_data C) = (m_rows C * m_cols C)%nat /\
  forall x, In x (m_data C) -> is_fin x \/ x = PInf.

(** [s] gives each row its own column. *)
Definition complete (rows cols : nat) (s : list nat) : Prop :=
  length s = rows /\ NoDup s /\ forall j, In j s -> (j < cols)%nat.

(** ... and uses no infinite entry. *)
Definition feasible (C : matrix (ext R)) (s : list nat) : Prop :=
  complete (m_rows C) (m_cols C) s /\
  forall i, (i < m_rows C)%nat -> is_fin (entry NaN C i (nth i s 0%nat)).

Fixpoint Rsum (l : list R) : R :=
  match l with [] => 0 | x :: l => x + Rsum l end.

(** Total cost of an assignment. *)
Definition total (C : matrix (ext R)) (s : list nat) : R :=
  Rsum (map (fun i => val (entry NaN C i (nth i s 0%nat))) (seq 0 (m_rows C))).

Definition optimal (C : matrix (ext R)) (s : list nat) : Prop :=
  feasible C s /\ forall s', feasible C s' -> total C s <= total C s'.

(** The reduced cost of column [j] in row [i] of a row-major matrix. *)
Definition reduced (dim : nat) (C v : list (ext R)) (i j : nat) : ext R :=
  nsub extR (nth (i * dim + j) C NaN) (nth j v NaN).

(** [umin] is the smallest of [f 0 .. f (dim-1)], at [j1], and [usubmin] the
    smallest of the others, at [j2] unless infinite. *)
Definition two_smallest (dim : nat) (f : nat -> ext R) (umin usubmin : ext R)
    (j1 : nat) (j2 : option nat) : Prop :=
  (j1 < dim)%nat /\ umin = f j1 /\
  (forall j, (j < dim)%nat -> nle extR umin (f j) = true) /\
  (forall j, (j < dim)%nat -> j <> j1 -> nle extR usubmin (f j) = true) /\
  (usubmin = PInf \/
   exists b, j2 = Some b /\ (b < dim)%nat /\ b <> j1 /\ usubmin = f b).
