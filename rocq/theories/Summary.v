(** Model of TargetSummary_ (include/target.hpp:19-41) and of the vectors of summaries
    built by SILMB::get_targets (include/lmb.hpp:180-208).

    A summary holds its weight [w] (from Gaussian_) and a reference [r] to a double; the
    constructor binds [r] to the summary's own [w] (target.hpp:29-31).  The class declares
    no copy or move constructor, so the implicit ones copy each member and bind [r] of the
    copy to the double that [r] of the original is bound to.

    Memory is a list of blocks of summaries; [None] is a block that was freed.  A reference
    to [w] is the block and the index of the summary it belongs to.  Mean and covariance
    are one value of type [S].  Simplification: addresses are never used again, so an
    access to a freed block is always noticed. *)
From Coq Require Import List Arith.
Import ListNotations.
From Verif Require Import Res.

Section Summary.
Context {S W : Type}.

(** One element for emplace_back: mean and covariance, r, id and cid of a target. *)
Record source := mkSrc { so_s : S; so_r : W; so_id : nat; so_cid : nat }.

Record object := mkObj { ob_s : S; ob_w : W; ob_id : nat; ob_cid : nat; ob_ref : nat * nat }.
Definition memory := list (option (list object)).

(** target.hpp:29-31, the new object at index [i] of block [b]. *)
Definition construct (b i : nat) (x : source) : object :=
  mkObj (so_s x) (so_r x) (so_id x) (so_cid x) (b, i).
(** The implicit copy or move constructor, which a vector uses to change its storage and
    pybind11 to make a Python object. *)
Definition copy (o : object) : object :=
  mkObj (ob_s o) (ob_w o) (ob_id o) (ob_cid o) (ob_ref o).

(** A vector: its block and its capacity; the size is the length of the block's contents. *)
Record vector := mkVec { v_block : nat; v_cap : nat }.

(** [grow n] is the capacity after growing from size [n]; the standard only demands [n < grow n]. *)
Variable grow : nat -> nat.

Definition contents (m : memory) (b : nat) : res (list object) :=
  x <- get m b;; match x with Some l => Ok l | None => UB end.

(** std::vector::emplace_back (lmb.hpp:185 and 200). *)
Definition emplace_back (x : source) (v : vector) (m : memory) : res (vector * memory) :=
  l <- contents m (v_block v);;
  let n := length l in
  if n <? v_cap v then
    m <- set m (v_block v) (Some (l ++ [construct (v_block v) n x]));;
    Ok (v, m)
  else
    let b := length m in
    m <- set m (v_block v) None;;
    Ok (mkVec b (grow n), m ++ [Some (map copy l ++ [construct b n x])]).

(** lmb.hpp:180-193 and 195-208: an empty vector, an element for each target found; the
    vector returned keeps its storage. *)
Fixpoint append_all (xs : list source) (v : vector) (m : memory) : res (vector * memory) :=
  match xs with
  | [] => Ok (v, m)
  | x :: xs => '(v, m) <- emplace_back x v m;; append_all xs v m
  end.
Definition get_summaries (xs : list source) : res (vector * memory) :=
  append_all xs (mkVec 0 0) [Some []].

(** Reading the member [r] of a summary. *)
Definition read_r (m : memory) (o : object) : res W :=
  l <- contents m (fst (ob_ref o));;
  t <- get l (snd (ob_ref o));;
  Ok (ob_w t).

(** pybind11's conversion of a returned vector to a list: each element is copied, then the
    vector goes away.  (The copies live in objects of their own; only what they refer to
    matters here.) *)
Definition to_list (v : vector) (m : memory) : res (list object * memory) :=
  l <- contents m (v_block v);;
  m <- set m (v_block v) None;;
  Ok (map copy l, m).
End Summary.
Arguments source : clear implicits.
Arguments object : clear implicits.
Arguments memory : clear implicits.

(** libstdc++: the size doubled, at least 1. *)
Definition doubling (n : nat) : nat := if n =? 0 then 1 else 2 * n.

(** lmb.cpp:115-123: the Python attribute "r" is bound to [w]. *)
Definition py_r {S W} (o : object S W) : W := ob_w o.
