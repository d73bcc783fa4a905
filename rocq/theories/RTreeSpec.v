(** Specification of the spatial index: what is stored in a tree, bounding
    boxes, balance, and the effect of a history of operations. *)
From Coq Require Import List Arith Bool Permutation.
Import ListNotations.
From Verif Require Import Scalar RTree.

Section Spec.
Context {T D : Type}.
(** The order of the coordinates. *)
Variable le : T -> T -> Prop.
(** Admissible rectangles. *)
Variable good : rect T -> Prop.

(** [r] contains [q]. *)
Definition contains (r q : rect T) : Prop :=
  le (min0 r) (min0 q) /\ le (min1 r) (min1 q) /\ le (max0 q) (max0 r) /\ le (max1 q) (max1 r).

(** The rectangles have a common point (touching counts). *)
Definition touches (a b : rect T) : Prop :=
  le (min0 a) (max0 b) /\ le (min0 b) (max0 a) /\ le (min1 a) (max1 b) /\ le (min1 b) (max1 a).

(** [r] is the smallest rectangle around [rs]: it contains them all and each of
    its sides is a side of one of them. *)
Definition bounding (r : rect T) (rs : list (rect T)) : Prop :=
  (forall q, In q rs -> contains r q) /\
  (exists q, In q rs /\ min0 q = min0 r) /\ (exists q, In q rs /\ min1 q = min1 r) /\
  (exists q, In q rs /\ max0 q = max0 r) /\ (exists q, In q rs /\ max1 q = max1 r).

(** The entries below a branch of a node of level [lv]. *)
Fixpoint below (lv : nat) (b : branch T D) : list (rect T * D) :=
  match lv with
  | 0 => match snd b with Data d => [(fst b, d)] | Sub _ _ => [] end
  | S l => match snd b with Sub _ bs => flat_map (below l) bs | Data _ => [] end
  end.
Definition entries (n : node T D) : list (rect T * D) := flat_map (below (fst n)) (snd n).

(** A branch of a node of level [lv]: data in leaves; otherwise a node of the
    next lower level with 4 to 8 branches, under its bounding rectangle. *)
Fixpoint balanced_branch (lv : nat) (b : branch T D) : Prop :=
  match lv with
  | 0 => (exists d, snd b = Data d) /\ good (fst b)
  | S l => exists bs : list (branch T D), snd b = Sub l bs /\ 4 <= length bs <= 8 /\
             bounding (fst b) (map fst (flat_map (below l) bs)) /\ good (fst b) /\
             Forall (balanced_branch l) bs
  end.

(** The root: at most 8 branches, at least 2 unless it is a leaf. *)
Definition balanced (n : node T D) : Prop :=
  Forall (balanced_branch (fst n)) (snd n) /\ length (snd n) <= 8 /\ (0 < fst n -> 2 <= length (snd n)).

(** [B] can be the multiset of entries after the operations [ops].  Removing
    (r, d) takes out one entry with the data [d]; if there is none overlapping
    [r] it may also do nothing. *)
Inductive history : list (op (T := T) (D := D)) -> list (rect T * D) -> Prop :=
| h_start : history [] []
| h_insert ops B r d : history ops B -> history (ops ++ [OpInsert r d]) ((r, d) :: B)
| h_remove ops B B' r r0 d : history ops B -> Permutation B ((r0, d) :: B') ->
    history (ops ++ [OpRemove r d]) B'
| h_remove_none ops B r d : history ops B -> (forall r0, In (r0, d) B -> ~ touches r r0) ->
    history (ops ++ [OpRemove r d]) B
| h_clear ops B : history ops B -> history (ops ++ [OpRemoveAll]) []
| h_perm ops B B' : history ops B -> Permutation B B' -> history ops B'.

(** Rectangles used in operations: [good] for insertion, [fine] for removal. *)
Variable fine : rect T -> Prop.
Definition op_good (o : op (T := T) (D := D)) : Prop :=
  match o with OpInsert r _ => good r | OpRemove r _ => fine r | OpRemoveAll => True end.

(** [l] are the data of the entries of [B] whose rectangles meet [q]. *)
Definition selects (q : rect T) (B : list (rect T * D)) (l : list D) : Prop :=
  exists hit miss, Permutation B (hit ++ miss) /\ Permutation l (map snd hit) /\
    Forall (fun e => touches q (fst e)) hit /\ Forall (fun e => ~ touches q (fst e)) miss.
End Spec.

(** The order of the coordinates given by their comparison, on the admissible
    coordinates [ok]: for real numbers, the usual one. *)
Section Order.
Context {T : Type} (O : Num T) (ok : T -> Prop).
Definition le (x y : T) : Prop := nlt O y x = false.
Definition fine (r : rect T) : Prop := ok (min0 r) /\ ok (min1 r) /\ ok (max0 r) /\ ok (max1 r).
Definition good (r : rect T) : Prop := fine r /\ le (min0 r) (max0 r) /\ le (min1 r) (max1 r).
End Order.
