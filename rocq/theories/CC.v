(** Model of include/connectedcomponents.hpp (lines 8-49).

    Node addresses (T* pointers) are natural numbers; the order of std::map and
    std::set is the order of addresses.  [std::set<T*>] is a list sorted in
    increasing order, [std::map<T*, CSet>] an association list sorted by key. *)
From Coq Require Import List Arith.
Import ListNotations.
From Verif Require Import Res.

Definition addr := nat.
Definition cset := list addr.            (* connectedcomponents.hpp:11 CSet *)
Definition cmap := list (addr * cset).   (* connectedcomponents.hpp:12 CMap *)

(** std::set::insert of one element (used at connectedcomponents.hpp:20). *)
Fixpoint set_insert (x : addr) (s : cset) : cset :=
  match s with
  | [] => [x]
  | y :: t => if x <? y then x :: s
              else if x =? y then s
              else y :: set_insert x t
  end.

(** std::set::erase of one element (connectedcomponents.hpp:36, 39). *)
Definition set_erase (x : addr) (s : cset) : cset :=
  filter (fun y => negb (y =? x)) s.

(** connections.find(k) (part of operator[], connectedcomponents.hpp:20, 36). *)
Fixpoint map_find (m : cmap) (k : addr) : option cset :=
  match m with
  | [] => None
  | (k', s) :: t => if k =? k' then Some s else map_find t k
  end.

(** Store the set [s] under key [k], keeping the keys sorted
    (std::map::emplace / operator[], connectedcomponents.hpp:16, 20). *)
Fixpoint map_put (m : cmap) (k : addr) (s : cset) : cmap :=
  match m with
  | [] => [(k, s)]
  | (k', s') :: t =>
      if k <? k' then (k, s) :: m
      else if k =? k' then (k, s) :: t
      else (k', s') :: map_put t k s
  end.

(** std::map::erase(k) (connectedcomponents.hpp:44). *)
Definition map_erase (m : cmap) (k : addr) : cmap :=
  filter (fun p => negb (fst p =? k)) m.

(** init, connectedcomponents.hpp:15-17: emplace does nothing if the key is
    already there. *)
Definition cc_init (m : cmap) (k : addr) : cmap :=
  match map_find m k with
  | Some _ => m
  | None => map_put m k []
  end.

(** connect, connectedcomponents.hpp:19-21: operator[] creates an empty set if
    the key is missing. *)
Definition cc_connect (m : cmap) (k : addr) (cs : list addr) : cmap :=
  let s := match map_find m k with Some s => s | None => [] end in
  map_put m k (fold_left (fun s x => set_insert x s) cs s).

(** The while loop of get_component, connectedcomponents.hpp:31-45.
    [nodes] is the vector used as a stack, last element first; [out] is the
    output vector in order.  [connections[k]] creates an entry when the key is
    missing, but this entry is erased at line 44 in the same iteration, so only
    its (empty) value matters. *)
Fixpoint component_loop (fuel : nat) (m : cmap) (nodes out : list addr)
  : res (list addr * cmap) :=
  match nodes with
  | [] => Ok (out, m)
  | k :: nodes =>
      match fuel with
      | O => OutOfFuel
      | S fuel =>
          let out := out ++ [k] in
          let s := match map_find m k with Some s => s | None => [] end in
          let s := fold_left (fun s x => set_erase x s) out s in
          let s := fold_left (fun s x => set_erase x s) (rev nodes) s in
          let nodes := rev s ++ nodes in
          component_loop fuel (map_erase m k) nodes out
      end
  end.

(** An upper bound on the number of loop iterations: every iteration outputs a
    node that is either the start key or an element of one of the sets. *)
Definition component_fuel (m : cmap) : nat :=
  S (length (flat_map snd m)).

(** get_component, connectedcomponents.hpp:23-48.  [None] is the return value
    false. *)
Definition get_component (m : cmap) : res (option (list addr * cmap)) :=
  match m with
  | [] => Ok None
  | (k, _) :: _ =>
      r <- component_loop (component_fuel m) m [k] [];;
      Ok (Some r)
  end.

(** The calling loop [while (cc.get_component(r)) ...] (lmb.hpp:388): all
    components in order. *)
Fixpoint components_loop (fuel : nat) (m : cmap) : res (list (list addr)) :=
  r <- get_component m;;
  match r with
  | None => Ok []
  | Some (c, m') =>
      match fuel with
      | O => OutOfFuel
      | S fuel => cs <- components_loop fuel m';; Ok (c :: cs)
      end
  end.
Definition components (m : cmap) : res (list (list addr)) :=
  components_loop (length m) m.

(** A caller's sequence of init/connect calls. *)
Inductive cc_op :=
| Init (k : addr)
| Connect (k : addr) (cs : list addr).

Definition cc_step (m : cmap) (o : cc_op) : cmap :=
  match o with
  | Init k => cc_init m k
  | Connect k cs => cc_connect m k cs
  end.
Definition cc_build (ops : list cc_op) : cmap := fold_left cc_step ops [].
