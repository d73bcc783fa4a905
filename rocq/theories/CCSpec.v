(** What a user of ConnectedComponents sees, in terms of the calls made. *)
From Coq Require Import List Arith Relations.
From Verif Require Import CC.

(** The node [x] was mentioned by a call as something to report. *)
Definition known (ops : list cc_op) (x : addr) : Prop :=
  In (Init x) ops \/ exists cs, In (Connect x cs) ops.

(** [connect(x, ...y...)] was called. *)
Definition linked (ops : list cc_op) (x y : addr) : Prop :=
  exists cs, In (Connect x cs) ops /\ In y cs.

Definition symmetric_links (ops : list cc_op) : Prop :=
  forall x y, linked ops x y -> linked ops y x.

(** A chain of connections from [x] to [y]. *)
Definition chain (ops : list cc_op) : addr -> addr -> Prop :=
  clos_refl_trans addr (linked ops).
