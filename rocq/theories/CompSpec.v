(** Specification of histories whose components all have a property. *)
From Coq Require Import List Arith NArith Bool Reals.
Import ListNotations.
From Verif Require Import Res Scalar RTree RTreeSpec Murty Cluster GM GMSpec Tracker TrackerSpec TrackerOps TrackerOpsSpec StepSpec.
Local Open Scope nat_scope.

Section Spec.
Context {G BB Rep : Type}.
Notation pdf := (pdf (G := G) (BB := BB)).
Notation call := (call (P := pdf) (Rep := Rep)).

(** Calls as in [request] whose motion models are [allowed] and whose reports are
    [valid]; sensors as well. *)
Inductive valid_request (allowed : model -> Prop) (valid : Rep -> Prop)
    (op : ops G BB Rep) (pm : params) expf pick sortf (n : nat) : call -> Prop :=
| valid_predict m time last : allowed m -> (0 <= survival_prob m <= 1)%R -> (last <= time)%R ->
    valid_request allowed valid op pm expf pick sortf n (predict_op op pm m time last)
| valid_correct s fuel scan time bb : sound_sensor s -> Peano.le (length scan) n -> (forall z, In z scan -> valid z) ->
    valid_request allowed valid op pm expf pick sortf n (correct_op op pm expf pick sortf bb s fuel scan time).

(** What one step of the filter makes of a Gaussian with the property [I] has it
    again. *)
Record preserved (allowed : model -> Prop) (valid : Rep -> Prop) (op : ops G BB Rep) (I : G -> Prop) : Prop := mkPreserved {
  v_local : forall o g, I g -> I (g_local op o g);
  v_global : forall o g, I g -> I (g_global op o g);
  v_move : forall m dT g, allowed m -> (0 <= dT)%R -> I g -> I (motion op m dT g);
  v_gain : forall z g, valid z -> I g -> I (gain op z g);
  v_init : forall z, valid z -> I (r_init op z);
  v_rlocal : forall o z, valid z -> valid (r_local op o z);
  v_rglobal : forall o z, valid z -> valid (r_global op o z) }.

(** Every component of every live target. *)
Definition all_components (I : G -> Prop) (st : tracker (P := pdf)) : Prop :=
  forall x, In x (live st) -> forall g, In g (p_c (tg_pdf (snd x))) -> I (snd g).
End Spec.
