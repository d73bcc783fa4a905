(** Model of GM::prune and of adding mixtures in IEEE double arithmetic
    (include/gm.hpp:130-143, 155-164).  See GM.v for the same in exact arithmetic. *)
From Coq Require Import List Floats.
Import ListNotations.
From Verif Require Import GM GMFloat.

Section Prune.
Context {G : Type}.
(** std::sort on the reversed range, gm.hpp:157; the order of equal elements is unspecified. *)
Variable sortf : list (float * G) -> list (float * G).
(** Params::cw_lim, params.hpp:11. *)
Variable cw_lim : float.

(** GM::prune, gm.hpp:155-164. *)
Definition fprune (c : list (float * G)) : list (float * G) :=
  let c := firstn MAX_COMPONENTS (sortf (filter (fun g => negb (PrimFloat.ltb (fst g) cw_lim)) c)) in
  match c with
  | [] => []
  | _ => combine (fst (fnormalize (map fst c))) (map snd c)
  end.
(** GM::operator+, operator+=, gm.hpp:130-143. *)
Definition fplus (a b : list (float * G)) : list (float * G) := fprune (a ++ b).
End Prune.
