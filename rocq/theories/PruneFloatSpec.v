(** What is asked of pruning in doubles.  Independent of the model. *)
From Coq Require Import List Reals ZArith Sorting.Sorted Sorting.Permutation.
Import ListNotations.
From Flocq Require Import Core.
From Coq Require Import Floats.
From Verif Require Import FloatBase GMFloatSpec.
Local Open Scope R_scope.

(** [kept] are the heaviest of the components [c] that reach the limit, at most 200. *)
Definition heaviest {G} (limit : R) (c kept : list (float * G)) : Prop :=
  StronglySorted (fun a b => val (fst b) <= val (fst a)) kept /\ (length kept <= 200)%nat /\
  (forall g, In g kept -> limit <= val (fst g)) /\
  exists dropped, Permutation c (kept ++ dropped) /\
    forall d, In d dropped -> val (fst d) < limit \/ length kept = 200%nat /\ forall g, In g kept -> val (fst d) <= val (fst g).

(** [out] has the components of [kept], each with its share of the weight. *)
Definition shared {G} (kept out : list (float * G)) : Prop :=
  let n := INR (length kept) in let total := exact_sum (map fst kept) in
  map snd out = map snd kept /\ (forall g, In g out -> upto 1 (fst g)) /\
  Rabs (exact_sum (map fst out) - 1) <= (4 * n + 4) * bpow radix2 (-53) /\
  Forall2 (fun g g' => let share := val (fst g) / total in
    Rabs (val (fst g') - share) <= (4 * n + 4) * bpow radix2 (-53) * share + bpow radix2 (-1075)) kept out.
