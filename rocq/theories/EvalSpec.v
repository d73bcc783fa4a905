(** Specification of the position PHD: a histogram of samples over a regular
    grid. *)
From Coq Require Import List Arith Bool Reals.
Import ListNotations.
From Verif Require Import Scalar TrackerSpec.
Local Open Scope R_scope.

(** [x] is in the [i]-th of [n] equal parts of [lo, hi). *)
Definition in_part (lo hi : R) (n i : nat) (x : R) : bool :=
  let w := (hi - lo) / INR n in
  (if Rle_dec (lo + INR i * w) x then true else false) && (if Rlt_dec x (lo + (INR i + 1) * w) then true else false).

(** The number of the samples [f 0, ..., f (m - 1)] in cell (i, j) of the grid of
    nx by ny cells on [x0, x1) x [y0, y1). *)
Definition hits (x0 x1 y0 y1 : R) (nx ny i j m : nat) (f : nat -> R * R) : nat :=
  length (filter (fun s => in_part x0 x1 nx i (fst (f s)) && in_part y0 y1 ny j (snd (f s))) (seq 0 m)).

(** The share of cell (i, j) if the k-th target has existence probability [rs_k]
    and the 1000 samples [f k]. *)
Definition share_of (x0 x1 y0 y1 : R) (nx ny : nat) (rs : list R) (f : nat -> nat -> R * R) (i j : nat) : R :=
  Rsum (map (fun k => nth k rs 0 * (INR (hits x0 x1 y0 y1 nx ny i j 1000 (f k)) / 1000)) (seq 0 (length rs))).

(** The distance of [x] from [lo] is at most 2^31 - 1 parts of the grid. *)
Definition near (lo hi : R) (n : nat) (x : R) : Prop := Rabs (x - lo) <= 2147483647 * ((hi - lo) / INR n).
