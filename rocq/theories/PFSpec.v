(** What the particle filter should do, stated without the code's queues. *)
From Coq Require Import List Arith Reals Permutation Sorted.
Import ListNotations.
Local Open Scope R_scope.

(** A sort of indices by decreasing weight (any order among equals). *)
Definition valid_sort (srt : list R -> list nat -> list nat) : Prop :=
  forall w l, Permutation (srt w l) l /\ StronglySorted (fun i j => nth i w 0 >= nth j w 0) (srt w l).

(** A particle among several sets: the set and the number in the set. *)
Definition particle := (nat * nat)%type.

(** [ch] lists [n] of the particles of the sets with weights [ws] (scaled by
    [aw]), the heaviest first, and none that is left out is heavier. *)
Definition scaled (aw : list R) (ws : list (list R)) (c : particle) : R :=
  nth (fst c) aw 0 * nth (snd c) (nth (fst c) ws []) 0.
Definition exists_particle (ws : list (list R)) (c : particle) : Prop :=
  (fst c < length ws /\ snd c < length (nth (fst c) ws []))%nat.
Definition heaviest (n : nat) (aw : list R) (ws : list (list R)) (ch : list particle) : Prop :=
  length ch = n /\ NoDup ch /\ (forall c, In c ch -> exists_particle ws c) /\
  StronglySorted (fun c d => scaled aw ws c >= scaled aw ws d) ch /\
  (forall c d, In c ch -> exists_particle ws d -> ~ In d ch -> scaled aw ws c >= scaled aw ws d).

(** Quadratic form of a matrix with S rows. *)
Definition total (S : nat) (f : nat -> R) : R := fold_right Rplus 0 (map f (seq 0 S)).
Definition psd (S : nat) (M : nat -> nat -> R) : Prop :=
  forall u : nat -> R, 0 <= total S (fun a => total S (fun b => u a * M a b * u b)).
