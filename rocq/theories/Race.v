(** Threads, locks and data races.

    Commands with parallel composition ([#pragma omp parallel for], Python
    threads) and named locks ([#pragma omp critical(name)], Python's global
    interpreter lock).  Memory accesses are single steps; what they compute is
    left out. *)
From Coq Require Import List Arith Bool.
Import ListNotations.

Section Race.
(** Memory locations. *)
Context {L : Type}.

Inductive cmd :=
| Done
| Acc (write : bool) (x : L)
| Seq (a b : cmd)
| Par (a b : cmd)
| Crit (k : nat) (a : cmd)   (* waiting for lock [k] *)
| Held (k : nat) (a : cmd).  (* inside the section, holding lock [k] *)

Inductive label := Tau | At (write : bool) (x : L) | Lock (k : nat) | Unlock (k : nat).

Inductive step : cmd -> label -> cmd -> Prop :=
| st_acc w x : step (Acc w x) (At w x) Done
| st_seq a l a' b : step a l a' -> step (Seq a b) l (Seq a' b)
| st_next b : step (Seq Done b) Tau b
| st_left a l a' b : step a l a' -> step (Par a b) l (Par a' b)
| st_right a b l b' : step b l b' -> step (Par a b) l (Par a b')
| st_join : step (Par Done Done) Tau Done
| st_lock k a : step (Crit k a) (Lock k) (Held k a)
| st_held k a l a' : step a l a' -> step (Held k a) l (Held k a')
| st_unlock k : step (Held k Done) (Unlock k) Done.

(** The locks that are held. *)
Fixpoint held (c : cmd) : list nat :=
  match c with
  | Seq a _ => held a
  | Par a b => held a ++ held b
  | Held k a => k :: held a
  | _ => []
  end.

(** A step of the whole machine: a lock is taken only if nobody holds it. *)
Definition run (c : cmd) (l : label) (c' : cmd) : Prop :=
  step c l c' /\ forall k, l = Lock k -> ~ In k (held c).

Inductive reach (c : cmd) : nat -> cmd -> Prop :=
| rc_here : reach c 0 c
| rc_step n c1 l c2 : reach c n c1 -> run c1 l c2 -> reach c (S n) c2.
Definition reachable (c c' : cmd) : Prop := exists n, reach c n c'.

(** A data race on [x]: two threads are about to access [x], one of them to
    write it. *)
Inductive races (x : L) : cmd -> Prop :=
| ra_here a a' b b' w w' : step a (At w x) a' -> step b (At w' x) b' -> w || w' = true -> races x (Par a b)
| ra_seq a b : races x a -> races x (Seq a b)
| ra_left a b : races x a -> races x (Par a b)
| ra_right a b : races x b -> races x (Par a b)
| ra_held k a : races x a -> races x (Held k a).

(** No deadlock: whatever has happened, the machine can go on until it is done,
    and it is done after a bounded number of steps. *)
Definition terminates (c : cmd) : Prop :=
  (forall c', reachable c c' -> c' <> Done -> exists l c'', run c' l c'') /\
  (exists n, forall m c', reach c m c' -> m <= n).

(** Abbreviations: one after the other, and all at once. *)
Definition seqs (l : list cmd) : cmd := fold_right Seq Done l.
Definition pars (l : list cmd) : cmd := fold_right Par Done l.
End Race.
Arguments cmd : clear implicits. Arguments label : clear implicits.
