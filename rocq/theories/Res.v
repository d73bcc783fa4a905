(** Outcomes of modelled C++ code: a value, undefined behaviour, or fuel
    exhaustion of a loop that has no syntactic bound.  Not taken from /repo;
    the monad and the array accessors used by all models. *)
From Coq Require Import List Arith Lia.
Import ListNotations.

Inductive res (A : Type) : Type :=
| Ok (a : A)
| UB
| OutOfFuel.
Arguments Ok {A} a.
Arguments UB {A}.
Arguments OutOfFuel {A}.

Definition bind {A B} (m : res A) (f : A -> res B) : res B :=
  match m with
  | Ok a => f a
  | UB => UB
  | OutOfFuel => OutOfFuel
  end.

Notation "x <- m ;; k" := (bind m (fun x => k))
  (at level 61, m at next level, right associativity).
Notation "' p <- m ;; k" := (bind m (fun x => let p := x in k))
  (at level 61, p pattern, m at next level, right associativity).

(** [l[i]]: reading outside the array is undefined behaviour. *)
Definition get {A} (l : list A) (i : nat) : res A :=
  match nth_error l i with Some x => Ok x | None => UB end.

Fixpoint upd {A} (l : list A) (i : nat) (x : A) : list A :=
  match l, i with
  | [], _ => []
  | _ :: t, O => x :: t
  | h :: t, S i => h :: upd t i x
  end.

(** [l[i] = x]: writing outside the array is undefined behaviour. *)
Definition set {A} (l : list A) (i : nat) (x : A) : res (list A) :=
  if i <? length l then Ok (upd l i x) else UB.

(** Index that may be the C++ marker -1 ([None]); using -1 as an index is
    undefined behaviour. *)
Definition idx (i : option nat) : res nat :=
  match i with Some k => Ok k | None => UB end.

(** [for (k = a; k < a + n; k++) s = body(k, s)] *)
Fixpoint for_loop {S} (n a : nat) (body : nat -> S -> res S) (s : S) : res S :=
  match n with
  | O => Ok s
  | Datatypes.S n => s' <- body a s;; for_loop n (Datatypes.S a) body s'
  end.

(** The same with [break]: the body returns [true] to leave the loop. *)
Fixpoint for_break {S} (n a : nat) (body : nat -> S -> res (S * bool)) (s : S)
  : res S :=
  match n with
  | O => Ok s
  | Datatypes.S n =>
      r <- body a s;;
      if snd r then Ok (fst r) else for_break n (Datatypes.S a) body (fst r)
  end.

(** Weakest precondition; [F] is what is required when fuel runs out
    ([True]: partial correctness, [False]: total correctness). *)
Definition wp {A} (F : Prop) (m : res A) (Q : A -> Prop) : Prop :=
  match m with
  | Ok a => Q a
  | UB => False
  | OutOfFuel => F
  end.

Lemma wp_ret {A} (F : Prop) (a : A) (Q : A -> Prop) : Q a -> wp F (Ok a) Q.
Proof. exact (fun h => h). Qed.

Lemma wp_bind {A B} (F : Prop) (m : res A) (f : A -> res B) (Q : B -> Prop) :
  wp F m (fun a => wp F (f a) Q) -> wp F (bind m f) Q.
Proof. destruct m; simpl; auto. Qed.

Lemma wp_mono {A} (F F' : Prop) (m : res A) (P Q : A -> Prop) :
  wp F m P -> (F -> F') -> (forall a, P a -> Q a) -> wp F' m Q.
Proof. destruct m; simpl; auto. Qed.

Lemma wp_conseq {A} (F : Prop) (m : res A) (P Q : A -> Prop) :
  wp F m P -> (forall a, P a -> Q a) -> wp F m Q.
Proof. intros H HPQ; eapply wp_mono; eauto. Qed.

Lemma get_ok {A} (l : list A) i d : i < length l -> get l i = Ok (nth i l d).
Proof.
  intros H; unfold get; rewrite (nth_error_nth' l d H); reflexivity.
Qed.

Lemma get_inv {A} (l : list A) i x d :
  get l i = Ok x -> i < length l /\ nth i l d = x.
Proof.
  unfold get; destruct (nth_error l i) eqn:E; intros H; inversion H; subst.
  split.
  - apply nth_error_Some; congruence.
  - apply nth_error_nth; exact E.
Qed.

Lemma set_ok {A} (l : list A) i x : i < length l -> set l i x = Ok (upd l i x).
Proof. intros H; unfold set; apply Nat.ltb_lt in H; rewrite H; reflexivity. Qed.

Lemma upd_length {A} (l : list A) i x : length (upd l i x) = length l.
Proof. revert i; induction l; intros [|i]; simpl; auto. Qed.

Lemma nth_upd_eq {A} (l : list A) i x d :
  i < length l -> nth i (upd l i x) d = x.
Proof.
  revert i; induction l; intros [|i] H; simpl in *; try lia; auto.
  apply IHl; lia.
Qed.

Lemma nth_upd_neq {A} (l : list A) i j x d :
  i <> j -> nth j (upd l i x) d = nth j l d.
Proof.
  revert i j; induction l; intros [|i] [|j] H; simpl; auto; try lia.
Qed.

Lemma nth_upd {A} (l : list A) i j x d :
  i < length l ->
  nth j (upd l i x) d = if Nat.eqb i j then x else nth j l d.
Proof.
  intros H; destruct (Nat.eqb_spec i j) as [->|N].
  - apply nth_upd_eq; auto.
  - apply nth_upd_neq; auto.
Qed.

Lemma wp_get {A} (F : Prop) (l : list A) i d (Q : A -> Prop) :
  i < length l -> Q (nth i l d) -> wp F (get l i) Q.
Proof. intros H HQ; rewrite (get_ok _ _ d H); exact HQ. Qed.

Lemma wp_set {A} (F : Prop) (l : list A) i x (Q : list A -> Prop) :
  i < length l -> Q (upd l i x) -> wp F (set l i x) Q.
Proof. intros H HQ; rewrite (set_ok _ _ _ H); exact HQ. Qed.

Lemma wp_for {S} (F : Prop) n a (body : nat -> S -> res S)
    (I : nat -> S -> Prop) s :
  I a s ->
  (forall k s, a <= k < a + n -> I k s -> wp F (body k s) (I (Datatypes.S k))) ->
  wp F (for_loop n a body s) (I (a + n)).
Proof.
  revert a s; induction n; intros a s H0 HS; simpl.
  - rewrite Nat.add_0_r; exact H0.
  - apply wp_bind.
    eapply wp_conseq; [apply HS; [lia|exact H0]|].
    intros s' Hs'.
    replace (a + Datatypes.S n) with (Datatypes.S a + n) by lia.
    apply IHn; [exact Hs'|].
    intros k s0 Hk; apply HS; lia.
Qed.

Lemma wp_for_break {S} (F : Prop) n a (body : nat -> S -> res (S * bool))
    (I : nat -> S -> Prop) (J : S -> Prop) s :
  I a s ->
  (forall k s, a <= k < a + n -> I k s ->
     wp F (body k s)
       (fun r => if snd r then J (fst r) else I (Datatypes.S k) (fst r))) ->
  wp F (for_break n a body s) (fun s => J s \/ I (a + n) s).
Proof.
  revert a s; induction n; intros a s H0 HS; simpl.
  - right; rewrite Nat.add_0_r; exact H0.
  - apply wp_bind.
    eapply wp_conseq; [apply HS; [lia|exact H0]|].
    intros [s' b] Hs'; simpl in *; destruct b; simpl.
    + left; exact Hs'.
    + replace (a + Datatypes.S n) with (Datatypes.S a + n) by lia.
      apply IHn; [exact Hs'|].
      intros k s0 Hk; apply HS; lia.
Qed.

Lemma bind_ok {A B} (m : res A) (f : A -> res B) b :
  bind m f = Ok b -> exists a, m = Ok a /\ f a = Ok b.
Proof. destruct m; simpl; intros; try discriminate; eauto. Qed.
