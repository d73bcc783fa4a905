(** A sort and mixtures for the example of joining in doubles. *)
From Coq Require Import List Arith ZArith Reals Lra Lia Permutation Sorted.
From Flocq Require Import Core.
From Coq Require Import Floats.
Import ListNotations.
From Verif Require Import FloatBase JoinFloatOrder GMFloatSpec JoinFloatSpec.
Local Open Scope R_scope.

Section Sort.
Context {G : Type}.
Fixpoint put (g : float * G) (l : list (float * G)) : list (float * G) :=
  match l with
  | [] => [g]
  | h :: l => if PrimFloat.ltb (fst g) (fst h) then h :: put g l else g :: h :: l
  end.
Definition insertion (l : list (float * G)) : list (float * G) := fold_right put [] l.

Lemma put_perm g l : Permutation (g :: l) (put g l).
Proof. induction l as [|h l IH]; cbn; auto. destruct (PrimFloat.ltb _ _); auto. rewrite perm_swap. auto. Qed.
Lemma insertion_perm l : Permutation l (insertion l).
Proof. induction l as [|g l IH]; cbn; auto. rewrite <- put_perm. auto. Qed.
Lemma put_sorted g l : fin (fst g) -> (forall h, In h l -> fin (fst h)) ->
  StronglySorted (fun a b => val (fst b) <= val (fst a)) l -> StronglySorted (fun a b => val (fst b) <= val (fst a)) (put g l).
Proof.
  intros Fg. induction l as [|h l IH]; intros Fl Hs; cbn; [constructor; constructor|].
  inversion Hs as [|? ? Hs' Hf]; subst. rewrite Forall_forall in Hf. rewrite ltb_val by (auto; apply Fl; cbn; auto).
  destruct (Rlt_bool_spec (val (fst g)) (val (fst h))) as [L|L].
  - constructor. { apply IH; auto. intros; apply Fl; cbn; auto. }
    apply Forall_forall. intros x Hx. apply (Permutation_in x (Permutation_sym (put_perm g l))) in Hx. destruct Hx as [<-|Hx]; [lra|auto].
  - constructor; auto. apply Forall_forall. intros x [<-|Hx]; auto. specialize (Hf x Hx). cbn in Hf. lra.
Qed.
Lemma insertion_sorts : sorts insertion.
Proof.
  intros p Hp. split; [apply insertion_perm|]. induction p as [|g p IH]; cbn; [constructor|].
  apply put_sorted; [apply Hp; cbn; auto| |apply IH; intros; apply Hp; cbn; auto].
  intros h Hh. apply Hp. right. eapply Permutation_in; [symmetry; apply insertion_perm|auto].
Qed.
End Sort.

(** Three mixtures of components named by numbers, and probabilities that add up to 0.95. *)
Definition join_w : list float := [0.5; 0.25; 0.2]%float.
Definition join_pdfs : list (list (float * nat)) :=
  [[(0.25, 10%nat); (0.75, 11%nat)]; [(1, 20%nat)]; [(0.001, 30%nat); (0.999, 31%nat)]]%float.

Ltac between := split; [apply fin_SF; reflexivity|rewrite val_SF; cbv -[IZR Rmult Rplus Rinv Rle]; lra].
Lemma join_mixtures : mixtures_ok join_w join_pdfs.
Proof.
  split.
  - intros x [<-|[<-|[<-|[]]]]; between.
  - intros p g Hp Hg.
    repeat (destruct Hp as [<-|Hp]; [repeat (destruct Hg as [<-|Hg]; [between|]); destruct Hg|]).
    destruct Hp.
Qed.
