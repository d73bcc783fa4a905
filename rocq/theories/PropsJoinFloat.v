(** Property C107: joining mixtures in doubles. *)
From Coq Require Import List Arith ZArith Reals Lra Lia.
From Flocq Require Import Core.
From Coq Require Import Floats.
Import ListNotations.
From Verif Require Import Res FloatBase ClusterFloat GMFloatSpec JoinFloat JoinFloatSpec JoinFloatProofs JoinFloatWitness.
From Verif Require Import SceneFloatWitness ClusterFloatWitness.
Local Open Scope R_scope.

(** GM::join.  [joined] bounds what is dropped and the rounding; an empty mixture comes
    only from very small weights. *)
Theorem C107_double_join : forall (G : Type) (sortf : list (float * G) -> list (float * G)) cw_lim w pdfs,
  sorts sortf -> (length w <= length pdfs)%nat -> mixtures_ok w pdfs -> (Z.of_nat (components w pdfs) <= 2 ^ 20)%Z -> fin cw_lim ->
  exists c eta, fjoin sortf cw_lim w pdfs = Ok (c, eta) /\
  ((c = [] /\ eta = 0%float /\ (FloatBase.val cw_lim <= / 2 -> weight w pdfs <= 11 / 1000000000 * (INR (components w pdfs) + 1))) \/
   (fin eta /\ mixture_ready c /\ (exists lost, joined (FloatBase.val cw_lim) w pdfs c (FloatBase.val eta) lost) /\
    (FloatBase.val cw_lim <= 1 -> kept (FloatBase.val cw_lim) c))).
Proof. intros G sortf cw_lim w pdfs Hs Hl Ho Hn Hc. exact (join_ok sortf cw_lim w pdfs Hs Hl Ho Hn Hc). Qed.
Print Assumptions C107_double_join.

(** Target_::correct: the existence probability is the sum of the row, or 0 for a
    target that is nearly certain not to exist, whose mixture is left alone. *)
Theorem C107_double_target_correct : forall (G : Type) (sortf : list (float * G) -> list (float * G)) cw_lim w pdfs fsum pdf,
  sorts sortf -> (length w <= length pdfs)%nat -> mixtures_ok w pdfs -> (Z.of_nat (components w pdfs) <= 2 ^ 20)%Z -> fin cw_lim ->
  (forall l, fsums l (fsum l)) -> (Z.of_nat (length w) <= 2 ^ 20)%Z -> FloatBase.val cw_lim <= / 2 ->
  exists r c, ftarget_correct sortf cw_lim fsum w pdf pdfs = Ok (r, c) /\ fin r /\
  ((FloatBase.val r = 0 /\ c = pdf /\ exact_sum w <= 1000001 / 1000000000000) \/
   (999999 / 1000000000000 <= FloatBase.val r /\ Rabs (FloatBase.val r - exact_sum w) <= 2 * INR (length w) * bpow radix2 (-53) * exact_sum w /\
    ((c = [] /\ weight w pdfs <= 11 / 1000000000 * (INR (components w pdfs) + 1)) \/
     (mixture_ready c /\ kept (FloatBase.val cw_lim) c /\ exists eta lost, joined (FloatBase.val cw_lim) w pdfs c eta lost)))).
Proof. intros G sortf cw_lim w pdfs fsum pdf Hs Hl Ho Hn Hc Hf Hw Hh. exact (correct_ok sortf cw_lim w pdfs Hs Hl Ho Hn Hc fsum pdf Hf Hw Hh). Qed.
Print Assumptions C107_double_target_correct.

(** Of five components the lightest is dropped. *)
Example C107_example :
  sorts (G := nat) insertion /\ (length join_w <= length join_pdfs)%nat /\ mixtures_ok join_w join_pdfs /\
  (Z.of_nat (components join_w join_pdfs) <= 2 ^ 20)%Z /\ fin 0.01%float /\ FloatBase.val 0.01%float <= / 2 /\
  (forall l, fsums l (left_sum l)) /\
  exists r c, ftarget_correct insertion 0.01 left_sum join_w [] join_pdfs = Ok (r, c) /\ map snd c = [11; 20; 31; 10]%nat /\
    PrimFloat.ltb 0.949 r = true /\ components join_w join_pdfs = 5%nat.
Proof.
  split; [exact insertion_sorts|]. split; [cbn; lia|]. split; [exact join_mixtures|]. split; [vm_compute; discriminate|].
  split; [apply fin_SF; reflexivity|]. split; [rewrite val_SF; cbv -[IZR Rmult Rplus Rinv Rle]; lra|]. split; [exact left_sum_ok|].
  eexists. eexists. split; [vm_compute; reflexivity|]. split; [reflexivity|]. split; vm_compute; reflexivity.
Qed.
