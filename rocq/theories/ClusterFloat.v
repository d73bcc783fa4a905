(** Model of the association part of include/cluster.hpp (64-128) and of
    Target_::correct (include/target.hpp:161-170) in IEEE double arithmetic.

    The cost matrix is an input (Cluster.v models how it is filled).
    [std::exp] is the parameter [expf].  Eigen adds up rows and columns in an order
    that depends on the build: [fsum] is any function that returns some sum of the
    list, see [fsums].  [R /= w_sum] divides each entry (Eigen 3.3; older versions
    multiply by the reciprocal). *)
From Coq Require Import List Arith ZArith Permutation.
Import ListNotations.
From Coq Require Import Floats.
From Verif Require Import Res Scalar Lap Murty Cluster.
Local Open Scope nat_scope.

(** [s] is the result of adding up [l] in some order and grouping. *)
Inductive fsums : list float -> float -> Prop :=
| fs_nil : fsums [] 0%float
| fs_one x : fsums [x] x
| fs_app l l' s s' : fsums l s -> fsums l' s' -> fsums (l ++ l') (s + s')%float
| fs_perm l l' s : Permutation l l' -> fsums l s -> fsums l' s.

Section ClusterFloat.
Variable expf : float -> float.
Variable pick : nat -> list (mstate (T := float)) -> nat.
Variable fsum : list float -> float.
(** Params::w_lim and nhyp_max, params.hpp:6-8. *)
Variables w_lim nhyp_max : float.

(** cluster.hpp:92-101, see [Cluster.add_hyp]. *)
Definition fadd_hyp (N M : nat) (w : float) (sol : list (option nat)) (Rm : list float) : res (list float) :=
  for_loop M 0
    (fun i Rm =>
       oj <- get sol i;;
       match oj with
       | None => Ok Rm
       | Some j =>
           if j <? N then
             x <- get Rm (i * (N + 1) + j);; set Rm (i * (N + 1) + j) (x + w)%float
           else if j =? N + i then
             x <- get Rm (i * (N + 1) + N);; set Rm (i * (N + 1) + N) (x + w)%float
           else Ok Rm
       end) Rm.

(** cluster.hpp:103, [n] is an unsigned converted to double. *)
Definition fstop (w w_sum : float) (n : nat) : bool :=
  (PrimFloat.ltb (w / w_sum) w_lim || PrimFloat.leb nhyp_max (nofnat floatN n))%bool.

(** The loop cluster.hpp:89-106. *)
Fixpoint fhyp_loop (rounds fuel N M : nat) (mu : murty (T := float))
    (n : nat) (w_sum : float) (Rm : list float) : res (nat * float * list float) :=
  match rounds with
  | O => OutOfFuel
  | S rounds =>
      '(o, mu) <- draw floatN pick fuel mu;;
      match o with
      | None => Ok (n, w_sum, Rm)
      | Some (cost, sol) =>
          let w := expf (- cost)%float in
          let w_sum := (w_sum + w)%float in
          Rm <- fadd_hyp N M w sol Rm;;
          let n := S n in
          if fstop w w_sum n then Ok (n, w_sum, Rm)
          else fhyp_loop rounds fuel N M mu n w_sum Rm
      end
  end.

(** Target_::correct, target.hpp:161-170: the new existence probability. *)
Definition fexistence (row : list float) : float :=
  let r := fsum row in
  if PrimFloat.leb 1e-6 r then r else 0%float.

Definition fcol_of (N M j : nat) (Rm : list float) : list float :=
  map (fun i => nth (i * (N + 1) + j) Rm nan) (seq 0 M).

(** Outcome: number of hypotheses, their total weight, the association
    probabilities [R], existence probabilities, birth weights. *)
Record fcorrected := mkFCorr {
  fc_n : nat;
  fc_w : float;
  fc_R : list float;
  fc_r : list float;
  fc_rB : list float }.

(** cluster.hpp:83-128 for a cluster with targets; [N] reports, [C] has a row for
    each target and [N + 2 * rows] columns, [rs] are the existence probabilities before. *)
Definition fcorrect (fuel N : nat) (C : matrix float) (rs : list float) : res fcorrected :=
  let M := m_rows C in
  mu <- murty_new floatN C;;
  '(n, w_sum, Rm) <- fhyp_loop fuel fuel N M mu 0 0%float (repeat 0%float (M * (N + 1)));;
  match n with
  | O => Ok (mkFCorr 0 w_sum [] rs (repeat 1%float N))
  | _ =>
      let Rn := map (fun x => (x / w_sum)%float) Rm in
      Ok (mkFCorr n w_sum Rn
            (map (fun i => fexistence (row_of N i Rn)) (seq 0 M))
            (map (fun j => (1 - fsum (fcol_of N M j Rn))%float) (seq 0 N)))
  end.
End ClusterFloat.
