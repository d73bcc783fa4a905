(** Model of the association part of include/cluster.hpp (Cluster_::correct,
    36-154) and the scalar part of include/target.hpp (match 111-141, correct
    161-170, false_target 183-189).

    The PDF is represented by what it contributes: for each target its existence
    probability [t_r], the likelihoods [t_lik] returned by [pdfs[j].correct] for
    the reports, and [t_miss] returned by [pdfs[M].missed].  Logarithms and
    divisions follow IEEE for the special values; other arithmetic is exact.
    [std::exp] is the parameter [expf] (it returns finite numbers: overflow to
    +inf for costs below -709 is not modelled). *)
From Coq Require Import List Arith Bool Reals.
Import ListNotations.
From Verif Require Import Res Scalar Lap Murty.
Local Open Scope nat_scope.

(** -std::log *)
Definition nlog (x : R) : ext R :=
  if Rltb x 0 then NaN else if Reqb x 0 then PInf else Fin (- ln x)%R.

(** Division of finite numbers. *)
Definition ediv (a b : R) : ext R :=
  if Reqb b 0 then (if Reqb a 0 then NaN else if Rltb a 0 then NInf else PInf)
  else Fin (a / b)%R.

(** lmb::inf, constants.hpp:5. *)
Definition lmb_inf : R := 30000%R.

(** false_target, target.hpp:183-189. *)
Definition false_target (r : R) : ext R := if Rltb r 1 then nlog (1 - r) else Fin lmb_inf.

Record target_in := mkTin { t_r : R; t_lik : list R; t_miss : R }.

(** Row [i] of the cost matrix: cluster.hpp:64-74, target.hpp:111-141.  The
    block of report columns, the diagonal of missed detections, the diagonal of
    false targets; all other cells keep lmb::inf. *)
Definition cost_row (M i : nat) (t : target_in) : list (ext R) :=
  map (fun l => nlog (t_r t * l)%R) (t_lik t)
  ++ map (fun k => if k =? i then nlog (t_r t * t_miss t)%R else Fin lmb_inf) (seq 0 M)
  ++ map (fun k => if k =? i then false_target (t_r t) else Fin lmb_inf) (seq 0 M).

(** [C] is column-major in cluster.hpp, but Murty's parameter is a row-major
    CostMatrix (rlapjv.h), so Eigen copies it entry by entry. *)
Definition cost_of (N : nat) (ts : list target_in) : matrix (ext R) :=
  mkMat (length ts) (N + 2 * length ts) RowMajor
    (flat_map (fun it => cost_row (length ts) (fst it) (snd it))
              (combine (seq 0 (length ts)) ts)).

Section Cluster.
Variable expf : R -> R.
Variable pick : nat -> list (mstate (T := ext R)) -> nat.
(** Params::w_lim and nhyp_max (a double), params.hpp. *)
Variables w_lim nhyp_max : R.

(** cluster.hpp:92-101.  [R] is M x (N + 1), stored by rows.  An entry -1 of the
    solution ([None]) becomes a large unsigned number, which no branch takes. *)
Definition add_hyp (N M : nat) (w : R) (sol : list (option nat)) (Rm : list R) : res (list R) :=
  for_loop M 0
    (fun i Rm =>
       oj <- get sol i;;
       match oj with
       | None => Ok Rm
       | Some j =>
           if j <? N then
             x <- get Rm (i * (N + 1) + j);; set Rm (i * (N + 1) + j) (x + w)%R
           else if j =? N + i then
             x <- get Rm (i * (N + 1) + N);; set Rm (i * (N + 1) + N) (x + w)%R
           else Ok Rm
       end) Rm.

(** [w / w_sum < w_lim], false for NaN (0/0). *)
Definition below (w w_sum : R) : bool := nlt extR (ediv w w_sum) (Fin w_lim).

(** The loop cluster.hpp:89-106: the number of hypotheses, their total weight
    and the unnormalised [R]. *)
Fixpoint hyp_loop (rounds fuel N M : nat) (mu : murty (T := ext R))
    (n : nat) (w_sum : R) (Rm : list R) : res (nat * R * list R) :=
  match rounds with
  | O => OutOfFuel
  | S rounds =>
      '(o, mu) <- draw extR pick fuel mu;;
      match o with
      | None => Ok (n, w_sum, Rm)
      | Some (cost, sol) =>
          match cost with
          | Fin c =>
              let w := expf (- c)%R in
              let w_sum := (w_sum + w)%R in
              Rm <- add_hyp N M w sol Rm;;
              let n := S n in
              if below w w_sum || Rleb nhyp_max (INR n) then Ok (n, w_sum, Rm)
              else hyp_loop rounds fuel N M mu n w_sum Rm
          | _ => UB (* a draw without a finite cost: not modelled, never happens *)
          end
      end
  end.

(** cluster.hpp:83-106. *)
Definition associate (fuel N : nat) (ts : list target_in) : res (nat * R * list R) :=
  mu <- murty_new extR (cost_of N ts);;
  hyp_loop fuel fuel N (length ts) mu 0 0%R (repeat 0%R (length ts * (N + 1))).

Definition esum (l : list (ext R)) : ext R := fold_left (nadd extR) l (Fin 0%R).

(** Target_::correct, target.hpp:161-170: the new existence probability, and
    whether the densities are joined. *)
Definition target_correct (row : list (ext R)) : ext R * bool :=
  let r := esum row in
  if nle extR (Fin (1 / 1000000)%R) r then (r, true) else (Fin 0%R, false).

Definition row_of {A} (N i : nat) (Rm : list A) : list A := firstn (N + 1) (skipn (i * (N + 1)) Rm).
Definition col_of (d : ext R) (N M j : nat) (Rm : list (ext R)) : list (ext R) :=
  map (fun i => nth (i * (N + 1) + j) Rm d) (seq 0 M).

(** Outcome of the correction: number of hypotheses, [R] after normalisation,
    existence probabilities, birth weights (cluster.hpp:107-128). *)
Record corrected := mkCorr {
  c_n : nat;
  c_R : list (ext R);
  c_r : list (ext R);
  c_rB : list (ext R) }.

Definition correct (fuel N : nat) (ts : list target_in) : res corrected :=
  match ts with
  | [] => Ok (mkCorr 0 [] [] (repeat (Fin 1%R) N))
  | _ =>
      '(n, w_sum, Rm) <- associate fuel N ts;;
      match n with
      | O => Ok (mkCorr 0 [] (map (fun t => Fin (t_r t)) ts) (repeat (Fin 1%R) N))
      | _ =>
          let Rn := map (fun x => ediv x w_sum) Rm in
          Ok (mkCorr n Rn
                (map (fun i => fst (target_correct (row_of N i Rn))) (seq 0 (length ts)))
                (map (fun j => nsub extR (Fin 1%R) (esum (col_of NaN N (length ts) j Rn))) (seq 0 N)))
      end
  end.
End Cluster.
