(** Model of the evaluation metrics: include/target.hpp:143-151 [distance],
    include/lmb.hpp:252-287 [ospa], 300-331 [gospa], on top of the model of
    rlapjv.h in Lap.v.

    Input are the means of the targets and the true states, both in the local
    frame (i.e. after lmb.hpp:255-257 and 268/319; the change of frame is
    modelled in Cf.v).  A state is the list of its coefficients.  Arithmetic is
    exact: finite values are real numbers. *)
From Coq Require Import List Arith Bool Reals.
Import ListNotations.
From Verif Require Import Res Scalar Lap.
Local Open Scope nat_scope.

(** Eigen's [(a - b).norm()] (target.hpp:149). *)
Fixpoint sqdiff (a b : list R) : R :=
  match a, b with
  | x :: a, y :: b => ((x - y) * (x - y) + sqdiff a b)%R
  | _, _ => 0%R
  end.
Definition norm_diff (a b : list R) : R := sqrt (sqdiff a b).

(** std::pow on a real base and exponent, C17 7.12.7.4 and F.10.4.4.
    Simplification: a negative base always gives NaN (right for every exponent
    that is not an integer). *)
Definition std_pow (x : ext R) (p : R) : ext R :=
  if Reqb p 0 then Fin 1%R
  else match x with
       | Fin x =>
           if Reqb x 0 then if Rltb 0 p then Fin 0%R else PInf
           else if Rltb x 0 then NaN else Fin (Rpower x p)
       | PInf => if Rltb 0 p then PInf else Fin 0%R
       | NInf | NaN => NaN
       end.

(** std::pow(x, 1.0 / p) (lmb.hpp:283, 327).  Simplification: NaN for p = 0,
    where the exponent is infinite. *)
Definition std_root (x : ext R) (p : R) : ext R :=
  if Reqb p 0 then NaN else std_pow x (1 / p).

(** cwiseMin(c) on one coefficient (lmb.hpp:272, 324). *)
Definition ext_min (x c : ext R) : ext R := if nlt extR c x then c else x.

(** Assignment to [C(i, j)]. *)
Definition put_ (C : matrix (ext R)) (i j : nat) (x : ext R) : res (matrix (ext R)) :=
  if (i <? m_rows C) && (j <? m_cols C) then
    d <- set (m_data C) (match m_ord C with
                         | RowMajor => i * m_cols C + j
                         | ColMajor => j * m_rows C + i
                         end) x;;
    Ok (mkMat (m_rows C) (m_cols C) (m_ord C) d)
  else UB.

(** Eigen::MatrixXd C(n, n); C.setConstant(x) (lmb.hpp:265-266, 316-317):
    Eigen's default storage order is column-major. *)
Definition constant (n : nat) (x : ext R) : matrix (ext R) :=
  mkMat n n ColMajor (repeat x (n * n)).

(** lmb.hpp:267-271, 318-322 with target.hpp:143-151: row [i] of the matrix
    receives the distances of target [i] to the true states. *)
Definition fill (means truth : list (list R)) (C : matrix (ext R)) : res (matrix (ext R)) :=
  for_loop (length means) 0
    (fun i C =>
       m <- get means i;;
       for_loop (length truth) 0
         (fun j C => t <- get truth j;; put_ C i j (Fin (norm_diff t m))) C)
    C.

(** lmb.hpp:254-287. *)
Definition ospa (fuel : nat) (means truth : list (list R)) (c p : R) : res (ext R) :=
  let n := Nat.max (length means) (length truth) in
  if 0 <? n then
    C <- fill means truth (constant n (Fin c));;
    let C := mkMat n n ColMajor (map (fun x => ext_min x (Fin c)) (m_data C)) in
    sol <- lap_simple extR fuel C;;
    cost <- for_loop (length sol) 0
              (fun i cost =>
                 oj <- get sol i;; j <- idx oj;; x <- at_ C i j;;
                 Ok (nadd extR cost (std_pow x p)))
              (Fin 0%R);;
    Ok (std_root (nmul extR cost (Fin (/ INR n)%R)) p)
  else Ok (Fin 0%R).

(** lmb.hpp:300-331. *)
Definition gospa (fuel : nat) (means truth : list (list R)) (c p : R) : res (ext R) :=
  let M := length means in
  let N := length truth in
  let n := Nat.max M N in
  if 0 <? n then
    let cp := std_pow (Fin c) p in
    C <- fill means truth (constant n (nmul extR cp (Fin (/ 2)%R)));;
    C <- for_loop M 0
           (fun i C => for_loop N 0
              (fun j C => x <- at_ C i j;; put_ C i j (std_pow (ext_min x (Fin c)) p)) C)
           C;;
    sol <- lap_simple extR fuel C;;
    cost <- lap_cost extR C sol;;
    Ok (std_root cost p)
  else Ok (Fin 0%R).
