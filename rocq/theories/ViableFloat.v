(** Model of Target_::viable (include/target.hpp:80-90) in IEEE double arithmetic.

    [sum] is the order in which Eigen adds up the four squares of the norm (it depends on
    the vectorisation); the theorems hold for every order. *)
From Coq Require Import List Floats.
Import ListNotations.
From Verif Require Import KalmanFloat MeanFloat.

Section Viable.
Variable sum : list float -> float.
(** Eigen's norm() of a 2x2 matrix, used in target.hpp:85: the square root of the sum of
    the squares. *)
Definition fnorm (P : fmat) : float :=
  PrimFloat.sqrt (sum (map (fun ij => (P (fst ij) (snd ij) * P (fst ij) (snd ij))%float) [(0, 0); (1, 0); (0, 1); (1, 1)])).
(** Target_::viable, target.hpp:80-90.  GM::poscov, gm.hpp:260-262, is the upper left corner
    of GM::cov. *)
Definition fviable (r_lim cov_lim r : float) (cs : list (float * (fvec * fmat))) : bool :=
  if PrimFloat.ltb r r_lim then false
  else if PrimFloat.ltb cov_lim (fnorm (fcov cs)) then false
  else true.
End Viable.
