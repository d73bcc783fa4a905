(** Model of Target_::pos_phd (include/target.hpp:191-194), GM::sampled_pos_pdf
    (include/gm.hpp:198-205) and Gaussian_::sampled_pos_pdf (include/gaussian.hpp:102-120)
    in exact arithmetic.

    An exception is [None].  Eigen's LLT of a 2 x 2 matrix reads the lower triangle and
    fails at a pivot that is not positive; sums are exact. *)
From Coq Require Import List Reals.
Import ListNotations.
Local Open Scope R_scope.

(** gm.hpp:13-20, gaussian.hpp:13-20: weight, position and the position block of the
    covariance, entries (0,0), (1,0), (0,1) and (1,1). *)
Record pcomp := mkPC { pc_w : R; pc_x : R * R; pc_00 : R; pc_10 : R; pc_01 : R; pc_11 : R }.

(** Eigen::LLT, gaussian.hpp:106-111: entries (0,0), (1,0), (1,1) of L. *)
Definition chol (c : pcomp) : option (R * R * R) :=
  if Rlt_dec 0 (pc_00 c) then
    let l0 := sqrt (pc_00 c) in
    let l1 := pc_10 c / l0 in
    let x := pc_11 c - l1 * l1 in
    if Rlt_dec 0 x then Some (l0, l1, sqrt x) else None
  else None.

(** gaussian.hpp:112-115 for one point: forward substitution, square, exponential. *)
Definition point_pdf (c : pcomp) (l : R * R * R) (p : R * R) : R :=
  let '(l0, l1, l2) := l in
  let y0 := (fst p - fst (pc_x c)) / l0 in
  let y1 := (snd p - snd (pc_x c) - l1 * y0) / l2 in
  exp (- (1 / 2) * (y0 * y0 + y1 * y1) - 2 * (1 / 2 * ln (2 * PI))) / (l0 * l2).

Definition total (l : list R) : R := fold_right Rplus 0 l.

(** gaussian.hpp:102-120; [res] and [points] have the same length. *)
Definition comp_pdf (points : list (R * R)) (scale : R) (c : pcomp) (res : list R) : option (list R) :=
  match chol c with
  | None => None
  | Some l =>
      let pdf := map (point_pdf c l) points in
      let psum := total pdf in
      Some (if Rlt_dec (1 / 10000000) psum then map (fun ab => fst ab + snd ab * scale / psum) (combine res pdf) else res)
  end.

(** gm.hpp:199-205 *)
Fixpoint mix_pdf (points : list (R * R)) (scale : R) (cs : list pcomp) (res : list R) : option (list R) :=
  match cs with
  | [] => Some res
  | c :: cs => match comp_pdf points (scale * pc_w c) c res with None => None | Some res => mix_pdf points scale cs res end
  end.

(** target.hpp:191-194: existence probability and mixture. *)
Definition pos_phd (r : R) (cs : list pcomp) (points : list (R * R)) (res : list R) : option (list R) :=
  mix_pdf points r cs res.
