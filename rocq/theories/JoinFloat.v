(** Model of GM::join in IEEE double arithmetic (include/gm.hpp:166-197), called by
    Target_::correct (include/target.hpp:160-170) with a row of association
    probabilities and the mixtures corrected by each report and by none.

    A component is its weight and the rest of the Gaussian (mean, covariance), a value
    of an arbitrary type [G].  [sortf] stands for std::sort on the reversed range,
    whose order of equal elements is unspecified.  See GM.v for the same in exact
    arithmetic. *)
From Coq Require Import List Arith Bool Floats.
Import ListNotations.
From Verif Require Import Res GM GMFloat.
Local Open Scope nat_scope.

Section Join.
Context {G : Type}.
(** Gaussian_::w and the other members, gaussian.hpp:18-20. *)
Definition fcm : Type := float * G.
Variable sortf : list fcm -> list fcm.
(** Params::cw_lim *)
Variable cw_lim : float.

(** std::pair's operator<. *)
Definition fpair_ltb (x y : float * nat) : bool :=
  if PrimFloat.ltb (fst x) (fst y) then true else if PrimFloat.ltb (fst y) (fst x) then false else snd x <? snd y.

(** priority_queue::top and pop: a greatest pair, and the others. *)
Fixpoint fpop_top (q : list (float * nat)) : option ((float * nat) * list (float * nat)) :=
  match q with
  | [] => None
  | x :: q =>
      match fpop_top q with
      | None => Some (x, [])
      | Some (y, q') => if fpair_ltb x y then Some (y, x :: q') else Some (x, y :: q')
      end
  end.

(** The loop gm.hpp:182-195; [k] iterations are left. *)
Fixpoint fjoin_loop (k : nat) (w : list float) (pdfs : list (list fcm)) (wi : list nat)
    (q : list (float * nat)) (ws : float) (c : list fcm) : res (list fcm) :=
  match k with
  | O => Ok c
  | S k =>
      match fpop_top q with
      | None => Ok c
      | Some ((nw, j), q) =>
          let ws := (ws + nw)%float in
          if PrimFloat.ltb (nw / ws) cw_lim then Ok c
          else
            p <- get pdfs j;;
            i <- get wi j;;
            g <- get p i;;
            let c := c ++ [(nw, snd g)] in
            wi <- set wi j (S i);;
            if S i <? length p then
              g <- get p (S i);;
              wj <- get w j;;
              fjoin_loop k w pdfs wi (((wj * fst g)%float, j) :: q) ws c
            else fjoin_loop k w pdfs wi q ws c
      end
  end.

(** gm.hpp:170-179: the first component of each mixture. *)
Definition fjoin_start (w : list float) (pdfs : list (list fcm)) : list (float * nat) :=
  flat_map (fun wpj => match snd (fst wpj) with
                       | [] => []
                       | g :: _ => [((fst (fst wpj) * fst g)%float, snd wpj)]
                       end)
           (combine (combine w pdfs) (seq 0 (length w))).

(** gm.hpp:166-195: the joined components with their scaled weights. *)
Definition fjoin_raw (w : list float) (pdfs : list (list fcm)) : res (list fcm) :=
  if length pdfs <? length w then UB
  else
    let pdfs := map sortf (firstn (length w) pdfs) in
    fjoin_loop MAX_COMPONENTS w pdfs (repeat 0 (length w)) (fjoin_start w pdfs) 0%float [].

(** The call of normalize, gm.hpp:196: components and eta. *)
Definition fjoin (w : list float) (pdfs : list (list fcm)) : res (list fcm * float) :=
  c <- fjoin_raw w pdfs;;
  let we := fnormalize (map fst c) in
  Ok (combine (fst we) (map snd c), snd we).

(** Target_::correct, target.hpp:161-170, with [rlim] at its default: existence
    probability and mixture.  [sum] is Eigen's sum of a row. *)
Definition ftarget_correct (sum : list float -> float) (w : list float) (pdf : list fcm) (pdfs : list (list fcm)) : res (float * list fcm) :=
  let r := sum w in
  if PrimFloat.leb 1e-6 r then
    ce <- fjoin w pdfs;;
    Ok (r, fst ce)
  else Ok (0%float, pdf).
End Join.
