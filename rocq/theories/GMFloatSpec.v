(** Specification for mixtures and costs in doubles: ranges, the accuracy of the
    logarithm, and Bayes' posterior for a few targets and reports. *)
From Coq Require Import List Arith Bool ZArith Reals.
Import ListNotations.
From Flocq Require Import Core.
From Coq Require Import Floats.
From Verif Require Import FloatBase Cluster GMFloat.
Local Open Scope R_scope.

(** A number between 0 and [B]. *)
Definition upto (B : R) (x : float) : Prop := fin x /\ 0 <= val x <= B.

(** Exact sum of the values. *)
Definition exact_sum (l : list float) : R := fold_right Rplus 0 (map val l).

(** [std::log]: close to the logarithm for positive numbers, -infinity for zeros, NaN
    for negative numbers. *)
Definition log_accurate (logf : float -> float) : Prop :=
  forall x, fin x ->
    (0 < val x -> fin (logf x) /\ Rabs (val (logf x) - ln (val x)) <= bpow radix2 (-40) * (1 + Rabs (ln (val x)))) /\
    (val x = 0 -> logf x = neg_infinity) /\
    (val x < 0 -> PrimFloat.is_nan (logf x) = true).

(** ** Targets as an update meets them
    Clutter densities that are not tiny; targets with an existence probability, at most
    2^20 weights that add up to 1 up to rounding, and likelihoods of at most 2^800. *)
Definition kappa_ok (k : float) : Prop := fin k /\ bpow radix2 (-50) <= val k.
Definition target_ok (N : nat) (t : ftarget) : Prop :=
  upto 1 (ft_r t) /\ (forall w, In w (ft_w t) -> upto 1 w) /\ (Z.of_nat (length (ft_w t)) <= 2 ^ 20)%Z /\
  Rabs (exact_sum (ft_w t) - 1) <= (4 * INR (length (ft_w t)) + 4) * bpow radix2 (-53) /\
  (length (ft_in t) = length (ft_w t) /\ forall k, In k (ft_in t) -> (k <= 1000)%nat) /\
  (length (ft_rep t) = N /\ forall kls, In kls (ft_rep t) ->
     forall kl, In kl kls -> (fst kl <= 1000)%nat /\ upto (bpow radix2 800) (snd kl)).

(** ** Posterior existence probabilities
    A target ([target_in]) is described by its prior existence probability, the
    likelihood of each report relative to clutter and the probability of being missed; it
    is absent ([None]), missed ([Some None]) or the source of a report ([Some (Some j)]). *)
Definition cause : Type := option (option nat).

Definition factor (t : target_in) (c : cause) : R :=
  match c with
  | None => 1 - t_r t
  | Some None => t_r t * t_miss t
  | Some (Some j) => t_r t * nth j (t_lik t) 0
  end.
Fixpoint joint (ts : list target_in) (cs : list cause) : R :=
  match ts, cs with t :: ts, c :: cs => factor t c * joint ts cs | _, _ => 1 end.

(** No report has two sources. *)
Fixpoint sources (cs : list cause) : list nat :=
  match cs with [] => [] | Some (Some j) :: cs => j :: sources cs | _ :: cs => sources cs end.
Fixpoint distinct (l : list nat) : bool :=
  match l with [] => true | j :: l => negb (existsb (Nat.eqb j) l) && distinct l end.

Definition causes (N : nat) : list cause := None :: Some None :: map (fun j => Some (Some j)) (seq 0 N).
Fixpoint explanations (N M : nat) : list (list cause) :=
  match M with
  | O => [[]]
  | S M => flat_map (fun c => map (cons c) (explanations N M)) (causes N)
  end.

Definition sum_of {A} (f : A -> R) (l : list A) : R := fold_right (fun x s => f x + s) 0 l.
Definition possible (N : nat) (ts : list target_in) : list (list cause) :=
  filter (fun cs => distinct (sources cs)) (explanations N (length ts)).
Definition exists_in (i : nat) (cs : list cause) : bool := match nth i cs None with None => false | _ => true end.
(** The probability that target [i] exists, given the reports. *)
Definition posterior (N : nat) (ts : list target_in) (i : nat) : R :=
  sum_of (joint ts) (filter (exists_in i) (possible N ts)) / sum_of (joint ts) (possible N ts).

(** The same for a mixture: weights, for each component the samples in view (of 1000)
    and the likelihoods of the reports. *)
Definition detected (pD : R) (wks : list (R * nat)) : R := sum_of (fun wk => fst wk * (pD * (INR (snd wk) / 1000))) wks.
Definition fits (pD kappa : R) (wkls : list (R * (nat * R))) : R :=
  sum_of (fun x => fst x * (pD * (INR (fst (snd x)) / 1000) * snd (snd x) / kappa)) wkls.
Definition prior_of (pD : R) (kappas : list R) (r : R) (ws : list R) (ins : list nat) (reps : list (list (nat * R))) : target_in :=
  mkTin r (map (fun rk => fits pD (snd rk) (combine ws (fst rk))) (combine reps kappas)) (1 - detected pD (combine ws ins)).

(** A number and the double nearest to it, or nearly so. *)
Definition stands_for (a : R) (x : float) : Prop := fin x /\ Rabs (val x - a) <= bpow radix2 (-52) * Rabs a.

(** Exact numbers for a target in doubles. *)
Definition exact_of (pD : float) (kappas : list float) (t : ftarget) : target_in :=
  prior_of (val pD) (map val kappas) (val (ft_r t)) (map val (ft_w t)) (ft_in t)
    (map (map (fun kl => (fst kl, val (snd kl)))) (ft_rep t)).
Definition exact_targets (pD : float) (kappas : list float) (ts : list ftarget) : list target_in := map (exact_of pD kappas) ts.

(** Existence probability 0 or not extremely small. *)
Definition settled (t : ftarget) : Prop := val (ft_r t) = 0 \/ bpow radix2 (-900) <= val (ft_r t).

(** Error of a cost of a target with [n] components, and of all its costs in a cluster. *)
Definition tol (n : nat) : R := (11 * INR n + 60) * bpow radix2 (-32).
Definition slack (ts : list ftarget) : R := sum_of (fun t => tol (length (ft_w t))) ts.
