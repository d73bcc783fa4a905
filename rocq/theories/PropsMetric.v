(** Properties C35, C36, C37: the OSPA and GOSPA metrics.  [X] holds the means
    of the targets and [Y] the true states, in the local frame. *)
From Coq Require Import List Arith Reals Lia Lra.
Import ListNotations.
From Verif Require Import Res Scalar Lap LapSpec Metric MetricSpec MetricProofs MetricMain MetricWitness.
Local Open Scope nat_scope.

(** C35.  With at most 30 targets and true states ospa is defined, returns and
    yields a number between 0 and the cutoff. *)
Theorem C35_ospa_between_zero_and_cutoff : forall X Y c p,
  Nat.max (length X) (length Y) <= 30 -> (0 <= c)%R -> (0 < p)%R ->
  (forall fuel, ospa fuel X Y c p <> UB) /\
  exists fuel0 v, (forall fuel, fuel0 <= fuel -> ospa fuel X Y c p = Ok (Fin v)) /\ (0 <= v <= c)%R.
Proof. exact ospa_bounded. Qed.
Print Assumptions C35_ospa_between_zero_and_cutoff.

(** With 31 it is undefined whatever the points are (see C14). *)
Theorem C35_31_points_undefined : forall fuel X Y c p,
  Nat.max (length X) (length Y) = 31 -> ospa fuel X Y c p = UB.
Proof. exact ospa_31. Qed.
Print Assumptions C35_31_points_undefined.

Example C35_case : Nat.max (length Xrot) (length Yrot) <= 30 /\ (0 <= 100)%R /\ (0 < 2)%R /\
  Nat.max (length (repeat [0%R] 31)) (length (@nil (list R))) = 31.
Proof. split; [cbn; lia|]. split; [lra|]. split; [lra|reflexivity]. Qed.

(** C36 in full would be: for every X, Y, c >= 0, p >= 1 a returned value is the
    OSPA distance,
      forall fuel v, ospa fuel X Y c p = Ok (Fin v) -> is_ospa X Y c p v.
    It is false of the code for two reasons.  First, for every order p: the
    matrix is column-major and the solver reads it as row-major, so the
    assignment is optimal for the transposed matrix.  The three targets here
    lie exactly on the three true states (distance 0), the code returns 10 or
    more. *)
Theorem C36_ospa_is_minimum_refuted : forall p, (0 < p)%R ->
  exists fuel0 v, (forall fuel, fuel0 <= fuel -> ospa fuel Xrot Yrot 100 p = Ok (Fin v)) /\
    (10 <= v)%R /\ is_ospa Xrot Yrot 100 p 0.
Proof. exact rot_ospa. Qed.
Print Assumptions C36_ospa_is_minimum_refuted.

(** Second, the assignment minimises the sum of the distances instead of the sum
    of their p-th powers: two targets and p = 2. *)
Theorem C36_order_two_refuted :
  exists fuel0 v, (forall fuel, fuel0 <= fuel -> ospa fuel Xsq Ysq 10 2 = Ok (Fin v)) /\
    (7 < v)%R /\ matching 2 2 [(0, 0); (1, 1)] /\ ospa_of Xsq Ysq 10 2 [(0, 0); (1, 1)] = 6%R.
Proof. exact sq_ospa. Qed.
Print Assumptions C36_order_two_refuted.

(** What holds: the value belongs to some matching, so it is never below the
    OSPA distance. *)
Theorem C36_ospa_attained_partial : forall X Y c p fuel v,
  Nat.max (length X) (length Y) <= 30 -> (0 <= c)%R -> (0 < p)%R ->
  0 < Nat.max (length X) (length Y) ->
  ospa fuel X Y c p = Ok v ->
  exists g, matching (length X) (length Y) g /\ v = Fin (ospa_of X Y c p g).
Proof. exact ospa_attained. Qed.
Print Assumptions C36_ospa_attained_partial.

(** For p = 1 it is the OSPA distance if there are at most two targets and at
    most two true states, or the matrix of distances is symmetric (for instance
    if the targets are the true states in the same order). *)
Theorem C36_ospa_order_one_partial : forall X Y c fuel v,
  Nat.max (length X) (length Y) <= 30 -> (0 <= c)%R ->
  (Nat.max (length X) (length Y) <= 2 \/
   (length X = length Y /\ forall i j, i < length X -> j < length X ->
      edist (nth i X []) (nth j Y []) = edist (nth j X []) (nth i Y []))) ->
  ospa fuel X Y c 1 = Ok v -> exists w, v = Fin w /\ is_ospa X Y c 1 w.
Proof. exact ospa_good. Qed.
Print Assumptions C36_ospa_order_one_partial.

(** C37 in full would be: for every X, Y, c >= 0, p >= 1
      forall fuel v, gospa fuel X Y c p = Ok (Fin v) -> is_gospa X Y c p v.
    False for the first of the two reasons. *)
Theorem C37_gospa_is_minimum_refuted : forall p, (0 < p)%R ->
  exists fuel0 v, (forall fuel, fuel0 <= fuel -> gospa fuel Xrot Yrot 100 p = Ok (Fin v)) /\
    (10 <= v)%R /\ is_gospa Xrot Yrot 100 p 0.
Proof. exact rot_gospa. Qed.
Print Assumptions C37_gospa_is_minimum_refuted.

Theorem C37_gospa_attained_partial : forall X Y c p fuel v,
  Nat.max (length X) (length Y) <= 30 -> (0 <= c)%R -> (0 < p)%R ->
  gospa fuel X Y c p = Ok v ->
  exists g, matching (length X) (length Y) g /\ v = Fin (gospa_of X Y c p g).
Proof. exact gospa_attained. Qed.
Print Assumptions C37_gospa_attained_partial.

Theorem C37_gospa_small_partial : forall X Y c p fuel v,
  Nat.max (length X) (length Y) <= 30 -> (0 <= c)%R -> (0 < p)%R ->
  (Nat.max (length X) (length Y) <= 2 \/
   (length X = length Y /\ forall i j, i < length X -> j < length X ->
      edist (nth i X []) (nth j Y []) = edist (nth j X []) (nth i Y []))) ->
  gospa fuel X Y c p = Ok v -> exists w, v = Fin w /\ is_gospa X Y c p w.
Proof. exact gospa_good. Qed.
Print Assumptions C37_gospa_small_partial.

(** It is defined, returns and is not negative. *)
Theorem C37_gospa_returns : forall X Y c p,
  Nat.max (length X) (length Y) <= 30 -> (0 <= c)%R -> (0 < p)%R ->
  (forall fuel, gospa fuel X Y c p <> UB) /\
  exists fuel0 v, (forall fuel, fuel0 <= fuel -> gospa fuel X Y c p = Ok (Fin v)) /\ (0 <= v)%R.
Proof. exact gospa_nonneg. Qed.
Print Assumptions C37_gospa_returns.

(** Two targets, one true state: the hypotheses of the exact cases are met and
    the run returns. *)
Example C36_C37_case :
  let X := [[0%R; 0%R]; [3%R; 4%R]] in let Y := [[3%R; 3%R]] in
  Nat.max (length X) (length Y) <= 30 /\ 0 < Nat.max (length X) (length Y) <= 2 /\
  (exists fuel w, ospa fuel X Y 20 1 = Ok (Fin w)) /\ exists fuel w, gospa fuel X Y 20 2 = Ok (Fin w).
Proof.
  cbn zeta. split; [cbn; lia|]. split; [cbn; lia|].
  assert (H : Nat.max (length [[0%R; 0%R]; [3%R; 4%R]]) (length [[3%R; 3%R]]) <= 30) by (cbn; lia).
  assert (H20 : (0 <= 20)%R) by lra. assert (H1 : (0 < 1)%R) by lra. assert (H2 : (0 < 2)%R) by lra.
  destruct (ospa_bounded _ _ 20 1 H H20 H1) as (_ & f1 & w1 & E1 & _).
  destruct (gospa_nonneg _ _ 20 2 H H20 H2) as (_ & f2 & w2 & E2 & _).
  split; [exists f1, w1; apply E1; auto|exists f2, w2; apply E2; auto].
Qed.

(** Three targets on the true states, in the same order: a symmetric matrix. *)
Example C36_C37_symmetric_case : length Xrot = length Xrot /\
  forall i j, i < length Xrot -> j < length Xrot ->
    edist (nth i Xrot []) (nth j Xrot []) = edist (nth j Xrot []) (nth i Xrot []).
Proof.
  split; auto. intros i j Hi Hj. cbn in Hi, Hj.
  destruct i as [|[|[|i]]]; destruct j as [|[|[|j]]]; try lia; cbn [nth Xrot]; rewrite !edist1;
    unfold Rabs; repeat destruct (Rcase_abs _); lra.
Qed.
