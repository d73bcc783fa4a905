(** A corrected mixture by Bayes' rule. *)
From Coq Require Import Reals List Lra.
From mathcomp Require Import all_ssreflect ssralg ssrnum zmodp matrix mxalgebra.
From Verif Require Import Scalar GM GMSpec GMProofs TrackerOps Kalman KalmanSpec KalmanProofs KalmanMain KalmanReal RField GaussOps CovSpec MixSpec.
Set Implicit Arguments. Unset Strict Implicit. Unset Printing Implicit Defensive.
Import GRing.Theory Num.Theory Order.Theory.
Local Open Scope ring_scope.

Lemma component_bayes (z : rep) (g : gauss) y : good_gauss g -> @KalmanSpec.pd RF _ (zP z) ->
  Rmult (klik z g) (gaussian_pdf (gx (kgain z g)) (gP (kgain z g)) y)
  = Rmult (gaussian_pdf (gx g) (gP g) y) (gaussian_pdf (obs *m y) (zP z) (zx z)).
Proof.
move=> Hg Hz.
have U k (A : 'M[RF]_k) : KalmanSpec.pd A -> inverse A (invmx A) by move=> HA; apply: inverse_inv; apply: pd_unit.
have Hp := @post_pd RF Rtrigo_def.exp R_sqrt.sqrt Rtrigo1.PI _ _ obs (as_gaussian g) (as_report z) Hg Hz (1 : R).
have := @bayes_real _ _ obs (1 : R) (as_report z) (as_gaussian g) _ _ _ y Hg Hz (U _ _ Hg) (U _ _ Hz) (U _ _ Hp).
move=> /=.
have Hk : Rlt 0 (zkappa z) by case: (zkappa z).
rewrite !mul1r /gaussian_pdf -/(klik z g) => E.
have K0 : (zkappa z : RF)^-1 != 0 by rewrite invr_eq0; apply/eqP => K; rewrite K in Hk; case: (Rlt_irrefl 0).
apply: (mulIf K0). by rewrite -[RHS]E mulrAC.
Qed.

Section Bayes.
Variable BB : Type.
Variables ll2ne ne2ll : point -> point -> point.
Variable gbox : gauss -> aabb.
Variable bof : list (R * gauss) -> BB.
Variable bll : point -> BB -> BB.
Variables rlo rhi : rep -> point.
Let op := gauss_ops ll2ne ne2ll gbox bof bll rlo rhi.
Variables (s : sensor (BB := BB)) (id : BinNums.N) (j : nat) (z : rep).
Hypothesis Hz : @KalmanSpec.pd RF _ (zP z).
Let k i := TrackerOps.pd s id j i.
Let L y := Rdiv (gaussian_pdf (obs *m y) (zP z) (zx z)) (zkappa z).

Lemma upd_density y c : forall i, (forall g, In g c -> good_gauss (snd g)) ->
  density_from (fun _ => R1) i (List.map (fun ic => upd op s id j z (fst ic) (snd ic)) (List.combine (List.seq i (length c)) c)) y
  = Rmult (density_from k i c y) (L y).
Proof.
elim: c => [|g c IH] i Hc /=; first by lra.
have E : good_gauss (snd g) by apply: Hc; left.
rewrite IH; last by move=> h Hh; apply: Hc; right.
have := component_bayes y E Hz. rewrite -/(L y) /L -/(k i).
set a := klik _ _; set b := gaussian_pdf _ _ _; set d := gaussian_pdf _ _ _; set e := gaussian_pdf _ _ _ => Q.
change (Rplus (Rmult (Rmult (Rmult (fst g) (Rdiv (Rmult (k i) a) (zkappa z))) 1) b) (Rmult (density_from k i.+1 c y) (Rdiv e (zkappa z)))
  = Rmult (Rplus (Rmult (Rmult (fst g) (k i)) d) (density_from k i.+1 c y)) (Rdiv e (zkappa z))).
have -> : Rmult (Rmult (Rmult (fst g) (Rdiv (Rmult (k i) a) (zkappa z))) 1) b = Rmult (Rmult (fst g) (k i)) (Rdiv (Rmult a b) (zkappa z)) by rewrite /Rdiv; ring.
by rewrite Q /Rdiv; ring.
Qed.

Lemma density_scale x y c : forall i, density_from (fun _ => R1) i (List.map (fun g => (Rdiv (fst g) x, snd g)) c) y = Rdiv (density_from (fun _ => R1) i c y) x.
Proof. elim: c => [|g c IH] i /=; first by rewrite /Rdiv Rmult_0_l. rewrite IH /Rdiv; ring. Qed.
Lemma density_const x y c : forall i, density_from (fun _ => x) i c y = Rmult x (density_from (fun _ => R1) i c y).
Proof. elim: c => [|g c IH] i /=; first by rewrite Rmult_0_r. rewrite IH; ring. Qed.
Lemma density_ext k1 k2 y c : forall i, (forall n, (n < length c)%N -> k1 (i + n)%N = k2 (i + n)%N) -> density_from k1 i c y = density_from k2 i c y.
Proof.
elim: c => [|g c IH] i H //=. rewrite (IH i.+1); last by move=> n Hn; rewrite addSnnS; apply: H.
by move: (H 0%N isT); rewrite addn0 => ->.
Qed.

Lemma mixture_bayes c c' eta : (forall g, In g c -> good_gauss (snd g)) -> gm_correct (upd op s id j z) c = (c', eta) -> c' <> nil ->
  Rlt 0 eta /\ (forall y, Rmult eta (density c' y) = Rmult (weighted_density k c y) (L y)) /\
  forall d, (forall i, (i < length c)%N -> k i = d) -> forall y, Rmult eta (density c' y) = Rmult d (Rmult (density c y) (L y)).
Proof.
move=> Hc; rewrite /gm_correct => E Hne.
have [T -> C'] : exists2 T, eta = T & Rlt 0 T /\ c' = List.map (fun g => (Rdiv (fst g) T, snd g)) (List.map (fun ic => upd op s id j z (fst ic) (snd ic)) (List.combine (List.seq 0 (length c)) c)).
  have [[H1 [H2 [H3 [H4 _]]]]|[_ [H2 _]]] := @normalize_ok _ _ _ _ E; last by case: Hne.
  exists eta; first exact: erefl. split; first by rewrite H2; lra.
  move: E; rewrite /normalize; set cs := List.map _ _; case: (Rltb _ _) => [[E1 E2]|[E1 E2]]; last by case: Hne.
  by rewrite -E1 -E2.
case: C' => T0 ->. split; first exact: T0.
have M y : Rmult T (density (List.map (fun g => (Rdiv (fst g) T, snd g)) (List.map (fun ic => upd op s id j z (fst ic) (snd ic)) (List.combine (List.seq 0 (length c)) c))) y) = Rmult (weighted_density k c y) (L y).
  rewrite /density /weighted_density density_scale (upd_density y 0 Hc). field. lra.
split; first exact: M.
move=> d Hd y. rewrite M /weighted_density (@density_ext _ (fun _ => d)) ; last by move=> n Hn; rewrite add0n; apply: Hd.
rewrite density_const /density /weighted_density. ring.
Qed.
End Bayes.
