(** Independent fair coins as a generator: groups of four numbers 1 or -1. *)
From Coq Require Import Reals List Lra FunctionalExtensionality.
From mathcomp Require Import all_ssreflect ssralg ssrnum zmodp matrix mxalgebra.
From Verif Require Import Scalar Cf GM Box BoxSpec BoxProofs View RField Kalman KalmanSpec CovSpec Sample SampleSpec SampleProofs.
Set Implicit Arguments. Unset Strict Implicit. Unset Printing Implicit Defensive.
Import GRing.Theory Num.Theory Order.Theory.
Local Open Scope ring_scope.
Delimit Scope R_scope with re.

(** One group: four coins. *)
Definition coins := (bool * bool * bool * bool)%type.
Definition half (h : bool -> R) : R := ((h true + h false) / 2)%re.
Definition e4 (h : coins -> R) : R :=
  half (fun a => half (fun b => half (fun c => half (fun d => h (a, b, c, d))))).
Definition face (b : bool) : R := if b then 1%re else (-1)%re.
Definition coin (l : nat) (c : coins) : R :=
  let '(a, b, c, d) := c in match l with O => face a | 1 => face b | 2 => face c | _ => face d end.

Lemma e4_const c : e4 (fun _ => c) = c. Proof. rewrite /e4 /half; lra. Qed.
Lemma e4_add f g : e4 (fun w => f w + g w)%re = (e4 f + e4 g)%re. Proof. rewrite /e4 /half; lra. Qed.
Lemma e4_scale c f : e4 (fun w => c * f w)%re = (c * e4 f)%re. Proof. rewrite /e4 /half; lra. Qed.
Lemma e4_mono f g : (forall w, f w <= g w)%re -> (e4 f <= e4 g)%re.
Proof.
move=> H; rewrite /e4 /half.
pose proof (H (true,true,true,true)); pose proof (H (true,true,true,false)); pose proof (H (true,true,false,true)); pose proof (H (true,true,false,false)).
pose proof (H (true,false,true,true)); pose proof (H (true,false,true,false)); pose proof (H (true,false,false,true)); pose proof (H (true,false,false,false)).
pose proof (H (false,true,true,true)); pose proof (H (false,true,true,false)); pose proof (H (false,true,false,true)); pose proof (H (false,true,false,false)).
pose proof (H (false,false,true,true)); pose proof (H (false,false,true,false)); pose proof (H (false,false,false,true)); pose proof (H (false,false,false,false)).
lra.
Qed.
Lemma e4_coin l : e4 (coin l) = 0%re.
Proof. by rewrite /e4 /half; case: l => [|[|[|l]]] /=; rewrite /face; lra. Qed.
Lemma e4_coins l m : (l < 4)%N -> (m < 4)%N -> e4 (fun w => coin l w * coin m w)%re = if l == m then 1%re else 0%re.
Proof.
by case: l => [|[|[|[|l]]]] // _; case: m => [|[|[|[|m]]]] // _; rewrite /e4 /half /=; rewrite /face; lra.
Qed.

(** [M] groups, one after the other. *)
Definition put (w : nat -> coins) (m : nat) (a : coins) (k : nat) : coins := if k == m then a else w k.
Fixpoint eM (M : nat) (f : (nat -> coins) -> R) : R :=
  match M with
  | O => f (fun _ => (true, true, true, true))
  | S M => eM M (fun w => e4 (fun a => f (put w M a)))
  end.

Lemma eM_ext M f g : f =1 g -> eM M f = eM M g.
Proof. by move=> E; rewrite (functional_extensionality f g E). Qed.
Lemma eM_const M c : eM M (fun _ => c) = c.
Proof. by elim: M => //= M IH; rewrite -[RHS]IH; apply: eM_ext => w; rewrite e4_const. Qed.
Lemma eM_add M f g : eM M (fun w => f w + g w)%re = (eM M f + eM M g)%re.
Proof. by elim: M f g => //= M IH f g; rewrite -IH; apply: eM_ext => w; rewrite e4_add. Qed.
Lemma eM_scale M c f : eM M (fun w => c * f w)%re = (c * eM M f)%re.
Proof. by elim: M f => //= M IH f; rewrite -IH; apply: eM_ext => w; rewrite e4_scale. Qed.
Lemma eM_mono M f g : (forall w, f w <= g w)%re -> (eM M f <= eM M g)%re.
Proof. by elim: M f g => //= M IH f g H; apply: IH => w; apply: e4_mono. Qed.

Definition coin_space (M : nat) : expectation (nat -> coins).
Proof.
apply: (@Expectation _ (fun _ => True) (eM M)).
- by move=> f g E _; split=> //; apply: eM_ext => w; rewrite E.
- by move=> c; split=> //; exact: eM_const.
- by move=> f g _ _; split=> //; exact: eM_add.
- by move=> c f _; split=> //; exact: eM_scale.
- by move=> f g _ _ H; exact: eM_mono.
Defined.

(** One group, two groups. *)
Lemma eM_one M h i : (i < M)%N -> eM M (fun w => h (w i)) = e4 h.
Proof.
elim: M => // M IH; rewrite ltnS leq_eqVlt /= => /orP [/eqP ->|lt].
- by rewrite -[RHS](eM_const M); apply: eM_ext => w; rewrite /put eqxx.
- rewrite -(IH lt); apply: eM_ext => w; rewrite /put; have /negbTE -> : i != M by rewrite neq_ltn lt.
  exact: e4_const.
Qed.
Lemma eM_two M h g i j : (i < j)%N -> (j < M)%N -> eM M (fun w => h (w i) * g (w j))%re = (e4 h * e4 g)%re.
Proof.
move=> lt; elim: M => // M IH; rewrite ltnS leq_eqVlt /= => /orP [/eqP E|ltM].
- rewrite E in lt *; transitivity (eM M (fun w => e4 g * h (w i))%re).
    apply: eM_ext => w; rewrite /put eqxx; have /negbTE -> : i != M by rewrite neq_ltn lt.
    by rewrite e4_scale Rmult_comm.
  by rewrite eM_scale eM_one // Rmult_comm.
- rewrite -(IH ltM); apply: eM_ext => w; rewrite /put.
  have /negbTE -> : i != M by rewrite neq_ltn (ltn_trans lt ltM).
  have /negbTE -> : j != M by rewrite neq_ltn ltM.
  exact: e4_const.
Qed.
Lemma eM_pair M h g i j : i <> j -> (i < M)%N -> (j < M)%N -> eM M (fun w => h (w i) * g (w j))%re = (e4 h * e4 g)%re.
Proof.
move=> /eqP; rewrite neq_ltn => /orP [] lt Hi Hj; first exact: eM_two.
rewrite Rmult_comm -(eM_two g h lt Hi); apply: eM_ext => w; exact: Rmult_comm.
Qed.

(** The numbers. *)
Definition flips (k : nat) (w : nat -> coins) : R := coin (k %% 4) (w (k %/ 4)%N).

Lemma flips_white M : white (coin_space M) flips (M * 4).
Proof.
split=> [i lt|i j li lj].
- by split=> //; rewrite -(e4_coin (i %% 4)) -(@eM_one M _ (i %/ 4)) // ltn_divLR.
- split=> //; rewrite /flips /=.
  case: (eqVneq (i %/ 4)%N (j %/ 4)%N) => [E|ne].
  + rewrite E (@eM_one M (fun a => (coin (i %% 4) a * coin (j %% 4) a)%re)) ?ltn_divLR // e4_coins ?ltn_mod //.
    have -> // : (i == j) = (i %% 4 == j %% 4)%N.
    by apply/eqP/eqP => [->//|E2]; rewrite (divn_eq i 4) (divn_eq j 4) E E2.
  + have -> : (i == j) = false by apply/negP => /eqP E; move/eqP: ne; apply; rewrite E.
    rewrite eM_pair ?ltn_divLR //; first by rewrite e4_coin Rmult_0_l.
    by move/eqP: ne.
Qed.

Definition vec (c : coins) : 'cV[R]_4 := \col_l coin l c.
Lemma group_flips i w : group 4 flips 0 i w = vec (w i).
Proof.
apply/matrixP=> l k; rewrite !mxE /flips add0n modnMDl modn_small // divnMDl // divn_small ?addn0 //.
Qed.

Lemma flips_independent M (a : 'cV[R]_4 -> bool) : independent (coin_space M) flips 0 M a (e4 (fun c => one (a (vec c)))).
Proof.
split=> [i li|i j li lj ne]; split=> //.
- by rewrite -(eM_one (fun c => one (a (vec c))) li) /=; apply: eM_ext => w; rewrite group_flips.
- have := eM_pair (fun c => one (a (vec c))) (fun c => one (a (vec c))) ne li lj.
  move=> <- /=; apply: eM_ext => w; by rewrite !group_flips.
Qed.

(** A unit Gaussian and a box that half of the samples hit. *)
Lemma unit_psd : @psd RF _ (1%:M : 'M[R]_(2 + 2)).
Proof.
split=> [i j|v]; first by rewrite !mxE eq_sym.
rewrite /qf; apply: sumr_ge0 => i _; rewrite (bigD1 i) //= big1 ?addr0; last first.
  by move=> j /negbTE ne; rewrite !mxE eq_sym ne mulr0 mul0r.
by rewrite !mxE eqxx mulr1 -expr2 sqr_ge0.
Qed.
Lemma unit_eigen : eigen (1%:M : 'M[R]_(2 + 2)) 1%:M (const_mx 1).
Proof. by split; rewrite ?trmx1 ?mul1mx // diag_const_mx mulmx1. Qed.
Lemma unit_transform : transform (1%:M : 'M[R]_(2 + 2)) (const_mx 1) = 1%:M.
Proof.
rewrite /transform mul1mx -[RHS]diag_const_mx; congr diag_mx; apply/matrixP=> i j; rewrite !mxE.
exact: R_sqrt.sqrt_1.
Qed.

Definition front : bbox := bbox_of (mkAabb 0%re (-2)%re 3%re 2%re).
Lemma front_hit a b c d : b_within front (pos2 (0 + (1%:M : 'M[R]_(2 + 2)) *m vec (a, b, c, d))) = a.
Proof.
rewrite mul1mx add0r /pos2 /vec !mxE !inordK //=.
have Ho : ordered (mkAabb 0%re (-2)%re 3%re 2%re) by rewrite /ordered /=; lra.
have := @b_of_within _ (face a, face b) Ho; rewrite -/front /=; case: (b_within front _) => H; symmetry.
- by case: a H => // - [/(_ erefl)]; rewrite /face; lra.
- by case: a H => // - [_]; rewrite /face => H; suff: false = true by []; apply: H; case: b; lra.
Qed.

Lemma front_half : e4 (fun c => one (b_within front (pos2 (0 + (1%:M : 'M[R]_(2 + 2)) *m vec c)))) = (1 / 2)%re.
Proof.
rewrite /e4 /half !front_hit /one -[1]/(1%re) -[0]/(0%re); lra.
Qed.
