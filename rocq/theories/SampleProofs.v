(** Moments of samples. *)
From Coq Require Import Reals List Lra.
From mathcomp Require Import all_ssreflect ssralg ssrnum zmodp matrix mxalgebra.
From Verif Require Import Scalar Cf GM Box View RField Kalman KalmanSpec KalmanProofs CovSpec Sample SampleSpec.
Set Implicit Arguments. Unset Strict Implicit. Unset Printing Implicit Defensive.
Import GRing.Theory Num.Theory Order.Theory.
Local Open Scope ring_scope.

Section Lin.
Variables (W : Type) (X : expectation W).
Lemma exp_ext f g x : f =1 g -> expected X f x -> expected X g x.
Proof. by move=> E [H1 <-]; exact: ev_ext. Qed.
Lemma exp_val f x y : x = y -> expected X f x -> expected X f y.
Proof. by move=> ->. Qed.
Lemma exp_const c : expected X (fun _ => c) c.
Proof. exact: ev_const. Qed.
Lemma exp_add f g x y : expected X f x -> expected X g y -> expected X (fun w => f w + g w) (x + y).
Proof. by move=> [H1 <-] [H2 <-]; exact: ev_add. Qed.
Lemma exp_scale c f x : expected X f x -> expected X (fun w => c * f w) (c * x).
Proof. by move=> [H1 <-]; exact: ev_scale. Qed.
Lemma exp_sum (I : finType) (f : I -> W -> R) (x : I -> R) :
  (forall i, expected X (f i) (x i)) -> expected X (fun w => \sum_i f i w) (\sum_i x i).
Proof.
move=> H; elim: (index_enum I) => [|i s IH].
- by rewrite big_nil; apply: (@exp_ext (fun _ => 0)); [move=> w; rewrite big_nil|exact: exp_const].
- rewrite big_cons; apply: (@exp_ext (fun w => f i w + \sum_(j <- s) f j w)); first by move=> w; rewrite big_cons.
  exact: exp_add.
Qed.
End Lin.

(** The roots of the eigenvalues give a root of the covariance. *)
Lemma eigen_pos n (P V : 'M[R]_n) d : @psd RF _ P -> eigen P V d -> forall k, Rle 0 (d 0 k).
Proof.
move=> [_ H] [HV HP] k; have HV' : V^T *m V = 1%:M by apply: mulmx1C.
have := H (V *m delta_mx k 0); rewrite HP qf_conj mulmxA HV' mul1mx.
have -> : @qf RF _ (diag_mx d) (delta_mx k 0) = d 0 k; last by move/rleP.
rewrite /qf (bigD1 k) //= [X in _ + X]big1 ?addr0; last first.
  by move=> i /negbTE ne; rewrite big1 // => j _; rewrite !mxE ne /= !mul0r.
rewrite (bigD1 k) //= big1 ?addr0; last first.
  by move=> j /negbTE ne; rewrite !mxE ne /= mulr0.
by rewrite !mxE !eqxx /= mulr1n mul1r mulr1.
Qed.

Lemma root_cov n (P V : 'M[R]_n) d : @psd RF _ P -> eigen P V d -> transform V d *m (transform V d)^T = P.
Proof.
move=> Hp He; have Hd := eigen_pos Hp He; have [HV ->] := He.
rewrite /transform trmx_mul tr_diag_mx !mulmxA; congr (_ *m _); rewrite -mulmxA; congr (_ *m _).
apply/matrixP=> i j; rewrite mul_diag_mx !mxE; case: (eqVneq i j) => [->|_]; rewrite ?mulr0n ?mulr0 // !mulr1n.
exact: R_sqrt.sqrt_sqrt.
Qed.

Section Nrand.
Variables (W : Type) (X : expectation W) (n : nat).
Variables (mean : 'cV[R]_n) (P V : 'M[R]_n) (d : 'rV[R]_n) (gen : nat -> W -> R) (k0 cols : nat).
Let S (w : W) : 'M[R]_(n, cols) := nrand mean V d (fun k => gen k w) k0 cols.
Let A := transform V d.

Lemma nrand_at w k i : S w k i = mean k 0 + \sum_l A k l * gen (k0 + i * n + l)%N w.
Proof. by rewrite /S /nrand mxE mxE; congr (_ + _); rewrite mxE; apply: eq_bigr => l _; rewrite [X in _ * X]mxE. Qed.

Lemma index_lt (i : 'I_cols) (l : 'I_n) : (k0 + i * n + l < k0 + cols * n)%N.
Proof.
rewrite -addnA ltn_add2l; apply: (@leq_trans (i.+1 * n)); first by rewrite mulSn addnC ltn_add2r.
by rewrite leq_mul2r ltn_ord orbT.
Qed.

Lemma nrand_mean : white X gen (k0 + cols * n) -> forall k i, expected X (fun w => S w k i) (mean k 0).
Proof.
move=> [H1 _] k i; apply: (@exp_ext _ _ (fun w => mean k 0 + \sum_l A k l * gen (k0 + i * n + l)%N w)).
  by move=> w; rewrite nrand_at.
apply: (@exp_val _ _ _ (GRing.add (mean k 0) (\sum_(l < n) A k l * 0))); first by rewrite big1 => [|l _]; rewrite ?mulr0 ?addr0.
by apply: exp_add; [exact: exp_const|apply: exp_sum => l; apply: exp_scale; apply: H1; exact: index_lt].
Qed.

Lemma index_inj (i j : nat) (l m : 'I_n) : (k0 + i * n + l == k0 + j * n + m)%N = (i == j) && (l == m).
Proof.
rewrite -!addnA eqn_add2l; case: (eqVneq i j) => [->|ne] /=; first by rewrite eqn_add2l.
apply/negP => /eqP E; move/eqP: ne; apply.
have n0 : (0 < n)%N by apply: leq_ltn_trans (leq0n l) (ltn_ord l).
by have := congr1 (divn^~ n) E; rewrite !divnMDl // !divn_small ?addn0.
Qed.

Lemma nrand_cov : white X gen (k0 + cols * n) -> @psd RF _ P -> eigen P V d -> forall k l i j,
  expected X (fun w => (S w k i - mean k 0) * (S w l j - mean l 0)) (if i == j then P k l else 0).
Proof.
move=> [_ H2] Hp He k l i j.
apply: (@exp_ext _ _ (fun w => \sum_a \sum_b (A k a * A l b) * (gen (k0 + i * n + a)%N w * gen (k0 + j * n + b)%N w))).
  move=> w; rewrite !nrand_at [mean k 0 + _]addrC [mean l 0 + _]addrC !addrK mulr_suml; apply: eq_bigr => a _.
  by rewrite mulr_sumr; apply: eq_bigr => b _; rewrite mulrACA.
apply: (@exp_val _ _ _ (\sum_a \sum_b (A k a * A l b) * (if (i == j) && (a == b) then 1 else 0))); last first.
  by apply: exp_sum => a; apply: exp_sum => b; apply: exp_scale; have := H2 _ _ (index_lt i a) (index_lt j b); rewrite index_inj.
case: (eqVneq i j) => [_|_] /=; last by rewrite big1 // => a _; rewrite big1 // => b _; rewrite mulr0.
rewrite -{1}(root_cov Hp He) mxE; apply: eq_bigr => a _; rewrite (bigD1 a) //= eqxx mulr1 big1 ?addr0 ?mxE //.
by move=> b /negbTE; rewrite eq_sym => ->; rewrite mulr0.
Qed.
End Nrand.

Delimit Scope R_scope with re.
(** Counting samples. *)
Lemma count_sum T (f : T -> bool) (l : list T) : INR (length (List.filter f l)) = \sum_(x <- l) one (f x).
Proof.
elim: l => [|x l IH]; first by rewrite big_nil.
rewrite big_cons -IH /=; case: (f x) => /=; last by rewrite /one add0r.
by rewrite -[length _]/(length _) -/(INR (length _).+1) S_INR /one Rplus_comm.
Qed.

Section Overlap.
Variables (W : Type) (X : expectation W).
Variables (mean : 'cV[R]_(2 + 2)) (V : 'M[R]_(2 + 2)) (d : 'rV[R]_(2 + 2)) (gen : nat -> W -> R) (k0 N : nat) (b : bbox) (p : R).
Let A := transform V d.
Let ev_in (z : 'cV[R]_(2 + 2)) : bool := b_within b (pos2 (mean + A *m z)).
Let hit (i : nat) (w : W) : R := one (ev_in (group (2 + 2) gen k0 i w)).
Let o (w : W) : R := drawn_overlap b mean V d (fun k => gen k w) k0 N.

Lemma overlap_sum w : o w = \sum_(i < N) (/ INR N)%re * hit i w.
Proof.
rewrite /o /drawn_overlap /overlap.
have -> : length (positions (nrand mean V d (gen^~ w) k0 N)) = N.
  by rewrite -[length _]/(size _) size_map size_enum_ord.
rewrite count_sum /positions big_map big_enum /= -mulr_sumr /Rdiv Rmult_comm; congr Rmult.
apply: eq_bigr => i _; rewrite /hit /ev_in; congr (one (b_within b _)).
by rewrite /pos2 /nrand !mxE.
Qed.

Hypothesis HN : (0 < N)%N.
Hypothesis Hi : independent X gen k0 N ev_in p.

Lemma INR_N : INR N <> R0.
Proof. by apply: not_0_INR => E; move: HN; rewrite E. Qed.

Lemma sum_const (c : R) : \sum_(i < N) c = (INR N * c)%re.
Proof.
rewrite big_const card_ord; elim: (N) => [|m IH]; first by rewrite /= Rmult_0_l.
by rewrite iterS IH S_INR -[GRing.add _ _]/(Rplus _ _); lra.
Qed.

Lemma overlap_mean : expected X o p.
Proof.
apply: (@exp_ext _ _ (fun w => \sum_(i < N) (/ INR N)%re * hit i w)); first by move=> w; rewrite overlap_sum.
apply: (@exp_val _ _ _ (\sum_(i < N) GRing.mul (/ INR N)%re p)).
  by rewrite sum_const -[GRing.mul _ _]/(Rmult _ _) -Rmult_assoc Rinv_r ?Rmult_1_l //; exact: INR_N.
by apply: exp_sum => i; apply: exp_scale; exact: (proj1 Hi).
Qed.

Lemma hit_sqr i w : hit i w * hit i w = hit i w.
Proof. by rewrite /hit /one; case: ev_in; rewrite ?mulr1 ?mulr0. Qed.

Lemma overlap_sqr : expected X (fun w => o w * o w) (p * p + / INR N * (p * (1 - p)))%re.
Proof.
apply: (@exp_ext _ _ (fun w => \sum_(i < N) \sum_(j < N) (/ INR N * / INR N)%re * (hit i w * hit j w))).
  move=> w; rewrite overlap_sum mulr_suml; apply: eq_bigr => i _; rewrite mulr_sumr; apply: eq_bigr => j _.
  by rewrite mulrACA.
apply: (@exp_val _ _ _ (\sum_(i < N) \sum_(j < N) GRing.mul (/ INR N * / INR N)%re (if i == j then p else (p * p)%re))).
  transitivity (\sum_(i < N) (/ INR N * / INR N * (p + (INR N - 1) * (p * p)))%re).
    apply: eq_bigr => i _; rewrite -mulr_sumr; congr GRing.mul; rewrite (bigD1 i) //= eqxx.
    have -> : \sum_(j < N | j != i) (if i == j then p else (p * p)%re) = \sum_(j < N | j != i) (p * p)%re.
      by apply: eq_bigr => j; rewrite eq_sym => /negbTE ->.
    have := sum_const (p * p)%re; rewrite (bigD1 i) //=; move: (\sum_(j < N | j != i) _) => s E.
    have {}E : (p * p + s = INR N * (p * p))%re := E.
    by change (p + s = p + (INR N - 1) * (p * p))%re; lra.
  rewrite sum_const; have := INR_N; move: (INR N) => M HM; field => //.
apply: exp_sum => i; apply: exp_sum => j; apply: exp_scale; case: (eqVneq i j) => [->|ne].
  by apply: (@exp_ext _ _ (hit j)); [move=> w; rewrite hit_sqr|exact: (proj1 Hi)].
by apply: (proj2 Hi _ _ (ltn_ord i) (ltn_ord j)) => E; move/eqP: ne; apply; apply: val_inj.
Qed.

Lemma overlap_var : expected X (fun w => (o w - p) * (o w - p)) (p * (1 - p) / INR N)%re.
Proof.
have H1 := overlap_mean; have H2 := overlap_sqr.
apply: (@exp_ext _ _ (fun w => (o w * o w) + ((-2 * p)%re * o w + (p * p)%re))).
  by move=> w; move: (o w) => x; change (x * x + (-2 * p * x + p * p) = (x - p) * (x - p))%re; ring.
have := exp_add H2 (exp_add (exp_scale (-2 * p)%re H1) (exp_const X (p * p)%re)).
apply: exp_val; change (p * p + / INR N * (p * (1 - p)) + (-2 * p * p + p * p) = p * (1 - p) * / INR N)%re; ring.
Qed.
End Overlap.

Lemma samples W (X : expectation W) n (mean : 'cV[R]_n) (P V : 'M[R]_n) d gen k0 cols :
  white X gen (k0 + cols * n) -> @psd RF _ P -> eigen P V d ->
  let S w := nrand mean V d (fun k => gen k w) k0 cols in
  (exists A : 'M[R]_n, A *m A^T = P /\ forall w (i : 'I_cols), col i (S w) = mean + A *m group n gen k0 i w) /\
  (forall k i, expected X (fun w => S w k i) (mean k 0)) /\
  (forall k l i j, expected X (fun w => (S w k i - mean k 0) * (S w l j - mean l 0)) (if i == j then P k l else 0)).
Proof.
move=> Hw Hp He S; split; [|split].
- exists (transform V d); split; first exact: root_cov.
  by move=> w i; apply/matrixP=> k j; rewrite !mxE !ord1; congr (_ + _); apply: eq_bigr => l _; rewrite !mxE.
- exact: nrand_mean.
- exact: nrand_cov.
Qed.

Lemma overlaps W (X : expectation W) (mean : 'cV[R]_(2 + 2)) (P V : 'M[R]_(2 + 2)) d gen k0 N :
  (0 < N)%N -> @psd RF _ P -> eigen P V d ->
  exists A : 'M[R]_(2 + 2), A *m A^T = P /\
  forall b p, independent X gen k0 N (fun z => b_within b (pos2 (mean + A *m z))) p ->
  let o w := drawn_overlap b mean V d (fun k => gen k w) k0 N in
  expected X o p /\
  expected X (fun w => (o w - p) * (o w - p)) (p * (1 - p) / INR N)%re /\
  forall pD0 fov orig, b = nebbox orig fov ->
    expected X (fun w => drawn_pD pD0 fov orig mean V d (fun k => gen k w) k0 N) (pD0 * p)%re.
Proof.
move=> HN Hp He; exists (transform V d); split; first exact: root_cov.
move=> b p Hi o; have Ho : expected X o p by exact: overlap_mean.
split=> //; split; first exact: overlap_var.
by move=> q fov orig E; apply: (@exp_ext _ _ (fun w => GRing.mul q (o w))); [move=> w; rewrite /drawn_pD /pD -E|exact: exp_scale].
Qed.
