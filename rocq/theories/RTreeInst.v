(** The spatial index over the real numbers: the proofs of RTreeProofs apply. *)
From Coq Require Import List Arith NArith Bool Reals Lra Lia Permutation.
Import ListNotations.
From Verif Require Import Res Scalar LapBase RTree RTreeSpec RTreeSplit RTreeProofs RTreeIter.
Local Open Scope nat_scope.

(** Finite coordinates. *)
Definition finite (x : ext R) : Prop := exists a, x = Fin a.

(** sqrt on non-negative numbers *)
Definition sqrtE (x : ext R) : ext R :=
  match x with Fin a => if Rltb a 0 then NaN else Fin (sqrt a) | PInf => PInf | NInf => NaN | NaN => NaN end.

(** CalcRectVolume over the reals, for a given volume of the unit sphere. *)
Definition volR (unit : R) : rect (ext R) -> ext R := spherical extR (Fin (/ 2)%R) (Fin unit) sqrtE.

Lemma mul_FF a b : nmul extR (Fin a) (Fin b) = Fin (a * b)%R.
Proof. reflexivity. Qed.

Lemma le_FF_iff a b : le extR (Fin a) (Fin b) <-> (a <= b)%R.
Proof. unfold le. rewrite lt_FF. destruct (Rltb_spec b a); split; intros; try discriminate; auto; lra. Qed.

Section Inst.
Variable unit : R.
Hypothesis unit_pos : (0 < unit)%R.

Definition vol_value (x0 y0 x1 y1 : R) : R :=
  (unit * (((x1 - x0) / 2) * ((x1 - x0) / 2) + ((y1 - y0) / 2) * ((y1 - y0) / 2)))%R.

Lemma vol_FF x0 y0 x1 y1 : volR unit (mkRect (Fin x0) (Fin y0) (Fin x1) (Fin y1)) = Fin (vol_value x0 y0 x1 y1).
Proof.
  unfold volR, spherical. cbn [min0 min1 max0 max1]. rewrite !sub_FF, !mul_FF.
  change (n0 extR) with (Fin 0%R). rewrite !add_FF. unfold sqrtE.
  match goal with |- context [Rltb ?x 0] => set (q := x) end.
  assert (Hq : (0 <= q)%R).
  { unfold q. pose proof (Rle_0_sqr ((x1 - x0) * / 2)). pose proof (Rle_0_sqr ((y1 - y0) * / 2)). unfold Rsqr in *. lra. }
  destruct (Rltb_spec q 0); [lra|]. rewrite !mul_FF. f_equal. rewrite sqrt_sqrt by auto. unfold q, vol_value, Rdiv. ring.
Qed.

Lemma lt_asymR x y : finite x -> finite y -> nlt extR x y = true -> nlt extR y x = false.
Proof. intros (a & ->) (b & ->). rewrite !lt_FF. destruct (Rltb_spec a b), (Rltb_spec b a); intros; auto; try discriminate. lra. Qed.
Lemma le_transR x y z : finite x -> finite y -> finite z -> le extR x y -> le extR y z -> le extR x z.
Proof. intros (a & ->) (b & ->) (c & ->). rewrite !le_FF_iff. lra. Qed.

Lemma fmin_FF a b : fmin extR (Fin a) (Fin b) = Fin (Rmin a b).
Proof. unfold fmin. rewrite lt_FF. unfold Rmin. destruct (Rltb_spec b a), (Rle_dec a b); auto; f_equal; lra. Qed.
Lemma fmax_FF a b : fmax extR (Fin a) (Fin b) = Fin (Rmax a b).
Proof. unfold fmax. rewrite lt_FF. unfold Rmax. destruct (Rltb_spec a b), (Rle_dec a b); auto; f_equal; lra. Qed.

Lemma good_FF r : good extR finite r -> exists x0 y0 x1 y1,
  r = mkRect (Fin x0) (Fin y0) (Fin x1) (Fin y1) /\ (x0 <= x1)%R /\ (y0 <= y1)%R.
Proof.
  destruct r as [a b c d]. intros (((x0 & A) & (y0 & B) & (x1 & C) & (y1 & E)) & H1 & H2). cbn [min0 min1 max0 max1] in *. subst.
  rewrite le_FF_iff in H1, H2. exists x0, y0, x1, y1. auto.
Qed.

Lemma combine_FF x0 y0 x1 y1 u0 v0 u1 v1 :
  combine_rect extR (mkRect (Fin x0) (Fin y0) (Fin x1) (Fin y1)) (mkRect (Fin u0) (Fin v0) (Fin u1) (Fin v1)) =
  mkRect (Fin (Rmin x0 u0)) (Fin (Rmin y0 v0)) (Fin (Rmax x1 u1)) (Fin (Rmax y1 v1)).
Proof. unfold combine_rect. cbn [min0 min1 max0 max1]. rewrite !fmin_FF, !fmax_FF. reflexivity. Qed.

Lemma n1_R : n1 extR = Fin 1%R.
Proof. reflexivity. Qed.

Lemma diff_okR b c0 c1 : good extR finite b -> good extR finite c0 -> good extR finite c1 ->
  let g0 := nsub extR (volR unit (combine_rect extR b c0)) (volR unit c0) in
  let g1 := nsub extR (volR unit (combine_rect extR b c1)) (volR unit c1) in
  let d := nsub extR g1 g0 in
  if nle extR (n0 extR) d then nlt extR (nsub extR (n0 extR) (n1 extR)) d = true
  else nlt extR (nsub extR (n0 extR) (n1 extR)) (nsub extR (n0 extR) d) = true.
Proof.
  intros Hb H0 H1. destruct (good_FF _ Hb) as (? & ? & ? & ? & -> & _). destruct (good_FF _ H0) as (? & ? & ? & ? & -> & _).
  destruct (good_FF _ H1) as (? & ? & ? & ? & -> & _). cbv zeta. rewrite !combine_FF, !vol_FF, !sub_FF, n1_R.
  change (n0 extR) with (Fin 0%R). rewrite !sub_FF, le_FF, !lt_FF.
  match goal with |- context [Rleb 0 ?x] => set (d := x) end.
  destruct (Rleb_spec 0 d); [destruct (Rltb_spec (0 - 1) d)|destruct (Rltb_spec (0 - 1) (0 - d))]; auto; lra.
Qed.

Lemma sq_mono a b : (0 <= a <= b)%R -> (a * a <= b * b)%R.
Proof. intros H. apply Rmult_le_compat; lra. Qed.

Lemma vol_mono x0 y0 x1 y1 u0 v0 u1 v1 : (x0 <= u0)%R -> (u0 <= u1)%R -> (u1 <= x1)%R ->
  (y0 <= v0)%R -> (v0 <= v1)%R -> (v1 <= y1)%R -> (vol_value u0 v0 u1 v1 <= vol_value x0 y0 x1 y1)%R.
Proof.
  intros. unfold vol_value. apply Rmult_le_compat_l; [lra|]. apply Rplus_le_compat; apply sq_mono; lra.
Qed.

Lemma seed_okR a b c : good extR finite a -> good extR finite b -> good extR finite c ->
  contains (le extR) c a -> contains (le extR) c b ->
  nlt extR (nsub extR (nsub extR (n0 extR) (volR unit c)) (n1 extR))
        (nsub extR (nsub extR (volR unit (combine_rect extR a b)) (volR unit a)) (volR unit b)) = true.
Proof.
  intros Ha Hb Hc _ Hcb.
  destruct (good_FF _ Ha) as (a0 & a1 & a2 & a3 & -> & A1 & A2).
  destruct (good_FF _ Hb) as (b0 & b1 & b2 & b3 & -> & B1 & B2).
  destruct (good_FF _ Hc) as (c0 & c1 & c2 & c3 & -> & C1 & C2).
  destruct Hcb as (K1 & K2 & K3 & K4). cbn [min0 min1 max0 max1] in *. rewrite le_FF_iff in K1, K2, K3, K4.
  rewrite combine_FF, !vol_FF, n1_R. change (n0 extR) with (Fin 0%R). rewrite !sub_FF, lt_FF.
  assert (V1 : (vol_value b0 b1 b2 b3 <= vol_value c0 c1 c2 c3)%R) by (apply vol_mono; auto).
  assert (V2 : (vol_value a0 a1 a2 a3 <= vol_value (Rmin a0 b0) (Rmin a1 b1) (Rmax a2 b2) (Rmax a3 b3))%R).
  { apply vol_mono; auto using Rmin_l, Rmax_l. }
  match goal with |- Rltb ?x ?y = _ => destruct (Rltb_spec x y) end; auto. lra.
Qed.

Context {D : Type} (deq : D -> D -> bool).
Hypothesis deq_spec : forall a b, deq a b = true <-> a = b.
Notation leR := (le extR).
Notation goodR := (good extR finite).
Notation fineR := (fine finite).
Notation runR := (run extR deq (volR unit)).

Lemma run_R ops : Forall (op_good goodR fineR) ops ->
  exists root, runR empty ops = Ok root /\ balanced leR goodR root /\ history leR ops (entries root).
Proof. apply (run_spec extR deq (volR unit) finite lt_asymR le_transR diff_okR seed_okR deq_spec). Qed.

Lemma search_R q (root : node (ext R) D) : fineR q -> balanced leR goodR root ->
  exists l, search extR q root = Ok l /\ selects leR q (entries root) l.
Proof.
  intros Hq Hb. eexists. split; [apply (search_spec extR finite lt_asymR le_transR q root Hq Hb)|].
  exists (filter (fun e => overlap extR q (fst e)) (entries root)), (filter (fun e => negb (overlap extR q (fst e))) (entries root)).
  split; [|split; [reflexivity|split]].
  - induction (entries root) as [|e l IH]; simpl; auto. destruct (overlap extR q (fst e)); simpl; [constructor; auto|].
    rewrite IH at 1. apply Permutation_middle.
  - apply Forall_forall. intros e He. apply filter_In in He. apply overlap_touches. tauto.
  - apply Forall_forall. intros e He Ht. apply filter_In in He. apply overlap_touches in Ht. rewrite Ht in He. destruct He; discriminate.
Qed.

Lemma remove_R r d root : fineR r -> balanced leR goodR root ->
  exists root', remove extR deq (volR unit) r d root = Ok root' /\ balanced leR goodR root' /\
    ((exists r0, Permutation (entries root) ((r0, d) :: entries root')) \/
     (root' = root /\ forall r0, In (r0, d) (entries root) -> ~ touches leR r r0)).
Proof.
  intros Hr Hb. pose proof (remove_spec extR deq (volR unit) finite lt_asymR le_transR diff_okR seed_okR deq_spec r d root Hr Hb) as Hw.
  destruct (remove _ _ _ _ _ _) as [root'| |]; cbn [wp] in Hw; [exists root'; tauto|contradiction|contradiction].
Qed.

Lemma insert_R r d (root : node (ext R) D) : goodR r -> balanced leR goodR root ->
  exists root', insert extR (volR unit) r d root = Ok root' /\ balanced leR goodR root' /\
     Permutation (entries root') ((r, d) :: entries root).
Proof.
  intros Hr Hb. pose proof (insert_spec extR (volR unit) finite lt_asymR le_transR diff_okR seed_okR r d root Hr Hb) as Hw.
  destruct (insert _ _ _ _ _) as [root'| |]; cbn [wp] in Hw; [exists root'; tauto|contradiction|contradiction].
Qed.

Lemma entries_goodR (root : node (ext R) D) : balanced leR goodR root -> Forall (fun e => goodR (fst e)) (entries root).
Proof.
  intros (H & _). apply (bb_all_good extR finite) in H. unfold entries. apply Forall_forall. intros e He.
  rewrite Forall_forall in H. apply H. apply in_map. exact He.
Qed.

Lemma touches_self r : goodR r -> touches leR r r.
Proof. intros (_ & H1 & H2). repeat split; auto. Qed.
End Inst.

(** ** Height *)
Section Height.
Context {T D : Type} (le : T -> T -> Prop) (good : rect T -> Prop).
Notation bb := (balanced_branch (D := D) le good).

Lemma below_count lv : forall b, bb lv b -> (4 ^ N.of_nat lv <= N.of_nat (length (below lv b)))%N.
Proof.
  induction lv as [|lv IH]; intros b Hb.
  - destruct Hb as [(d & E) _]. simpl. rewrite E. simpl. lia.
  - cbn [balanced_branch] in Hb. destruct Hb as (bs & E & Hl & _ & _ & Hbs). cbn [below]. rewrite E.
    assert (H : (N.of_nat (length bs) * 4 ^ N.of_nat lv <= N.of_nat (length (flat_map (below lv) bs)))%N).
    { clear E Hl. induction Hbs as [|b' bs Hb' _ IHbs]; [simpl; lia|]. cbn [flat_map length].
      rewrite app_length, Nat2N.inj_succ, Nat2N.inj_add, N.mul_succ_l. specialize (IH b' Hb'). lia. }
    rewrite Nat2N.inj_succ, N.pow_succ_r'.
    assert (4 <= N.of_nat (length bs))%N by lia.
    etransitivity; [|exact H]. apply N.mul_le_mono_r. auto.
Qed.

Lemma height (root : node T D) : balanced le good root -> (N.of_nat (length (entries root)) < 2 ^ 65)%N -> fst root < 32.
Proof.
  intros (Hbs & Hlen & Hne) Hc. destruct (Nat.lt_ge_cases (fst root) 32) as [|Hge]; auto. exfalso.
  specialize (Hne ltac:(lia)).
  assert (H : (N.of_nat (length (snd root)) * 4 ^ N.of_nat (fst root) <= N.of_nat (length (entries root)))%N).
  { unfold entries. clear Hlen Hne Hc. induction Hbs as [|b' bs Hb' _ IHbs]; [simpl; lia|]. cbn [flat_map length].
    rewrite app_length, Nat2N.inj_succ, Nat2N.inj_add, N.mul_succ_l. pose proof (below_count _ _ Hb'). lia. }
  assert (H32 : (4 ^ 32 <= 4 ^ N.of_nat (fst root))%N) by (apply N.pow_le_mono_r; lia).
  assert (H2 : (2 <= N.of_nat (length (snd root)))%N) by lia.
  assert (H3 : (2 * 4 ^ 32 <= N.of_nat (length (snd root)) * 4 ^ N.of_nat (fst root))%N) by (apply N.mul_le_mono; auto).
  assert (E65 : (2 * 4 ^ 32 = 2 ^ 65)%N) by reflexivity. lia.
Qed.
End Height.
