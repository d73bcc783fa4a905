(** The augmenting row reduction (rlapjv.h:300-358) can take arbitrarily long on
    3 x 3 matrices: three rows bid for two cheap columns in steps of one. *)
From Coq Require Import List Arith ZArith Bool Reals Lra Lia.
Import ListNotations.
From Verif Require Import Res Scalar Lap LapSpec LapHom.
Local Open Scope Z_scope.

Definition slowD (M : Z) : list (ext Z) :=
  [Fin 0; Fin 0; Fin M; Fin 0; Fin 1; Fin M; Fin 0; Fin 2; Fin M].
Definition slowZ (M : Z) : matrix (ext Z) := mkMat 3 3 RowMajor (slowD M).

(** The state that comes back with lower prices. *)
Definition slowS (a : Z) : arr (T := ext Z) :=
  mkArr [0; 0; 1]%nat [Some 1; Some 0; Some 0]%nat [Some 2; Some 0; None]%nat [Fin (- a - 2); Fin (- a); Fin 0] 2 0.

Ltac zcase :=
  try match goal with
  | |- context [Z.ltb ?a ?b] => destruct (Z.ltb_spec a b); try lia
  | |- context [Z.leb ?a ?b] => destruct (Z.leb_spec a b); try lia
  | |- context [Z.eqb ?a ?b] => destruct (Z.eqb_spec a b); try lia
  end.
Ltac step := repeat (cbv - [Z.ltb Z.leb Z.eqb Z.add Z.sub Z.opp]; progress zcase).

Lemma build_plain simd i C v : find_umins extZ simd 3 i C v = find_umins extZ false 3 i C v.
Proof. unfold find_umins. destruct simd; reflexivity. Qed.
Lemma step_plain simd C s : arr_step extZ simd 3 C s = arr_step extZ false 3 C s.
Proof. unfold arr_step. destruct (get (a_free s) (a_k s)); cbn [bind]; auto. rewrite build_plain. reflexivity. Qed.

Definition slow1 (a : Z) : arr (T := ext Z) :=
  mkArr [0; 0; 0]%nat [Some 1; Some 1; Some 0]%nat [Some 2; Some 1; None]%nat [Fin (- a - 2); Fin (- a - 1); Fin 0] 2 0.
Definition slow2 (a : Z) : arr (T := ext Z) :=
  mkArr [0; 0; 1]%nat [Some 1; Some 1; Some 0]%nat [Some 2; Some 0; None]%nat [Fin (- a - 2); Fin (- a - 2); Fin 0] 2 0.
Definition slow3 (a : Z) : arr (T := ext Z) :=
  mkArr [0; 0; 2]%nat [Some 1; Some 0; Some 0]%nat [Some 1; Some 0; None]%nat [Fin (- a - 3); Fin (- a - 2); Fin 0] 2 0.

Ltac eqfin := repeat (f_equal; try lia).
Section Slow.
Variable M : Z.
Variable simd : bool.
Lemma s1 a : 0 <= a -> a + 8 < M -> arr_step extZ simd 3 (slowD M) (slowS a) = Ok (slow1 a).
Proof. intros Ha HM. rewrite step_plain. unfold slowS, slow1, slowD. step. eqfin. Qed.
Lemma s2 a : 0 <= a -> a + 8 < M -> arr_step extZ simd 3 (slowD M) (slow1 a) = Ok (slow2 a).
Proof. intros Ha HM. rewrite step_plain. unfold slow2, slow1, slowD. step. eqfin. Qed.
Lemma s3 a : 0 <= a -> a + 8 < M -> arr_step extZ simd 3 (slowD M) (slow2 a) = Ok (slow3 a).
Proof. intros Ha HM. rewrite step_plain. unfold slow2, slow3, slowD. step. eqfin. Qed.
Lemma s4 a : 0 <= a -> a + 8 < M -> arr_step extZ simd 3 (slowD M) (slow3 a) = Ok (slowS (a + 2)).
Proof. intros Ha HM. rewrite step_plain. unfold slowS, slow3, slowD. step. eqfin. Qed.

Lemma loop_step fuel s s' : (a_k s < 3)%nat -> arr_step extZ simd 3 (slowD M) s = Ok s' ->
  arr_loop extZ simd (S fuel) 3 (slowD M) 3 s = arr_loop extZ simd fuel 3 (slowD M) 3 s'.
Proof. intros Hk E. simpl. apply Nat.ltb_lt in Hk. rewrite Hk, E. reflexivity. Qed.
Lemma loop_end s : (a_k s < 3)%nat -> arr_loop extZ simd 0 3 (slowD M) 3 s = OutOfFuel.
Proof. intros Hk. simpl. apply Nat.ltb_lt in Hk. rewrite Hk. reflexivity. Qed.

Lemma slow_loop fuel : forall a, 0 <= a -> a + 2 * Z.of_nat fuel + 8 < M ->
  arr_loop extZ simd fuel 3 (slowD M) 3 (slowS a) = OutOfFuel.
Proof.
  assert (L : forall k, (k < 3)%nat -> (k < 3)%nat) by auto.
  induction fuel as [fuel IH] using lt_wf_ind. intros a Ha HM.
  destruct fuel as [|fuel]; [apply loop_end; simpl; lia|]. rewrite (loop_step fuel _ (slow1 a)); [|simpl; lia|apply s1; lia].
  destruct fuel as [|fuel]; [apply loop_end; simpl; lia|]. rewrite (loop_step fuel _ (slow2 a)); [|simpl; lia|apply s2; lia].
  destruct fuel as [|fuel]; [apply loop_end; simpl; lia|]. rewrite (loop_step fuel _ (slow3 a)); [|simpl; lia|apply s3; lia].
  destruct fuel as [|fuel]; [apply loop_end; simpl; lia|]. rewrite (loop_step fuel _ (slowS (a + 2))); [|simpl; lia|apply s4; lia].
  apply IH; lia.
Qed.

(** The first four steps. *)
Definition i0 : arr (T := ext Z) := mkArr (seq 0 3) (repeat None 3) (repeat None 3) (repeat (Fin 0) 3) 0 0.
Definition i1 : arr (T := ext Z) := mkArr [0; 1; 2]%nat [Some 0%nat; None; None] [Some 0%nat; None; None] [Fin 0; Fin 0; Fin 0] 1 0.
Definition i2 : arr (T := ext Z) := mkArr [0; 0; 2]%nat [Some 0; Some 0; None]%nat [Some 1%nat; None; None] [Fin (-1); Fin 0; Fin 0] 1 0.
Definition i3 : arr (T := ext Z) := mkArr [0; 0; 2]%nat [Some 1; Some 0; None]%nat [Some 1; Some 0; None]%nat [Fin (-1); Fin (-1); Fin 0] 2 0.
Lemma t1 : 8 < M -> arr_step extZ simd 3 (slowD M) i0 = Ok i1.
Proof. intros HM. rewrite step_plain. unfold i0, i1, slowD. step. eqfin. Qed.
Lemma t2 : 8 < M -> arr_step extZ simd 3 (slowD M) i1 = Ok i2.
Proof. intros HM. rewrite step_plain. unfold i2, i1, slowD. step. eqfin. Qed.
Lemma t3 : 8 < M -> arr_step extZ simd 3 (slowD M) i2 = Ok i3.
Proof. intros HM. rewrite step_plain. unfold i2, i3, slowD. step. eqfin. Qed.
Lemma t4 : 8 < M -> arr_step extZ simd 3 (slowD M) i3 = Ok (slowS 1).
Proof. intros HM. rewrite step_plain. unfold slowS, i3, slowD. step. eqfin. Qed.

Lemma slow_pass fuel : 2 * Z.of_nat fuel + 10 < M ->
  arr_pass extZ simd fuel 3 (slowD M) (mkArr (seq 0 3) (repeat None 3) (repeat None 3) (repeat (Fin 0) 3) 0 3) = OutOfFuel.
Proof.
  intros HM. unfold arr_pass. cbn [a_numfree a_free a_rowsol a_colsol a_v]. fold i0.
  destruct fuel as [|fuel]; [apply loop_end; simpl; lia|]. rewrite (loop_step fuel _ i1); [|simpl; lia|apply t1; lia].
  destruct fuel as [|fuel]; [apply loop_end; simpl; lia|]. rewrite (loop_step fuel _ i2); [|simpl; lia|apply t2; lia].
  destruct fuel as [|fuel]; [apply loop_end; simpl; lia|]. rewrite (loop_step fuel _ i3); [|simpl; lia|apply t3; lia].
  destruct fuel as [|fuel]; [apply loop_end; simpl; lia|]. rewrite (loop_step fuel _ (slowS 1)); [|simpl; lia|apply t4; lia].
  apply slow_loop; lia.
Qed.

Lemma slow_hall : hall_check extZ (slowZ M) = Ok true.
Proof. reflexivity. Qed.

Lemma slow_lap fuel : 2 * Z.of_nat fuel + 10 < M -> lap_build extZ simd fuel (slowZ M) = OutOfFuel.
Proof.
  intros HM. unfold lap_build. rewrite slow_hall. cbn [bind slowZ m_rows m_cols m_data]. unfold rlap.
  change (n0 extZ) with (Fin 0). rewrite slow_pass by auto. reflexivity.
Qed.
End Slow.

(** From integers to reals. *)
Definition ofZ (x : ext Z) : ext R := match x with Fin a => Fin (IZR a) | PInf => PInf | NInf => NInf | NaN => NaN end.
Lemma ofZ_lt x y : nlt extR (ofZ x) (ofZ y) = nlt extZ x y.
Proof.
  destruct x as [a| | |], y as [b| | |]; auto. cbn. destruct (Rltb_spec (IZR a) (IZR b)) as [H|H], (Z.ltb_spec a b); auto; exfalso.
  - apply lt_IZR in H. lia.
  - apply H. apply IZR_lt. auto.
Qed.
Lemma ofZ_eq x y : neq extR (ofZ x) (ofZ y) = neq extZ x y.
Proof.
  destruct x as [a| | |], y as [b| | |]; auto. cbn. destruct (Reqb_spec (IZR a) (IZR b)) as [H|H], (Z.eqb_spec a b); auto; exfalso.
  - apply eq_IZR in H. auto.
  - apply H. subst; auto.
Qed.
Lemma ofZ_le x y : nle extR (ofZ x) (ofZ y) = nle extZ x y.
Proof.
  change (nle extR (ofZ x) (ofZ y)) with (nlt extR (ofZ x) (ofZ y) || neq extR (ofZ x) (ofZ y)).
  change (nle extZ x y) with (nlt extZ x y || neq extZ x y). rewrite ofZ_lt, ofZ_eq. reflexivity.
Qed.
Lemma ofZ_add x y : nadd extR (ofZ x) (ofZ y) = ofZ (nadd extZ x y).
Proof. destruct x as [a| | |], y as [b| | |]; auto. cbn. rewrite plus_IZR. reflexivity. Qed.
Lemma ofZ_sub x y : nsub extR (ofZ x) (ofZ y) = ofZ (nsub extZ x y).
Proof. destruct x as [a| | |], y as [b| | |]; auto. cbn. rewrite plus_IZR, opp_IZR. reflexivity. Qed.
Lemma ofZ_isinf x : nisinf extR (ofZ x) = nisinf extZ x.
Proof. destruct x; auto. Qed.
Lemma ofZ_run simd fuel C : lap_build extR simd fuel (pm ofZ C) = rmap (pl ofZ) (lap_build extZ simd fuel C).
Proof. apply lap_build_map; auto using ofZ_lt, ofZ_eq, ofZ_le, ofZ_add, ofZ_sub, ofZ_isinf. Qed.

(** The matrix of reals. *)
Definition slow (M : Z) : matrix (ext R) := mkMat 3 3 RowMajor
  (let L := Fin (IZR M) in [Fin 0; Fin 0; L; Fin 0; Fin 1; L; Fin 0; Fin 2; L])%R.
Lemma slow_run simd fuel : lap_build extR simd fuel (slow (2 * Z.of_nat fuel + 11)) = OutOfFuel.
Proof.
  change (slow (2 * Z.of_nat fuel + 11)) with (pm ofZ (slowZ (2 * Z.of_nat fuel + 11))).
  rewrite ofZ_run, slow_lap by lia. reflexivity.
Qed.
Lemma slow_cost M : cost_matrix (slow M).
Proof.
  split; [reflexivity|]. intros x Hx. simpl in Hx.
  repeat (destruct Hx as [<-|Hx]; [left; eexists; reflexivity|]). destruct Hx.
Qed.
Lemma slow_feasible M : feasible (slow M) [0; 1; 2]%nat.
Proof.
  split; [split; [reflexivity|split]|].
  - repeat constructor; simpl; lia.
  - simpl. intros j Hj. repeat (destruct Hj as [<-|Hj]; [lia|]). destruct Hj.
  - intros i Hi. simpl in Hi. destruct i as [|[|[|i]]]; try lia; eexists; reflexivity.
Qed.
