(** C113: axis-aligned boxes in doubles (include/bbox.hpp:44-85, include/gm.hpp:57-77). *)
From Coq Require Import List Arith Lia ZArith Reals Lra.
From Flocq Require Import Core BinarySingleNaN.
From Coq Require Import Floats.
Import ListNotations.
From Verif Require Import Scalar FloatBase KalmanFloat BoxFloat BoxFloatSpec BoxFloatProofs.
Local Open Scope R_scope.

(** The box of a Gaussian is a box of numbers that holds the mean, rounding or not, and its
    edges are close to the exact ones for the frame that the solver gives. *)
Theorem C113_gaussian : forall nstd x e, some_std nstd -> placed x -> usable e ->
  let b := fbox_gaussian nstd x e in
  let dx := reach nstd (e_l0 e) (e_l1 e) (e_cu e) (e_cv e) in let dy := reach nstd (e_l0 e) (e_l1 e) (e_su e) (e_sv e) in
  numbers b /\ holds b (val (x 0%nat)) (val (x 1%nat)) /\
  Rabs (val (b_x0 b) - (val (x 0%nat) - dx)) <= edge_error (x 0%nat) dx /\ Rabs (val (b_x1 b) - (val (x 0%nat) + dx)) <= edge_error (x 0%nat) dx /\
  Rabs (val (b_y0 b) - (val (x 1%nat) - dy)) <= edge_error (x 1%nat) dy /\ Rabs (val (b_y1 b) - (val (x 1%nat) + dy)) <= edge_error (x 1%nat) dy.
Proof. exact gaussian_ok. Qed.
Print Assumptions C113_gaussian.

(** The box of a mixture is the smallest that covers the boxes of all components. *)
Theorem C113_mixture : forall solve nstd old cs, some_std nstd ->
  (forall w x P, In (w, (x, P)) cs -> placed x /\ usable (solve P)) -> cs <> [] ->
  let b := fgm_box solve nstd old cs in
  let boxes := map (fun c => fbox_gaussian nstd (fst (snd c)) (solve (snd (snd c)))) cs in
  numbers b /\ (forall c, In c boxes -> covers b c) /\
  (exists c, In c boxes /\ val (b_x0 b) = val (b_x0 c)) /\ (exists c, In c boxes /\ val (b_y0 b) = val (b_y0 c)) /\
  (exists c, In c boxes /\ val (b_x1 b) = val (b_x1 c)) /\ (exists c, In c boxes /\ val (b_y1 b) = val (b_y1 c)).
Proof. exact mixture_box_ok. Qed.
Print Assumptions C113_mixture.

(** Boxes of numbers intersect exactly when they have a point in common. *)
Theorem C113_intersects : forall a b, numbers a -> numbers b -> (exists px py, holds a px py) -> (exists px py, holds b px py) ->
  (fintersects a b = true <-> exists px py, holds a px py /\ holds b px py).
Proof.
  exact (fun a b Ha Hb Ea Eb => conj (intersects_point a b Ha Hb Ea Eb)
    (fun H => match H with ex_intro _ px (ex_intro _ py (conj H1 H2)) => intersects_ok a b px py Ha Hb H1 H2 end)).
Qed.
Print Assumptions C113_intersects.

(** Components at (1, 1) and (5, 5) with eigenvalues 1 and 4, two standard deviations. *)
Definition box_frame : frame := mkFrame 1 4 1 0 0 1.
Definition box_parts : list (float * (fvec * fmat)) :=
  [(0.25, (fun _ => 1, fun _ _ => 0)); (0.75, (fun _ => 5, fun _ _ => 0))]%float.
Definition whole : fbox := mkFbox neg_infinity neg_infinity infinity infinity.

Ltac number := match goal with
  | |- fin _ => apply fin_SF; reflexivity
  | |- val ?x = _ => let v := eval vm_compute in (Prim2SF x) in
      replace (val x) with (SF2R radix2 v) by (rewrite val_SF; reflexivity); unfold SF2R, F2R, cond_Zopp, Fnum, Fexp; simpl IZR; simpl bpow; lra end.
Lemma within_number x r b : fin x -> val x = r -> 0 <= r <= b -> within b x.
Proof. intros F V H. split; [exact F|]. rewrite V, Rabs_pos_eq; lra. Qed.

Example C113_example : some_std 2 /\ usable box_frame /\ (forall w x P, In (w, (x, P)) box_parts -> placed x) /\
  fbox_gaussian 2 (fun _ => 1%float) box_frame = mkFbox (-1) (-3) 3 5 /\
  fgm_box (fun _ => box_frame) 2 whole box_parts = mkFbox (-1) (-3) 7 9 /\
  fintersects (fgm_box (fun _ => box_frame) 2 whole box_parts) (mkFbox 7 0 8 1) = true /\
  fintersects (fgm_box (fun _ => box_frame) 2 whole box_parts) (mkFbox 7.5 0 8 1) = false.
Proof.
  assert (V0 : val 0%float = 0) by number. assert (V1 : val 1%float = 1) by number. assert (V2 : val 2%float = 2) by number.
  assert (V4 : val 4%float = 4) by number. assert (V5 : val 5%float = 5) by number.
  assert (B20 : 8 <= bpow radix2 20) by (change 8 with (bpow radix2 3); apply bpow_le; lia).
  assert (B200 : 8 <= bpow radix2 200) by (change 8 with (bpow radix2 3); apply bpow_le; lia).
  assert (B300 : 8 <= bpow radix2 300) by (change 8 with (bpow radix2 3); apply bpow_le; lia).
  split; [split; [apply (within_number _ 2); [number|exact V2|lra]|rewrite V2; lra]|].
  split.
  { unfold usable, box_frame. cbn [e_l0 e_l1 e_cu e_su e_cv e_sv]. rewrite V1, V4.
    split; [split; [apply (within_number _ 1); [number|exact V1|lra]|lra]|]. split; [split; [apply (within_number _ 4); [number|exact V4|lra]|lra]|].
    split; [apply (within_number _ 1); [number|exact V1|lra]|]. split; [apply (within_number _ 0); [number|exact V0|lra]|].
    split; [apply (within_number _ 0); [number|exact V0|lra]|]. apply (within_number _ 1); [number|exact V1|lra]. }
  split.
  { intros w x P [E|[E|[]]]; injection E as <- <- <-; split.
    - apply (within_number _ 1); [number|exact V1|lra].
    - apply (within_number _ 1); [number|exact V1|lra].
    - apply (within_number _ 5); [number|exact V5|lra].
    - apply (within_number _ 5); [number|exact V5|lra]. }
  repeat split; reflexivity.
Qed.

(** Outside these ranges: if rounding makes the smaller eigenvalue negative, the box of the
    component is not a number, std::min and std::max pass it over, and the box of the mixture
    shrinks to the position of the first component, without the other one. *)
Example C113_negative_eigenvalue :
  fgm_box (fun _ => mkFrame (-1e-20) 4 1 0 0 1) 2 whole box_parts = mkFbox 1 (1) 1 1.
Proof. vm_compute. reflexivity. Qed.
