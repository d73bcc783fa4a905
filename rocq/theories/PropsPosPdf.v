(** Property C109: the density of a target at points. *)
From Coq Require Import List Reals Lra Lia.
Import ListNotations.
From Interval Require Import Tactic.
From Verif Require Import PosPdf PosPdfSpec PosPdfProofs.
Local Open Scope R_scope.

(** Every point gets the existence probability times, for each component, its weight
    times the point's share of the Gaussian density of the component over the points.
    The call throws exactly when a covariance is not positive definite. *)
Theorem C109_shares : forall r cs points res, Forall symmetric cs -> length res = length points ->
  (pos_phd r cs points res = None <-> ~ Forall definite cs) /\
  (forall out, pos_phd r cs points res = Some out ->
     length out = length points /\
     (forall k, (k < length points)%nat -> nth k out 0 = nth k res 0 + r * sum_at (fun c => pc_w c * part c points (nth k points (0, 0))) cs) /\
     total out = total res + r * sum_at (fun c => if Rlt_dec (1 / 10000000) (sum_at (density c) points) then pc_w c else 0) cs).
Proof. exact phd_value. Qed.
Print Assumptions C109_shares.

(** What is added is not negative and adds up to at most the existence probability times
    the weights, and to just that when every component is [near] the points. *)
Theorem C109_total : forall r cs points res out, Forall symmetric cs -> length res = length points -> 0 <= r -> (forall c, In c cs -> 0 <= pc_w c) ->
  pos_phd r cs points res = Some out ->
  (forall k, (k < length points)%nat -> nth k res 0 <= nth k out 0 <= nth k res 0 + r * sum_at pc_w cs) /\
  total res <= total out <= total res + r * sum_at pc_w cs /\
  (Forall (near points) cs -> total out = total res + r * sum_at pc_w cs).
Proof. exact phd_bounds. Qed.
Print Assumptions C109_total.

(** Two components, correlated and not, near two points. *)
Example C109_example :
  let cs := [mkPC (1 / 4) (0, 0) 4 2 2 2; mkPC (3 / 4) (1, 1) 1 0 0 1] in let points := [(0, 1); (2, 1)] in
  Forall symmetric cs /\ Forall definite cs /\ (forall c, In c cs -> 0 <= pc_w c) /\ Forall (near points) cs /\
  exists out, pos_phd (1 / 2) cs points [0; 1] = Some out /\ total out = 3 / 2.
Proof.
  intros cs points.
  assert (S : Forall symmetric cs) by (repeat constructor).
  assert (D : Forall definite cs).
  { constructor; [|constructor; [|constructor]]; apply definite_det; try reflexivity; unfold det; cbn; lra. }
  assert (W : forall c, In c cs -> 0 <= pc_w c) by (intros c [<-|[<-|[]]]; cbn; lra).
  assert (Nr : Forall (near points) cs).
  { constructor; [|constructor; [|constructor]]; unfold near, sum_at, density, det; cbn; interval. }
  split; auto. split; auto. split; auto. split; auto.
  destruct (phd_value (1 / 2) cs points [0; 1] S eq_refl) as [[H1 _] _]. destruct (pos_phd (1 / 2) cs points [0; 1]) as [out|] eqn:E; [|exfalso; apply (H1 eq_refl D)].
  exists out. split; auto. destruct (phd_bounds (1 / 2) cs points [0; 1] out S eq_refl ltac:(lra) W E) as (_ & _ & H). rewrite (H Nr). unfold total, sum_at. cbn. lra.
Qed.

(** A covariance without extent: the call throws. *)
Example C109_throws : pos_phd 1 [mkPC 1 (0, 0) 1 1 1 1] [(0, 0)] [0] = None.
Proof.
  apply (phd_value 1 [mkPC 1 (0, 0) 1 1 1 1] [(0, 0)] [0]); [repeat constructor|reflexivity|].
  intros H. inversion H as [|c l D _]; subst. apply definite_det in D; [|reflexivity]. unfold det in D. cbn in D. lra.
Qed.
