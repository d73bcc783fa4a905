(** Statements about motion models, by coefficients. *)
From Coq Require Import List Arith Reals.
Import ListNotations.
From Verif Require Import Scalar CV.
Local Open Scope R_scope.

(** Two densities with the same weights, means and covariances. *)
Definition same_gauss (a b : gauss) : Prop :=
  gw a = gw b /\ (forall i, (i < 4)%nat -> gx a i = gx b i) /\
  forall i j, (i < 4)%nat -> (j < 4)%nat -> gP a i j = gP b i j.

Definition same_target (a b : tgt) : Prop :=
  t_r a = t_r b /\ Forall2 same_gauss (t_pdf a) (t_pdf b).

(** The quadratic form of a 4 x 4 matrix. *)
Definition form (A : mat) (v : vec) : R :=
  v 0%nat * (A 0%nat 0%nat * v 0%nat + A 0%nat 1%nat * v 1%nat + A 0%nat 2%nat * v 2%nat + A 0%nat 3%nat * v 3%nat)
  + v 1%nat * (A 1%nat 0%nat * v 0%nat + A 1%nat 1%nat * v 1%nat + A 1%nat 2%nat * v 2%nat + A 1%nat 3%nat * v 3%nat)
  + v 2%nat * (A 2%nat 0%nat * v 0%nat + A 2%nat 1%nat * v 1%nat + A 2%nat 2%nat * v 2%nat + A 2%nat 3%nat * v 3%nat)
  + v 3%nat * (A 3%nat 0%nat * v 0%nat + A 3%nat 1%nat * v 1%nat + A 3%nat 2%nat * v 2%nat + A 3%nat 3%nat * v 3%nat).

Definition symmetric (A : mat) : Prop :=
  forall i j, (i < 4)%nat -> (j < 4)%nat -> A i j = A j i.

Definition psd (A : mat) : Prop := symmetric A /\ forall v, 0 <= form A v.

Definition dev_ok (t : tgt) : Prop := Forall (fun g => psd (gP g)) (t_pdf t).

(** Motion with constant velocity for a time [dT], with noise of intensity [q]: a
    position coordinate [a] moves with its velocity [a + 2]; the covariance is that
    of x + dT * v, plus the integrated noise. *)
Definition moved (dT q : R) (g g' : gauss) : Prop :=
  gw g' = gw g /\
  (forall a, (a < 2)%nat -> gx g' a = gx g a + dT * gx g (a + 2)%nat /\ gx g' (a + 2)%nat = gx g (a + 2)%nat) /\
  (forall a b, (a < 2)%nat -> (b < 2)%nat ->
     let P := gP g in let d := if Nat.eqb a b then q else 0 in
     gP g' a b = P a b + dT * (P a (b + 2)%nat + P (a + 2)%nat b) + dT * dT * P (a + 2)%nat (b + 2)%nat + d * (dT * dT * dT / 3) /\
     gP g' a (b + 2)%nat = P a (b + 2)%nat + dT * P (a + 2)%nat (b + 2)%nat + d * (dT * dT / 2) /\
     gP g' (a + 2)%nat b = P (a + 2)%nat b + dT * P (a + 2)%nat (b + 2)%nat + d * (dT * dT / 2) /\
     gP g' (a + 2)%nat (b + 2)%nat = P (a + 2)%nat (b + 2)%nat + d * dT).

(** No motion; noise with covariance [Q] is added. *)
Definition stayed (Q : mat) (g g' : gauss) : Prop :=
  gw g' = gw g /\ (forall i, (i < 4)%nat -> gx g' i = gx g i) /\
  forall i j, (i < 4)%nat -> (j < 4)%nat -> gP g' i j = gP g i j + Q i j.
