(** Covariances and Gaussian densities. *)
From mathcomp Require Import all_ssreflect ssralg ssrnum zmodp matrix mxalgebra.
Set Implicit Arguments. Unset Strict Implicit. Unset Printing Implicit Defensive.
Import GRing.Theory Num.Theory Order.Theory.
Local Open Scope ring_scope.

Section KalmanSpec.
Variable F : realFieldType.

(** v^T A v *)
Definition qf n (A : 'M[F]_n) (v : 'cV[F]_n) : F := \sum_i \sum_j v i 0 * A i j * v j 0.

Definition psd n (A : 'M[F]_n) : Prop :=
  (forall i j, A i j = A j i) /\ forall v, 0 <= qf A v.
Definition pd n (A : 'M[F]_n) : Prop :=
  (forall i j, A i j = A j i) /\ forall v, v != 0 -> 0 < qf A v.

(** [B] is the inverse of [A]. *)
Definition inverse n (A B : 'M[F]_n) : Prop := A *m B = 1%:M /\ B *m A = 1%:M.

(** Squared Mahalanobis distance of the state [y] to the prior mean [x] and of its
    image under [H] to the measurement [z], given the inverse covariances. *)
Definition distance n m (x : 'cV[F]_n) (W : 'M[F]_n) (H : 'M[F]_(m, n)) (z : 'cV[F]_m)
  (V : 'M[F]_m) (y : 'cV[F]_n) : F := qf W (y - x) + qf V (z - H *m y).

(** The density of the normal distribution with mean [x] and the inverse [W] of
    the covariance at [y], given functions in the place of exp and sqrt. *)
Definition normal (expf sqrtf : F -> F) (pi : F) n (x : 'cV[F]_n) (W : 'M[F]_n) (y : 'cV[F]_n) : F :=
  expf (- (qf W (y - x) / 2%:R)) * sqrtf (\det W / (2%:R * pi) ^+ n).
End KalmanSpec.
