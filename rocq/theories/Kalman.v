(** Model of the Kalman filter step of one Gaussian component:
    include/gaussian.hpp:30-42 [correct], 68-78 [linear_update],
    include/report.hpp:33-37 [likelihood], include/sensors.hpp:38-41 [measurement].

    Matrices of any dimension over any ordered field stand for Eigen matrices of
    doubles (no rounding).  [expf], [sqrtf] and [pi] are std::exp, std::sqrt and
    M_PI.  The factor pD(component, origin) of sensors.hpp:43-46 is an input.
    [invmx] is Eigen's inverse(); on a singular matrix the two differ, and the
    theorems show that no singular matrix is inverted.

    gaussian.hpp:34 binds K as an unevaluated Eigen product that refers to P; it is
    read twice, at lines 38 and 39, both before P changes, because a product
    subtracted from its own operand is first evaluated to a temporary. *)
From mathcomp Require Import all_ssreflect ssralg ssrnum zmodp matrix mxalgebra.
Set Implicit Arguments. Unset Strict Implicit. Unset Printing Implicit Defensive.
Import GRing.Theory Num.Theory Order.Theory.
Local Open Scope ring_scope.

Section Kalman.
Variable F : realFieldType.
Variables expf sqrtf : F -> F.
Variable pi : F.

(** gaussian.hpp:18-19 *)
Record gaussian (n : nat) := Gaussian { mean : 'cV[F]_n; cov : 'M[F]_n; weight : F }.

(** report.hpp:18-20: a report is a Gaussian with a clutter density. *)
Record report (m : nat) := Report { rmean : 'cV[F]_m; rcov : 'M[F]_m; kappa : F }.

(** report.hpp:33-37 *)
Definition likelihood m (dz : 'cV[F]_m) (Dinv : 'M[F]_m) : F :=
  expf (- (dz^T *m Dinv *m dz) 0 0 * 2%:R^-1) * sqrtf (\det Dinv / (2%:R * pi) ^+ m).

(** The matrix inverted at gaussian.hpp:33. *)
Definition innovation n m (H : 'M[F]_(m, n)) (g : gaussian n) (z : report m) : 'M[F]_m :=
  H *m cov g *m H^T + rcov z.

(** gaussian.hpp:34 *)
Definition gain n m (H : 'M[F]_(m, n)) (g : gaussian n) (z : report m) : 'M[F]_(n, m) :=
  cov g *m H^T *m invmx (innovation H g z).

(** gaussian.hpp:30-42 *)
Definition correct n m (H : 'M[F]_(m, n)) (pD : F) (z : report m) (g : gaussian n) : gaussian n :=
  let dz := rmean z - H *m mean g in
  let Dinv := invmx (innovation H g z) in
  let K := gain H g z in
  Gaussian (mean g + K *m dz) (cov g - K *m H *m cov g)
           (weight g * (pD * likelihood dz Dinv / kappa z)).

(** gaussian.hpp:68-78 *)
Definition linear_update n (A Q : 'M[F]_n) (g : gaussian n) : gaussian n :=
  Gaussian (A *m mean g) (A *m cov g *m A^T + Q) (weight g).

(** A component's life: calls of linear_update (models.hpp:41, 69 by gm.hpp:119) and of
    correct (target.hpp:129 by gm.hpp:98) in any order, with any sensors. *)
Inductive step (n : nat) :=
| Predict (A Q : 'M[F]_n)
| Correct (m : nat) (H : 'M[F]_(m, n)) (pD : F) (z : report m).

Definition apply n (g : gaussian n) (s : step n) : gaussian n :=
  match s with
  | Predict A Q => linear_update A Q g
  | Correct _ H pD z => correct H pD z g
  end.

Definition life n (g : gaussian n) (ss : seq (step n)) : gaussian n := foldl (@apply n) g ss.
End Kalman.
