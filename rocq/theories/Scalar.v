(** Number types the models run on.

    The C++ code uses [double].  Models of code that only adds, subtracts,
    multiplies and compares are written over the record [Num T] of operations.
    Instances:
    - [extR]: real numbers extended with +inf, -inf and NaN, with the IEEE 754
      rules for the special values but exact arithmetic on finite values (used
      in the proofs; simplification: no rounding, no overflow, one zero);
    - [extZ]: the same over the integers (used to run the model);
    - [floatN]: Coq's primitive IEEE binary64 numbers (bit-exact). *)
From Coq Require Import ZArith Reals Bool List Lra.
From Coq Require Import Floats.

Record Num (T : Type) := mkNum {
  n0 : T;                      (* 0.0 *)
  ninf : T;                    (* std::numeric_limits<double>::infinity() *)
  nadd : T -> T -> T;
  nsub : T -> T -> T;
  nmul : T -> T -> T;
  nlt : T -> T -> bool;        (* <, false if an argument is NaN *)
  nle : T -> T -> bool;        (* <=, false if an argument is NaN *)
  neq : T -> T -> bool;        (* ==, false if an argument is NaN *)
  nisinf : T -> bool;          (* std::isinf *)
  nofnat : nat -> T            (* conversion of a small non-negative int *)
}.
Arguments n0 {T}. Arguments ninf {T}. Arguments nadd {T}. Arguments nsub {T}.
Arguments nmul {T}. Arguments nlt {T}. Arguments nle {T}. Arguments neq {T}.
Arguments nisinf {T}. Arguments nofnat {T}.

(** Operations on the finite values. *)
Record Ring (A : Type) := mkRing {
  r0 : A;
  radd : A -> A -> A;
  ropp : A -> A;
  rmul : A -> A -> A;
  rlt : A -> A -> bool;
  req : A -> A -> bool;
  rofnat : nat -> A
}.
Arguments r0 {A}. Arguments radd {A}. Arguments ropp {A}. Arguments rmul {A}.
Arguments rlt {A}. Arguments req {A}. Arguments rofnat {A}.

Inductive ext (A : Type) : Type :=
| Fin (a : A)
| PInf
| NInf
| NaN.
Arguments Fin {A} a. Arguments PInf {A}. Arguments NInf {A}. Arguments NaN {A}.

Section Ext.
Context {A : Type} (G : Ring A).

Definition ext_neg (x : ext A) : ext A :=
  match x with
  | Fin a => Fin (ropp G a)
  | PInf => NInf
  | NInf => PInf
  | NaN => NaN
  end.

Definition ext_add (x y : ext A) : ext A :=
  match x, y with
  | NaN, _ | _, NaN => NaN
  | Fin a, Fin b => Fin (radd G a b)
  | PInf, NInf | NInf, PInf => NaN
  | PInf, _ | _, PInf => PInf
  | NInf, _ | _, NInf => NInf
  end.

Definition ext_sub (x y : ext A) : ext A := ext_add x (ext_neg y).

Definition ext_lt (x y : ext A) : bool :=
  match x, y with
  | NaN, _ | _, NaN => false
  | Fin a, Fin b => rlt G a b
  | NInf, NInf => false
  | NInf, _ => true
  | _, NInf => false
  | PInf, _ => false
  | _, PInf => true
  end.

Definition ext_eq (x y : ext A) : bool :=
  match x, y with
  | Fin a, Fin b => req G a b
  | PInf, PInf => true
  | NInf, NInf => true
  | _, _ => false
  end.

Definition ext_le (x y : ext A) : bool := ext_lt x y || ext_eq x y.

(** Sign of a value: true = negative; zero and NaN have none. *)
Definition ext_sign (x : ext A) : option bool :=
  match x with
  | Fin a => if rlt G a (r0 G) then Some true
             else if rlt G (r0 G) a then Some false else None
  | PInf => Some false
  | NInf => Some true
  | NaN => None
  end.

Definition ext_mul (x y : ext A) : ext A :=
  match x, y with
  | Fin a, Fin b => Fin (rmul G a b)
  | NaN, _ | _, NaN => NaN
  | _, _ =>
      match ext_sign x, ext_sign y with
      | Some s, Some t => if xorb s t then NInf else PInf
      | _, _ => NaN            (* 0 * inf *)
      end
  end.

Definition ext_isinf (x : ext A) : bool :=
  match x with PInf | NInf => true | _ => false end.

Definition ext_num : Num (ext A) :=
  {| n0 := Fin (r0 G); ninf := PInf; nadd := ext_add; nsub := ext_sub;
     nmul := ext_mul; nlt := ext_lt; nle := ext_le; neq := ext_eq;
     nisinf := ext_isinf; nofnat := fun n => Fin (rofnat G n) |}.
End Ext.

Definition Rltb (x y : R) : bool := if Rlt_dec x y then true else false.
Definition Rleb (x y : R) : bool := if Rle_dec x y then true else false.
Definition Reqb (x y : R) : bool := if Req_EM_T x y then true else false.

Definition ringR : Ring R :=
  {| r0 := 0%R; radd := Rplus; ropp := Ropp; rmul := Rmult; rlt := Rltb;
     req := Reqb; rofnat := INR |}.
Definition extR : Num (ext R) := ext_num ringR.

Definition ringZ : Ring Z :=
  {| r0 := 0%Z; radd := Z.add; ropp := Z.opp; rmul := Z.mul; rlt := Z.ltb;
     req := Z.eqb; rofnat := Z.of_nat |}.
Definition extZ : Num (ext Z) := ext_num ringZ.

Definition floatN : Num float :=
  {| n0 := 0%float; ninf := infinity; nadd := PrimFloat.add;
     nsub := PrimFloat.sub; nmul := PrimFloat.mul; nlt := PrimFloat.ltb;
     nle := PrimFloat.leb; neq := PrimFloat.eqb; nisinf := is_infinity;
     nofnat := fun n => PrimFloat.of_uint63 (Uint63.of_Z (Z.of_nat n)) |}.

(** Reflection of the boolean comparisons on R. *)
Lemma Rltb_spec x y : reflect (x < y)%R (Rltb x y).
Proof. unfold Rltb; destruct (Rlt_dec x y); constructor; auto. Qed.
Lemma Rleb_spec x y : reflect (x <= y)%R (Rleb x y).
Proof. unfold Rleb; destruct (Rle_dec x y); constructor; auto. Qed.
Lemma Reqb_spec x y : reflect (x = y)%R (Reqb x y).
Proof. unfold Reqb; destruct (Req_EM_T x y); constructor; auto. Qed.
