(* Independent specification of numbers: every CEL number denotes an extended
   rational (or nothing, for NaN), compared in the usual order. *)
From Coq Require Import ZArith QArith Bool.
From Verif Require Import Base M_Number.
Open Scope Z_scope.

(* The rational m * 2^e. *)
Definition dyadic (m e : Z) : Q :=
  if 0 <=? e then inject_Z (m * 2 ^ e) else Qmake m (Z.to_pos (2 ^ (- e))).

Inductive ext := NegInf | Fin (q : Q) | PosInf.

(* The mathematical value of a double and of a number; None for NaN. *)
Definition double_value (d : double) : option ext :=
  match d with
  | S754_zero _ => Some (Fin 0%Q)
  | S754_finite s m e => Some (Fin (dyadic (if s then Zneg m else Zpos m) e))
  | S754_infinity s => Some (if s then NegInf else PosInf)
  | S754_nan => None
  end.
Definition number_value (n : number) : option ext :=
  match n with
  | NDouble d => double_value d
  | NUint z | NInt z => Some (Fin (inject_Z z))
  end.

Definition ext_compare (a b : ext) : comparison :=
  match a, b with
  | NegInf, NegInf | PosInf, PosInf => Eq
  | NegInf, _ | _, PosInf => Lt
  | PosInf, _ | _, NegInf => Gt
  | Fin p, Fin q => Qcompare p q
  end.

(* What each comparison should return on the mathematical values. *)
Definition spec_compare (a b : option ext) : option comparison :=
  match a, b with
  | Some x, Some y => Some (ext_compare x y)
  | _, _ => None
  end.

(* A number is well formed if its payload is a value of its C++ type. *)
Definition number_ok (n : number) : Prop :=
  match n with
  | NDouble d => valid_double d = true
  | NUint z => in_uint64 z = true
  | NInt z => in_int64 z = true
  end.

(* Integers that every double comparison can represent exactly. *)
Definition int_small (n : number) : Prop :=
  match n with
  | NDouble _ => True
  | NUint z | NInt z => Z.abs z <= 2 ^ 53
  end.

Definition is_double (n : number) : bool :=
  match n with NDouble _ => true | _ => false end.

(* The mathematical relations between two numbers; NaN is related to nothing. *)
Definition math_cmp (a b : number) : option comparison :=
  spec_compare (number_value a) (number_value b).
Definition math_lt (a b : number) : Prop := math_cmp a b = Some Lt.
Definition math_eq (a b : number) : Prop := math_cmp a b = Some Eq.
Definition math_gt (a b : number) : Prop := math_cmp a b = Some Gt.
Definition math_nan (a : number) : Prop := number_value a = None.

(* Pairs on which the code is exact: two doubles, two integers, or an integer
   of magnitude at most 2^53 against a double. *)
Definition exactly_comparable (a b : number) : Prop :=
  is_double a = is_double b \/ (int_small a /\ int_small b).

(* The two numbers are finite and differ by at most k. *)
Definition within (k : Z) (a b : number) : Prop :=
  exists x y, number_value a = Some (Fin x) /\ number_value b = Some (Fin y) /\
    (x - y <= inject_Z k /\ y - x <= inject_Z k)%Q.

(* z is the rational q truncated toward zero. *)
Definition is_trunc (q : Q) (z : Z) : Prop :=
  (0 <= q -> inject_Z z <= q /\ q < inject_Z (z + 1))%Q /\
  (q <= 0 -> q <= inject_Z z /\ inject_Z (z - 1) < q)%Q.

(* the number's mathematical value is the integer z *)
Definition denotes_int (n : number) (z : Z) : Prop :=
  exists q, number_value n = Some (Fin q) /\ (q == inject_Z z)%Q.
