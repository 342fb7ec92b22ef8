(* Doubles and model of internal/number.h plus the double conversions of
   internal/overflow.cc:302-314. *)
From Coq Require Import ZArith String Bool.
From Coq Require Export Floats.SpecFloat.
From Verif Require Import Base M_Overflow.
Open Scope string_scope.
Open Scope Z_scope.
Open Scope out_scope.

(* IEEE-754 binary64: the host's double.  53 bits of precision, emax 1024.
   Trusted: the C++ implementation follows IEEE-754 (the code itself
   static_asserts is_iec559, arithmetic_functions.cc:139). *)
Definition dprec : Z := 53.
Definition demax : Z := 1024.
Definition double := spec_float.
Definition valid_double (d : double) : bool := valid_binary dprec demax d.

(* static_cast<double>(z) for an integer z: round to nearest even *)
Definition double_of_Z (z : Z) : double := binary_normalize dprec demax z 0 false.

Definition dadd : double -> double -> double := SFadd dprec demax.
Definition dsub : double -> double -> double := SFsub dprec demax.
Definition dmul : double -> double -> double := SFmul dprec demax.
Definition ddiv : double -> double -> double := SFdiv dprec demax.
Definition dneg : double -> double := SFopp.

Definition d_lt (a b : double) : bool :=
  match SFcompare a b with Some Lt => true | _ => false end.
Definition d_gt (a b : double) : bool :=
  match SFcompare a b with Some Gt => true | _ => false end.
Definition d_eq (a b : double) : bool :=
  match SFcompare a b with Some Eq => true | _ => false end.
Definition d_le (a b : double) : bool :=
  match SFcompare a b with Some Lt | Some Eq => true | _ => false end.
Definition d_ge (a b : double) : bool :=
  match SFcompare a b with Some Gt | Some Eq => true | _ => false end.

Definition d_isfinite (d : double) : bool :=
  match d with S754_zero _ | S754_finite _ _ _ => true | _ => false end.
Definition d_isnan (d : double) : bool :=
  match d with S754_nan => true | _ => false end.
Definition d_isinf (d : double) : bool :=
  match d with S754_infinity _ => true | _ => false end.
Definition d_signbit (d : double) : bool :=
  match d with
  | S754_zero s | S754_infinity s | S754_finite s _ _ => s
  | S754_nan => false
  end.

(* truncation toward zero of a finite double *)
Definition dtrunc (d : double) : option Z :=
  match d with
  | S754_zero _ => Some 0
  | S754_finite s m e =>
      let a := if 0 <=? e then Zpos m * 2 ^ e else Zpos m / 2 ^ (- e) in
      Some (if s then - a else a)
  | _ => None
  end.

(* static_cast<int64_t>(d), static_cast<uint64_t>(d): undefined behaviour when
   the truncated value is not representable [conv.fpint] *)
Definition cast_int64 (d : double) : out Z :=
  match dtrunc d with
  | Some z => if in_int64 z then Val z else UB
  | None => UB
  end.
Definition cast_uint64 (d : double) : out Z :=
  match dtrunc d with
  | Some z => if in_uint64 z then Val z else UB
  | None => UB
  end.

(* internal/number.h:25-31 and internal/overflow.cc:38-40 *)
Definition kDoubleToIntMax : double := double_of_Z int64_max.
Definition kDoubleToIntMin : double := double_of_Z int64_min.
Definition kDoubleToUintMax : double := double_of_Z uint64_max.
(* std::ldexp(1.0, 64) *)
Definition kDoubleTwoTo64 : double := double_of_Z (2 ^ 64).
Definition dzero : double := S754_zero false.

(* internal/number.h:33-44; digits<int64_t> = 63, digits<uint64_t> = 64 *)
Definition RoundingError (digits : Z) : Z := 2 ^ (digits - 53 - 1).
Definition kMaxDoubleRepresentableAsInt : double :=
  double_of_Z (int64_max - RoundingError 63).
Definition kMaxDoubleRepresentableAsUint : double :=
  double_of_Z (uint64_max - RoundingError 64).

(* internal/overflow.cc:302-307 *)
Definition CheckedDoubleToInt64 (v : double) : out Z :=
  _ <- CheckRange (d_isfinite v && d_lt v kDoubleToIntMax && d_gt v kDoubleToIntMin)
       "double out of int64 range" ;;
  cast_int64 v.
(* internal/overflow.cc:309-314 *)
Definition CheckedDoubleToUint64 (v : double) : out Z :=
  _ <- CheckRange (d_isfinite v && d_ge v dzero && d_lt v kDoubleTwoTo64)
       "double out of uint64 range" ;;
  cast_uint64 v.

(* internal/number.h:48 NumberVariant *)
Inductive number := NDouble (d : double) | NUint (u : Z) | NInt (i : Z).

(* internal/number.h:50-56 *)
Inductive cmpres := CLesser | CEqual | CGreater | CNan.

(* internal/number.h:59-70 *)
Definition Invert (r : cmpres) : cmpres :=
  match r with
  | CLesser => CGreater | CGreater => CLesser | CEqual => CEqual | CNan => CNan
  end.

(* internal/number.h:80-85 at an integer type *)
Definition CompareZ (a b : Z) : cmpres :=
  if b <? a then CGreater else if a =? b then CEqual else CLesser.
(* internal/number.h:87-93 *)
Definition DoubleCompare (a b : double) : cmpres :=
  if negb (d_eq a a) || negb (d_eq b b) then CNan
  else if d_gt a b then CGreater else if d_eq a b then CEqual else CLesser.

(* internal/number.h:96-123 *)
Definition DoubleCompareUint (v : double) (other : Z) : cmpres :=
  if d_gt v kDoubleToUintMax then CGreater
  else if d_lt v dzero then CLesser
  else DoubleCompare v (double_of_Z other).
Definition DoubleCompareInt (v : double) (other : Z) : cmpres :=
  if d_gt v kDoubleToIntMax then CGreater
  else if d_lt v kDoubleToIntMin then CLesser
  else DoubleCompare v (double_of_Z other).

(* internal/number.h:127-146 *)
Definition UintCompareInt (v : Z) (other : Z) : cmpres :=
  if (int64_max <? v) || (other <? 0) then CGreater
  else CompareZ v (c_uint64 other).

(* internal/number.h:150-182 IntCompareVisitor, CompareVisitor *)
Definition NumCompare (a b : number) : cmpres :=
  match a, b with
  | NDouble x, NDouble y => DoubleCompare x y
  | NDouble x, NUint y => DoubleCompareUint x y
  | NDouble x, NInt y => DoubleCompareInt x y
  | NUint x, NDouble y => Invert (DoubleCompareUint y x)
  | NUint x, NUint y => CompareZ x y
  | NUint x, NInt y => UintCompareInt x y
  | NInt x, NDouble y => Invert (DoubleCompareInt y x)
  | NInt x, NUint y => Invert (UintCompareInt y x)
  | NInt x, NInt y => CompareZ x y
  end.

(* internal/number.h:253-279 *)
Definition num_lt (a b : number) : bool :=
  match NumCompare a b with CLesser => true | _ => false end.
Definition num_le (a b : number) : bool :=
  match NumCompare a b with CGreater | CNan => false | _ => true end.
Definition num_gt (a b : number) : bool :=
  match NumCompare a b with CGreater => true | _ => false end.
Definition num_ge (a b : number) : bool :=
  match NumCompare a b with CLesser | CNan => false | _ => true end.
Definition num_eq (a b : number) : bool :=
  match NumCompare a b with CEqual => true | _ => false end.
Definition num_ne (a b : number) : bool :=
  match NumCompare a b with CEqual => false | _ => true end.

(* internal/number.h:184-193.  The && chain short-circuits, so the cast in the
   last conjunct only runs if the range test succeeded. *)
Definition LosslessConvertibleToInt (n : number) : out bool :=
  match n with
  | NDouble v =>
      and_then (d_ge v kDoubleToIntMin && d_le v kMaxDoubleRepresentableAsInt)
        (z <- cast_int64 v ;; Val (d_eq v (double_of_Z z)))
  | NUint v => Val (v <=? int64_max)
  | NInt _ => Val true
  end.
(* internal/number.h:195-202 *)
Definition LosslessConvertibleToUint (n : number) : out bool :=
  match n with
  | NDouble v =>
      and_then (d_ge v dzero && d_le v kMaxDoubleRepresentableAsUint)
        (z <- cast_uint64 v ;; Val (d_eq v (double_of_Z z)))
  | NUint _ => Val true
  | NInt v => Val (0 <=? v)
  end.

(* internal/number.h:232-241 AsInt / AsUint: a plain static_cast.  Converting
   between the integer types wraps modulo 2^64. *)
Definition AsInt (n : number) : out Z :=
  match n with
  | NDouble v => cast_int64 v
  | NUint v => Val (if v <=? int64_max then v else v - 2 ^ 64)
  | NInt v => Val v
  end.
Definition AsUint (n : number) : out Z :=
  match n with
  | NDouble v => cast_uint64 v
  | NUint v => Val v
  | NInt v => Val (c_uint64 v)
  end.
