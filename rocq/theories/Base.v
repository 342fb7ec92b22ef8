(* Shared vocabulary of the model: absl::Status and outcomes of C++ code. *)
From Coq Require Import ZArith String List Bool.
Import ListNotations.
Open Scope Z_scope.

(* absl::StatusCode, the codes used by the modelled code. *)
Inductive code :=
| kCancelled | kUnknown | kInvalidArgument | kNotFound | kAlreadyExists
| kFailedPrecondition | kOutOfRange | kUnimplemented | kInternal.

Definition code_eqb (a b : code) : bool :=
  match a, b with
  | kCancelled, kCancelled | kUnknown, kUnknown
  | kInvalidArgument, kInvalidArgument | kNotFound, kNotFound
  | kAlreadyExists, kAlreadyExists | kFailedPrecondition, kFailedPrecondition
  | kOutOfRange, kOutOfRange | kUnimplemented, kUnimplemented
  | kInternal, kInternal => true
  | _, _ => false
  end.

(* absl::Status that is not OK: a code and a message. *)
Record status := mkStatus { st_code : code; st_msg : string }.

Definition status_eqb (a b : status) : bool :=
  code_eqb (st_code a) (st_code b) && String.eqb (st_msg a) (st_msg b).

(* Outcome of running a piece of C++ code that returns absl::StatusOr<A>:
   a value, a non-OK status, or undefined behaviour / process abort. *)
Inductive out (A : Type) : Type :=
| Val (a : A)
| Err (s : status)
| UB.
Arguments Val {A} a.
Arguments Err {A} s.
Arguments UB {A}.

Definition obind {A B} (x : out A) (f : A -> out B) : out B :=
  match x with Val a => f a | Err s => Err s | UB => UB end.

Declare Scope out_scope.
Delimit Scope out_scope with out.
Notation "x <- e ;; f" := (obind e (fun x => f))
  (at level 61, e at next level, right associativity) : out_scope.

Definition is_val {A} (x : out A) : Prop := exists a, x = Val a.

(* Ranges of the C++ integer types. *)
Definition int64_min : Z := - 2 ^ 63.
Definition int64_max : Z := 2 ^ 63 - 1.
Definition uint64_max : Z := 2 ^ 64 - 1.
Definition int32_min : Z := - 2 ^ 31.
Definition int32_max : Z := 2 ^ 31 - 1.
Definition uint32_max : Z := 2 ^ 32 - 1.
Definition in_int64 (z : Z) : bool := (int64_min <=? z) && (z <=? int64_max).
Definition in_uint64 (z : Z) : bool := (0 <=? z) && (z <=? uint64_max).
Definition in_int32 (z : Z) : bool := (int32_min <=? z) && (z <=? int32_max).
Definition in_uint32 (z : Z) : bool := (0 <=? z) && (z <=? uint32_max).

(* Signed C arithmetic on int64_t: undefined on overflow. *)
Definition c_int64 (z : Z) : out Z := if in_int64 z then Val z else UB.
(* Unsigned C arithmetic on uint64_t: modulo 2^64. *)
Definition c_uint64 (z : Z) : Z := z mod 2 ^ 64.
(* int64_t / and %: truncating; undefined for a zero divisor and for
   INT64_MIN / -1. *)
Definition c_div64 (x y : Z) : out Z :=
  if y =? 0 then UB else c_int64 (Z.quot x y).
Definition c_rem64 (x y : Z) : out Z :=
  if y =? 0 then UB
  else if (x =? int64_min) && (y =? -1) then UB else Val (Z.rem x y).
Definition c_udiv64 (x y : Z) : out Z := if y =? 0 then UB else Val (x / y).
Definition c_urem64 (x y : Z) : out Z := if y =? 0 then UB else Val (x mod y).
