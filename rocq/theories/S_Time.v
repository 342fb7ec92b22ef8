(* Independent specification of the time types: integer nanosecond counts in
   the ranges fixed by the CEL specification / google.protobuf.{Timestamp,
   Duration}. *)
From Coq Require Import ZArith.
From Verif Require Import Base M_Overflow.
Open Scope Z_scope.

(* 0001-01-01T00:00:00Z .. 9999-12-31T23:59:59.999999999Z *)
Definition ts_min : Z := -62135596800 * 10 ^ 9.
Definition ts_max : Z := 253402300799 * 10 ^ 9 + 999999999.
Definition ts_range (ns : Z) : Prop := ts_min <= ns <= ts_max.
(* +- 315576000000.999999999 s, about 10000 years *)
Definition dur_bound : Z := 315576000000 * 10 ^ 9 + 999999999.
Definition dur_range (ns : Z) : Prop := - dur_bound <= ns <= dur_bound.
(* durations that fit 64-bit nanoseconds, about 292 years *)
Definition dur_small (ns : Z) : Prop := - 2 ^ 63 <= ns <= 2 ^ 63 - 1.
