(* Model of internal/overflow.cc (integer and time parts) and of the
   arithmetic overloads in runtime/standard/arithmetic_functions.cc. *)
From Coq Require Import ZArith String Bool.
From Verif Require Import Base.
Open Scope string_scope.
Open Scope Z_scope.
Open Scope out_scope.

(* internal/overflow.cc:52-56 CheckRange *)
Definition CheckRange (ok : bool) (msg : string) : out unit :=
  if ok then Val tt else Err (mkStatus kOutOfRange msg).
(* internal/overflow.cc:58-62 CheckArgument *)
Definition CheckArgument (ok : bool) (msg : string) : out unit :=
  if ok then Val tt else Err (mkStatus kInvalidArgument msg).

Definition overflow_int : out Z := Err (mkStatus kOutOfRange "integer overflow").
Definition overflow_uint : out Z :=
  Err (mkStatus kOutOfRange "unsigned integer overflow").

(* The compiler builtins __builtin_{add,sub,mul}_overflow: compute in infinite
   precision and test whether the result fits the type.  Trusted semantics. *)
Definition builtin_overflow_i64 (z : Z) : out Z :=
  if in_int64 z then Val z else overflow_int.
Definition builtin_overflow_u64 (z : Z) : out Z :=
  if in_uint64 z then Val z else overflow_uint.

(* The source has two variants of each operation selected by
   ABSL_HAVE_BUILTIN; the parameter bi chooses the variant. *)

(* internal/overflow.cc:76-88 *)
Definition CheckedAddInt (bi : bool) (x y : Z) : out Z :=
  if bi then builtin_overflow_i64 (x + y)
  else
    lim <- (if 0 <? y then c_int64 (int64_max - y) else c_int64 (int64_min - y)) ;;
    _ <- CheckRange (if 0 <? y then x <=? lim else lim <=? x) "integer overflow" ;;
    c_int64 (x + y).

(* internal/overflow.cc:90-102 *)
Definition CheckedSubInt (bi : bool) (x y : Z) : out Z :=
  if bi then builtin_overflow_i64 (x - y)
  else
    lim <- (if y <? 0 then c_int64 (int64_max + y) else c_int64 (int64_min + y)) ;;
    _ <- CheckRange (if y <? 0 then x <=? lim else lim <=? x) "integer overflow" ;;
    c_int64 (x - y).

(* internal/overflow.cc:104-115 *)
Definition CheckedNegInt (bi : bool) (v : Z) : out Z :=
  if bi then builtin_overflow_i64 (v * -1)
  else
    _ <- CheckRange (negb (v =? int64_min)) "integer overflow" ;;
    c_int64 (- v).

(* C's && with a right operand that may be undefined *)
Definition and_then (b : bool) (k : out bool) : out bool :=
  if b then k else Val false.
Definition or_else (x : out bool) (k : out bool) : out bool :=
  b <- x ;; if b then Val true else k.

(* internal/overflow.cc:125-133: the condition of the fallback path *)
Definition mul_would_overflow (x y : Z) : out bool :=
  or_else (Val ((x =? -1) && (y =? int64_min)))
 (or_else (Val ((y =? -1) && (x =? int64_min)))
 (or_else (and_then ((0 <? x) && (0 <? y))
             (q <- c_div64 int64_max y ;; Val (q <? x)))
 (or_else (and_then ((x <? 0) && (y <? 0))
             (q <- c_div64 int64_max y ;; Val (x <? q)))
 (or_else (and_then ((0 <? x) && (y <? 0))
             (q <- c_div64 int64_min x ;; Val (y <? q)))
          (and_then ((x <? 0) && (0 <? y))
             (q <- c_div64 int64_min y ;; Val (x <? q))))))).

(* internal/overflow.cc:117-136 *)
Definition CheckedMulInt (bi : bool) (x y : Z) : out Z :=
  if bi then builtin_overflow_i64 (x * y)
  else
    bad <- mul_would_overflow x y ;;
    _ <- CheckRange (negb bad) "integer overflow" ;;
    c_int64 (x * y).

(* internal/overflow.cc:138-143 *)
Definition CheckedDivInt (x y : Z) : out Z :=
  _ <- CheckRange (negb (x =? int64_min) || negb (y =? -1)) "integer overflow" ;;
  _ <- CheckArgument (negb (y =? 0)) "divide by zero" ;;
  c_div64 x y.

(* internal/overflow.cc:145-150 *)
Definition CheckedModInt (x y : Z) : out Z :=
  _ <- CheckRange (negb (x =? int64_min) || negb (y =? -1)) "integer overflow" ;;
  _ <- CheckArgument (negb (y =? 0)) "modulus by zero" ;;
  c_rem64 x y.

(* internal/overflow.cc:152-164 *)
Definition CheckedAddUint (bi : bool) (x y : Z) : out Z :=
  if bi then builtin_overflow_u64 (x + y)
  else
    _ <- CheckRange (x <=? c_uint64 (uint64_max - y)) "unsigned integer overflow" ;;
    Val (c_uint64 (x + y)).

(* internal/overflow.cc:166-177 *)
Definition CheckedSubUint (bi : bool) (x y : Z) : out Z :=
  if bi then builtin_overflow_u64 (x - y)
  else
    _ <- CheckRange (y <=? x) "unsigned integer overflow" ;;
    Val (c_uint64 (x - y)).

(* internal/overflow.cc:179-191 *)
Definition CheckedMulUint (bi : bool) (x y : Z) : out Z :=
  if bi then builtin_overflow_u64 (x * y)
  else
    ok <- or_else (Val (y =? 0)) (q <- c_udiv64 uint64_max y ;; Val (x <=? q)) ;;
    _ <- CheckRange ok "unsigned integer overflow" ;;
    Val (c_uint64 (x * y)).

(* internal/overflow.cc:193-196 *)
Definition CheckedDivUint (x y : Z) : out Z :=
  _ <- CheckArgument (negb (y =? 0)) "divide by zero" ;;
  c_udiv64 x y.

(* internal/overflow.cc:198-201 *)
Definition CheckedModUint (x y : Z) : out Z :=
  _ <- CheckArgument (negb (y =? 0)) "modulus by zero" ;;
  c_urem64 x y.

(* internal/overflow.cc:316-337 *)
Definition CheckedInt64ToUint64 (v : Z) : out Z :=
  _ <- CheckRange (0 <=? v) "int64 out of uint64 range" ;; Val (c_uint64 v).
Definition CheckedInt64ToInt32 (v : Z) : out Z :=
  _ <- CheckRange ((int32_min <=? v) && (v <=? int32_max))
       "int64 out of int32 range" ;; Val v.
Definition CheckedUint64ToInt64 (v : Z) : out Z :=
  _ <- CheckRange (v <=? int64_max) "uint64 out of int64 range" ;; Val v.
Definition CheckedUint64ToUint32 (v : Z) : out Z :=
  _ <- CheckRange (v <=? uint32_max) "uint64 out of uint32 range" ;; Val v.

(* ------------------------------------------------------------------ time *)

(* absl::Duration, restricted to finite values with nanosecond resolution
   (absl keeps quarter nanoseconds; only parsing texts like 0.25ns creates
   fractions of a nanosecond, which are not modelled).  Infinite durations are a separate constructor because
   overflow.cc tests for them. *)
Inductive duration := DFin (ns : Z) | DInf (neg : bool).
(* absl::Time as nanoseconds since the Unix epoch, or infinite. *)
Inductive time := TFin (ns : Z) | TInf (neg : bool).

Definition nanos_per_sec : Z := 1000000000.

(* absl::ToInt64Nanoseconds: saturating conversion.  absl computes
   d / Nanoseconds(1), and Duration division saturates to int64. *)
Definition ToInt64Nanoseconds (d : duration) : Z :=
  match d with
  | DFin ns => Z.max int64_min (Z.min int64_max ns)
  | DInf true => int64_min
  | DInf false => int64_max
  end.

(* absl: Duration / Duration as int64, truncating toward zero and saturating *)
Definition dur_div_sec (ns : Z) : Z :=
  Z.max int64_min (Z.min int64_max (Z.quot ns nanos_per_sec)).

(* protobuf TimeUtil constants used by internal/time.cc:40-70 *)
Definition kDurationMaxSeconds : Z := 315576000000.
Definition kTimestampMinSeconds : Z := -62135596800.
Definition kTimestampMaxSeconds : Z := 253402300799.
Definition MaxDurationNs : Z := kDurationMaxSeconds * nanos_per_sec + 999999999.
Definition MinDurationNs : Z := - kDurationMaxSeconds * nanos_per_sec - 999999999.
Definition MinTimestampNs : Z := kTimestampMinSeconds * nanos_per_sec.
Definition MaxTimestampNs : Z := kTimestampMaxSeconds * nanos_per_sec + 999999999.
(* internal/overflow.cc:45-50: ToInt64Seconds truncates toward zero *)
Definition kMinUnixTime : Z := Z.quot MinTimestampNs nanos_per_sec.
Definition kMaxUnixTime : Z := Z.quot MaxTimestampNs nanos_per_sec.

Definition is_fin_d (d : duration) : bool :=
  match d with DFin _ => true | DInf _ => false end.
Definition is_fin_t (t : time) : bool :=
  match t with TFin _ => true | TInf _ => false end.

(* internal/overflow.cc:203-220 *)
Definition CheckedAddDur (x y : duration) : out duration :=
  _ <- CheckRange (is_fin_d x && is_fin_d y) "integer overflow" ;;
  n <- CheckedAddInt true (ToInt64Nanoseconds x) (ToInt64Nanoseconds y) ;;
  Val (DFin n).
(* internal/overflow.cc:222-228 *)
Definition CheckedSubDur (x y : duration) : out duration :=
  _ <- CheckRange (is_fin_d x && is_fin_d y) "integer overflow" ;;
  n <- CheckedSubInt true (ToInt64Nanoseconds x) (ToInt64Nanoseconds y) ;;
  Val (DFin n).
(* internal/overflow.cc:230-235 *)
Definition CheckedNegDur (x : duration) : out duration :=
  _ <- CheckRange (is_fin_d x) "integer overflow" ;;
  n <- CheckedNegInt true (ToInt64Nanoseconds x) ;;
  Val (DFin n).

(* absl::ToUnixSeconds: floor, saturating (never reached for CEL times) *)
Definition ToUnixSeconds (ns : Z) : Z :=
  Z.max int64_min (Z.min int64_max (ns / nanos_per_sec)).

(* internal/overflow.cc:237-273 *)
Definition CheckedAddTime (t : time) (d : duration) : out time :=
  match t, d with
  | TFin t, DFin d =>
    let s1 := ToUnixSeconds t in
    let ns1 := t - s1 * nanos_per_sec in
    let s2 := dur_div_sec d in
    let ns2 := Z.rem d nanos_per_sec in
    s <- CheckedAddInt true s1 s2 ;;
    ns <- c_int64 (ns2 + ns1) ;;
    sn <- (if (ns <? 0) || (nanos_per_sec <=? ns) then
             s' <- CheckedAddInt true s (dur_div_sec ns) ;;
             let ns' := ns - dur_div_sec ns * nanos_per_sec in
             if ns' <? 0 then
               s'' <- CheckedAddInt true s' (-1) ;;
               Val (s'', ns' + nanos_per_sec)
             else Val (s', ns')
           else Val (s, ns)) ;;
    _ <- CheckRange ((kMinUnixTime <=? fst sn) && (fst sn <=? kMaxUnixTime))
         "timestamp overflow" ;;
    Val (TFin (fst sn * nanos_per_sec + snd sn))
  | _, _ => Err (mkStatus kOutOfRange "timestamp overflow")
  end.

(* internal/overflow.cc:275-278 *)
Definition CheckedSubTimeDur (t : time) (d : duration) : out time :=
  nd <- CheckedNegDur d ;; CheckedAddTime t nd.

(* internal/overflow.cc:280-300 *)
Definition CheckedSubTime (t1 t2 : time) : out duration :=
  match t1, t2 with
  | TFin t1, TFin t2 =>
    let s1 := ToUnixSeconds t1 in
    let ns1 := t1 - s1 * nanos_per_sec in
    let s2 := ToUnixSeconds t2 in
    let ns2 := t2 - s2 * nanos_per_sec in
    s <- CheckedSubInt true s1 s2 ;;
    ns <- c_int64 (ns1 - ns2) ;;
    t <- CheckedMulInt true s nanos_per_sec ;;
    v <- CheckedAddInt true t (ToInt64Nanoseconds (DFin ns)) ;;
    Val (DFin v)
  | _, _ => Err (mkStatus kOutOfRange "integer overflow")
  end.

(* absl::Duration and absl::Time arithmetic: the seconds part is an int64;
   results whose seconds part overflows saturate to an infinity. *)
Definition absl_duration (ns : Z) : duration :=
  if in_int64 (ns / nanos_per_sec) then DFin ns else DInf (ns <? 0).
Definition absl_time (ns : Z) : time :=
  if in_int64 (ns / nanos_per_sec) then TFin ns else TInf (ns <? 0).
Definition absl_add_dur (a b : duration) : duration :=
  match a, b with
  | DFin x, DFin y => absl_duration (x + y)
  | DInf s, _ => DInf s
  | _, DInf s => DInf s
  end.
Definition absl_neg_dur (a : duration) : duration :=
  match a with DFin x => absl_duration (- x) | DInf s => DInf (negb s) end.
Definition absl_add_time (t : time) (d : duration) : time :=
  match t, d with
  | TFin x, DFin y => absl_time (x + y)
  | TInf s, _ => TInf s
  | _, DInf s => TInf s
  end.
Definition absl_sub_time (a b : time) : duration :=
  match a, b with
  | TFin x, TFin y => absl_duration (x - y)
  | TInf s, _ => DInf s
  | _, TInf s => DInf (negb s)
  end.

(* runtime/standard/time_functions.cc:306-392 (checked) and 395-451
   (unchecked): the overloads of + and -, selected by the runtime option
   enable_timestamp_duration_overflow_errors (default false). *)
Definition ts_add_dur (chk : bool) (t : time) (d : duration) : out time :=
  if chk then CheckedAddTime t d else Val (absl_add_time t d).
Definition ts_sub_dur (chk : bool) (t : time) (d : duration) : out time :=
  if chk then CheckedSubTimeDur t d else Val (absl_add_time t (absl_neg_dur d)).
Definition ts_sub_ts (chk : bool) (t1 t2 : time) : out duration :=
  if chk then CheckedSubTime t1 t2 else Val (absl_sub_time t1 t2).
Definition dur_add_dur (chk : bool) (a b : duration) : out duration :=
  if chk then CheckedAddDur a b else Val (absl_add_dur a b).
Definition dur_sub_dur (chk : bool) (a b : duration) : out duration :=
  if chk then CheckedSubDur a b else Val (absl_add_dur a (absl_neg_dur b)).

(* runtime/standard/time_functions.cc:453-480: duration accessors.
   absl::ToInt64Hours etc. divide truncating toward zero. *)
Definition dur_hours (d : duration) : Z :=
  match d with DFin n => Z.quot n (3600 * nanos_per_sec)
             | DInf s => if s then int64_min else int64_max end.
Definition dur_minutes (d : duration) : Z :=
  match d with DFin n => Z.quot n (60 * nanos_per_sec)
             | DInf s => if s then int64_min else int64_max end.
Definition dur_seconds (d : duration) : Z :=
  match d with DFin n => Z.quot n nanos_per_sec
             | DInf s => if s then int64_min else int64_max end.
Definition dur_milliseconds (d : duration) : Z :=
  match d with
  | DFin n => Z.rem (Z.max int64_min (Z.min int64_max (Z.quot n 1000000))) 1000
  | DInf s => Z.rem (if s then int64_min else int64_max) 1000 end.
