(* Model of runtime/standard/type_conversion_functions.cc, of the accessors of
   timestamps in runtime/standard/time_functions.cc, of the texts of internal/time.cc
   and of internal/proto_time_encoding.cc. *)
From Coq Require Import ZArith String List Bool.
From Verif Require Import Base M_Utf8 M_Overflow M_Number M_Value M_Format.
From Verif Require Import M_Civil.
Import ListNotations.
Local Open Scope string_scope.
Open Scope list_scope.
Open Scope Z_scope.
Local Open Scope out_scope.

Definition range_error (msg : string) : status := mkStatus kOutOfRange msg.
(* The order of absl::Duration and absl::Time against a finite bound. *)
Definition dur_below (d : duration) (bound : Z) : bool := match d with DFin n => n <? bound | DInf s => s end.
Definition dur_above (d : duration) (bound : Z) : bool := match d with DFin n => bound <? n | DInf s => negb s end.
Definition time_below (t : time) (bound : Z) : bool := match t with TFin n => n <? bound | TInf s => s end.
Definition time_above (t : time) (bound : Z) : bool := match t with TFin n => bound <? n | TInf s => negb s end.

(** ** internal/time.cc *)
(* internal/time.cc:72-86; the messages quote the value *)
Definition ValidateDuration (d : duration) : out unit :=
  if dur_below d MinDurationNs then Err (invalid "below minimum allowed duration")
  else if dur_above d MaxDurationNs then Err (invalid "above maximum allowed duration")
  else Val tt.
(* internal/time.cc:105-119 *)
Definition ValidateTimestamp (t : time) : out unit :=
  if time_below t MinTimestampNs then Err (invalid "below minimum allowed timestamp")
  else if time_above t MaxTimestampNs then Err (invalid "above maximum allowed timestamp")
  else Val tt.
(* internal/time.cc:140-150 *)
Definition FormatNanos (nanos : Z) : list Z :=
  if Z.rem nanos 1000000 =? 0 then padded 3 (Z.quot nanos 1000000)
  else if Z.rem nanos 1000 =? 0 then padded 6 (Z.quot nanos 1000)
  else padded 9 nanos.
(* absl::IDivDuration(d, Seconds(1), &d): the quotient and the rest, rounded
   towards zero *)
Definition IDivSeconds (d : duration) : Z * duration :=
  match d with
  | DFin n => (dur_div_sec n, DFin (n - dur_div_sec n * nanos_per_sec))
  | DInf s => (if s then int64_min else int64_max, DInf s)
  end.
(* internal/time.cc:152-172 *)
Definition EncodeDurationToJson (duration : duration) : out (list Z) :=
  _ <- ValidateDuration duration ;;
  let '(seconds, rest) := IDivSeconds duration in
  let nanos := ToInt64Nanoseconds rest in
  let '(result, seconds, nanos) :=
    if (seconds <? 0) || (nanos <? 0) then (str "-", - seconds, - nanos) else ([], seconds, nanos) in
  let result := result ++ int_text seconds in
  let result := if negb (nanos =? 0) then result ++ str "." ++ FormatNanos nanos else result in
  Val (result ++ str "s").
(* internal/time.cc:174-192 *)
Definition EncodeTimestampToJson (timestamp : time) : out (list Z) :=
  _ <- ValidateTimestamp timestamp ;;
  match timestamp with
  | TInf _ => UB (* not reached: an infinite time is not valid *)
  | TFin t =>
      let unix_seconds := ToUnixSeconds t in
      let n := t - unix_seconds * nanos_per_sec in
      let result := FormatTime unix_seconds in
      let result := if 0 <? n then result ++ str "." ++ FormatNanos n else result in
      Val (result ++ str "Z")
  end.

(** ** internal/proto_time_encoding.cc: the messages are pairs of seconds, nanos *)
(* proto_time_encoding.cc:56-58 *)
Definition DecodeDuration (p : Z * Z) : duration :=
  absl_add_dur (DFin (fst p * nanos_per_sec)) (DFin (snd p)).
(* proto_time_encoding.cc:60-63 *)
Definition DecodeTime (p : Z * Z) : time :=
  absl_add_time (TFin (fst p * nanos_per_sec)) (DFin (snd p)).
(* proto_time_encoding.cc:43-52, 65-75 *)
Definition EncodeDuration (d : duration) : out (Z * Z) :=
  if dur_below d MinDurationNs then Err (invalid "duration below min") else
  if dur_above d MaxDurationNs then Err (invalid "duration above max") else
  let '(s, rest) := IDivSeconds d in
  Val (s, ToInt64Nanoseconds rest).
(* proto_time_encoding.cc:32-41, 86-92 *)
Definition EncodeTime (t : time) : out (Z * Z) :=
  if time_below t MinTimestampNs then Err (invalid "time below min") else
  if time_above t MaxTimestampNs then Err (invalid "time above max") else
  match t with
  | TInf _ => UB (* not reached *)
  | TFin n => let s := ToUnixSeconds n in Val (s, n - s * nanos_per_sec)
  end.

(** ** runtime/standard/type_conversion_functions.cc *)
Inductive conversion :=
| ToBool | ToBytes | ToDouble | ToInt | ToString | ToUint | ToDuration | ToTimestamp | ToDyn.
(* The options the registration reads (runtime/runtime_options.h:70,102), and
   whether ABSL_DCHECK is compiled in. *)
Record conv_options := mkConv {
  enable_timestamp_duration_overflow_errors : bool;
  enable_string_conversion : bool;
  debug_build : bool }.

Definition error_value (s : status) : out value := Val (VError s).
(* return ErrorValue(status) unless the call succeeded *)
Definition or_error {A} (x : out A) (k : A -> out value) : out value :=
  match x with Val a => k a | Err s => error_value s | UB => UB end.
(* common/values/timestamp_value.h:55-58, duration_value.h:54-57: the constructor
   has a debug check *)
Definition TimestampValue (o : conv_options) (t : time) : out value :=
  if debug_build o then match ValidateTimestamp t with Val _ => Val (VTimestamp t) | _ => UB end
  else Val (VTimestamp t).
Definition DurationValue (o : conv_options) (d : duration) : out value :=
  if debug_build o then match ValidateDuration d with Val _ => Val (VDuration d) | _ => UB end
  else Val (VDuration d).

Definition one_of (s : list Z) (l : list string) : bool := existsb (fun w => bytes_eqb s (str w)) l.
(* :90-102 *)
Definition string_to_bool (v : list Z) : out value :=
  if one_of v ["true"; "True"; "TRUE"; "t"; "1"] then Val (VBool true)
  else if one_of v ["false"; "FALSE"; "False"; "f"; "0"] then Val (VBool false)
  else error_value (invalid "Type conversion error from 'string' to 'bool'").
(* :134-147 *)
Definition string_to_int (s : list Z) : out value :=
  match SimpleAtoi_int64 s with
  | Some result => Val (VInt result)
  | None => error_value (invalid "cannot convert string to int")
  end.
(* :289-303 *)
Definition string_to_uint (s : list Z) : out value :=
  match SimpleAtoi_uint64 s with
  | Some result => Val (VUint result)
  | None => error_value (invalid "cannot convert string to uint")
  end.
(* :176-192 *)
Definition bytes_to_string (s : list Z) : out value :=
  valid <- Utf8IsValid s ;;
  if valid then Val (VString s) else error_value (invalid "malformed UTF-8 bytes").
(* :362-375 *)
Definition CreateDurationFromString (o : conv_options) (s : list Z) : out value :=
  match ParseDuration s with
  | None => error_value (invalid "String to Duration conversion failed")
  | Some d => or_error (ValidateDuration d) (fun _ => DurationValue o d)
  end.
(* :388-400, 418-434: the test of the range, if it is enabled *)
Definition checked_timestamp (o : conv_options) (ts : time) : out value :=
  if enable_timestamp_duration_overflow_errors o &&
     (time_below ts MinTimestampNs || time_above ts MaxTimestampNs)
  then error_value (range_error "timestamp overflow")
  else Val (VTimestamp ts).
Definition string_to_timestamp (o : conv_options) (s : list Z) : out value :=
  match ParseTime s with
  | None => error_value (invalid "String to Timestamp conversion failed")
  | Some ts => checked_timestamp o ts
  end.
(* absl::FromUnixSeconds, absl::ToUnixSeconds *)
Definition FromUnixSeconds (s : Z) : time := TFin (s * nanos_per_sec).
Definition TimeToUnixSeconds (t : time) : Z :=
  match t with TFin n => ToUnixSeconds n | TInf true => int64_min | TInf false => int64_max end.

Section Convert.
  (* std::to_chars or absl::StrCat of a double, and absl::SimpleAtod *)
  Variable FormatDouble : double -> list Z.
  Variable SimpleAtod : list Z -> option double.

  (* :81-465 RegisterTypeConversionFunctions: the overload of a kind of argument,
     None if there is none.  The overload type() is not modelled. *)
  Definition convert (o : conv_options) (f : conversion) (v : value) : option (out value) :=
    match f, v with
    | ToBool, VBool b => Some (Val (VBool b))
    | ToBool, VString s => Some (string_to_bool s)
    | ToInt, VBool b => Some (Val (VInt (if b then 1 else 0)))
    | ToInt, VDouble d => Some (or_error (CheckedDoubleToInt64 d) (fun i => Val (VInt i)))
    | ToInt, VInt i => Some (Val (VInt i))
    | ToInt, VString s => Some (string_to_int s)
    | ToInt, VTimestamp t => Some (Val (VInt (TimeToUnixSeconds t)))
    | ToInt, VUint u => Some (or_error (CheckedUint64ToInt64 u) (fun i => Val (VInt i)))
    | ToString, v =>
        if negb (enable_string_conversion o) then None else
        match v with
        | VBytes s => Some (bytes_to_string s)
        | VBool b => Some (Val (VString (str (if b then "true" else "false"))))
        | VDouble d => Some (Val (VString (FormatDouble d)))
        | VInt i => Some (Val (VString (int_text i)))
        | VString s => Some (Val (VString s))
        | VUint u => Some (Val (VString (int_text u)))
        | VDuration d => Some (or_error (EncodeDurationToJson d) (fun t => Val (VString t)))
        | VTimestamp t => Some (or_error (EncodeTimestampToJson t) (fun t => Val (VString t)))
        | _ => None
        end
    | ToUint, VDouble d => Some (or_error (CheckedDoubleToUint64 d) (fun u => Val (VUint u)))
    | ToUint, VInt i => Some (or_error (CheckedInt64ToUint64 i) (fun u => Val (VUint u)))
    | ToUint, VString s => Some (string_to_uint s)
    | ToUint, VUint u => Some (Val (VUint u))
    | ToBytes, VBytes s => Some (Val (VBytes s))
    | ToBytes, VString s => Some (Val (VBytes s))
    | ToDouble, VDouble d => Some (Val (VDouble d))
    | ToDouble, VInt i => Some (Val (VDouble (double_of_Z i)))
    | ToDouble, VUint u => Some (Val (VDouble (double_of_Z u)))
    | ToDouble, VString s =>
        Some (match SimpleAtod s with
              | Some d => Val (VDouble d)
              | None => error_value (invalid "cannot convert string to double")
              end)
    | ToDuration, VString s => Some (CreateDurationFromString o s)
    | ToDuration, VDuration d => Some (DurationValue o d)
    | ToTimestamp, VInt i => Some (checked_timestamp o (FromUnixSeconds i))
    | ToTimestamp, VTimestamp t => Some (TimestampValue o t)
    | ToTimestamp, VString s => Some (string_to_timestamp o s)
    | ToDyn, v => Some (Val v)
    | _, _ => None
    end.
End Convert.

(** ** runtime/standard/time_functions.cc *)
Section Zones.
  (* absl::LoadTimeZone: the zones of the IANA database by name, as the seconds
     they are ahead of UTC at an instant *)
  Variable LoadTimeZone : list Z -> option (Z -> Z).

  (* absl::StrReplaceAll of : by h *)
  Definition colons_to_h (s : list Z) : list Z := map (fun c => if c =? 58 then 104 else c) s.
  (* time_functions.cc:40-71 *)
  Definition FindTimeBreakdown (timestamp : time) (tz : list Z) : out civil_info :=
    match tz with
    | [] => Val (At utc timestamp)
    | _ =>
      match LoadTimeZone tz with
      | Some offset => Val (At offset timestamp)
      | None =>
          if existsb (Z.eqb 58) tz then
            match ParseDuration (colons_to_h (tz ++ str "m")) with
            | Some d => Val (At utc (absl_add_time timestamp d))
            | None => Err (invalid "Invalid timezone")
            end
          else Err (invalid "Invalid timezone")
      end
    end.
  (* time_functions.cc:73-86 *)
  Definition GetTimeBreakdownPart (t : time) (tz : list Z) (extractor_func : civil_info -> Z) : out value :=
    or_error (FindTimeBreakdown t tz) (fun breakdown => Val (VInt (extractor_func breakdown))).
  (* time_functions.cc:88-160 *)
  Inductive accessor :=
  | GetFullYear | GetMonth | GetDayOfYear | GetDayOfMonth | GetDate | GetDayOfWeek
  | GetHours | GetMinutes | GetSeconds | GetMilliseconds.
  Definition extract (a : accessor) (breakdown : civil_info) : Z :=
    match a with
    | GetFullYear => c_year (cs breakdown)
    | GetMonth => c_month (cs breakdown) - 1
    | GetDayOfYear => GetYearDay (cs breakdown) - 1
    | GetDayOfMonth => c_day (cs breakdown) - 1
    | GetDate => c_day (cs breakdown)
    | GetDayOfWeek => let weekday_num := GetWeekday (cs breakdown) in
                      if weekday_num =? 6 then 0 else weekday_num + 1
    | GetHours => c_hour (cs breakdown)
    | GetMinutes => c_minute (cs breakdown)
    | GetSeconds => c_second (cs breakdown)
    | GetMilliseconds => ToInt64Milliseconds (subsecond breakdown)
    end.
  (* time_functions.cc:162-303: t.getHours() and t.getHours(tz) and so on *)
  Definition access (a : accessor) (t : time) (tz : option (list Z)) : out value :=
    GetTimeBreakdownPart t (match tz with Some s => s | None => [] end) (extract a).
End Zones.

(* time_functions.cc:453-481: d.getHours() and so on, with absl::ToInt64Hours,
   ToInt64Minutes and ToInt64Seconds, which divide towards zero and saturate *)
Definition saturated (n : Z) : Z := Z.max int64_min (Z.min int64_max n).
Definition to_int64 (d : duration) (unit : Z) : Z :=
  match d with
  | DFin n => saturated (Z.quot n unit)
  | DInf true => int64_min
  | DInf false => int64_max
  end.
Inductive duration_accessor := DurationHours | DurationMinutes | DurationSeconds | DurationMilliseconds.
Definition access_duration (a : duration_accessor) (d : duration) : Z :=
  match a with
  | DurationHours => to_int64 d (3600 * nanos_per_sec)
  | DurationMinutes => to_int64 d (60 * nanos_per_sec)
  | DurationSeconds => to_int64 d nanos_per_sec
  | DurationMilliseconds => Z.rem (ToInt64Milliseconds d) 1000
  end.
