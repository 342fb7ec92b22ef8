(* Model of the parts of abseil's time and number texts that the conversions and
   the time functions of cel-cpp call: absl/time/civil_time.h, absl/time/time.cc,
   absl/time/duration.cc, absl/time/internal/cctz (time_zone_format.cc,
   civil_time_detail.h) and absl/strings/numbers.cc.  Abseil is not part of /repo:
   these definitions are the trusted reading of it, one per function called by
   internal/time.cc:32-190, runtime/standard/time_functions.cc:38-160 and
   runtime/standard/type_conversion_functions.cc:76-405.  Texts are lists of bytes.
   Durations and times are whole nanoseconds or infinite, as in M_Overflow. *)
From Coq Require Import ZArith String List Bool.
From Verif Require Import Base M_Overflow M_Format.
Import ListNotations.
Open Scope list_scope.
Open Scope Z_scope.

(** ** absl::CivilSecond, absl::TimeZone::CivilInfo *)
Record civil := mkCivil { c_year : Z; c_month : Z; c_day : Z; c_hour : Z; c_minute : Z; c_second : Z }.
(* the civil time and the rest of a second *)
Record civil_info := mkInfo { cs : civil; subsecond : duration }.

(* civil_time_detail.h ymd_ord: the days from 1970-01-01 to a date *)
Definition ymd_ord (y m d : Z) : Z :=
  let eyear := if m <=? 2 then y - 1 else y in
  let era := Z.quot (if 0 <=? eyear then eyear else eyear - 399) 400 in
  let yoe := eyear - era * 400 in
  let doy := Z.quot (153 * (m + (if 2 <? m then -3 else 9)) + 2) 5 + d - 1 in
  let doe := yoe * 365 + Z.quot yoe 4 - Z.quot yoe 100 + doy in
  era * 146097 + doe - 719468.
(* the date of a day: what civil_time_detail.h n_day makes of 1970-01-01 plus n
   days.  n_day steps through years; this is the usual closed form. *)
Definition civil_from_days (n : Z) : Z * Z * Z :=
  let z := n + 719468 in
  let era := z / 146097 in
  let doe := z mod 146097 in
  let yoe := (doe - doe / 1460 + doe / 36524 - doe / 146096) / 365 in
  let doy := doe - (365 * yoe + yoe / 4 - yoe / 100) in
  let mp := (5 * doy + 2) / 153 in
  let d := doy - (153 * mp + 2) / 5 + 1 in
  let m := if mp <? 10 then mp + 3 else mp - 9 in
  (yoe + era * 400 + (if m <=? 2 then 1 else 0), m, d).
(* the civil time of a count of seconds from 1970-01-01T00:00:00 *)
Definition civil_of_seconds (s : Z) : civil :=
  let '(y, m, d) := civil_from_days (s / 86400) in
  let r := s mod 86400 in
  mkCivil y m d (r / 3600) (r mod 3600 / 60) (r mod 60).
Definition seconds_of_civil (c : civil) : Z :=
  ymd_ord (c_year c) (c_month c) (c_day c) * 86400 + c_hour c * 3600 + c_minute c * 60 + c_second c.
(* CivilSecond::max(), CivilSecond::min() *)
Definition civil_max : civil := mkCivil int64_max 12 31 23 59 59.
Definition civil_min : civil := mkCivil int64_min 1 1 0 0 0.
(* absl::GetWeekday: monday = 0, ..., sunday = 6 *)
Definition GetWeekday (c : civil) : Z := (ymd_ord (c_year c) (c_month c) (c_day c) + 3) mod 7.
(* absl::GetYearDay: 1 .. 366 *)
Definition GetYearDay (c : civil) : Z :=
  ymd_ord (c_year c) (c_month c) (c_day c) - ymd_ord (c_year c) 1 1 + 1.
(* absl::TimeZone::At, for a zone that is offset seconds ahead of UTC at an
   instant given in seconds.  Infinite times have the greatest and the least
   civil time and an infinite subsecond. *)
Definition At (offset : Z -> Z) (t : time) : civil_info :=
  match t with
  | TFin ns => let s := ns / nanos_per_sec in
               mkInfo (civil_of_seconds (s + offset s)) (DFin (ns - s * nanos_per_sec))
  | TInf false => mkInfo civil_max (DInf false)
  | TInf true => mkInfo civil_min (DInf true)
  end.
Definition utc (s : Z) : Z := 0.
(* absl::ToInt64Milliseconds *)
Definition ToInt64Milliseconds (d : duration) : Z :=
  match d with
  | DFin n => Z.max int64_min (Z.min int64_max (Z.quot n 1000000))
  | DInf true => int64_min
  | DInf false => int64_max
  end.
(* absl::FormatTime with the format E4Y-m-dTH:M:S in UTC, for a finite time of a
   year from 0 to 9999 *)
Definition FormatTime (s : Z) : list Z :=
  let c := civil_of_seconds s in
  padded 4 (c_year c) ++ [45] ++ padded 2 (c_month c) ++ [45] ++ padded 2 (c_day c) ++ [84] ++
  padded 2 (c_hour c) ++ [58] ++ padded 2 (c_minute c) ++ [58] ++ padded 2 (c_second c).

(** ** absl::SimpleAtoi (absl/strings/numbers.cc) *)
Definition isspace (c : Z) : bool := (c =? 32) || ((9 <=? c) && (c <=? 13)).
Fixpoint strip_front (s : list Z) : list Z :=
  match s with
  | c :: s' => if isspace c then strip_front s' else s
  | [] => []
  end.
Definition strip (s : list Z) : list Z := rev (strip_front (rev (strip_front s))).
(* safe_parse_sign_and_base: white space around the text is dropped, then a sign *)
Definition parse_sign (s : list Z) : option (bool * list Z) :=
  match strip s with
  | [] => None
  | c :: s' =>
      let '(negative, t) := if c =? 45 then (true, s') else if c =? 43 then (false, s') else (false, c :: s') in
      match t with [] => None | _ => Some (negative, t) end
  end.
(* the number a text of digits stands for *)
Definition decimal (t : list Z) : option Z :=
  if forallb is_digit t then Some (fold_left (fun a c => a * 10 + (c - 48)) t 0) else None.
(* SimpleAtoi of an int64_t: the limits are tested digit by digit *)
Definition SimpleAtoi_int64 (s : list Z) : option Z :=
  match parse_sign s with
  | None => None
  | Some (negative, t) =>
      match decimal t with
      | Some n => let v := if negative then - n else n in if in_int64 v then Some v else None
      | None => None
      end
  end.
(* SimpleAtoi of a uint64_t refuses any minus sign *)
Definition SimpleAtoi_uint64 (s : list Z) : option Z :=
  match parse_sign s with
  | None => None
  | Some (true, _) => None
  | Some (false, t) =>
      match decimal t with
      | Some n => if in_uint64 n then Some n else None
      | None => None
      end
  end.

(** ** absl::ParseDuration (absl/time/duration.cc) *)
(* absl::ConsumePrefix: the rest after a prefix *)
Fixpoint starts (s p : list Z) : option (list Z) :=
  match p, s with
  | [], _ => Some s
  | c :: p', x :: s' => if x =? c then starts s' p' else None
  | _, [] => None
  end.
(* The digits at the front of a text as a number, and how many there are. *)
Fixpoint read_digits (s : list Z) (acc : Z) (count : nat) : Z * nat * list Z :=
  match s with
  | c :: s' => if is_digit c then read_digits s' (acc * 10 + (c - 48)) (S count) else (acc, count, s)
  | [] => (acc, count, [])
  end.
(* The fraction: digits are dropped once the scale has passed kint64max / 10 *)
Fixpoint read_fraction (s : list Z) (part scale : Z) : Z * Z * list Z :=
  match s with
  | c :: s' =>
      if is_digit c then
        if scale <=? int64_max / 10 then read_fraction s' (part * 10 + (c - 48)) (scale * 10)
        else read_fraction s' part scale
      else (part, scale, s)
  | [] => (part, scale, [])
  end.
(* ConsumeDurationNumber: int_part, frac_part, frac_scale, the rest *)
Definition ConsumeDurationNumber (s : list Z) : option (Z * Z * Z * list Z) :=
  let '(int_part, count, s1) := read_digits s 0 0 in
  if int64_max <? int_part then None else
  match starts s1 (str ".") with
  | Some s2 =>
      let '(frac_part, frac_scale, s3) := read_fraction s2 0 1 in
      if Nat.eqb count 0 && (frac_scale =? 1) then None
      else Some (int_part, frac_part, frac_scale, s3)
  | None => if Nat.eqb count 0 then None else Some (int_part, 0, 1, s1)
  end.
(* ConsumeDurationUnit: the unit in nanoseconds, the rest *)
Fixpoint first_unit (units : list (string * Z)) (s : list Z) : option (Z * list Z) :=
  match units with
  | [] => None
  | (name, unit) :: units' =>
      match starts s (str name) with Some s' => Some (unit, s') | None => first_unit units' s end
  end.
Definition ConsumeDurationUnit (s : list Z) : option (Z * list Z) :=
  first_unit [("ns", 1); ("us", 1000); ("ms", 1000000); ("s", nanos_per_sec);
              ("m", 60 * nanos_per_sec); ("h", 3600 * nanos_per_sec)]%string s.
(* Duration * int64_t saturates, Duration / int64_t truncates.  absl keeps quarter
   nanoseconds here; the model keeps whole ones. *)
Definition dur_div (d : duration) (n : Z) : duration :=
  match d with DFin x => DFin (Z.quot x n) | DInf s => DInf s end.
Fixpoint parse_terms (fuel : nat) (sign : Z) (s : list Z) (dur : duration) : option duration :=
  match s, fuel with
  | [], _ => Some dur
  | _, O => None
  | _, S fuel' =>
      match ConsumeDurationNumber s with
      | None => None
      | Some (int_part, frac_part, frac_scale, s1) =>
          match ConsumeDurationUnit s1 with
          | None => None
          | Some (unit, s2) =>
              let dur := if int_part =? 0 then dur
                         else absl_add_dur dur (absl_duration (sign * int_part * unit)) in
              let dur := if frac_part =? 0 then dur
                         else absl_add_dur dur (dur_div (absl_duration (sign * frac_part * unit)) frac_scale) in
              parse_terms fuel' sign s2 dur
          end
      end
  end.
Definition ParseDuration (s : list Z) : option duration :=
  let '(sign, s1) := match starts s (str "-"), starts s (str "+") with
                     | Some s', _ => (-1, s')
                     | None, Some s' => (1, s')
                     | None, None => (1, s)
                     end in
  if bytes_eqb s1 [] then None
  else if bytes_eqb s1 (str "0") then Some (DFin 0)
  else if bytes_eqb s1 (str "inf") then Some (DInf (sign =? -1))
  else parse_terms (length s1) sign s1 (DFin 0).

(** ** absl::ParseTime with RFC3339_full (absl/time/format.cc, cctz time_zone_format.cc) *)
(* ParseInt: at most width characters with the sign, any number if width is 0 *)
Fixpoint read_width (width : option nat) (s : list Z) (acc : Z) (count : nat) : Z * nat * list Z :=
  match s with
  | c :: s' =>
      match width with
      | Some O => (acc, count, s)
      | _ => if is_digit c
             then read_width (match width with Some (S w) => Some w | w => w end) s' (acc * 10 + (c - 48)) (S count)
             else (acc, count, s)
      end
  | [] => (acc, count, [])
  end.
Definition ParseInt (s : list Z) (width : option nat) (min max : Z) : option (Z * list Z) :=
  let '(neg, s1, width) :=
    match starts s (str "-") with
    | Some s' => (true, s', match width with Some w => Some (w - 1)%nat | None => None end)
    | None => (false, s, width)
    end in
  let '(value, count, s2) := read_width width s1 0 0 in
  if Nat.eqb count 0 then None
  else if neg && (value =? 0) then None
  else let v := if neg then - value else value in
       if (min <=? v) && (v <=? max) then Some (v, s2) else None.
(* ParseSubSeconds, in femtoseconds: fifteen digits count *)
Fixpoint read_sub (s : list Z) (v : Z) (room : nat) (count : nat) : Z * nat * list Z :=
  match s with
  | c :: s' =>
      if is_digit c then
        match room with
        | S room' => read_sub s' (v * 10 + (c - 48)) room' (S count)
        | O => read_sub s' v O (S count)
        end
      else (v * 10 ^ Z.of_nat room, count, s)
  | [] => (v * 10 ^ Z.of_nat room, count, [])
  end.
Definition ParseSubSeconds (s : list Z) : option (Z * list Z) :=
  let '(v, count, s') := read_sub s 0 15 0 in
  if Nat.eqb count 0 then None else Some (v, s').
(* a two digit number, for offsets: less than two characters are not consumed *)
Definition two (s : list Z) (max : Z) : option (Z * list Z) :=
  match ParseInt s (Some 2%nat) 0 max with
  | Some (v, s') => if Nat.eqb (length s) (length s' + 2) then Some (v, s') else None
  | None => None
  end.
Definition skip_colon (s : list Z) : list Z := match starts s (str ":") with Some s' => s' | None => s end.
(* ParseOffset with the separator : *)
Definition ParseOffset (s : list Z) : option (Z * list Z) :=
  match s with
  | c :: s1 =>
      if (c =? 43) || (c =? 45) then
        match two s1 23 with
        | None => None
        | Some (hours, s2) =>
            let '(minutes, seconds, s3) :=
              match two (skip_colon s2) 59 with
              | None => (0, 0, s2)
              | Some (minutes, s3) =>
                  match two (skip_colon s3) 59 with
                  | None => (minutes, 0, s3)
                  | Some (seconds, s4) => (minutes, seconds, s4)
                  end
              end in
            let offset := (hours * 60 + minutes) * 60 + seconds in
            Some (if c =? 45 then - offset else offset, s3)
        end
      else if (c =? 90) || (c =? 122) then Some (0, s1)
      else None
  | [] => None
  end.
(* a C string ends at its first zero byte *)
Fixpoint c_str (s : list Z) : list Z :=
  match s with c :: s' => if c =? 0 then [] else c :: c_str s' | [] => [] end.
Definition obindo {A B} (x : option A) (f : A -> option B) : option B :=
  match x with Some a => f a | None => None end.
Notation "'let*' x := e 'in' f" := (obindo e (fun x => f)) (at level 200, x pattern, e at level 100, f at level 200).
(* cctz::detail::parse of Y-m-dETH:M:E*SEz.  Abseil tests the year for overflow in
   several places; here the seconds must fit an int64_t. *)
Definition cctz_parse (input : list Z) : option time :=
  let data := strip_front (c_str input) in
  let* (year, data) := ParseInt data None int64_min int64_max in
  let* data := starts data (str "-") in
  let* (month, data) := ParseInt data (Some 2%nat) 1 12 in
  let* data := starts data (str "-") in
  let* (day, data) := ParseInt data (Some 2%nat) 1 31 in
  let* data := match data with c :: d => if (c =? 84) || (c =? 116) then Some d else None | [] => None end in
  let* (hour, data) := ParseInt data (Some 2%nat) 0 23 in
  let* data := starts data (str ":") in
  let* (minute, data) := ParseInt data (Some 2%nat) 0 59 in
  let* data := starts data (str ":") in
  let* (second, data) := ParseInt data (Some 2%nat) 0 60 in
  let* (femto, data) := match starts data (str ".") with Some d => ParseSubSeconds d | None => Some (0, data) end in
  let* (offset, data) := ParseOffset data in
  match strip_front data with
  | _ :: _ => None
  | [] =>
      (* a leap second of 60 is the following second *)
      let '(second, offset, femto) := if second =? 60 then (59, offset - 1, 0) else (second, offset, femto) in
      (* days must not roll into the next month *)
      let '(_, m, d) := civil_from_days (ymd_ord year month day) in
      if (m =? month) && (d =? day) then
        let s := seconds_of_civil (mkCivil year month day hour minute second) - offset in
        if in_int64 s then Some (TFin (s * nanos_per_sec + femto / 1000000)) else None
      else None
  end.
Definition blank (s : list Z) : bool := match strip_front s with [] => true | _ => false end.
(* absl::ParseTime *)
Definition ParseTime (input : list Z) : option time :=
  let input := strip_front input in
  match starts input (str "infinite-future"), starts input (str "infinite-past") with
  | Some tail, _ => if blank tail then Some (TInf false) else cctz_parse input
  | None, Some tail => if blank tail then Some (TInf true) else cctz_parse input
  | None, None => cctz_parse input
  end.
