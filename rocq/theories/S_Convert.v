(* Specification of conversions between values and texts, of the calendar and of
   the accessors of timestamps.  Independent of the model's functions: numerals
   are those of S_Format, ranges those of S_Time. *)
From Coq Require Import ZArith String List Bool.
From Verif Require Import Base M_Overflow M_Value S_Time S_Format.
Import ListNotations.
Open Scope Z_scope.

(** ** The Gregorian calendar *)
Definition leap (y : Z) : bool := (y mod 4 =? 0) && (negb (y mod 100 =? 0) || (y mod 400 =? 0)).
Definition month_length (y m : Z) : Z :=
  if m =? 2 then (if leap y then 29 else 28)
  else if (m =? 4) || (m =? 6) || (m =? 9) || (m =? 11) then 30 else 31.
Definition date := (Z * Z * Z)%type. (* year, month, day, the last two from 1 *)
Definition date_ok (x : date) : Prop :=
  let '(y, m, d) := x in 1 <= m <= 12 /\ 1 <= d <= month_length y m.
Definition next_day (x : date) : date :=
  let '(y, m, d) := x in
  if d <? month_length y m then (y, m, d + 1)
  else if m <? 12 then (y, m + 1, 1) else (y + 1, 1, 1).
(* [calendar n x]: [x] is the date [n] days after 1970-01-01 (before, if [n] is
   negative), counting day by day. *)
Inductive calendar : Z -> date -> Prop :=
| cal_epoch : calendar 0 (1970, 1, 1)
| cal_after n x : calendar n x -> calendar (n + 1) (next_day x)
| cal_before n x : date_ok x -> calendar (n + 1) (next_day x) -> calendar n x.
(* [clock s x h m c]: [s] seconds after 1970-01-01T00:00:00 it is the date [x] and
   [h]:[m]:[c]. *)
Definition clock (s : Z) (x : date) (h m c : Z) : Prop :=
  exists n, calendar n x /\ 0 <= h <= 23 /\ 0 <= m <= 59 /\ 0 <= c <= 59 /\
    s = n * 86400 + h * 3600 + m * 60 + c.
(* Days since the 1st of January of the same year, and since a Sunday. *)
Definition day_of_year (s : Z) (k : Z) : Prop :=
  exists n y m d, calendar n (y, m, d) /\ n * 86400 <= s < (n + 1) * 86400 /\ calendar (n - k) (y, 1, 1).
(* 1970-01-04 is a Sunday. *)
Definition day_of_week (s : Z) (k : Z) : Prop :=
  0 <= k <= 6 /\ exists week, (3 + 7 * week + k) * 86400 <= s < (3 + 7 * week + k + 1) * 86400.

(** ** Texts *)
Definition space (c : Z) : Prop := c = 32 \/ 9 <= c <= 13.
(* White space, a sign or none, digits, white space. *)
Definition integer_text (s : list Z) (n : Z) : Prop :=
  exists w sign ds w' m, s = (w ++ sign ++ ds ++ w')%list /\ Forall space w /\ Forall space w' /\
    ds <> [] /\ place_value false 10 ds m /\
    ((sign = [] \/ sign = text "+") /\ n = m \/ sign = text "-" /\ n = - m).
(* The same without a minus sign. *)
Definition natural_text (s : list Z) (n : Z) : Prop :=
  exists w sign ds w', s = (w ++ sign ++ ds ++ w')%list /\ Forall space w /\ Forall space w' /\
    ds <> [] /\ place_value false 10 ds n /\ (sign = [] \/ sign = text "+").

Definition true_text (s : list Z) : Prop := In s (map text ["true"; "True"; "TRUE"; "t"; "1"]%string).
Definition false_text (s : list Z) : Prop := In s (map text ["false"; "False"; "FALSE"; "f"; "0"]%string).

(* The units of durations, in nanoseconds. *)
Definition units : list (list Z * Z) :=
  [(text "h", 3600 * 10 ^ 9); (text "m", 60 * 10 ^ 9); (text "s", 10 ^ 9);
   (text "ms", 10 ^ 6); (text "us", 10 ^ 3); (text "ns", 1)].
(* [term t ns whole]: a decimal number with a unit is [ns] nanoseconds, a whole
   number of them; [whole] is the number before the point. *)
Definition term (t : list Z) (ns whole : Z) : Prop :=
  exists is unit size,
    In (unit, size) units /\ place_value false 10 is whole /\
    ((is <> [] /\ t = (is ++ unit)%list /\ ns = whole * size) \/
     exists fs frac, t = (is ++ text "." ++ fs ++ unit)%list /\ (is <> [] \/ fs <> []) /\
       place_value false 10 fs frac /\ (length fs <= 9)%nat /\
       (ns - whole * size) * 10 ^ Z.of_nat (length fs) = frac * size).
(* a sign or none and terms: the nanoseconds, and the numbers before the points *)
Inductive terms : list Z -> Z -> list Z -> Prop :=
| tm_one t ns w : term t ns w -> terms t ns [w]
| tm_more t ns w ts total ws : term t ns w -> terms ts total ws -> terms (t ++ ts) (ns + total) (w :: ws).
Definition duration_literal (s : list Z) (ns : Z) (wholes : list Z) : Prop :=
  exists sign ts total, s = (sign ++ ts)%list /\ terms ts total wholes /\
    ((sign = [] \/ sign = text "+") /\ ns = total \/ sign = text "-" /\ ns = - total).

(* k digits that denote n *)
Definition digits_of (k : nat) (t : list Z) (n : Z) : Prop := place_value false 10 t n /\ length t = k.
(* Z, or hours and minutes ahead of UTC; the seconds ahead *)
Definition zone_suffix (t : list Z) (ahead : Z) : Prop :=
  ((t = text "Z" \/ t = text "z") /\ ahead = 0) \/
  exists sign hs h ms m, t = (sign ++ hs ++ text ":" ++ ms)%list /\ digits_of 2 hs h /\ digits_of 2 ms m /\
    0 <= h <= 23 /\ 0 <= m <= 59 /\
    (sign = text "+" /\ ahead = h * 3600 + m * 60 \/ sign = text "-" /\ ahead = - (h * 3600 + m * 60)).
(* [rfc3339 s t]: the text s is of the form YYYY-MM-DDThh:mm:ss[.fraction]zone and
   stands for [t] nanoseconds after 1970-01-01T00:00:00Z; digits of the fraction
   below a nanosecond are dropped. *)
Definition rfc3339 (s : list Z) (t : Z) : Prop :=
  exists ys y ms m ds d sep hs h ns n cs c fs nanos zone ahead local,
    s = (ys ++ text "-" ++ ms ++ text "-" ++ ds ++ sep ++ hs ++ text ":" ++ ns ++ text ":" ++ cs ++ fs ++ zone)%list /\
    digits_of 4 ys y /\ digits_of 2 ms m /\ digits_of 2 ds d /\ (sep = text "T" \/ sep = text "t") /\
    digits_of 2 hs h /\ digits_of 2 ns n /\ digits_of 2 cs c /\
    date_ok (y, m, d) /\ clock local (y, m, d) h n c /\
    (fs = [] /\ nanos = 0 \/
     exists us u, fs = (text "." ++ us)%list /\ us <> [] /\ place_value false 10 us u /\
       nanos * 10 ^ Z.of_nat (length us) <= u * 10 ^ 9 < (nanos + 1) * 10 ^ Z.of_nat (length us)) /\
    zone_suffix zone ahead /\ t = (local - ahead) * 10 ^ 9 + nanos.
(* the text of string(t): in UTC, with the shortest fraction of 0, 3, 6 or 9 digits *)
Definition timestamp_text (t : Z) (s : list Z) : Prop :=
  exists ys y ms m ds d hs h ns n cs c fs nanos seconds,
    s = (ys ++ text "-" ++ ms ++ text "-" ++ ds ++ text "T" ++ hs ++ text ":" ++ ns ++ text ":" ++ cs ++ fs ++ text "Z")%list /\
    digits_of 4 ys y /\ digits_of 2 ms m /\ digits_of 2 ds d /\
    digits_of 2 hs h /\ digits_of 2 ns n /\ digits_of 2 cs c /\
    clock seconds (y, m, d) h n c /\ fraction nanos fs /\ 0 <= nanos < 10 ^ 9 /\
    t = seconds * 10 ^ 9 + nanos.

(* a time zone written as hours and minutes: the seconds ahead of UTC *)
Definition offset_zone (tz : list Z) (ahead : Z) : Prop :=
  exists sign hs h ms m, tz = (sign ++ hs ++ text ":" ++ ms)%list /\ digits_of 2 hs h /\ digits_of 2 ms m /\
    ((sign = [] \/ sign = text "+") /\ ahead = h * 3600 + m * 60 \/ sign = text "-" /\ ahead = - (h * 3600 + m * 60)).

(* The seconds a zone is ahead of UTC at [s] seconds after 1970: none given, the
   empty text, a zone of the database of time zones, or hours and minutes. *)
Inductive zone (load : list Z -> option (Z -> Z)) (s : Z) : option (list Z) -> Z -> Prop :=
| zn_none : zone load s None 0
| zn_empty : zone load s (Some []) 0
| zn_named name f : name <> [] -> load name = Some f -> zone load s (Some name) (f s)
| zn_offset tz ahead : load tz = None -> offset_zone tz ahead -> zone load s (Some tz) ahead.

(* digits, perhaps a point and digits, and a unit *)
Definition term_shape (t : list Z) : Prop :=
  exists is fs unit size n m, In (unit, size) units /\ place_value false 10 is n /\ place_value false 10 fs m /\
    ((is <> [] /\ t = (is ++ unit)%list) \/ ((is <> [] \/ fs <> []) /\ t = (is ++ text "." ++ fs ++ unit)%list)).
Definition duration_shape (s : list Z) : Prop :=
  exists sign parts, In sign [[]; text "+"; text "-"] /\
    (s = (sign ++ text "0")%list \/ (s = (sign ++ concat parts)%list /\ parts <> [] /\ Forall term_shape parts)).
