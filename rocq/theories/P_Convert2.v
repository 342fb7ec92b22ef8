(* C105 to C108, continued *)
From Coq Require Import ZArith String List Bool Lia.
From Verif Require Import Base M_Utf8 S_Utf8 L_Utf8 M_Overflow M_Number M_Value M_Format S_Time S_Format L_Format.
From Verif Require Import M_Civil M_Convert S_Convert L_Calendar L_Convert L_Convert2 L_Convert3 P_Convert.
Import ListNotations.
Open Scope list_scope.
Open Scope Z_scope.

Example C105_read_back_ex : dur_range (-1500000000) /\
  convert no_format no_atod released ToString (VDuration (DFin (-1500000000))) = Some (Val (VString (text "-1.500s"))).
Proof. split; [unfold dur_range, dur_bound; lia|vm_compute; reflexivity]. Qed.

(* Terms with units, when the numbers before the points fit 64 bits: the sum, or an
   error if it is out of range. *)
Theorem C105_literal_partial : forall fd ad o s ns wholes,
  duration_literal s ns wholes -> Forall (fun w => w <= 2 ^ 63 - 1) wholes ->
  (dur_range ns -> convert fd ad o ToDuration (VString s) = Some (Val (VDuration (DFin ns)))) /\
  (~ dur_range ns -> exists e, convert fd ad o ToDuration (VString s) = Some (Val (VError e)) /\ st_code e = kInvalidArgument).
Proof.
  intros fd ad o s ns ws L F. cbn [convert]. unfold CreateDurationFromString.
  rewrite (ParseDuration_literal s ns ws L F). split.
  - intros R. rewrite absl_duration_range by easy.
    assert (ValidateDuration (DFin ns) = Val tt) as -> by (apply duration_ok; eauto). cbn [or_error]. now rewrite DurationValue_ok.
  - intros R. destruct (duration_cases (absl_duration ns)) as [V|(e & -> & C)]; [|exists e; cbn [or_error]; now split].
    destruct R. apply duration_ok in V as (x & E & R). unfold absl_duration in E. destruct (in_int64 _); [|easy]. now injection E as ->.
Qed.
Print Assumptions C105_literal_partial.
Example C105_literal_ex : duration_literal (text "-1h30m0.5s") (-5400500000000) [1; 30; 0].
Proof.
  assert (P : forall t n, decimal t = Some n -> place_value false 10 t n) by (intros; now apply decimal_place).
  exists (text "-"), (text "1h30m0.5s"), 5400500000000. split; [reflexivity|]. split; [|right; split; [reflexivity|lia]].
  change (text "1h30m0.5s") with (text "1h" ++ text "30m" ++ text "0.5s").
  replace 5400500000000 with (1 * (3600 * 10 ^ 9) + (30 * (60 * 10 ^ 9) + 500000000)) by lia.
  apply tm_more; [|apply tm_more; [|apply tm_one]].
  - exists (text "1"), (text "h"), (3600 * 10 ^ 9). split; [left; reflexivity|]. split; [now apply P|]. left. split; [easy|]. split; reflexivity.
  - exists (text "30"), (text "m"), (60 * 10 ^ 9). split; [right; left; reflexivity|]. split; [now apply P|]. left. split; [easy|]. split; reflexivity.
  - exists (text "0"), (text "s"), (10 ^ 9). split; [do 2 right; left; reflexivity|]. split; [now apply P|]. right.
    exists (text "5"), 5. split; [reflexivity|]. split; [now left|]. split; [now apply P|]. split; [cbn; lia|reflexivity].
Qed.
(* A duration in range whose nanoseconds do not fit 64 bits is refused. *)
Theorem C105_literal_refuted : exists s ns wholes, duration_literal s ns wholes /\ dur_range ns /\
  forall fd ad o, exists e, convert fd ad o ToDuration (VString s) = Some (Val (VError e)).
Proof.
  exists (text "10000000000000000000ns"), 10000000000000000000, [10000000000000000000]. split; [|split].
  - exists [], (text "10000000000000000000ns"), 10000000000000000000. split; [reflexivity|]. split; [|left; split; [now left|reflexivity]].
    apply tm_one. exists (text "10000000000000000000"), (text "ns"), 1. split; [do 5 right; left; reflexivity|].
    split; [now apply decimal_place|]. left. split; [easy|]. split; reflexivity.
  - unfold dur_range, dur_bound. lia.
  - intros fd ad o. eexists. vm_compute. reflexivity.
Qed.
Print Assumptions C105_literal_refuted.
(* duration() accepts nothing else, and what it gives is in range. *)
Theorem C105_only_literals : forall fd ad o s d, convert fd ad o ToDuration (VString s) = Some (Val (VDuration d)) ->
  duration_shape s /\ exists ns, d = DFin ns /\ dur_range ns.
Proof.
  intros fd ad o s d. cbn [convert]. intros H. apply some_inj in H. unfold CreateDurationFromString in H.
  destruct (ParseDuration s) as [d'|] eqn:E; [|easy].
  destruct (duration_cases d') as [V|(e & V & _)]; rewrite V in H; cbn [or_error] in H; [|easy].
  apply duration_ok in V as (ns & -> & R). rewrite DurationValue_ok in H by easy. injection H as <-.
  split; [now apply ParseDuration_shape in E|eauto].
Qed.
Print Assumptions C105_only_literals.
Example C105_only_literals_ex : convert no_format no_atod released ToDuration (VString (text "1d")) =
  Some (Val (VError (invalid "String to Duration conversion failed"))) /\
  convert no_format no_atod released ToDuration (VString (text ".5ms")) = Some (Val (VDuration (DFin 500000))).
Proof. split; vm_compute; reflexivity. Qed.
(* A duration that is out of range is printed as an error. *)
Theorem C105_print_range : forall fd ad o d, enable_string_conversion o = true ->
  (forall ns, d = DFin ns -> ~ dur_range ns) ->
  exists e, convert fd ad o ToString (VDuration d) = Some (Val (VError e)) /\ st_code e = kInvalidArgument.
Proof.
  intros fd ad o d O N. cbn [convert]. rewrite O. cbn [negb]. unfold EncodeDurationToJson.
  destruct (duration_cases d) as [V|(e & -> & C)].
  - apply duration_ok in V as (ns & -> & R). now destruct (N ns eq_refl).
  - exists e. cbn [obind or_error]. now split.
Qed.
Print Assumptions C105_print_range.
Example C105_print_range_ex : ~ dur_range (315576000001 * 10 ^ 9).
Proof. unfold dur_range, dur_bound. lia. Qed.
(* The accessors of durations: the whole hours, minutes and seconds, rounded towards
   zero, and the milliseconds of the last second; together they say what the
   duration is to the millisecond. *)
Theorem C105_accessors : forall ns, dur_range ns -> exists sign hours minutes seconds millis rest,
  (sign = 1 \/ sign = -1) /\ ns = sign * (((hours * 60 + minutes) * 60 + seconds) * 10 ^ 9 + millis * 10 ^ 6 + rest) /\
  0 <= hours /\ 0 <= minutes <= 59 /\ 0 <= seconds <= 59 /\ 0 <= millis <= 999 /\ 0 <= rest < 10 ^ 6 /\
  access_duration DurationHours (DFin ns) = sign * hours /\
  access_duration DurationMinutes (DFin ns) = sign * (hours * 60 + minutes) /\
  access_duration DurationSeconds (DFin ns) = sign * ((hours * 60 + minutes) * 60 + seconds) /\
  access_duration DurationMilliseconds (DFin ns) = sign * millis.
Proof.
  intros ns R. unfold dur_range, dur_bound in R. cbn [access_duration to_int64 ToInt64Milliseconds].
  change nanos_per_sec with 1000000000.
  assert (Q : exists sign a, (sign = 1 \/ sign = -1) /\ ns = sign * a /\ 0 <= a <= 315576000000999999999).
  { destruct (Z_le_gt_dec 0 ns); [exists 1, ns|exists (-1), (- ns)]; lia. }
  destruct Q as (sign & a & S & -> & A).
  assert (G : forall u, 0 < u -> Z.quot (sign * a) u = sign * (a / u)).
  { intros u U. destruct S as [-> | ->].
    - rewrite !Z.mul_1_l. apply Z.quot_div_nonneg; lia.
    - replace (-1 * a) with (- a) by lia. rewrite Z.quot_opp_l by lia. rewrite Z.quot_div_nonneg by lia. lia. }
  assert (B : forall u, 1000000 <= u -> saturated (sign * (a / u)) = sign * (a / u)).
  { intros u U. assert (0 <= a / u <= 400000000000000) by (split; [apply Z.div_pos; lia|apply Z.div_le_upper_bound; nia]).
    unfold saturated, int64_min, int64_max. destruct S as [-> | ->]; lia. }
  exists sign, (a / 3600000000000), (a / 60000000000 mod 60), (a / 1000000000 mod 60), (a / 1000000 mod 1000), (a mod 1000000).
  assert (E1 : a / 3600000000000 = a / 1000000000 / 60 / 60) by (rewrite !Z.div_div by lia; reflexivity).
  assert (E2 : a / 60000000000 = a / 1000000000 / 60) by (rewrite !Z.div_div by lia; reflexivity).
  assert (E3 : a / 1000000000 = a / 1000000 / 1000) by (rewrite !Z.div_div by lia; reflexivity).
  rewrite E1, E2, E3. set (m := a / 1000000) in *. set (s := m / 1000).
  assert (S1 : s / 60 / 60 * 60 + s / 60 mod 60 = s / 60) by (pose proof (Z.div_mod (s / 60) 60 ltac:(lia)); lia).
  assert (S2 : (s / 60) * 60 + s mod 60 = s) by (pose proof (Z.div_mod s 60 ltac:(lia)); lia).
  split; [exact S|]. rewrite S1, S2. split.
  { f_equal. pose proof (Z.div_mod a 1000000 ltac:(lia)). pose proof (Z.div_mod m 1000 ltac:(lia)). fold m in H. fold s in H0. lia. }
  pose proof (Z.mod_pos_bound (s / 60) 60 ltac:(lia)). pose proof (Z.mod_pos_bound s 60 ltac:(lia)).
  pose proof (Z.mod_pos_bound m 1000 ltac:(lia)). pose proof (Z.mod_pos_bound a 1000000 ltac:(lia)).
  assert (0 <= s / 60 / 60) by (apply Z.div_pos; [apply Z.div_pos; [unfold s, m; apply Z.div_pos; [apply Z.div_pos|]|]|]; lia).
  repeat (split; [lia|]).
  assert (M : sign * m = Z.max int64_min (Z.min int64_max (Z.quot (sign * a) 1000000))).
  { rewrite G by lia. symmetry. apply B. lia. }
  change (3600 * 1000000000) with 3600000000000. change (60 * 1000000000) with 60000000000.
  rewrite !G, !B by lia. rewrite E1, E2, E3. fold s. split; [easy|]. split; [easy|]. split; [easy|].
  rewrite G in M by lia. rewrite <- M. assert (0 <= m) by (apply Z.div_pos; lia).
  destruct S as [-> | ->].
  - rewrite !Z.mul_1_l. apply Z.rem_mod_nonneg; lia.
  - replace (-1 * m) with (- m) by lia. rewrite Z.rem_opp_l by lia. rewrite Z.rem_mod_nonneg by lia. lia.
Qed.
Print Assumptions C105_accessors.
Example C105_accessors_ex : map (fun a => access_duration a (DFin (-3661250 * 10 ^ 6)))
  [DurationHours; DurationMinutes; DurationSeconds; DurationMilliseconds] = [-1; -61; -3661; -250].
Proof. vm_compute. reflexivity. Qed.

(** * C106: timestamps *)
Lemma checked_in_range o t : ts_range t -> checked_timestamp o (TFin t) = Val (VTimestamp (TFin t)).
Proof.
  intros R. unfold checked_timestamp. rewrite (proj2 (timestamp_ok (TFin t))) by eauto. now rewrite andb_false_r.
Qed.
Theorem C106_read_back : forall fd ad o t, enable_string_conversion o = true -> ts_range t -> exists s,
  convert fd ad o ToString (VTimestamp (TFin t)) = Some (Val (VString s)) /\ timestamp_text t s /\
  convert fd ad o ToTimestamp (VString s) = Some (Val (VTimestamp (TFin t))).
Proof.
  intros fd ad o t O R. destruct (EncodeTimestamp_text t R) as (s & E & T). exists s. cbn [convert]. rewrite O. cbn [negb].
  rewrite E. split; [easy|]. split; [easy|]. unfold string_to_timestamp.
  rewrite (ParseTime_rfc3339 s t) by now apply timestamp_text_rfc. now rewrite checked_in_range.
Qed.
Print Assumptions C106_read_back.
Example C106_read_back_ex : ts_range (951782400 * 10 ^ 9 + 5000) /\
  convert no_format no_atod released ToString (VTimestamp (TFin (951782400 * 10 ^ 9 + 5000))) =
  Some (Val (VString (text "2000-02-29T00:00:00.000005Z"))).
Proof. split; [unfold ts_range, ts_min, ts_max; lia|vm_compute; reflexivity]. Qed.
(* A text of RFC 3339 is the instant it names; with the option, an error if that is
   out of range. *)
Theorem C106_rfc3339 : forall fd ad o s t, rfc3339 s t ->
  (ts_range t \/ enable_timestamp_duration_overflow_errors o = false ->
   convert fd ad o ToTimestamp (VString s) = Some (Val (VTimestamp (TFin t)))) /\
  (~ ts_range t -> enable_timestamp_duration_overflow_errors o = true ->
   exists e, convert fd ad o ToTimestamp (VString s) = Some (Val (VError e)) /\ st_code e = kOutOfRange).
Proof.
  intros fd ad o s t H. cbn [convert]. unfold string_to_timestamp. rewrite (ParseTime_rfc3339 s t H). split.
  - intros [R|E]; [now rewrite checked_in_range|]. unfold checked_timestamp. now rewrite E.
  - intros R E. unfold checked_timestamp. rewrite E. destruct (_ || _) eqn:X.
    + eexists. split; reflexivity.
    + apply timestamp_ok in X as (t' & [= <-] & R'). easy.
Qed.
Print Assumptions C106_rfc3339.
Example C106_rfc3339_ex : rfc3339 (text "1970-01-02T00:30:00.25+01:00") (84600 * 10 ^ 9 + 250000000).
Proof.
  assert (D : forall k t n, decimal t = Some n -> length t = k -> digits_of k t n) by (intros; split; [now apply decimal_place|easy]).
  exists (text "1970"), 1970, (text "01"), 1, (text "02"), 2, (text "T"), (text "00"), 0, (text "30"), 30, (text "00"), 0,
    (text ".25"), 250000000, (text "+01:00"), 3600, 88200.
  split; [reflexivity|]. do 3 (split; [now apply D|]). split; [now left|]. do 3 (split; [now apply D|]).
  split; [cbn; lia|]. split.
  { exists 1. split; [|lia]. apply (cal_after 0 (1970, 1, 1)). constructor. }
  split; [right; exists (text "25"), 25; split; [reflexivity|]; split; [easy|]; split; [now apply decimal_place|cbn; lia]|].
  split; [|reflexivity]. right. exists (text "+"), (text "01"), 1, (text "00"), 0. split; [reflexivity|].
  split; [now apply D|]. split; [now apply D|]. split; [lia|]. split; [lia|]. left. split; [reflexivity|lia].
Qed.
(* Seconds: timestamp(i) and int(t). *)
Theorem C106_seconds : forall fd ad o,
  (forall i, -62135596800 <= i <= 253402300799 ->
     convert fd ad o ToTimestamp (VInt i) = Some (Val (VTimestamp (TFin (i * 10 ^ 9)))) /\
     convert fd ad o ToInt (VTimestamp (TFin (i * 10 ^ 9))) = Some (Val (VInt i))) /\
  (forall t, ts_range t -> exists i, convert fd ad o ToInt (VTimestamp (TFin t)) = Some (Val (VInt i)) /\
     i * 10 ^ 9 <= t < (i + 1) * 10 ^ 9) /\
  (forall i, ~ -62135596800 <= i <= 253402300799 -> enable_timestamp_duration_overflow_errors o = true ->
     exists e, convert fd ad o ToTimestamp (VInt i) = Some (Val (VError e)) /\ st_code e = kOutOfRange).
Proof.
  intros fd ad o.
  assert (F : forall t, ts_range t -> TimeToUnixSeconds (TFin t) = t / 10 ^ 9) by (intros t; apply ToUnixSeconds_range).
  split; [|split].
  - intros i Hi. assert (R : ts_range (i * 10 ^ 9)) by (unfold ts_range, ts_min, ts_max; lia).
    cbn [convert]. unfold FromUnixSeconds. change nanos_per_sec with (10 ^ 9). rewrite checked_in_range by easy.
    split; [easy|]. rewrite F by easy. rewrite Z.div_mul by lia. easy.
  - intros t R. exists (t / 10 ^ 9). cbn [convert]. rewrite F by easy. split; [easy|].
    pose proof (Z.div_mod t (10 ^ 9) ltac:(lia)). pose proof (Z.mod_pos_bound t (10 ^ 9) ltac:(lia)). lia.
  - intros i Hi E. cbn [convert]. unfold checked_timestamp. rewrite E. cbn [andb]. destruct (_ || _) eqn:X.
    + eexists. split; reflexivity.
    + apply timestamp_ok in X as (t & [= <-] & R). change nanos_per_sec with (10 ^ 9) in R. unfold ts_range, ts_min, ts_max in R. lia.
Qed.
Print Assumptions C106_seconds.
Example C106_seconds_ex : convert no_format no_atod checked ToInt (VTimestamp (TFin (-1))) = Some (Val (VInt (-1))).
Proof. vm_compute. reflexivity. Qed.
(* With the option a timestamp made by a conversion is in range. *)
Theorem C106_range_partial : forall fd ad o f v t, enable_timestamp_duration_overflow_errors o = true ->
  (forall t', v <> VTimestamp t') -> convert fd ad o f v = Some (Val (VTimestamp t)) -> exists n, t = TFin n /\ ts_range n.
Proof.
  intros fd ad o f v t O N H.
  assert (TS : forall ts, checked_timestamp o ts = Val (VTimestamp t) -> exists n, t = TFin n /\ ts_range n).
  { intros ts E. unfold checked_timestamp in E. rewrite O in E. cbn [andb] in E. destruct (_ || _) eqn:X; [easy|].
    injection E as ->. now apply timestamp_ok. }
  assert (OE : forall A (x : out A) k, or_error x k = Val (VTimestamp t) -> exists a, x = Val a /\ k a = Val (VTimestamp t)).
  { intros A x k E. destruct x; cbn in E; [eauto|easy|easy]. }
  destruct f; cbn [convert] in H.
  - destruct v; try discriminate H. apply some_inj in H. unfold string_to_bool in H. destruct (one_of _ _); [easy|]. now destruct (one_of _ _).
  - destruct v; discriminate H.
  - destruct v; try discriminate H. apply some_inj in H. now destruct (ad _).
  - destruct v; try discriminate H; apply some_inj in H; try (apply OE in H as (? & _ & H); discriminate H).
    unfold string_to_int in H. now destruct (SimpleAtoi_int64 _).
  - destruct (negb _); [easy|]. destruct v; try discriminate H; apply some_inj in H; try (apply OE in H as (? & _ & H); discriminate H).
    unfold bytes_to_string in H. now destruct (Utf8IsValid _) as [[]| |].
  - destruct v; try discriminate H; apply some_inj in H; try (apply OE in H as (? & _ & H); discriminate H).
    unfold string_to_uint in H. now destruct (SimpleAtoi_uint64 _).
  - assert (DV : forall d, DurationValue o d <> Val (VTimestamp t)).
    { intros d. unfold DurationValue. destruct (debug_build o); [|easy]. now destruct (ValidateDuration d). }
    destruct v; try discriminate H; apply some_inj in H; [|now apply DV in H].
    unfold CreateDurationFromString in H. destruct (ParseDuration _); [|easy]. apply OE in H as (? & _ & H). now apply DV in H.
  - destruct v; try discriminate H; apply some_inj in H.
    + now apply TS in H.
    + unfold string_to_timestamp in H. destruct (ParseTime _); [now apply TS in H|easy].
    + now destruct (N t0).
  - injection H as ->. now destruct (N t).
Qed.
Print Assumptions C106_range_partial.
(* With the default options it need not be. *)
Theorem C106_range_refuted : forall fd ad o, enable_timestamp_duration_overflow_errors o = false ->
  convert fd ad o ToTimestamp (VString (text "infinite-future")) = Some (Val (VTimestamp (TInf false))) /\
  exists t, convert fd ad o ToTimestamp (VInt 253402300800) = Some (Val (VTimestamp (TFin t))) /\ ~ ts_range t.
Proof.
  intros fd ad o O. cbn [convert].
  assert (P : ParseTime (text "infinite-future") = Some (TInf false)) by (vm_compute; reflexivity).
  unfold string_to_timestamp. rewrite P. unfold checked_timestamp. rewrite O. cbn [andb]. split; [easy|].
  eexists. split; [reflexivity|]. vm_compute. intuition.
Qed.
Print Assumptions C106_range_refuted.
Example C106_range_ex : exists t, convert no_format no_atod checked ToTimestamp (VString (text "9999-12-31T23:59:59Z")) =
  Some (Val (VTimestamp (TFin t))).
Proof. eexists. vm_compute. reflexivity. Qed.
(* timestamp() also accepts texts that are not of RFC 3339: fields of one digit, and
   anything after a zero byte. *)
Theorem C106_only_rfc3339_refuted : forall fd ad o,
  convert fd ad o ToTimestamp (VString (text "1970-1-1T0:0:0Z")) = Some (Val (VTimestamp (TFin 0))) /\
  convert fd ad o ToTimestamp (VString (text "1970-01-01T00:00:00Z" ++ 0 :: text "junk")) = Some (Val (VTimestamp (TFin 0))) /\
  (forall t, ~ rfc3339 (text "1970-1-1T0:0:0Z") t) /\ (forall t, ~ rfc3339 (text "1970-01-01T00:00:00Z" ++ 0 :: text "junk") t).
Proof.
  intros fd ad o.
  assert (R : ts_range 0) by (unfold ts_range, ts_min, ts_max; lia).
  assert (P1 : ParseTime (text "1970-1-1T0:0:0Z") = Some (TFin 0)) by (vm_compute; reflexivity).
  assert (P2 : ParseTime (text "1970-01-01T00:00:00Z" ++ 0 :: text "junk") = Some (TFin 0)) by (vm_compute; reflexivity).
  cbn [convert]. unfold string_to_timestamp. rewrite P1, P2, checked_in_range by easy. split; [easy|]. split; [easy|].
  split; intros t (ys & y & ms & m & ds & d & sep & hs & h & ns & n & c' & c & fs & nanos & zone & ahead & local &
    E & (Py & Ly) & (Pm & Lm) & (Pd & Ld) & Sep & (Ph & Lh) & (Pn & Ln) & (Pc & Lc) & _ & _ & Fs & HZ & _).
  - apply (f_equal (@length Z)) in E. rewrite !app_length in E. rewrite Ly, Lm, Ld, Lh, Ln, Lc in E.
    cbn in E. lia.
  - assert (NZ : no_zero (text "1970-01-01T00:00:00Z" ++ 0 :: text "junk")).
    { rewrite E. assert (T : forall u, forallb (fun c => negb (c =? 0)) u = true -> no_zero u).
      { intros u Hu. apply Forall_forall. intros x Hx. rewrite forallb_forall in Hu. apply Hu in Hx. lia. }
      repeat match goal with |- no_zero (_ ++ _) => apply no_zero_app end; 
        try match goal with H : place_value _ _ ?x _ |- no_zero ?x => apply (place_no_zero _ _ H) | |- no_zero (text _) => apply T; reflexivity end.
      - destruct Sep as [-> | ->]; apply T; reflexivity.
      - destruct Fs as [(-> & _)|(us & u & -> & _ & Pu & _)]; [constructor|]. apply no_zero_app; [apply T; reflexivity|]. apply (place_no_zero _ _ Pu).
      - now apply zone_no_zero in HZ. }
    assert (In 0 (text "1970-01-01T00:00:00Z" ++ 0 :: text "junk")) by (apply in_or_app; right; now left).
    unfold no_zero in NZ. rewrite Forall_forall in NZ. now apply NZ in H.
Qed.
Print Assumptions C106_only_rfc3339_refuted.

(** * C107: the fields of timestamps *)
(* Every count of seconds is one date of the calendar and one time of the day. *)
Theorem C107_calendar : forall s, exists x h m c, clock s x h m c /\
  forall x' h' m' c', clock s x' h' m' c' -> x' = x /\ h' = h /\ m' = m /\ c' = c.
Proof.
  intros s. destruct (civil_of_seconds s) as [y m d h mi c] eqn:E. exists (y, m, d), h, mi, c.
  split; [now apply clock_civil|]. intros [[y' m'] d'] h' mi' c' C. apply clock_civil in C. rewrite E in C. injection C. intros. now subst.
Qed.
Print Assumptions C107_calendar.
Example C107_calendar_ex : clock (-1) (1969, 12, 31) 23 59 59.
Proof. apply clock_civil. vm_compute. reflexivity. Qed.
Lemma breakdown load t tz ahead : ts_range t -> zone load (t / 10 ^ 9) tz ahead ->
  exists info, FindTimeBreakdown load (TFin t) (match tz with Some s => s | None => [] end) = Val info /\
    cs info = civil_of_seconds (t / 10 ^ 9 + ahead) /\ subsecond info = DFin (t mod 10 ^ 9).
Proof.
  intros R HZ. change (10 ^ 9) with nanos_per_sec in *.
  assert (M : t - t / nanos_per_sec * nanos_per_sec = t mod nanos_per_sec) by (rewrite Z.mod_eq by easy; lia).
  destruct HZ as [| |name f N L|tz ahead L O].
  - eexists. split; [reflexivity|]. cbn [At cs subsecond utc]. now rewrite M.
  - eexists. split; [reflexivity|]. cbn [At cs subsecond utc]. now rewrite M.
  - destruct name as [|x name]; [easy|]. cbn [FindTimeBreakdown]. rewrite L. eexists. split; [reflexivity|].
    cbn [At cs subsecond]. now rewrite M.
  - destruct (offset_zone_duration tz ahead O) as (N & C & P & B). destruct tz as [|x tz]; [easy|]. unfold FindTimeBreakdown.
    rewrite L, C, P. cbn [absl_add_time]. change (10 ^ 9) with nanos_per_sec.
    assert (D : (t + ahead * nanos_per_sec) / nanos_per_sec = t / nanos_per_sec + ahead) by (rewrite Z.div_add by easy; reflexivity).
    unfold absl_time. rewrite D. assert (in_int64 (t / nanos_per_sec + ahead) = true) as ->.
    { pose proof (days_range t R) as Y. unfold in_int64, int64_min, int64_max. change nanos_per_sec with (10 ^ 9).
      pose proof (Z.div_mod (t / 10 ^ 9) 86400 ltac:(lia)). pose proof (Z.mod_pos_bound (t / 10 ^ 9) 86400 ltac:(lia)). lia. }
    eexists. split; [reflexivity|]. cbn [At cs subsecond utc]. rewrite D, Z.add_0_r. split; [reflexivity|].
    f_equal. rewrite <- M. lia.
Qed.
Theorem C107_fields : forall load t tz ahead y m d h mi c, ts_range t -> zone load (t / 10 ^ 9) tz ahead ->
  clock (t / 10 ^ 9 + ahead) (y, m, d) h mi c ->
  access load GetFullYear (TFin t) tz = Val (VInt y) /\
  access load GetMonth (TFin t) tz = Val (VInt (m - 1)) /\
  access load GetDate (TFin t) tz = Val (VInt d) /\
  access load GetDayOfMonth (TFin t) tz = Val (VInt (d - 1)) /\
  access load GetHours (TFin t) tz = Val (VInt h) /\
  access load GetMinutes (TFin t) tz = Val (VInt mi) /\
  access load GetSeconds (TFin t) tz = Val (VInt c) /\
  access load GetMilliseconds (TFin t) tz = Val (VInt (t mod 10 ^ 9 / 10 ^ 6)).
Proof.
  intros load t tz ahead y m d h mi c R HZ C. destruct (breakdown load t tz ahead R HZ) as (info & E & Ec & Es).
  apply clock_civil in C. rewrite C in Ec. unfold access, GetTimeBreakdownPart. rewrite E. cbn [or_error extract]. rewrite Ec, Es.
  cbn [c_year c_month c_day c_hour c_minute c_second ToInt64Milliseconds]. do 7 (split; [reflexivity|]).
  do 2 f_equal. pose proof (Z.mod_pos_bound t (10 ^ 9) ltac:(lia)). rewrite Z.quot_div_nonneg by lia.
  change 1000000 with (10 ^ 6).
  assert (0 <= t mod 10 ^ 9 / 10 ^ 6 <= 1000) by (split; [apply Z.div_pos; lia|apply Z.div_le_upper_bound; lia]).
  unfold int64_min, int64_max. lia.
Qed.
Print Assumptions C107_fields.
Example C107_fields_ex : zone (fun _ => None) 0 (Some (text "-08:30")) (-30600) /\
  access (fun _ => None) GetHours (TFin 0) (Some (text "-08:30")) = Val (VInt 15).
Proof.
  split; [|vm_compute; reflexivity]. apply zn_offset; [easy|]. exists (text "-"), (text "08"), 8, (text "30"), 30. split; [reflexivity|].
  split; [split; [now apply decimal_place|easy]|]. split; [split; [now apply decimal_place|easy]|]. right. split; [easy|lia].
Qed.
Theorem C107_days : forall load t tz ahead k, ts_range t -> zone load (t / 10 ^ 9) tz ahead ->
  (day_of_year (t / 10 ^ 9 + ahead) k -> access load GetDayOfYear (TFin t) tz = Val (VInt k)) /\
  (day_of_week (t / 10 ^ 9 + ahead) k -> access load GetDayOfWeek (TFin t) tz = Val (VInt k)).
Proof.
  intros load t tz ahead k R HZ. destruct (breakdown load t tz ahead R HZ) as (info & E & Ec & _).
  unfold access, GetTimeBreakdownPart. rewrite E. cbn [or_error extract]. rewrite Ec.
  set (s := t / 10 ^ 9 + ahead).
  assert (Day : forall n, n * 86400 <= s < (n + 1) * 86400 -> s / 86400 = n).
  { intros n Hn. symmetry. apply Z.div_unique with (r := s - n * 86400); lia. }
  split.
  - intros (n & y & m & d & C & Hn & F). apply Day in Hn. apply calendar_ord in F.
    pose proof (calendar_ord _ _ _ _ C) as O. apply calendar_civil in C. unfold civil_of_seconds. rewrite Hn, C.
    unfold GetYearDay. cbn [c_year c_month c_day]. do 2 f_equal. lia.
  - intros (K & w & Hw). apply Day in Hw. unfold civil_of_seconds. rewrite Hw.
    pose proof (ord_civil (3 + 7 * w + k)) as O. destruct (civil_from_days _) as [[y m] d]. unfold GetWeekday.
    cbn [c_year c_month c_day]. rewrite O.
    assert ((3 + 7 * w + k + 3) mod 7 = (k + 6) mod 7) as -> by (replace (3 + 7 * w + k + 3) with ((k + 6) + w * 7) by lia; now rewrite Z.mod_add).
    assert (k = 0 \/ k = 1 \/ k = 2 \/ k = 3 \/ k = 4 \/ k = 5 \/ k = 6) as [-> |[-> |[-> |[-> |[-> |[-> | ->]]]]]] by lia; reflexivity.
Qed.
Print Assumptions C107_days.
Example C107_days_ex : day_of_week 0 4 /\ access (fun _ => None) GetDayOfYear (TFin (951782400 * 10 ^ 9)) None = Val (VInt 59).
Proof. split; [split; [lia|]; exists (-1); lia|vm_compute; reflexivity]. Qed.
(* A zone that is not known and has no colon is an error. *)
Theorem C107_zone_partial : forall load a t tz, tz <> [] -> load tz = None -> ~ In 58 tz ->
  exists e, access load a t (Some tz) = Val (VError e) /\ st_code e = kInvalidArgument.
Proof.
  intros load a t tz N L C. unfold access, GetTimeBreakdownPart, FindTimeBreakdown. destruct tz as [|x tz]; [easy|]. rewrite L.
  destruct (existsb _ _) eqn:E.
  - apply existsb_exists in E as (y & Hy & Ey). destruct C. assert (58 = y) as -> by lia. easy.
  - eexists. split; reflexivity.
Qed.
Print Assumptions C107_zone_partial.
(* Other texts with colons are accepted: 1:30:20 as 31 hours and 20 minutes. *)
Theorem C107_zone_refuted : exists tz, (forall ahead, ~ offset_zone tz ahead) /\
  forall load a t, load tz = None -> ts_range t -> access load a (TFin t) (Some tz) = access load a (TFin (t + (31 * 3600 + 20 * 60) * 10 ^ 9)) None.
Proof.
  exists (text "1:30:20"). split.
  - intros ahead (sign & hs & h & ms & m & E & (_ & Lh) & (_ & Lm) & [[[-> | ->] _]|[-> _]]);
      apply (f_equal (@length Z)) in E; rewrite !app_length, Lh, Lm in E; cbn in E; lia.
  - intros load a t L R. unfold access, GetTimeBreakdownPart, FindTimeBreakdown.
    change (text "1:30:20") with (49 :: text ":30:20") in *. rewrite L.
    assert (ParseDuration (colons_to_h ((49 :: text ":30:20") ++ str "m")) = Some (DFin ((31 * 3600 + 20 * 60) * 10 ^ 9))) as ->
      by (vm_compute; reflexivity).
    assert (existsb (Z.eqb 58) (49 :: text ":30:20") = true) as -> by reflexivity.
    cbn [absl_add_time]. unfold absl_time. change nanos_per_sec with (10 ^ 9). rewrite Z.div_add by lia.
    assert (in_int64 (t / 10 ^ 9 + (31 * 3600 + 20 * 60)) = true) as ->; [|reflexivity].
    pose proof (days_range t R) as Y. unfold in_int64, int64_min, int64_max.
    pose proof (Z.div_mod (t / 10 ^ 9) 86400 ltac:(lia)). pose proof (Z.mod_pos_bound (t / 10 ^ 9) 86400 ltac:(lia)). lia.
Qed.
Print Assumptions C107_zone_refuted.
Example C107_zone_ex : exists e, access (fun _ => None) GetDate (TFin 0) (Some (text "Nowhere")) = Val (VError e).
Proof. eexists. vm_compute. reflexivity. Qed.

(** * C108: the messages of durations and timestamps *)
Theorem C108_duration : forall d,
  (forall ns, d = DFin ns -> dur_range ns -> exists s n, EncodeDuration d = Val (s, n) /\
     s * 10 ^ 9 + n = ns /\ -999999999 <= n <= 999999999 /\ (0 < s -> 0 <= n) /\ (s < 0 -> n <= 0) /\
     -315576000000 <= s <= 315576000000 /\ DecodeDuration (s, n) = d) /\
  ((forall ns, d = DFin ns -> ~ dur_range ns) -> exists e, EncodeDuration d = Err e /\ st_code e = kInvalidArgument).
Proof.
  intros d. assert (V : forall k, (if dur_below d MinDurationNs then Err (invalid "duration below min") else
    if dur_above d MaxDurationNs then Err (invalid "duration above max") else k) = EncodeDuration d ->
    (ValidateDuration d = Val tt -> EncodeDuration d = k) /\
    (ValidateDuration d <> Val tt -> exists e, EncodeDuration d = Err e /\ st_code e = kInvalidArgument)).
  { intros k <-. unfold ValidateDuration. destruct (dur_below _ _); [split; [easy|intros _; eexists; split; reflexivity]|].
    destruct (dur_above _ _); [split; [easy|intros _; eexists; split; reflexivity]|]. split; easy. }
  specialize (V _ eq_refl) as [V1 V2]. split.
  - intros ns -> R. assert (Ok : ValidateDuration (DFin ns) = Val tt) by (apply duration_ok; eauto).
    unfold dur_range, dur_bound in R. rewrite (V1 Ok). cbn [IDivSeconds ToInt64Nanoseconds]. unfold dur_div_sec.
    change nanos_per_sec with (10 ^ 9). pose proof (Z.quot_rem' ns (10 ^ 9)) as Q.
    set (q := Z.quot ns (10 ^ 9)) in *. set (r := Z.rem ns (10 ^ 9)) in *.
    assert (Br : (0 <= ns -> 0 <= r < 10 ^ 9) /\ (ns <= 0 -> - 10 ^ 9 < r <= 0)).
    { split; intros; [apply Z.rem_bound_pos; lia|]. pose proof (Z.rem_bound_pos (- ns) (10 ^ 9) ltac:(lia) ltac:(lia)) as X.
      rewrite Z.rem_opp_l in X by lia. fold r in X. lia. }
    destruct Br as [B1 B2].
    assert (Bq : -315576000000 <= q <= 315576000000 /\ (0 < q -> 0 <= r) /\ (q < 0 -> r <= 0) /\ -999999999 <= r <= 999999999).
    { destruct (Z_le_gt_dec 0 ns) as [P|P]; [specialize (B1 P)|specialize (B2 ltac:(lia))]; lia. }
    assert (Z.max int64_min (Z.min int64_max q) = q) as -> by (unfold int64_min, int64_max; lia).
    exists q, r. assert (Z.max int64_min (Z.min int64_max (ns - q * 10 ^ 9)) = r) as -> by (unfold int64_min, int64_max; lia).
    split; [easy|]. split; [lia|]. split; [lia|]. split; [easy|]. split; [easy|]. split; [easy|].
    unfold DecodeDuration. cbn [fst snd absl_add_dur]. change nanos_per_sec with (10 ^ 9). replace (q * 10 ^ 9 + r) with ns by lia.
    apply absl_duration_range. unfold dur_range, dur_bound. lia.
  - intros N. apply V2. intros E. apply duration_ok in E as (ns & -> & R). now apply N in R.
Qed.
Print Assumptions C108_duration.
Example C108_duration_ex : EncodeDuration (DFin (-1500000000)) = Val (-1, -500000000).
Proof. vm_compute. reflexivity. Qed.
(* Only one message of this form has a duration. *)
Theorem C108_duration_messages : forall s n, -315576000000 <= s <= 315576000000 -> -999999999 <= n <= 999999999 ->
  (0 < s -> 0 <= n) -> (s < 0 -> n <= 0) -> EncodeDuration (DecodeDuration (s, n)) = Val (s, n).
Proof.
  intros s n Hs Hn P M. assert (R : dur_range (s * 10 ^ 9 + n)) by (unfold dur_range, dur_bound; lia).
  assert (E : DecodeDuration (s, n) = DFin (s * 10 ^ 9 + n)).
  { unfold DecodeDuration. cbn [fst snd absl_add_dur]. change nanos_per_sec with (10 ^ 9). now apply absl_duration_range. }
  rewrite E. destruct (C108_duration (DFin (s * 10 ^ 9 + n))) as [H _].
  destruct (H _ eq_refl R) as (s' & n' & -> & X & Bn & P' & M' & _). do 2 f_equal; [|]; lia.
Qed.
Print Assumptions C108_duration_messages.
Example C108_duration_messages_ex : DecodeDuration (5, 7) = DFin 5000000007.
Proof. vm_compute. reflexivity. Qed.
Theorem C108_timestamp : forall t,
  (forall ns, t = TFin ns -> ts_range ns -> exists s n, EncodeTime t = Val (s, n) /\
     s * 10 ^ 9 + n = ns /\ 0 <= n <= 999999999 /\ -62135596800 <= s <= 253402300799 /\ DecodeTime (s, n) = t) /\
  ((forall ns, t = TFin ns -> ~ ts_range ns) -> exists e, EncodeTime t = Err e /\ st_code e = kInvalidArgument).
Proof.
  intros t. split.
  - intros ns -> R.
    assert (V : ValidateTimestamp (TFin ns) = Val tt) by now apply valid_timestamp.
    unfold EncodeTime. unfold ValidateTimestamp in V. destruct (time_below _ _); [easy|]. destruct (time_above _ _); [easy|].
    rewrite ToUnixSeconds_range by easy. change nanos_per_sec with (10 ^ 9). unfold ts_range, ts_min, ts_max in R.
    pose proof (Z.div_mod ns (10 ^ 9) ltac:(lia)). pose proof (Z.mod_pos_bound ns (10 ^ 9) ltac:(lia)).
    exists (ns / 10 ^ 9), (ns - ns / 10 ^ 9 * 10 ^ 9). split; [easy|]. split; [lia|]. split; [lia|]. split; [lia|].
    unfold DecodeTime. cbn [fst snd absl_add_time]. change nanos_per_sec with (10 ^ 9).
    replace (ns / 10 ^ 9 * 10 ^ 9 + (ns - ns / 10 ^ 9 * 10 ^ 9)) with ns by lia. unfold absl_time. change nanos_per_sec with (10 ^ 9).
    assert (in_int64 (ns / 10 ^ 9) = true) as ->; [|easy]. unfold in_int64, int64_min, int64_max. lia.
  - intros N. unfold EncodeTime. destruct (time_below t MinTimestampNs) eqn:E1; [eexists; split; reflexivity|].
    destruct (time_above t MaxTimestampNs) eqn:E2; [eexists; split; reflexivity|].
    assert (X : exists n, t = TFin n /\ ts_range n) by (apply timestamp_ok; now rewrite E1, E2).
    destruct X as (n & -> & R). now apply N in R.
Qed.
Print Assumptions C108_timestamp.
Example C108_timestamp_ex : EncodeTime (TFin (-1)) = Val (-1, 999999999).
Proof. vm_compute. reflexivity. Qed.
Theorem C108_timestamp_messages : forall s n, -62135596800 <= s <= 253402300799 -> 0 <= n <= 999999999 ->
  EncodeTime (DecodeTime (s, n)) = Val (s, n).
Proof.
  intros s n Hs Hn. assert (R : ts_range (s * 10 ^ 9 + n)) by (unfold ts_range, ts_min, ts_max; lia).
  assert (E : DecodeTime (s, n) = TFin (s * 10 ^ 9 + n)).
  { unfold DecodeTime. cbn [fst snd absl_add_time]. change nanos_per_sec with (10 ^ 9). unfold absl_time. change nanos_per_sec with (10 ^ 9).
    assert ((s * 10 ^ 9 + n) / 10 ^ 9 = s) as -> by (symmetry; apply Z.div_unique with (r := n); lia).
    assert (in_int64 s = true) as ->; [|easy]. unfold in_int64, int64_min, int64_max. lia. }
  rewrite E. destruct (C108_timestamp (TFin (s * 10 ^ 9 + n))) as [H _].
  destruct (H _ eq_refl R) as (s' & n' & -> & X & Bn & _). do 2 f_equal; lia.
Qed.
Print Assumptions C108_timestamp_messages.
Example C108_timestamp_messages_ex : DecodeTime (1, 2) = TFin 1000000002.
Proof. vm_compute. reflexivity. Qed.
