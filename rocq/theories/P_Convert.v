(* C104 to C108: conversions between values and texts, durations, timestamps, their
   accessors and their messages. *)
From Coq Require Import ZArith String List Bool Lia.
From Verif Require Import Base M_Utf8 S_Utf8 L_Utf8 M_Overflow M_Number M_Value M_Format S_Time S_Format L_Format.
From Verif Require L_Strings.
From Verif Require Import M_Civil M_Convert S_Convert L_Calendar L_Convert L_Convert2 L_Convert3.
Import ListNotations.
Open Scope list_scope.
Open Scope Z_scope.

(** * C104: texts of booleans, numbers and bytes *)
(* A number or a boolean is printed as its shortest numeral, or as true or false, and
   read back from it. *)
Theorem C104_read_back : forall fd ad o, enable_string_conversion o = true ->
  (forall i, - 2 ^ 63 <= i <= 2 ^ 63 - 1 -> exists t, convert fd ad o ToString (VInt i) = Some (Val (VString t)) /\
     integer_numeral false 10 t i /\ convert fd ad o ToInt (VString t) = Some (Val (VInt i))) /\
  (forall u, 0 <= u <= 2 ^ 64 - 1 -> exists t, convert fd ad o ToString (VUint u) = Some (Val (VString t)) /\
     natural_numeral false 10 t u /\ convert fd ad o ToUint (VString t) = Some (Val (VUint u))) /\
  (forall b, exists t, convert fd ad o ToString (VBool b) = Some (Val (VString t)) /\
     t = text (if b then "true" else "false") /\ convert fd ad o ToBool (VString t) = Some (Val (VBool b))).
Proof.
  intros fd ad o O. split; [|split].
  - intros i Hi. exists (int_text i). cbn [convert]. rewrite O. cbn [negb]. split; [easy|]. split; [apply int_text_ok|].
    unfold string_to_int. assert (SimpleAtoi_int64 (int_text i) = Some i) as ->; [|easy].
    apply SimpleAtoi_int64_spec. split; [|easy]. destruct (int_text_ok i) as [(Hp & Pv & Ne & _)|(Hn & u & E & Pv & Ne & _)].
    + exists [], [], (int_text i), [], i. rewrite app_nil_r. repeat split; auto.
    + exists [], (text "-"), u, [], (- i). rewrite app_nil_r. repeat split; auto. right. split; [easy|lia].
  - intros u Hu. exists (int_text u). cbn [convert]. rewrite O. cbn [negb]. split; [easy|].
    destruct (int_text_ok u) as [(Hp & Nn)|(Hn & _)]; [|lia]. split; [easy|]. destruct Nn as (Pv & Ne & _).
    unfold string_to_uint. assert (SimpleAtoi_uint64 (int_text u) = Some u) as ->; [|easy].
    apply SimpleAtoi_uint64_spec. split; [|lia]. exists [], [], (int_text u), []. rewrite app_nil_r. repeat split; auto.
  - intros b. eexists. cbn [convert]. rewrite O. split; [reflexivity|]. split; [reflexivity|]. now destruct b.
Qed.
Print Assumptions C104_read_back.
Definition no_format : double -> list Z := fun _ => [].
Definition no_atod : list Z -> option double := fun _ => None.
Definition released : conv_options := mkConv false true false.
Definition checked : conv_options := mkConv true true false.
Definition debugged : conv_options := mkConv false true true.
Example C104_read_back_ex : convert no_format no_atod released ToString (VInt (-42)) = Some (Val (VString (text "-42"))).
Proof. vm_compute. reflexivity. Qed.

(* What int() accepts: an optional sign and digits between white space, in the range
   of 64 bits. *)
Theorem C104_int_accepts : forall fd ad o s,
  (forall n, integer_text s n -> - 2 ^ 63 <= n <= 2 ^ 63 - 1 -> convert fd ad o ToInt (VString s) = Some (Val (VInt n))) /\
  ((forall n, integer_text s n -> ~ - 2 ^ 63 <= n <= 2 ^ 63 - 1) ->
   exists e, convert fd ad o ToInt (VString s) = Some (Val (VError e)) /\ st_code e = kInvalidArgument).
Proof.
  intros fd ad o s. cbn [convert]. unfold string_to_int. split.
  - intros n T R. now rewrite (proj2 (SimpleAtoi_int64_spec s n) (conj T R)).
  - intros N. destruct (SimpleAtoi_int64 s) as [n|] eqn:E.
    + apply SimpleAtoi_int64_spec in E as (T & R). now apply N in T.
    + eexists. split; reflexivity.
Qed.
Print Assumptions C104_int_accepts.
Example C104_int_accepts_ex : integer_text (text " -042	") (-42).
Proof.
  exists (text " "), (text "-"), (text "042"), [9], 42. split; [reflexivity|].
  split; [repeat constructor|]. split; [constructor; [right; lia|constructor]|]. split; [easy|].
  split; [now apply decimal_place|right; split; [reflexivity|lia]].
Qed.
Theorem C104_uint_accepts : forall fd ad o s,
  (forall n, natural_text s n -> n <= 2 ^ 64 - 1 -> convert fd ad o ToUint (VString s) = Some (Val (VUint n))) /\
  ((forall n, natural_text s n -> 2 ^ 64 - 1 < n) ->
   exists e, convert fd ad o ToUint (VString s) = Some (Val (VError e)) /\ st_code e = kInvalidArgument).
Proof.
  intros fd ad o s. cbn [convert]. unfold string_to_uint. split.
  - intros n T R. now rewrite (proj2 (SimpleAtoi_uint64_spec s n) (conj T R)).
  - intros N. destruct (SimpleAtoi_uint64 s) as [n|] eqn:E.
    + apply SimpleAtoi_uint64_spec in E as (T & R). apply N in T. lia.
    + eexists. split; reflexivity.
Qed.
Print Assumptions C104_uint_accepts.
Example C104_uint_accepts_ex : natural_text (text "+7") 7 /\ convert no_format no_atod released ToUint (VString (text "-0")) =
  Some (Val (VError (invalid "cannot convert string to uint"))).
Proof.
  split; [|vm_compute; reflexivity]. exists [], (text "+"), (text "7"), []. split; [reflexivity|].
  split; [constructor|]. split; [constructor|]. split; [easy|]. split; [now apply decimal_place|now right].
Qed.
Lemma one_of_in s l : one_of s l = true <-> In s (map text l).
Proof.
  induction l as [|w l IH]; [easy|]. cbn [one_of existsb map In]. fold (one_of s l). rewrite orb_true_iff, IH.
  assert (bytes_eqb s (str w) = true <-> text w = s); [|tauto].
  unfold bytes_eqb. split.
  - destruct (bytes_cmp s (str w)) eqn:E; [|easy|easy]. intros _. now apply bytes_cmp_eq in E.
  - intros <-. now rewrite (proj2 (bytes_cmp_eq (text w) (str w)) eq_refl).
Qed.
Theorem C104_bool_accepts : forall fd ad o s,
  (true_text s -> convert fd ad o ToBool (VString s) = Some (Val (VBool true))) /\
  (false_text s -> convert fd ad o ToBool (VString s) = Some (Val (VBool false))) /\
  (~ true_text s -> ~ false_text s ->
   exists e, convert fd ad o ToBool (VString s) = Some (Val (VError e)) /\ st_code e = kInvalidArgument).
Proof.
  intros fd ad o s. cbn [convert]. unfold string_to_bool.
  pose proof (one_of_in s ["true"; "True"; "TRUE"; "t"; "1"]) as T.
  pose proof (one_of_in s ["false"; "FALSE"; "False"; "f"; "0"]) as F.
  assert (F' : false_text s <-> In s (map text ["false"; "FALSE"; "False"; "f"; "0"]%string)) by (unfold false_text; cbn [map In]; tauto).
  fold (true_text s) in T. rewrite <- F' in F.
  split; [|split].
  - intros H. now rewrite (proj2 T H).
  - intros H. rewrite (proj2 F H). destruct (one_of s _) eqn:E; [|easy]. exfalso. apply proj1 in T. specialize (T eq_refl).
    unfold true_text, false_text in T, H. cbn [map In] in T, H.
    destruct T as [<-|[<-|[<-|[<-|[<-|[]]]]]]; destruct H as [H|[H|[H|[H|[H|[]]]]]]; vm_compute in H; discriminate H.
  - intros N1 N2. destruct (one_of s ["true"%string; _; _; _; _]) eqn:E1; [now destruct N1; apply T|].
    destruct (one_of s ["false"%string; _; _; _; _]) eqn:E2; [now destruct N2; apply F|]. eexists. split; reflexivity.
Qed.
Print Assumptions C104_bool_accepts.
Example C104_bool_accepts_ex : true_text (text "True") /\ ~ true_text (text "yes") /\ ~ false_text (text "yes").
Proof. unfold true_text, false_text. cbn [map In]. split; [auto|].
  split; intros [H|[H|[H|[H|[H|[]]]]]]; vm_compute in H; discriminate H. Qed.

(* Bytes and strings. *)
Theorem C104_bytes : forall fd ad o b, enable_string_conversion o = true -> bytes b ->
  convert fd ad o ToBytes (VString b) = Some (Val (VBytes b)) /\
  (well_formed b -> convert fd ad o ToString (VBytes b) = Some (Val (VString b))) /\
  (~ well_formed b -> exists e, convert fd ad o ToString (VBytes b) = Some (Val (VError e)) /\ st_code e = kInvalidArgument).
Proof.
  intros fd ad o b O B. cbn [convert]. rewrite O. cbn [negb]. unfold bytes_to_string.
  destruct (L_Strings.Utf8IsValid_ok b B) as (v & V & I). rewrite V. cbn [obind]. split; [easy|]. split.
  - intros W. apply I in W as ->. reflexivity.
  - intros W. destruct v; [destruct W; now apply I|]. eexists. split; reflexivity.
Qed.
Print Assumptions C104_bytes.
Example C104_bytes_ex : bytes [255] /\ convert no_format no_atod released ToString (VBytes [255]) =
  Some (Val (VError (invalid "malformed UTF-8 bytes"))).
Proof. split; [repeat constructor; lia|vm_compute; reflexivity]. Qed.

Lemma timestamp_ok ts : time_below ts MinTimestampNs || time_above ts MaxTimestampNs = false <-> exists t, ts = TFin t /\ ts_range t.
Proof.
  unfold ts_range, time_below, time_above, ts_min, ts_max. change MinTimestampNs with (-62135596800 * 10 ^ 9).
  change MaxTimestampNs with (253402300799 * 10 ^ 9 + 999999999). destruct ts as [t|[]].
  - rewrite orb_false_iff, !Z.ltb_ge. split; [intros []; exists t; split; [easy|split; assumption]|intros (t' & [= <-] & [])]. now split.
  - split; [easy|]. now intros (? & ? & _).
  - split; [easy|]. now intros (? & ? & _).
Qed.
Lemma duration_ok d : ValidateDuration d = Val tt <-> exists ns, d = DFin ns /\ dur_range ns.
Proof.
  unfold dur_range, ValidateDuration, dur_below, dur_above, dur_bound. change MinDurationNs with (- (315576000000 * 10 ^ 9 + 999999999)).
  change MaxDurationNs with (315576000000 * 10 ^ 9 + 999999999). destruct d as [t|[]].
  - destruct (t <? _) eqn:E1.
    { split; [easy|]. intros (t' & [= <-] & []). lia. }
    destruct (_ <? t) eqn:E2.
    { split; [easy|]. intros (t' & [= <-] & []). lia. }
    split; [|easy]. intros _. exists t. split; [easy|]. lia.
  - split; [easy|]. now intros (? & ? & _).
  - split; [easy|]. now intros (? & ? & _).
Qed.
Lemma duration_cases d : ValidateDuration d = Val tt \/ exists e, ValidateDuration d = Err e /\ st_code e = kInvalidArgument.
Proof.
  unfold ValidateDuration. destruct (dur_below _ _); [right; eexists; split; reflexivity|].
  destruct (dur_above _ _); [right; eexists; split; reflexivity|now left].
Qed.
Lemma ValidateTimestamp_ok ts : ValidateTimestamp ts = Val tt <-> exists t, ts = TFin t /\ ts_range t.
Proof.
  rewrite <- timestamp_ok. unfold ValidateTimestamp. destruct (time_below _ _); [easy|]. now destruct (time_above _ _).
Qed.
Lemma timestamp_cases d : ValidateTimestamp d = Val tt \/ exists e, ValidateTimestamp d = Err e /\ st_code e = kInvalidArgument.
Proof.
  unfold ValidateTimestamp. destruct (time_below _ _); [right; eexists; split; reflexivity|].
  destruct (time_above _ _); [right; eexists; split; reflexivity|now left].
Qed.

Lemma some_inj {A} (a b : A) : Some a = Some b -> a = b.
Proof. now intros [= ->]. Qed.
(* Converting a converted value again does not change it, in a build without debug
   checks or with errors for timestamps that are out of range. *)
Theorem C104_twice_partial : forall fd ad o f v w, debug_build o = false \/ enable_timestamp_duration_overflow_errors o = true ->
  convert fd ad o f v = Some (Val w) -> (forall e, w <> VError e) -> convert fd ad o f w = Some (Val w).
Proof.
  intros fd ad o f v w D H NE.
  assert (TS : forall ts, checked_timestamp o ts = Val w -> convert fd ad o ToTimestamp w = Some (Val w)).
  { intros ts E. unfold checked_timestamp in E. destruct (_ && _) eqn:X.
    { injection E as <-. now destruct (NE (range_error "timestamp overflow")). }
    injection E as <-. cbn [convert]. unfold TimestampValue. destruct D as [-> |D]; [easy|]. rewrite D in X. cbn [andb] in X.
    apply timestamp_ok, ValidateTimestamp_ok in X. rewrite X. now destruct (debug_build o). }
  assert (DV : forall d, DurationValue o d = Val w -> convert fd ad o ToDuration w = Some (Val w)).
  { intros d E. assert (w = VDuration d) as ->.
    { unfold DurationValue in E. destruct (debug_build o); [|now injection E]. destruct (ValidateDuration d); [now injection E|easy|easy]. }
    cbn [convert]. now rewrite E. }
  assert (TV : forall d, TimestampValue o d = Val w -> convert fd ad o ToTimestamp w = Some (Val w)).
  { intros d E. assert (w = VTimestamp d) as ->.
    { unfold TimestampValue in E. destruct (debug_build o); [|now injection E]. destruct (ValidateTimestamp d); [now injection E|easy|easy]. }
    cbn [convert]. now rewrite E. }
  assert (OE : forall A (x : out A) k, or_error x k = Val w -> exists a, x = Val a /\ k a = Val w).
  { intros A x k E. destruct x; cbn in E; [eauto|injection E as <-; now destruct (NE s)|easy]. }
  destruct f; cbn [convert] in H.
  - destruct v; try discriminate H; apply some_inj in H; [now injection H as <-|].
    unfold string_to_bool in H. destruct (one_of _ _); [now injection H as <-|]. destruct (one_of _ _); [now injection H as <-|].
    injection H as <-. now edestruct NE.
  - destruct v; try discriminate H; apply some_inj in H; now injection H as <-.
  - destruct v; try discriminate H; apply some_inj in H; try now (injection H as <-).
    destruct (ad _); [now injection H as <-|]. injection H as <-. now edestruct NE.
  - destruct v; try discriminate H; apply some_inj in H; 
      try solve [injection H as <-; reflexivity]; try solve [apply OE in H as (? & _ & H); injection H as <-; reflexivity].
    unfold string_to_int in H. destruct (SimpleAtoi_int64 _); injection H as <-; [easy|]. now edestruct NE.
  - destruct (enable_string_conversion o) eqn:O; cbn [negb] in H; [|easy].
    assert (exists t, w = VString t) as (t & ->); [|cbn [convert]; rewrite O; easy].
    destruct v; try discriminate H; apply some_inj in H; 
      try solve [injection H as <-; eexists; reflexivity];
      try solve [apply OE in H as (? & _ & H); injection H as <-; eexists; reflexivity].
    unfold bytes_to_string in H. destruct (Utf8IsValid _) as [[]| |]; cbn [obind] in H; try discriminate H;
      injection H as <-; [eexists; reflexivity|now edestruct NE].
  - destruct v; try discriminate H; apply some_inj in H; 
      try solve [injection H as <-; reflexivity]; try solve [apply OE in H as (? & _ & H); injection H as <-; reflexivity].
    unfold string_to_uint in H. destruct (SimpleAtoi_uint64 _); injection H as <-; [easy|]. now edestruct NE.
  - destruct v; try discriminate H; apply some_inj in H; [|eauto].
    unfold CreateDurationFromString in H. destruct (ParseDuration _); [|injection H as <-; now edestruct NE].
    apply OE in H as (? & _ & H). eauto.
  - destruct v; try discriminate H; apply some_inj in H; [eauto| |eauto].
    unfold string_to_timestamp in H. destruct (ParseTime _); [eauto|]. injection H as <-. now edestruct NE.
  - now injection H as <-.
Qed.
Print Assumptions C104_twice_partial.
(* In a debug build with the default options the second conversion can abort. *)
Theorem C104_twice_refuted : forall fd ad o, debug_build o = true -> enable_timestamp_duration_overflow_errors o = false ->
  exists w, convert fd ad o ToTimestamp (VInt 253402300800) = Some (Val w) /\ (forall e, w <> VError e) /\
    convert fd ad o ToTimestamp w = Some UB.
Proof.
  intros fd ad o D E. eexists. cbn [convert]. unfold checked_timestamp. rewrite E. cbn [andb]. split; [reflexivity|].
  split; [easy|]. unfold TimestampValue. rewrite D. reflexivity.
Qed.
Print Assumptions C104_twice_refuted.
Example C104_twice_ex : debug_build debugged = true /\ enable_timestamp_duration_overflow_errors debugged = false.
Proof. now split. Qed.

(** * C105: durations *)
Lemma absl_duration_range ns : dur_range ns -> absl_duration ns = DFin ns.
Proof.
  unfold dur_range, dur_bound, absl_duration, in_int64. intros R. change nanos_per_sec with (10 ^ 9).
  assert (-400000000000 <= ns / 10 ^ 9 <= 400000000000) by (split; [apply Z.div_le_lower_bound; lia|apply Z.div_le_upper_bound; lia]).
  destruct (_ && _) eqn:E; [easy|]. unfold int64_min, int64_max in E. lia.
Qed.
Lemma DurationValue_ok o ns : dur_range ns -> DurationValue o (DFin ns) = Val (VDuration (DFin ns)).
Proof.
  intros R. unfold DurationValue. assert (ValidateDuration (DFin ns) = Val tt) as -> by (apply duration_ok; eauto).
  now destruct (debug_build o).
Qed.
(* string(d) is seconds with the shortest exact fraction, and duration() reads it. *)
Theorem C105_read_back : forall fd ad o ns, enable_string_conversion o = true -> dur_range ns -> exists t,
  convert fd ad o ToString (VDuration (DFin ns)) = Some (Val (VString t)) /\ duration_text ns t /\
  convert fd ad o ToDuration (VString t) = Some (Val (VDuration (DFin ns))).
Proof.
  intros fd ad o ns O R. destruct (EncodeDuration_text ns R) as (t & E & T). exists t. cbn [convert]. rewrite O. cbn [negb].
  rewrite E. split; [easy|]. split; [easy|]. destruct (duration_text_literal ns t T) as (w & L & W).
  unfold CreateDurationFromString. rewrite (ParseDuration_literal t ns [w] L).
  2:{ constructor; [|constructor]. unfold dur_range, dur_bound in R. unfold int64_max. lia. }
  rewrite absl_duration_range by easy. assert (ValidateDuration (DFin ns) = Val tt) as -> by (apply duration_ok; eauto).
  cbn [or_error]. now rewrite DurationValue_ok.
Qed.
Print Assumptions C105_read_back.
