(* Model of the conversions between values and JSON (google.protobuf.Value):
   the ConvertToJson functions of common/values, common/values/parsed_json_value.cc,
   the equality of internal/json.cc, eval/public/value_export_util.cc and the base64
   functions of extensions/encoders.cc.

   Simplifications.  The texts of absl::Base64Escape, absl::Base64Unescape and
   protobuf's TimeUtil::ToString are trusted readings of those libraries (the latter
   is the source internal/time.cc:140-192 was copied from).  The fields of a struct
   are in insertion order; protobuf iterates them in any order, so statements about
   structs are made up to order.  Protobuf messages other than JSON are not modelled. *)
From Coq Require Import ZArith String List Bool.
From Verif Require Import Base M_Overflow M_Number M_Attr M_Value.
From Verif Require M_Format.
From Verif Require Import M_Civil M_Convert.
Import ListNotations.
Local Open Scope string_scope.
Open Scope list_scope.
Open Scope Z_scope.
Local Open Scope out_scope.

(* google.protobuf.Value: the kind that is set, if any *)
Inductive json :=
| JUnset
| JNull
| JBool (b : bool)
| JNumber (d : double)
| JString (s : list Z)
| JList (l : list json)
| JStruct (m : list (list Z * json)).

(** ** Base 64 *)
(* the alphabet of absl::Base64Escape *)
Definition b64_char (v : Z) : Z :=
  if v <? 26 then 65 + v else if v <? 52 then 97 + (v - 26)
  else if v <? 62 then 48 + (v - 52) else if v =? 62 then 43 else 47.
Definition b64_value (c : Z) : option Z :=
  if (65 <=? c) && (c <=? 90) then Some (c - 65)
  else if (97 <=? c) && (c <=? 122) then Some (c - 97 + 26)
  else if (48 <=? c) && (c <=? 57) then Some (c - 48 + 52)
  else if c =? 43 then Some 62 else if c =? 47 then Some 63 else None.
(* absl::Base64Escape, with padding *)
Fixpoint Base64Escape (s : list Z) : list Z :=
  match s with
  | [] => []
  | [a] => [b64_char (a / 4); b64_char (a mod 4 * 16); 61; 61]
  | [a; b] => [b64_char (a / 4); b64_char (a mod 4 * 16 + b / 16); b64_char (b mod 16 * 4); 61]
  | a :: b :: c :: s' =>
      [b64_char (a / 4); b64_char (a mod 4 * 16 + b / 16);
       b64_char (b mod 16 * 4 + c / 64); b64_char (c mod 64)] ++ Base64Escape s'
  end.
Definition b64_space (c : Z) : bool := (c =? 32) || ((9 <=? c) && (c <=? 13)).
Definition b64_pad (c : Z) : bool := (c =? 61) || (c =? 46).
(* absl::Base64Unescape: characters up to the first padding, skipping white space *)
Fixpoint b64_scan (s : list Z) : option (list Z * list Z) :=
  match s with
  | [] => Some ([], [])
  | c :: s' =>
      match b64_value c with
      | Some v => match b64_scan s' with Some (vs, r) => Some (v :: vs, r) | None => None end
      | None => if b64_space c then b64_scan s' else if b64_pad c then Some ([], s) else None
      end
  end.
(* ... the number of padding characters after that *)
Fixpoint b64_pads (s : list Z) : option nat :=
  match s with
  | [] => Some 0%nat
  | c :: s' =>
      if b64_pad c then match b64_pads s' with Some n => Some (S n) | None => None end
      else if b64_space c then b64_pads s' else None
  end.
(* ... the bytes of the characters and the padding expected *)
Fixpoint b64_join (vs : list Z) : option (list Z * nat) :=
  match vs with
  | [] => Some ([], 0%nat)
  | [_] => None
  | [w; x] => Some ([w * 4 + x / 16], 2%nat)
  | [w; x; y] => Some ([w * 4 + x / 16; x mod 16 * 16 + y / 4], 1%nat)
  | w :: x :: y :: z :: vs' =>
      match b64_join vs' with
      | Some (bs, n) => Some (w * 4 + x / 16 :: x mod 16 * 16 + y / 4 :: y mod 4 * 64 + z :: bs, n)
      | None => None
      end
  end.
Definition Base64Unescape (s : list Z) : option (list Z) :=
  match b64_scan s with
  | None => None
  | Some (vs, r) =>
      match b64_join vs, b64_pads r with
      | Some (bs, expected), Some n => if Nat.eqb n 0 || Nat.eqb n expected then Some bs else None
      | _, _ => None
      end
  end.
(* extensions/encoders.cc:44-55 *)
Definition Base64Decode (s : list Z) : out value :=
  match Base64Unescape s with
  | None => Val (VError (mkStatus kInvalidArgument "invalid base64 data"))
  | Some b => Val (VBytes b)
  end.
(* extensions/encoders.cc:57-66 *)
Definition Base64Encode (s : list Z) : out value := Val (VString (Base64Escape s)).

(** ** Values to JSON *)
(* common/json.h:24-31 *)
Definition kJsonMaxInt : Z := 2 ^ 53 - 1.
Definition kJsonMinInt : Z := - kJsonMaxInt.
Definition kJsonMaxUint : Z := 2 ^ 53 - 1.
(* internal/well_known_types.cc:1390-1398 *)
Definition SetNumberInt (i : Z) : json :=
  if (i <? kJsonMinInt) || (kJsonMaxInt <? i) then JString (M_Format.int_text i) else JNumber (double_of_Z i).
(* internal/well_known_types.cc:1400-1407 *)
Definition SetNumberUint (u : Z) : json :=
  if kJsonMaxUint <? u then JString (M_Format.int_text u) else JNumber (double_of_Z u).
(* internal/well_known_types.cc:1431-1456 *)
Definition SetStringValueFromBytes (b : list Z) : json :=
  match b with [] => JString [] | _ => JString (Base64Escape b) end.
(* google::protobuf::util::TimeUtil::ToString(Duration), as in internal/time.cc:152-172 *)
Definition TimeUtil_Duration (seconds nanos : Z) : list Z :=
  let '(result, seconds, nanos) :=
    if (seconds <? 0) || (nanos <? 0) then (M_Format.str "-", - seconds, - nanos) else ([], seconds, nanos) in
  let result := result ++ M_Format.int_text seconds in
  let result := if negb (nanos =? 0) then result ++ M_Format.str "." ++ FormatNanos nanos else result in
  result ++ M_Format.str "s".
(* google::protobuf::util::TimeUtil::ToString(Timestamp), as in internal/time.cc:174-192 *)
Definition TimeUtil_Timestamp (seconds nanos : Z) : list Z :=
  let result := FormatTime seconds in
  let result := if 0 <? nanos then result ++ M_Format.str "." ++ FormatNanos nanos else result in
  result ++ M_Format.str "Z".
(* TimeUtil::IsDurationValid and TimeUtil::IsTimestampValid *)
Definition IsDurationValid (seconds nanos : Z) : bool :=
  (-315576000000 <=? seconds) && (seconds <=? 315576000000) && (-999999999 <=? nanos) && (nanos <=? 999999999) &&
  (if seconds <? 0 then nanos <=? 0 else true) && (if 0 <? seconds then 0 <=? nanos else true).
Definition IsTimestampValid (seconds nanos : Z) : bool :=
  (-62135596800 <=? seconds) && (seconds <=? 253402300799) && (0 <=? nanos) && (nanos <=? 999999999).
(* internal/well_known_types.cc:1458-1466; an invalid message fails the debug check
   and is outside the contract of TimeUtil::ToString *)
Definition SetStringValueFromDuration (d : duration) : out json :=
  let '(s, rest) := IDivSeconds d in
  let n := ToInt64Nanoseconds rest in
  if IsDurationValid s n then Val (JString (TimeUtil_Duration s n)) else UB.
(* internal/well_known_types.cc:1468-1476 *)
Definition SetStringValueFromTimestamp (t : time) : out json :=
  match t with
  | TInf _ => UB
  | TFin t =>
      let s := ToUnixSeconds t in
      let n := t - s * nanos_per_sec in
      if IsTimestampValid s n then Val (JString (TimeUtil_Timestamp s n)) else UB
  end.

(* type_value.cc:40-52, error_value.cc:119-132, unknown_value.cc:39-51,
   opaque_value.cc:113-123: the message names the type *)
Definition unserializable : status := mkStatus kFailedPrecondition "type is not convertible to JSON".
(* value_builder.cc:796-804 ValueToJsonString *)
Definition ValueToJsonString (k : mkey) : out (list Z) :=
  match k with
  | KString s => Val s
  | _ => Err (mkStatus kInvalidArgument "type conversion error")
  end.
(* StructReflection::InsertField: the field of that name, new or not, and what is
   written into it *)
Fixpoint set_field (k : list Z) (j : json) (m : list (list Z * json)) : list (list Z * json) :=
  match m with
  | [] => [(k, j)]
  | (k', j') :: m' => if bytes_eqb k' k then (k', j) :: m' else (k', j') :: set_field k j m'
  end.
Fixpoint find_field (k : list Z) (m : list (list Z * json)) : option json :=
  match m with
  | [] => None
  | (k', j) :: m' => if bytes_eqb k' k then Some j else find_field k m'
  end.
(* value_builder.cc:80-106 ListValueToJsonArray *)
Definition list_to_json (conv : value -> out json) :=
  fix go (l : list value) : out (list json) :=
    match l with
    | [] => Val []
    | x :: l' => j <- conv x ;; js <- go l' ;; Val (j :: js)
    end.
(* value_builder.cc:806-833 MapValueToJsonObject *)
Definition map_to_json (conv : value -> out json) :=
  fix go (m : entries) (acc : list (list Z * json)) : out (list (list Z * json)) :=
    match m with
    | [] => Val acc
    | (k, x) :: m' =>
        key <- ValueToJsonString k ;;
        j <- conv x ;;
        go m' (set_field key j acc)
    end.
(* Value::ConvertToJson by kind: null_value.cc:48-62, bool_value.cc:62-77,
   int_value.cc:64-79, uint_value.cc:63-78, double_value.cc:90-105,
   string_value.cc:100-116, bytes_value.cc:84-101, duration_value.cc:68-83,
   timestamp_value.cc:68-83, value_builder.cc:108-122, 835-849 *)
Fixpoint ConvertToJson (v : value) {struct v} : out json :=
  match v with
  | VNull => Val JNull
  | VBool b => Val (JBool b)
  | VInt i => Val (SetNumberInt i)
  | VUint u => Val (SetNumberUint u)
  | VDouble d => Val (JNumber d)
  | VString s => Val (JString s)
  | VBytes b => Val (SetStringValueFromBytes b)
  | VDuration d => SetStringValueFromDuration d
  | VTimestamp t => SetStringValueFromTimestamp t
  | VList l => js <- list_to_json ConvertToJson l ;; Val (JList js)
  | VMap m => fs <- map_to_json ConvertToJson m [] ;; Val (JStruct fs)
  | VType _ | VOptional _ | VError _ | VUnknown _ => Err unserializable
  end.

(** ** JSON to values *)
(* parsed_json_value.cc:55-103; a list or struct is read as the list or map of its
   elements (parsed_json_list_value.cc, parsed_json_map_value.cc) *)
Fixpoint ParsedJsonValue (j : json) : value :=
  match j with
  | JUnset | JNull => VNull
  | JBool b => VBool b
  | JNumber d => VDouble d
  | JString s => VString s
  | JList l => VList (map ParsedJsonValue l)
  | JStruct m => VMap (map (fun e => (KString (fst e), ParsedJsonValue (snd e))) m)
  end.

(** ** Equality of JSON *)
(* internal/json.cc:1786-1797 *)
Definition unset_is_null (j : json) : json := match j with JUnset => JNull | _ => j end.
(* internal/json.cc:1822-1837 ListValueEqual after the size check *)
Definition json_list_equal (eq : json -> json -> bool) :=
  fix go (xs ys : list json) : bool :=
    match xs, ys with
    | x :: xs', y :: ys' => if eq x y then go xs' ys' else false
    | _, _ => true
    end.
(* internal/json.cc:1849-1871 StructEqual after the size check *)
Definition json_struct_equal (eq : json -> json -> bool) (rhs : list (list Z * json)) :=
  fix go (lhs : list (list Z * json)) : bool :=
    match lhs with
    | [] => true
    | (k, x) :: lhs' =>
        match find_field k rhs with
        | None => false
        | Some y => if eq x y then go lhs' else false
        end
    end.
(* internal/json.cc:1784-1887 *)
Fixpoint JsonEquals (lhs rhs : json) {struct lhs} : bool :=
  match lhs, unset_is_null rhs with
  | JUnset, JNull | JNull, JNull => true
  | JBool a, JBool b => Bool.eqb a b
  | JNumber a, JNumber b => d_eq a b
  | JString a, JString b => bytes_eqb a b
  | JList xs, JList ys =>
      if negb (Nat.eqb (List.length xs) (List.length ys)) then false
      else json_list_equal JsonEquals xs ys
  | JStruct xs, JStruct ys =>
      if negb (Nat.eqb (List.length xs) (List.length ys)) then false
      else if Nat.eqb (List.length xs) 0 then true
      else json_struct_equal JsonEquals ys xs
  | _, _ => false
  end.

(** ** Export of legacy values *)
(* value_export_util.cc:16-38 *)
Definition KeyAsString (k : mkey) : out (list Z) :=
  match k with
  | KInt i => Val (M_Format.int_text i)
  | KUint u => Val (M_Format.int_text u)
  | KString s => Val s
  | KBool _ => Err (mkStatus kInvalidArgument "Unsupported map type")
  end.
(* value_export_util.cc:116-126: the elements are added to those already there *)
Definition export_list (export : value -> json -> out json) :=
  fix go (l : list value) (acc : list json) : out (list json) :=
    match l with
    | [] => Val acc
    | x :: l' => j <- export x JUnset ;; go l' (acc ++ [j])
    end.
(* value_export_util.cc:128-147: each value is written into the field of its key's
   text, which may already be set *)
Definition export_map (export : value -> json -> out json) :=
  fix go (m : entries) (acc : list (list Z * json)) : out (list (list Z * json)) :=
    match m with
    | [] => Val acc
    | (k, x) :: m' =>
        key <- KeyAsString k ;;
        j <- export x (match find_field key acc with Some j => j | None => JUnset end) ;;
        go m' (set_field key j acc)
    end.
(* value_export_util.cc:41-154 into the value [old] *)
Fixpoint ExportInto (v : value) (old : json) {struct v} : out json :=
  match v with
  | VNull => Val JNull
  | VBool b => Val (JBool b)
  | VInt i => Val (JNumber (double_of_Z i))
  | VUint u => Val (JNumber (double_of_Z u))
  | VDouble d => Val (JNumber d)
  | VString s => Val (JString s)
  | VBytes b => Val (JString (Base64Escape b))
  | VDuration d => p <- EncodeDuration d ;; Val (JString (TimeUtil_Duration (fst p) (snd p)))
  | VTimestamp t => p <- EncodeTime t ;; Val (JString (TimeUtil_Timestamp (fst p) (snd p)))
  | VList l => js <- export_list ExportInto l (match old with JList l => l | _ => [] end) ;; Val (JList js)
  | VMap m => fs <- export_map ExportInto m (match old with JStruct m => m | _ => [] end) ;; Val (JStruct fs)
  | VType _ | VOptional _ | VError _ | VUnknown _ => Err (mkStatus kInvalidArgument "Unsupported value type")
  end.
Definition ExportAsProtoValue (v : value) : out json := ExportInto v JUnset.
