(* Model of the string formatting function format() of the strings extension:
   extensions/formatting.cc:59-546.

   Texts are lists of bytes.  The functions of the code that print into a
   caller's std::string "scratch" and return a string_view take the contents of
   scratch and return the pair of the text viewed and of the contents of scratch
   afterwards; whether the view points into scratch is not modelled.  A returned
   ErrorValue and a returned non-OK status are both an [Err]; messages keep
   their fixed prefix.  Iterating over a list or a map does not fail (the values
   of M_Value).  Not modelled: the digits absl prints for a double and the text
   of a timestamp, which are parameters. *)
From Coq Require Import ZArith String List Bool Ascii.
From Verif Require Import Base M_Overflow M_Number M_Value.
Import ListNotations.
Local Open Scope string_scope.
Open Scope list_scope.
Open Scope Z_scope.
Local Open Scope out_scope.

Definition str (s : string) : list Z := map (fun c => Z.of_N (N_of_ascii c)) (list_ascii_of_string s).
Definition invalid (msg : string) : status := mkStatus kInvalidArgument msg.
Definition printed := out (list Z * list Z).
(* return "..." of a literal, or of a view that is not into scratch *)
Definition lit (t : list Z) (scratch : list Z) : printed := Val (t, scratch).
(* return scratch *)
Definition ret (scratch : list Z) : printed := Val (scratch, scratch).

(** ** What absl prints (absl/strings/str_cat.h, str_format.h, escaping.h) *)
Definition digit_char (d : Z) : Z := if d <? 10 then 48 + d else 87 + d.
(* the digits of n in a base, most significant first; log2 n + 1 of them are enough *)
Fixpoint digits_loop (fuel : nat) (base n : Z) (acc : list Z) : list Z :=
  match fuel with
  | O => acc
  | S fuel' =>
      if n <? base then digit_char n :: acc
      else digits_loop fuel' base (n / base) (digit_char (n mod base) :: acc)
  end.
Definition digits (base n : Z) : list Z := digits_loop (S (Z.to_nat (Z.log2 n))) base n [].
(* StrAppend of an integer *)
Definition int_text (n : Z) : list Z := if n <? 0 then 45 :: digits 10 (- n) else digits 10 n.
(* StrFormat of 03d, 06d, 09d, for a number that is not negative *)
Definition padded (width : nat) (n : Z) : list Z :=
  let t := digits 10 n in repeat 48 (width - length t) ++ t.
(* BytesToHexString *)
Definition BytesToHexString (s : list Z) : list Z :=
  flat_map (fun b => [digit_char (b / 16); digit_char (b mod 16)]) s.
(* AsciiStrToUpper *)
Definition AsciiStrToUpper (s : list Z) : list Z :=
  map (fun c => if (97 <=? c) && (c <=? 122) then c - 32 else c) s.
Definition is_digit (c : Z) : bool := (48 <=? c) && (c <=? 57).
(* SimpleAtoi of a text of digits into an int *)
Definition SimpleAtoi (t : list Z) : option Z :=
  match t with
  | [] => None
  | _ => let n := fold_left (fun a c => a * 10 + (c - 48)) t 0 in
         if n <=? int32_max then Some n else None
  end.
(* std::string operator<: bytes compared as unsigned, a proper prefix is smaller *)
Fixpoint bytes_cmp (a b : list Z) : comparison :=
  match a, b with
  | [], [] => Eq
  | [], _ :: _ => Lt
  | _ :: _, [] => Gt
  | x :: a', y :: b' => match x ?= y with Eq => bytes_cmp a' b' | c => c end
  end.
(* btree_map::emplace: an entry with the same key is kept *)
Fixpoint emplace {A} (k : list Z) (a : A) (m : list (list Z * A)) : list (list Z * A) :=
  match m with
  | [] => [(k, a)]
  | (k', a') :: m' =>
      match bytes_cmp k k' with
      | Lt => (k, a) :: m
      | Eq => m
      | Gt => (k', a') :: emplace k a m'
      end
  end.
(* -static_cast<uint64_t>(n) *)
Definition unsigned_neg (n : Z) : Z := (- (n mod 2 ^ 64)) mod 2 ^ 64.
(* absl::bit_width *)
Definition bit_width (n : Z) : Z := if n =? 0 then 0 else Z.log2 n + 1.

(** ** formatting.cc *)
Definition kNanosPerMillisecond : Z := 1000000.
Definition kNanosPerMicrosecond : Z := 1000.
Definition kMaxPrecision : Z := 1000.

(* formatting.cc:66-89; the number of bytes read, and the precision *)
Fixpoint digit_run (t : list Z) : nat :=
  match t with c :: t' => if is_digit c then S (digit_run t') else O | [] => O end.
Definition ParsePrecision (format : list Z) (max_precision : Z) : out (nat * option Z) :=
  match format with
  | [] => Val (O, None)
  | c :: t =>
      if negb (c =? 46) then Val (O, None) else
      let i := S (digit_run t) in
      if Nat.eqb i (length format) then Err (invalid "unable to find end of precision specifier") else
      match SimpleAtoi (firstn (i - 1) t) with
      | None => Err (invalid "unable to convert precision specifier to integer")
      | Some precision =>
          if precision >? max_precision then Err (invalid "precision specifier exceeds maximum of ")
          else Val (i, Some precision)
      end
  end.

(* formatting.cc:91-117.  Durations are whole nanoseconds or infinite;
   ToInt64Seconds and ToInt64Nanoseconds truncate and saturate. *)
Definition AbsDuration (d : duration) : duration :=
  match d with DFin ns => DFin (Z.abs ns) | DInf _ => DInf false end.
Definition ToInt64Seconds (d : duration) : Z :=
  match d with DFin ns => dur_div_sec ns | DInf true => int64_min | DInf false => int64_max end.
Definition minus_seconds (d : duration) (seconds : Z) : duration :=
  match d with DFin ns => DFin (ns - seconds * nanos_per_sec) | DInf s => DInf s end.
Definition is_zero_d (d : duration) : bool := match d with DFin ns => ns =? 0 | DInf _ => false end.
Definition is_neg_d (d : duration) : bool := match d with DFin ns => ns <? 0 | DInf s => s end.
Definition FormatDuration (d : duration) (scratch : list Z) : printed :=
  if is_zero_d d then lit (str "0s") scratch else
  let '(d, scratch) := if is_neg_d d then (AbsDuration d, scratch ++ str "-") else (d, scratch) in
  let seconds := ToInt64Seconds d in
  let scratch := scratch ++ int_text seconds in
  let nanos := ToInt64Nanoseconds (minus_seconds d seconds) in
  let scratch :=
    if negb (nanos =? 0) then
      (scratch ++ str ".") ++
      (if Z.rem nanos kNanosPerMillisecond =? 0 then padded 3 (Z.quot nanos kNanosPerMillisecond)
       else if Z.rem nanos kNanosPerMicrosecond =? 0 then padded 6 (Z.quot nanos kNanosPerMicrosecond)
       else padded 9 nanos)
    else scratch in
  ret (scratch ++ str "s").

(* formatting.cc:155-161, 217-220: the closing of a list and a map *)
Definition close (scratch : list Z) (bracket : Z) : list Z :=
  (if Nat.ltb 1 (length scratch) then firstn (length scratch - 2) scratch else scratch) ++ [bracket].

(* formatting.cc:142-165 FormatList, over the ways of printing the elements *)
Fixpoint FormatList_loop (l : list (list Z -> printed)) (scratch : list Z) : out (list Z) :=
  match l with
  | [] => Val scratch
  | f :: l' =>
      p <- f [] ;;
      FormatList_loop l' ((scratch ++ fst p) ++ str ", ")
  end.
Definition FormatList (l : list (list Z -> printed)) (scratch : list Z) : printed :=
  scratch <- FormatList_loop l (str "[") ;;
  ret (close scratch 93).

(* formatting.cc:167-212 FormatMap: the keys' texts, sorted, then the values.
   Keys are of the four kinds the test at 177-184 accepts. *)
Definition FormatKey (k : mkey) (scratch : list Z) : printed :=
  match k with
  | KBool b => lit (str (if b then "true" else "false")) scratch
  | KInt n | KUint n => ret (scratch ++ int_text n)
  | KString s => lit s scratch
  end.
Fixpoint FormatMap_keys {A} (m : list (mkey * A)) (value_map : list (list Z * A)) : out (list (list Z * A)) :=
  match m with
  | [] => Val value_map
  | (k, a) :: m' =>
      p <- FormatKey k [] ;;
      FormatMap_keys m' (emplace (fst p) a value_map)
  end.
Fixpoint FormatMap_values (m : list (list Z * (list Z -> printed))) (scratch : list Z) : out (list Z) :=
  match m with
  | [] => Val scratch
  | (k, f) :: m' =>
      p <- f [] ;;
      FormatMap_values m' (((scratch ++ k ++ str ": ") ++ fst p) ++ str ", ")
  end.
Definition FormatMap (m : list (mkey * (list Z -> printed))) (scratch : list Z) : printed :=
  value_map <- FormatMap_keys m [] ;;
  scratch <- FormatMap_values value_map (str "{") ;;
  ret (close scratch 125).

(* formatting.cc:296-345 FormatBinary: the digits are written from the last
   position, size - 1, down to 0, and the first is overwritten by the sign *)
Fixpoint binary_loop (i : nat) (n : Z) (written : list Z) : list Z :=
  match i with
  | O => written
  | S i' => binary_loop i' (Z.shiftr n 1) ((if Z.odd n then 49 else 48) :: written)
  end.
Definition put_first (c : Z) (s : list Z) : out (list Z) :=
  match s with [] => UB | _ :: s' => Val (c :: s') end.
Definition binary (unsigned_value : Z) (sign_bit : bool) (scratch : list Z) : printed :=
  if unsigned_value =? 0 then lit (str "0") scratch else
  let size := bit_width unsigned_value + Z.b2z sign_bit in
  let s := binary_loop (Z.to_nat size) unsigned_value [] in
  s <- (if sign_bit then put_first 45 s else Val s) ;;
  ret s.
Definition FormatBinary (v : value) (scratch : list Z) : printed :=
  match v with
  | VInt tmp => if tmp <? 0 then binary (unsigned_neg tmp) true scratch else binary tmp false scratch
  | VUint u => binary u false scratch
  | VBool b => lit (str (if b then "1" else "0")) scratch
  | _ => Err (invalid "binary clause can only be used on integers and bools, was given ")
  end.

(* formatting.cc:347-385 *)
Definition FormatHex (v : value) (use_upper_case : bool) (scratch : list Z) : printed :=
  s <- match v with
       | VString s | VBytes s => Val (BytesToHexString s)
       | VInt tmp => Val (if tmp <? 0 then 45 :: digits 16 (unsigned_neg tmp) else digits 16 tmp)
       | VUint u => Val (digits 16 u)
       | _ => Err (invalid "hex clause can only be used on integers, byte buffers, and strings, was given ")
       end ;;
  ret (if use_upper_case then AsciiStrToUpper s else s).

(* formatting.cc:387-415 *)
Definition FormatOctal (v : value) (scratch : list Z) : printed :=
  match v with
  | VInt tmp => ret (if tmp <? 0 then 45 :: digits 8 (unsigned_neg tmp) else digits 8 tmp)
  | VUint u => ret (digits 8 u)
  | _ => Err (invalid "octal clause can only be used on integers, was given ")
  end.

Definition bytes_eqb (a b : list Z) : bool := match bytes_cmp a b with Eq => true | _ => false end.

(* formatting.cc:417-445 *)
Definition GetDouble (v : value) : out double :=
  match v with
  | VString s =>
      if bytes_eqb s (str "NaN") then Val S754_nan
      else if bytes_eqb s (str "Infinity") then Val (S754_infinity false)
      else if bytes_eqb s (str "-Infinity") then Val (S754_infinity true)
      else Err (invalid "only ""NaN"", ""Infinity"", and ""-Infinity"" are supported for conversion to double: ")
  | VInt n | VUint n => Val (double_of_Z n)
  | VDouble d => Val d
  | _ => Err (invalid "expected a double but got a ")
  end.

Section Printers.
  (* StrAppend of a double; StrFormat of %.Nf and of %.Ne; DebugString of a timestamp *)
  Variable double_text : double -> list Z.
  Variable fixed_text scientific_text : Z -> double -> list Z.
  Variable timestamp_text : time -> list Z.

  (* formatting.cc:119-140 *)
  Definition kDefaultPrecision : Z := 6.
  Definition value_or (o : option Z) (d : Z) : Z := match o with Some n => n | None => d end.
  Definition FormatDouble (d : double) (precision : option Z) (use_scientific_notation : bool)
      (scratch : list Z) : printed :=
    if d_isnan d then lit (str "NaN") scratch
    else if d_eq d (S754_infinity false) then lit (str "Infinity") scratch
    else if d_eq d (S754_infinity true) then lit (str "-Infinity") scratch
    else if use_scientific_notation then ret (scientific_text (value_or precision kDefaultPrecision) d)
    else ret (fixed_text (value_or precision kDefaultPrecision) d).

  (* formatting.cc:214-273 *)
  Fixpoint FormatString (v : value) (scratch : list Z) : printed :=
    match v with
    | VList l => FormatList (map FormatString l) scratch
    | VMap m => FormatMap (map (fun e => (fst e, FormatString (snd e))) m) scratch
    | VString s => lit s scratch
    | VBytes s => lit s scratch
    | VNull => lit (str "null") scratch
    | VInt n => ret (scratch ++ int_text n)
    | VUint n => ret (scratch ++ int_text n)
    | VDouble d =>
        if d_isnan d then lit (str "NaN") scratch
        else if d_eq d (S754_infinity false) then lit (str "Infinity") scratch
        else if d_eq d (S754_infinity true) then lit (str "-Infinity") scratch
        else ret (scratch ++ double_text d)
    | VTimestamp t => ret (scratch ++ timestamp_text t)
    | VDuration d => FormatDuration d scratch
    | VBool b => lit (str (if b then "true" else "false")) scratch
    | VType name => lit (str name) scratch
    | VOptional _ | VError _ | VUnknown _ => Err (invalid "could not convert argument ")
    end.

  (* formatting.cc:275-294 *)
  Definition FormatDecimal (v : value) (scratch : list Z) : printed :=
    match v with
    | VInt n | VUint n => ret ([] ++ int_text n)
    | VDouble d => FormatDouble d None false []
    | _ => Err (invalid "decimal clause can only be used on numbers, was given ")
    end.

  (* formatting.cc:447-461 *)
  Definition FormatFixed (v : value) (precision : option Z) (scratch : list Z) : printed :=
    number <- GetDouble v ;; FormatDouble number precision false scratch.
  Definition FormatScientific (v : value) (precision : option Z) (scratch : list Z) : printed :=
    number <- GetDouble v ;; FormatDouble number precision true scratch.

  (* formatting.cc:463-519; format[read] is undefined past the end *)
  Definition ParseAndFormatClause (format : list Z) (v : value) (max_precision : Z)
      (scratch : list Z) : out (nat * list Z) :=
    pp <- ParsePrecision format max_precision ;;
    let '(read, precision) := pp in
    match nth_error format read with
    | None => UB
    | Some c =>
        p <- (if c =? 115 then FormatString v scratch
              else if c =? 100 then FormatDecimal v scratch
              else if c =? 102 then FormatFixed v precision scratch
              else if c =? 101 then FormatScientific v precision scratch
              else if c =? 98 then FormatBinary v scratch
              else if (c =? 120) || (c =? 88) then FormatHex v (c =? 88) scratch
              else if c =? 111 then FormatOctal v scratch
              else Err (invalid "unrecognized formatting clause ")) ;;
        Val (read, fst p)
    end.

  (* formatting.cc:521-565.  [rest] is the format string from position i on; the
     loop reads at least one byte of it at a time. *)
  Fixpoint Format_loop (fuel : nat) (max_precision : Z) (args : list value) (arg_index : nat)
      (rest result : list Z) : out (list Z) :=
    match fuel with
    | O => UB
    | S fuel' =>
        match rest with
        | [] => Val result
        | c :: rest =>
            if negb (c =? 37) then Format_loop fuel' max_precision args arg_index rest (result ++ [c]) else
            match rest with
            | [] => Err (invalid "unexpected end of format string")
            | c' :: rest' =>
                if c' =? 37 then Format_loop fuel' max_precision args arg_index rest' (result ++ [37]) else
                if Nat.leb (length args) arg_index then Err (invalid "index out of range") else
                match nth_error args arg_index with
                | None => UB
                | Some v =>
                    cl <- ParseAndFormatClause rest v max_precision [] ;;
                    Format_loop fuel' max_precision args (S arg_index)
                      (skipn (S (fst cl)) rest) (result ++ snd cl)
                end
            end
        end
    end.
  Definition Format (max_precision : Z) (format : list Z) (args : list value) : out (list Z) :=
    Format_loop (S (length format)) max_precision args O format [].

  (* formatting.cc:548-568: the function registered for the options *)
  Definition clamp (n lo hi : Z) : Z := if n <? lo then lo else if hi <? n then hi else n.
  Definition format_function (max_precision_option : Z) : list Z -> list value -> out (list Z) :=
    Format (clamp max_precision_option 0 kMaxPrecision).
End Printers.
