(* Specification of format(): what a format string and its arguments stand for.
   Independent of the model's functions; only the values are those of the model. *)
From Coq Require Import ZArith String List Bool Ascii Permutation Sorting.Sorted.
From Verif Require Import Base M_Overflow M_Number M_Value.
Import ListNotations.
Open Scope Z_scope.

Definition text (s : string) : list Z := map (fun c => Z.of_N (N_of_ascii c)) (list_ascii_of_string s).

(** ** Numerals *)
(* The value of a digit; the letters are lower case or upper case ones. *)
Definition digit_value (upper : bool) (c : Z) : option Z :=
  if (48 <=? c) && (c <=? 57) then Some (c - 48)
  else if upper then (if (65 <=? c) && (c <=? 70) then Some (c - 55) else None)
  else (if (97 <=? c) && (c <=? 102) then Some (c - 87) else None).
(* [place_value b t n]: every character of [t] is a digit below [b], and [t]
   denotes [n] in base [b]. *)
Inductive place_value (upper : bool) (b : Z) : list Z -> Z -> Prop :=
| pv_nil : place_value upper b [] 0
| pv_digit t n c d : place_value upper b t n -> digit_value upper c = Some d -> 0 <= d < b ->
    place_value upper b (t ++ [c]) (n * b + d).
(* No superfluous zeros, at least one digit. *)
Definition natural_numeral (upper : bool) (b : Z) (t : list Z) (n : Z) : Prop :=
  place_value upper b t n /\ t <> [] /\ (hd 0 t = 48 -> t = [48]).
Definition integer_numeral (upper : bool) (b : Z) (t : list Z) (n : Z) : Prop :=
  (0 <= n /\ natural_numeral upper b t n) \/
  (n < 0 /\ exists u, t = 45 :: u /\ natural_numeral upper b u (- n)).

(* Seconds with a fraction of three, six or nine digits, the shortest that is
   exact, or none. *)
Definition fraction (nanos : Z) (t : list Z) : Prop :=
  (nanos = 0 /\ t = []) \/
  exists k u n, t = 46 :: u /\ In k [3%nat; 6%nat; 9%nat] /\ length u = k /\ nanos <> 0 /\
    place_value false 10 u n /\ nanos = n * 10 ^ (9 - Z.of_nat k) /\
    (forall k' n', In k' [3%nat; 6%nat; 9%nat] -> nanos = n' * 10 ^ (9 - Z.of_nat k') -> (k <= k')%nat).
Definition duration_text (ns : Z) (t : list Z) : Prop :=
  exists whole frac seconds nanos,
    t = ((if ns <? 0 then text "-" else []) ++ whole ++ frac ++ text "s")%list /\
    natural_numeral false 10 whole seconds /\ fraction nanos frac /\
    0 <= nanos < 10 ^ 9 /\ Z.abs ns = seconds * 10 ^ 9 + nanos.

(** ** The text of a value *)
(* Two digits for each byte. *)
Inductive hex_bytes (upper : bool) : list Z -> list Z -> Prop :=
| hx_nil : hex_bytes upper [] []
| hx_byte b s h l d e t : digit_value upper h = Some d -> digit_value upper l = Some e ->
    0 <= d < 16 -> 0 <= e < 16 -> b = d * 16 + e ->
    hex_bytes upper s t -> hex_bytes upper (b :: s) (h :: l :: t).

Fixpoint join (sep : list Z) (ts : list (list Z)) : list Z :=
  match ts with
  | [] => []
  | [t] => t
  | t :: ts' => (t ++ sep ++ join sep ts')%list
  end.

(* Byte order of texts. *)
Inductive before : list Z -> list Z -> Prop :=
| bf_prefix c t : before [] (c :: t)
| bf_byte a b s t : a < b -> before (a :: s) (b :: t)
| bf_tail a s t : before s t -> before (a :: s) (a :: t).

Definition special_double (d : double) : option (list Z) :=
  match d with
  | S754_nan => Some (text "NaN")
  | S754_infinity false => Some (text "Infinity")
  | S754_infinity true => Some (text "-Infinity")
  | _ => None
  end.

Inductive key_shows : mkey -> list Z -> Prop :=
| ks_bool b : key_shows (KBool b) (text (if b then "true" else "false"))
| ks_int n t : integer_numeral false 10 t n -> key_shows (KInt n) t
| ks_uint n t : integer_numeral false 10 t n -> key_shows (KUint n) t
| ks_string s : key_shows (KString s) s.

Section Texts.
  (* how a double that is a number, and a timestamp, are printed *)
  Variable double_text : double -> list Z.
  Variable fixed_text scientific_text : Z -> double -> list Z.
  Variable timestamp_text : time -> list Z.

  (* The text of a value, %s.  A map is its entries in the order of the texts of
     the keys, which are all different. *)
  Inductive shows : value -> list Z -> Prop :=
  | sh_null : shows VNull (text "null")
  | sh_bool b : shows (VBool b) (text (if b then "true" else "false"))
  | sh_int n t : integer_numeral false 10 t n -> shows (VInt n) t
  | sh_uint n t : integer_numeral false 10 t n -> shows (VUint n) t
  | sh_special d t : special_double d = Some t -> shows (VDouble d) t
  | sh_double d : special_double d = None -> shows (VDouble d) (double_text d)
  | sh_string s : shows (VString s) s
  | sh_bytes s : shows (VBytes s) s
  | sh_time t : shows (VTimestamp t) (timestamp_text t)
  | sh_duration ns t : duration_text ns t -> shows (VDuration (DFin ns)) t
  | sh_type name : shows (VType name) (text name)
  | sh_list l ts : all_show l ts -> shows (VList l) (text "[" ++ join (text ", ") ts ++ text "]")
  | sh_map m kts sorted : entries_show m kts -> Permutation kts sorted ->
      StronglySorted before (map fst sorted) ->
      shows (VMap m)
        (text "{" ++ join (text ", ") (map (fun e => (fst e ++ text ": " ++ snd e)%list) sorted) ++ text "}")
  with all_show : list value -> list (list Z) -> Prop :=
  | as_nil : all_show [] []
  | as_cons v l t ts : shows v t -> all_show l ts -> all_show (v :: l) (t :: ts)
  with entries_show : list (mkey * value) -> list (list Z * list Z) -> Prop :=
  | es_nil : entries_show [] []
  | es_cons k v m kt t kts : key_shows k kt -> shows v t -> entries_show m kts ->
      entries_show ((k, v) :: m) ((kt, t) :: kts).

  (* The number a %f or %e clause prints. *)
  Inductive number : value -> double -> Prop :=
  | nb_double d : number (VDouble d) d
  | nb_int n : number (VInt n) (double_of_Z n)
  | nb_uint n : number (VUint n) (double_of_Z n)
  | nb_nan : number (VString (text "NaN")) S754_nan
  | nb_inf : number (VString (text "Infinity")) (S754_infinity false)
  | nb_neg_inf : number (VString (text "-Infinity")) (S754_infinity true).
  (* Its text; the precision is 6 if none is given. *)
  Definition number_text (print : Z -> double -> list Z) (precision : option Z) (d : double) : list Z :=
    match special_double d with
    | Some t => t
    | None => print (match precision with Some n => n | None => 6 end) d
    end.

  Definition integer_clause (c : Z) : option (bool * Z) :=
    if c =? 98 then Some (false, 2)          (* %b *)
    else if c =? 111 then Some (false, 8)    (* %o *)
    else if c =? 100 then Some (false, 10)   (* %d *)
    else if c =? 120 then Some (false, 16)   (* %x *)
    else if c =? 88 then Some (true, 16)     (* %X *)
    else None.

  (* What a clause prints for a value. *)
  Inductive clause : Z -> option Z -> value -> list Z -> Prop :=
  | cl_string p v t : shows v t -> clause 115 p v t
  | cl_int c upper b p n t : integer_clause c = Some (upper, b) -> integer_numeral upper b t n ->
      clause c p (VInt n) t
  | cl_uint c upper b p n t : integer_clause c = Some (upper, b) -> integer_numeral upper b t n ->
      clause c p (VUint n) t
  | cl_decimal_double p d : clause 100 p (VDouble d) (number_text fixed_text None d)
  | cl_binary_bool p b : clause 98 p (VBool b) (text (if b then "1" else "0"))
  | cl_hex_string c upper p s t : integer_clause c = Some (upper, 16) -> hex_bytes upper s t ->
      clause c p (VString s) t
  | cl_hex_bytes c upper p s t : integer_clause c = Some (upper, 16) -> hex_bytes upper s t ->
      clause c p (VBytes s) t
  | cl_fixed p v d : number v d -> clause 102 p v (number_text fixed_text p d)
  | cl_scientific p v d : number v d -> clause 101 p v (number_text scientific_text p d).

  (* A precision: nothing, or a dot and digits denoting at most the maximum. *)
  Inductive precision (max : Z) : list Z -> option Z -> Prop :=
  | pr_none : precision max [] None
  | pr_some t n : t <> [] -> place_value false 10 t n -> n <= max -> precision max (46 :: t) (Some n).

  (* The whole: characters other than % stand for themselves, %% for %, and each
     clause for the text of the next argument.  Arguments left over are ignored. *)
  Inductive renders (max : Z) : list Z -> list value -> list Z -> Prop :=
  | rn_end args : renders max [] args []
  | rn_char c f args o : c <> 37 -> renders max f args o -> renders max (c :: f) args (c :: o)
  | rn_percent f args o : renders max f args o -> renders max (37 :: 37 :: f) args (37 :: o)
  | rn_clause pt p c v t f args o :
      precision max pt p -> clause c p v t -> renders max f args o ->
      renders max (37 :: pt ++ c :: f) (v :: args) (t ++ o).
End Texts.

(** ** Values *)
(* The values programs compute: integers of 64 bits, bytes, finite durations in
   the range of 64-bit seconds. *)
Inductive plain : value -> Prop :=
| pl_null : plain VNull
| pl_bool b : plain (VBool b)
| pl_int n : - 2 ^ 63 <= n < 2 ^ 63 -> plain (VInt n)
| pl_uint n : 0 <= n < 2 ^ 64 -> plain (VUint n)
| pl_double d : plain (VDouble d)
| pl_string s : Forall (fun b => 0 <= b < 256) s -> plain (VString s)
| pl_bytes s : Forall (fun b => 0 <= b < 256) s -> plain (VBytes s)
| pl_duration ns : - 2 ^ 63 * 10 ^ 9 < ns < 2 ^ 63 * 10 ^ 9 -> plain (VDuration (DFin ns))
| pl_time t : plain (VTimestamp t)
| pl_type n : plain (VType n)
| pl_list l : Forall plain l -> plain (VList l)
| pl_map m : Forall (fun e => plain_key (fst e) /\ plain (snd e)) m -> plain (VMap m)
| pl_optional o : plain (VOptional o)
| pl_error s : plain (VError s)
| pl_unknown u : plain (VUnknown u)
with plain_key : mkey -> Prop :=
| pk_bool b : plain_key (KBool b)
| pk_int n : - 2 ^ 63 <= n < 2 ^ 63 -> plain_key (KInt n)
| pk_uint n : 0 <= n < 2 ^ 64 -> plain_key (KUint n)
| pk_string s : Forall (fun b => 0 <= b < 256) s -> plain_key (KString s).

(* No map in the value has two keys with the same text, such as 1 and "1". *)
Inductive distinct_keys : value -> Prop :=
| dk_list l : Forall distinct_keys l -> distinct_keys (VList l)
| dk_map m : Forall (fun e => distinct_keys (snd e)) m ->
    (forall i j a b t, nth_error m i = Some a -> nth_error m j = Some b ->
       key_shows (fst a) t -> key_shows (fst b) t -> i = j) ->
    distinct_keys (VMap m)
| dk_other v : match v with VList _ | VMap _ => False | _ => True end -> distinct_keys v.

(* The same value up to the order of the entries of its maps. *)
Inductive reordered : value -> value -> Prop :=
| ro_same v : reordered v v
| ro_list l l' : Forall2 reordered l l' -> reordered (VList l) (VList l')
| ro_map m m' m'' : Forall2 (fun e e' => fst e = fst e' /\ reordered (snd e) (snd e')) m m' ->
    Permutation m' m'' -> reordered (VMap m) (VMap m'').

(* Every string in the value, map keys included, is well-formed UTF-8, and so is
   the name of a type; there are no bytes values. *)
Section Utf8.
  Variable well_formed : list Z -> Prop.
  Inductive utf8_value : value -> Prop :=
  | u8_list l : Forall utf8_value l -> utf8_value (VList l)
  | u8_map m : Forall (fun e => match fst e with KString s => well_formed s | _ => True end /\
                                utf8_value (snd e)) m -> utf8_value (VMap m)
  | u8_other v : match v with
                 | VString s => well_formed s
                 | VType n => well_formed (text n)
                 | VBytes _ | VList _ | VMap _ => False
                 | _ => True
                 end -> utf8_value v.
End Utf8.
