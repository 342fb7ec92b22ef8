(* Independent specification of JSON for values: base 64 by bits, which JSON stands
   for a value, and when two JSON values are equal. *)
From Coq Require Import ZArith String List Bool Permutation.
From Verif Require Import Base M_Overflow M_Number M_Attr M_Value S_Num S_Value S_Format S_Convert S_Time.
From Verif Require Import M_Json.
Import ListNotations.
Open Scope list_scope.
Open Scope Z_scope.

(** ** Base 64 *)
(* The last [k] binary digits of a number, the greatest first. *)
Fixpoint bits (k : nat) (n : Z) : list bool :=
  match k with O => [] | S k' => Z.testbit n (Z.of_nat k') :: bits k' n end.
Definition alphabet : list Z :=
  text "ABCDEFGHIJKLMNOPQRSTUVWXYZabcdefghijklmnopqrstuvwxyz0123456789+/".
(* the six digits of each character, by its place in the alphabet *)
Inductive sextets : list Z -> list bool -> Prop :=
| sx_nil : sextets [] []
| sx_char c n cs bs : nth_error alphabet n = Some c -> sextets cs bs ->
    sextets (c :: cs) (bits 6 (Z.of_nat n) ++ bs).
Definition octets (b : list Z) : list bool := concat (map (bits 8) b).
Definition is_byte (c : Z) : Prop := 0 <= c < 256.
Definition pad (c : Z) : Prop := c = 61 \/ c = 46.
Definition not_space (c : Z) : bool := negb ((c =? 32) || ((9 <=? c) && (c <=? 13))).
(* The text of the encoder: the digits of the bytes, filled up with zeros, and
   equals signs to a multiple of four characters. *)
Definition base64 (b : list Z) (s : list Z) : Prop :=
  exists cs zeros n, s = cs ++ repeat 61 n /\ sextets cs (octets b ++ repeat false zeros) /\
    (zeros < 6)%nat /\ (n < 3)%nat /\ Nat.modulo (length s) 4 = 0%nat.
(* The texts a decoder may accept for the bytes: white space anywhere, padding
   left out or complete, digits after the last whole byte ignored. *)
Definition base64_reads (s : list Z) (b : list Z) : Prop :=
  exists cs ps bs rest, filter not_space s = cs ++ ps /\ sextets cs bs /\ Forall pad ps /\
    bs = octets b ++ rest /\ (length rest < 6)%nat /\ Forall is_byte b /\
    (ps = [] \/ Nat.modulo (length cs + length ps) 4 = 0%nat /\ (length ps < 3)%nat).

(** ** The JSON of a value *)
  (* [json_of v j]: [j] is the JSON for [v]; the fields of objects in any order *)
  Inductive json_of : value -> json -> Prop :=
  | jo_null : json_of VNull JNull
  | jo_bool b : json_of (VBool b) (JBool b)
  | jo_double d : json_of (VDouble d) (JNumber d)
  | jo_int i d : Z.abs i < 2 ^ 53 -> denotes_int (NDouble d) i -> json_of (VInt i) (JNumber d)
  | jo_int_text i t : 2 ^ 53 <= Z.abs i -> integer_numeral false 10 t i -> json_of (VInt i) (JString t)
  | jo_uint u d : u < 2 ^ 53 -> denotes_int (NDouble d) u -> json_of (VUint u) (JNumber d)
  | jo_uint_text u t : 2 ^ 53 <= u -> integer_numeral false 10 t u -> json_of (VUint u) (JString t)
  | jo_string s : json_of (VString s) (JString s)
  | jo_bytes b t : base64 b t -> json_of (VBytes b) (JString t)
  | jo_duration ns t : duration_text ns t -> json_of (VDuration (DFin ns)) (JString t)
  | jo_timestamp ns t : timestamp_text ns t -> json_of (VTimestamp (TFin ns)) (JString t)
  | jo_list l js : Forall2 json_of l js -> json_of (VList l) (JList js)
  | jo_map m fs : Forall2 (fun e f => fst e = KString (fst f) /\ json_of (snd e) (snd f)) m fs ->
      forall fs', Permutation fs fs' -> json_of (VMap m) (JStruct fs').
(* The values that have JSON: times in range, names as keys, no types, optionals. *)
Definition json_node (v : value) : Prop :=
  match v with
  | VNull | VBool _ | VInt _ | VUint _ | VDouble _ | VString _ | VBytes _ | VList _ => True
  | VDuration d => exists ns, d = DFin ns /\ dur_range ns
  | VTimestamp t => exists ns, t = TFin ns /\ ts_range ns
  | VMap m => Forall (fun e => exists s, fst e = KString s) m
  | _ => False
  end.
Definition has_json : value -> Prop := everywhere json_node.
(* bytes are bytes *)
Definition octets_ok : value -> Prop :=
  everywhere (fun v => match v with VBytes b => Forall is_byte b | _ => True end).
(* Values whose JSON stands for them alone. *)
Definition plain_node (v : value) : Prop :=
  match v with
  | VInt i => Z.abs i < 2 ^ 53
  | VUint u => u < 2 ^ 53
  | VBytes _ | VDuration _ | VTimestamp _ => False
  | _ => True
  end.
Definition plain : value -> Prop := everywhere plain_node.

(** ** Equality of JSON *)
(* P holds of the JSON value and of every one nested in it. *)
Fixpoint throughout (P : json -> Prop) (j : json) : Prop :=
  P j /\
  match j with
  | JList l => (fix all (l : list json) : Prop :=
      match l with [] => True | x :: l' => throughout P x /\ all l' end) l
  | JStruct m => (fix all (m : list (list Z * json)) : Prop :=
      match m with [] => True | (_, x) :: m' => throughout P x /\ all m' end) m
  | _ => True
  end.
(* a message: the fields of an object have distinct names, numbers are doubles *)
Definition message : json -> Prop :=
  throughout (fun j => match j with
    | JStruct m => NoDup (map fst m) | JNumber d => valid_double d = true | _ => True end).
Definition no_nan : json -> Prop :=
  throughout (fun j => match j with JNumber d => double_value d <> None | _ => True end).
Definition all_set : json -> Prop := throughout (fun j => j <> JUnset).
(* The same JSON: unset is null, numbers by value, fields in any order. *)
Inductive same_json : json -> json -> Prop :=
| sj_null a b : a = JUnset \/ a = JNull -> b = JUnset \/ b = JNull -> same_json a b
| sj_bool b : same_json (JBool b) (JBool b)
| sj_number x y : math_eq (NDouble x) (NDouble y) -> same_json (JNumber x) (JNumber y)
| sj_string s : same_json (JString s) (JString s)
| sj_list xs ys : Forall2 same_json xs ys -> same_json (JList xs) (JList ys)
| sj_struct xs ys ys' : Forall2 (fun e f => fst e = fst f /\ same_json (snd e) (snd f)) xs ys ->
    Permutation ys ys' -> same_json (JStruct xs) (JStruct ys').

(** ** Exported values *)
(* The text of a key. *)
Definition key_text (k : mkey) (t : list Z) : Prop :=
  match k with
  | KString s => t = s
  | KInt i | KUint i => integer_numeral false 10 t i
  | KBool _ => False
  end.
(* [exported v j]: [j] is what the legacy export makes of [v]: integers are doubles,
   exact up to 2^53 and never more than 1024 off. *)
Inductive exported : value -> json -> Prop :=
| ex_null : exported VNull JNull
| ex_bool b : exported (VBool b) (JBool b)
| ex_double d : exported (VDouble d) (JNumber d)
| ex_int i d : (Z.abs i <= 2 ^ 53 -> denotes_int (NDouble d) i) -> within 1024 (NDouble d) (NInt i) -> exported (VInt i) (JNumber d)
| ex_uint i d : (Z.abs i <= 2 ^ 53 -> denotes_int (NDouble d) i) -> within 1024 (NDouble d) (NUint i) -> exported (VUint i) (JNumber d)
| ex_string s : exported (VString s) (JString s)
| ex_bytes b t : base64 b t -> exported (VBytes b) (JString t)
| ex_duration ns t : duration_text ns t -> exported (VDuration (DFin ns)) (JString t)
| ex_timestamp ns t : timestamp_text ns t -> exported (VTimestamp (TFin ns)) (JString t)
| ex_list l js : Forall2 exported l js -> exported (VList l) (JList js)
| ex_map m fs : Forall2 (fun e f => key_text (fst e) (fst f) /\ exported (snd e) (snd f)) m fs ->
    forall fs', Permutation fs fs' -> exported (VMap m) (JStruct fs').
(* The values that can be exported: times in range, no booleans as keys ... *)
Definition export_node (v : value) : Prop :=
  match v with
  | VMap m => Forall (fun e => match fst e with KBool _ => False | _ => True end) m
  | _ => json_node v
  end.
(* ... and no two keys of a map written alike. *)
Definition keys_apart (v : value) : Prop :=
  match v with
  | VMap m => forall k k' t, In k (map fst m) -> In k' (map fst m) -> key_text k t -> key_text k' t -> k = k'
  | _ => True
  end.
Definition exact_node (v : value) : Prop :=
  match v with VInt i => Z.abs i < 2 ^ 53 | VUint u => u < 2 ^ 53 | _ => True end.
