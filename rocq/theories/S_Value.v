(* Independent specification of values: well-formedness, NaN, the number or
   name a map key stands for, and equality of values as CEL documents it. *)
From Coq Require Import ZArith QArith List Bool String Permutation.
From Verif Require Import Base M_Overflow M_Number M_Attr M_Value S_Num.
Import ListNotations.
Open Scope list_scope.
Open Scope Z_scope.

(* P holds of the value and of every value nested in it. *)
Fixpoint everywhere (P : value -> Prop) (v : value) : Prop :=
  P v /\
  match v with
  | VList l =>
      (fix all (l : list value) : Prop :=
         match l with [] => True | x :: l' => everywhere P x /\ all l' end) l
  | VMap m =>
      (fix all (m : list (mkey * value)) : Prop :=
         match m with [] => True | (_, x) :: m' => everywhere P x /\ all m' end) m
  | VOptional (Some x) => everywhere P x
  | _ => True
  end.

(* A value of the C++ types: integers and doubles in range, map keys distinct,
   and no error or unknown inside. *)
Definition key_ok (k : mkey) : Prop :=
  match k with
  | KInt i => in_int64 i = true
  | KUint u => in_uint64 u = true
  | _ => True
  end.
Definition node_ok (v : value) : Prop :=
  match v with
  | VInt i => in_int64 i = true
  | VUint u => in_uint64 u = true
  | VDouble d => valid_double d = true
  | VMap m => NoDup (map fst m) /\ Forall key_ok (map fst m)
  | VError _ | VUnknown _ => False
  | _ => True
  end.
Definition value_ok : value -> Prop := everywhere node_ok.

Definition not_nan (v : value) : Prop :=
  match v with VDouble d => double_value d <> None | _ => True end.
(* no NaN at any depth *)
Definition nan_free : value -> Prop := everywhere not_nan.

(* What a key stands for: 1 and 1u stand for the same number. *)
Inductive key_id := IdBool (b : bool) | IdNum (z : Z) | IdString (s : list Z).
Definition id_of (k : mkey) : key_id :=
  match k with
  | KBool b => IdBool b
  | KInt z | KUint z => IdNum z
  | KString s => IdString s
  end.
Definition distinct_ids (v : value) : Prop :=
  match v with VMap m => NoDup (map (fun e => id_of (fst e)) m) | _ => True end.
(* no map at any depth has two numerically equal keys *)
Definition unambiguous : value -> Prop := everywhere distinct_ids.

Definition no_uint_key (v : value) : Prop :=
  match v with VMap m => Forall (fun e => match fst e with KUint _ => False | _ => True end) m
             | _ => True end.
(* no map at any depth has a uint key *)
Definition no_uint_keys : value -> Prop := everywhere no_uint_key.

(* The number a value is, if it is one. *)
Definition number_of (v : value) : option number :=
  match v with
  | VInt i => Some (NInt i) | VUint u => Some (NUint u) | VDouble d => Some (NDouble d)
  | _ => None
  end.

(* Documented equality of values.  [same_key] says when two keys are the same
   key.  Numbers are equal when their comparison (C03) says so; lists are
   equal elementwise; maps are equal when their entries can be paired off so
   that keys are the same and values are equal. *)
Section Equality.
  Variable same_key : mkey -> mkey -> Prop.
  Inductive equal_values : value -> value -> Prop :=
  | EqNull : equal_values VNull VNull
  | EqBool b : equal_values (VBool b) (VBool b)
  | EqNum a b x y : number_of a = Some x -> number_of b = Some y -> num_eq x y = true ->
      equal_values a b
  | EqString s : equal_values (VString s) (VString s)
  | EqBytes s : equal_values (VBytes s) (VBytes s)
  | EqDuration d : equal_values (VDuration d) (VDuration d)
  | EqTimestamp t : equal_values (VTimestamp t) (VTimestamp t)
  | EqType t : equal_values (VType t) (VType t)
  | EqList xs ys : Forall2 equal_values xs ys -> equal_values (VList xs) (VList ys)
  | EqMap m n n' : Permutation n n' ->
      Forall2 (fun e f => same_key (fst e) (fst f) /\ equal_values (snd e) (snd f)) m n' ->
      equal_values (VMap m) (VMap n)
  | EqNone : equal_values (VOptional None) (VOptional None)
  | EqSome a b : equal_values a b -> equal_values (VOptional (Some a)) (VOptional (Some b)).
End Equality.

(* Keys as CEL compares them, and keys compared with their kind. *)
Definition same_id (k k' : mkey) : Prop := id_of k = id_of k'.
Definition cel_equal : value -> value -> Prop := equal_values same_id.

Definition plain_optional (v : value) : Prop :=
  match v with VOptional (Some x) => no_uint_keys x | _ => True end.
(* no optional at any depth holds a map with a uint key *)
Definition plain_optionals : value -> Prop := everywhere plain_optional.

(* The key [k] given to a map operation denotes the map key [k']. *)
Definition key_matches (k : value) (k' : mkey) : Prop :=
  match k, k' with
  | VBool b, KBool b' => b = b'
  | VString s, KString s' => s = s'
  | _, KInt z | _, KUint z => exists n, number_of k = Some n /\ denotes_int n z
  | _, _ => False
  end.
(* a value of one of the kinds that can be looked up in a map *)
Definition lookup_kind (k : value) : Prop :=
  match k with
  | VBool _ | VString _ | VInt _ | VUint _ | VDouble _ => True
  | _ => False
  end.
