(* Independent specification of the order of legacy values. *)
From Coq Require Import ZArith String List Bool Permutation Sorted.
From Verif Require Import Base M_Overflow M_Number M_Attr M_Value S_Num.
From Verif Require Import M_Compare.
Import ListNotations.
Open Scope list_scope.
Open Scope Z_scope.

(* the documented order of kinds *)
Definition rank (v : cel) : Z :=
  match v with
  | CNull => 0 | CBool _ => 1 | CInt _ => 2 | CUint _ => 3 | CDouble _ => 4 | CString _ => 5 | CBytes _ => 6
  | CMessage _ => 7 | CDuration _ => 8 | CTimestamp _ => 9 | CList _ => 10 | CMap _ => 11 | CUnknown _ => 12
  | CType _ => 13 | CError _ _ => 14
  end.
(* bytes as in a dictionary *)
Inductive text_less : list Z -> list Z -> Prop :=
| tl_prefix c s : text_less [] (c :: s)
| tl_first x y s t : x < y -> text_less (x :: s) (y :: t)
| tl_rest x s t : text_less s t -> text_less (x :: s) (x :: t).
Inductive dur_less : duration -> duration -> Prop :=
| dl_fin x y : x < y -> dur_less (DFin x) (DFin y)
| dl_neg d : d <> DInf true -> dur_less (DInf true) d
| dl_pos d : d <> DInf false -> dur_less d (DInf false).
Inductive time_less : time -> time -> Prop :=
| tml_fin x y : x < y -> time_less (TFin x) (TFin y)
| tml_neg d : d <> TInf true -> time_less (TInf true) d
| tml_pos d : d <> TInf false -> time_less d (TInf false).
Definition key_rank (k : mkey) : Z := match k with KBool _ => 1 | KInt _ => 2 | KUint _ => 3 | KString _ => 5 end.
Inductive key_less : mkey -> mkey -> Prop :=
| kl_kind a b : key_rank a < key_rank b -> key_less a b
| kl_bool : key_less (KBool false) (KBool true)
| kl_int x y : x < y -> key_less (KInt x) (KInt y)
| kl_uint x y : x < y -> key_less (KUint x) (KUint y)
| kl_string x y : text_less x y -> key_less (KString x) (KString y).
Definition in_order (m : list (mkey * cel)) : Prop := StronglySorted (fun e f => key_less (fst e) (fst f)) m.

(* Values in the same place. *)
Inductive same : cel -> cel -> Prop :=
| same_null : same CNull CNull
| same_bool b : same (CBool b) (CBool b)
| same_int i : same (CInt i) (CInt i)
| same_uint u : same (CUint u) (CUint u)
| same_double x y : math_eq (NDouble x) (NDouble y) -> same (CDouble x) (CDouble y)
| same_string s : same (CString s) (CString s)
| same_bytes s : same (CBytes s) (CBytes s)
| same_message p : same (CMessage p) (CMessage p)
| same_duration d : same (CDuration d) (CDuration d)
| same_timestamp t : same (CTimestamp t) (CTimestamp t)
| same_list xs ys : Forall2 same xs ys -> same (CList xs) (CList ys)
| same_map m n n' : Forall2 (fun e f => fst e = fst f /\ same (snd e) (snd f)) m n -> Permutation n n' -> same (CMap m) (CMap n')
| same_unknown p : same (CUnknown p) (CUnknown p)
| same_type s : same (CType s) (CType s)
| same_error p q s : same (CError p s) (CError q s).
(* Values one before the other: by kind, then lists by size and the first elements
   that differ, maps by size and the first entries that differ in the order of keys. *)
Inductive less : cel -> cel -> Prop :=
| less_kind a b : rank a < rank b -> less a b
| less_bool : less (CBool false) (CBool true)
| less_int x y : x < y -> less (CInt x) (CInt y)
| less_uint x y : x < y -> less (CUint x) (CUint y)
| less_double x y : math_lt (NDouble x) (NDouble y) -> less (CDouble x) (CDouble y)
| less_string x y : text_less x y -> less (CString x) (CString y)
| less_bytes x y : text_less x y -> less (CBytes x) (CBytes y)
| less_message p q : p < q -> less (CMessage p) (CMessage q)
| less_duration x y : dur_less x y -> less (CDuration x) (CDuration y)
| less_timestamp x y : time_less x y -> less (CTimestamp x) (CTimestamp y)
| less_list_size xs ys : (length xs < length ys)%nat -> less (CList xs) (CList ys)
| less_list p q x y xs ys : length xs = length ys -> Forall2 same p q -> less x y ->
    less (CList (p ++ x :: xs)) (CList (q ++ y :: ys))
| less_map_size m n : (length m < length n)%nat -> less (CMap m) (CMap n)
| less_map m n p q k x k' y xs ys : Permutation m (p ++ (k, x) :: xs) -> in_order (p ++ (k, x) :: xs) ->
    Permutation n (q ++ (k', y) :: ys) -> in_order (q ++ (k', y) :: ys) -> length xs = length ys ->
    Forall2 (fun e f => fst e = fst f /\ same (snd e) (snd f)) p q ->
    key_less k k' \/ k = k' /\ less x y ->
    less (CMap m) (CMap n)
| less_unknown p q : p < q -> less (CUnknown p) (CUnknown q)
| less_type x y : text_less x y -> less (CType x) (CType y)
| less_error p s q t : s <> t -> p < q -> less (CError p s) (CError q t).

(* P holds of the value and of every value nested in it. *)
Fixpoint all_nodes (P : cel -> Prop) (v : cel) : Prop :=
  P v /\
  match v with
  | CList l => (fix all (l : list cel) : Prop := match l with [] => True | x :: l' => all_nodes P x /\ all l' end) l
  | CMap m => (fix all (m : list (mkey * cel)) : Prop := match m with [] => True | (_, x) :: m' => all_nodes P x /\ all m' end) m
  | _ => True
  end.
(* A value of the heap [h] of errors: no NaN, distinct keys. *)
Definition cel_ok (h : Z -> option status) : cel -> Prop := all_nodes (fun v =>
  match v with
  | CDouble d => valid_double d = true /\ double_value d <> None
  | CMap m => NoDup (map fst m)
  | CError p s => h p = Some s
  | _ => True
  end).
(* no two errors say the same *)
Definition errors_differ (h : Z -> option status) : Prop := forall p q s, h p = Some s -> h q = Some s -> p = q.
