(* Model of eval/public/set_util.cc: the order of legacy values used for sets.

   Simplifications.  A legacy value is a tree; a message, an unknown set and an error
   carry their addresses (an error also what it says).  A map is its entries, with the
   keys legacy maps accept (bool, int, uint, string), all distinct; std::sort on the
   keys is an insertion sort.  Values nested in lists and maps keep their addresses
   when fetched. *)
From Coq Require Import ZArith String List Bool SpecFloat.
From Verif Require Import Base M_Overflow M_Number M_Attr M_Value M_Ext.
Import ListNotations.
Open Scope list_scope.
Open Scope Z_scope.

(* eval/public/cel_value.h:133-136, in the order of the kinds (common/kind.h:30-47) *)
Inductive cel :=
| CNull
| CBool (b : bool)
| CInt (i : Z)
| CUint (u : Z)
| CDouble (d : double)
| CString (s : list Z)
| CBytes (s : list Z)
| CMessage (address : Z)
| CDuration (d : duration)
| CTimestamp (t : time)
| CList (l : list cel)
| CMap (m : list (mkey * cel))
| CUnknown (address : Z)
| CType (name : list Z)
| CError (address : Z) (s : status).

(* common/kind.h:30-47 *)
Definition kind_of (v : cel) : Z :=
  match v with
  | CNull => 0 | CBool _ => 1 | CInt _ => 2 | CUint _ => 3 | CDouble _ => 4 | CString _ => 5 | CBytes _ => 6
  | CMessage _ => 7 | CDuration _ => 8 | CTimestamp _ => 9 | CList _ => 10 | CMap _ => 11 | CUnknown _ => 12
  | CType _ => 13 | CError _ _ => 14
  end.

(* set_util.cc:11-20: -1, 1 or 0 by < and > *)
Definition ComparisonImpl {T} (lt : T -> T -> bool) (lhs rhs : T) : comparison :=
  if lt lhs rhs then Lt else if lt rhs lhs then Gt else Eq.
Definition bool_ltb (a b : bool) : bool := negb a && b.
(* set_util.cc:22-28 *)
Definition ComparisonError (p : Z) (s : status) (q : Z) (t : status) : comparison :=
  if status_eqb s t then Eq else if p <? q then Lt else Gt.
(* set_util.cc:52-60, the loop: elements in turn until they differ *)
Definition compare_elements (compare : cel -> cel -> comparison) :=
  fix go (xs ys : list cel) : comparison :=
    match xs, ys with
    | x :: xs', y :: ys' => match compare x y with Eq => go xs' ys' | c => c end
    | _, _ => Eq
    end.
(* set_util.cc:114-127 on keys *)
Definition key_kind (k : mkey) : Z :=
  match k with KBool _ => 1 | KInt _ => 2 | KUint _ => 3 | KString _ => 5 end.
Definition CompareKeys (a b : mkey) : comparison :=
  match a, b with
  | KBool x, KBool y => ComparisonImpl bool_ltb x y
  | KInt x, KInt y | KUint x, KUint y => ComparisonImpl Z.ltb x y
  | KString x, KString y => ComparisonImpl bytes_ltb x y
  | _, _ => ComparisonImpl Z.ltb (key_kind a) (key_kind b)
  end.
(* set_util.cc:91-92 *)
Fixpoint insert_key {A} (k : mkey) (x : A) (m : list (mkey * A)) : list (mkey * A) :=
  match m with
  | [] => [(k, x)]
  | (k', y) :: m' => match CompareKeys k k' with Lt => (k, x) :: m | _ => (k', y) :: insert_key k x m' end
  end.
Fixpoint sort_keys {A} (m : list (mkey * A)) : list (mkey * A) :=
  match m with [] => [] | (k, x) :: m' => insert_key k x (sort_keys m') end.
(* set_util.cc:94-109; each value of the left map is given as the function that compares
   a value with it *)
Fixpoint compare_entries (xs : list (mkey * (cel -> comparison))) (ys : list (mkey * cel)) : comparison :=
  match xs, ys with
  | (k, compare) :: xs', (k', y) :: ys' =>
      match CompareKeys k k' with
      | Eq => match compare y with Eq => compare_entries xs' ys' | c => c end
      | c => c
      end
  | _, _ => Eq
  end.
(* set_util.cc:45-50, 68-73, 114-133 *)
Fixpoint CelValueCompare (lhs rhs : cel) {struct lhs} : comparison :=
  match lhs, rhs with
  | CNull, CNull => Eq
  | CBool a, CBool b => ComparisonImpl bool_ltb a b
  | CInt a, CInt b | CUint a, CUint b => ComparisonImpl Z.ltb a b
  | CDouble a, CDouble b => ComparisonImpl d_lt a b
  | CString a, CString b | CBytes a, CBytes b | CType a, CType b => ComparisonImpl bytes_ltb a b
  | CMessage p, CMessage q | CUnknown p, CUnknown q => ComparisonImpl Z.ltb p q
  | CDuration a, CDuration b => ComparisonImpl dur_ltb a b
  | CTimestamp a, CTimestamp b => ComparisonImpl time_ltb a b
  | CList xs, CList ys =>
      match ComparisonImpl Nat.ltb (length xs) (length ys) with
      | Eq => compare_elements CelValueCompare xs ys
      | c => c
      end
  | CMap xs, CMap ys =>
      match ComparisonImpl Nat.ltb (length xs) (length ys) with
      | Eq => compare_entries (sort_keys (map (fun e => match e with (k, v) => (k, CelValueCompare v) end) xs)) (sort_keys ys)
      | c => c
      end
  | CError p s, CError q t => ComparisonError p s q t
  | _, _ => ComparisonImpl Z.ltb (kind_of lhs) (kind_of rhs)
  end.
(* set_util.cc:135-145 *)
Definition CelValueLessThan (lhs rhs : cel) : bool := match CelValueCompare lhs rhs with Lt => true | _ => false end.
Definition CelValueEqual (lhs rhs : cel) : bool := match CelValueCompare lhs rhs with Eq => true | _ => false end.
Definition CelValueGreaterThan (lhs rhs : cel) : bool := match CelValueCompare lhs rhs with Gt => true | _ => false end.
