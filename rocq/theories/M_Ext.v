(* Model of the list and set extensions: extensions/sets_functions.cc and
   extensions/lists_functions.cc. *)
From Coq Require Import ZArith String List Bool.
From Verif Require Import Base M_Overflow M_Number M_Attr M_Value.
Import ListNotations.
Local Open Scope string_scope.
Open Scope list_scope.
Open Scope Z_scope.
Local Open Scope out_scope.

(* ---- extensions/sets_functions.cc ---- *)

(* sets_functions.cc:41-61 SetsContains: ForEach over sublist, stopped by the
   first element that is missing.  Contains always yields a bool here. *)
Fixpoint sets_contains_loop (lst : list value) (sublist : list value) (any_missing : bool) : bool :=
  match sublist with
  | [] => any_missing
  | e :: rest =>
      let any_missing := negb (ListContains lst e) in
      if negb any_missing then sets_contains_loop lst rest any_missing else any_missing
  end.
Definition SetsContains (lst sublist : list value) : value :=
  VBool (negb (sets_contains_loop lst sublist false)).

(* sets_functions.cc:63-82 SetsIntersects: ForEach over list, stopped by the
   first element found in sublist *)
Fixpoint sets_intersects_loop (sublist : list value) (lst : list value) (found : bool) : bool :=
  match lst with
  | [] => found
  | e :: rest =>
      let found := ListContains sublist e in
      if negb found then sets_intersects_loop sublist rest found else found
  end.
Definition SetsIntersects (lst sublist : list value) : value :=
  VBool (sets_intersects_loop sublist lst false).

(* sets_functions.cc:84-97 SetsEquivalent *)
Definition SetsEquivalent (lst sublist : list value) : value :=
  match SetsContains lst sublist with
  | VBool false => VBool false
  | _ => SetsContains sublist lst
  end.

(* ---- extensions/lists_functions.cc ---- *)

(* lists_functions.cc:71-97 ListDistinctHeterogeneousImpl, from the elements
   at start_index on.  [built] is the list builder. *)
Fixpoint distinct_heterogeneous (rest seen built : list value) : out (list value) :=
  match rest with
  | [] => Val built
  | v :: rest' =>
      if existsb (fun s => ValueEqual v s) seen
      then distinct_heterogeneous rest' seen built
      else built' <- ListAdd built v ;;
           distinct_heterogeneous rest' (seen ++ [v]) built'
  end.

(* lists_functions.cc:99-130 ListDistinctHomogeneousHashableImpl<ValueType>:
   [k] is the kind of ValueType.  flat_hash_set of IntValue, UintValue,
   BoolValue or StringValue: membership by the type's operator==.  Its
   iteration order is unspecified: [reorder] stands for it. *)
Definition same_hashable (a b : value) : bool :=
  match a, b with
  | VInt x, VInt y => x =? y
  | VUint x, VUint y => x =? y
  | VBool x, VBool y => Bool.eqb x y
  | VString x, VString y => bytes_eqb x y
  | _, _ => false
  end.
Fixpoint distinct_homogeneous (reorder : list value -> list value) (k : kind)
    (rest seen built : list value) : out (list value) :=
  match rest with
  | [] => Val built
  | v :: rest' =>
      if kind_eqb (kind_of v) k then
        if existsb (same_hashable v) seen
        then distinct_homogeneous reorder k rest' seen built
        else built' <- ListAdd built v ;;
             distinct_homogeneous reorder k rest' (seen ++ [v]) built'
      else distinct_heterogeneous (v :: rest') (reorder seen) built
  end.
(* lists_functions.cc:132-188 ListDistinct *)
Definition ListDistinct (reorder : list value -> list value) (l : list value) : out value :=
  match l with
  | [] | [_] => Val (VList l)
  | first :: _ =>
      r <- (match kind_of first with
            | kIntT | kUintT | kBoolT | kStringT =>
                distinct_homogeneous reorder (kind_of first) l [] []
            | _ => distinct_heterogeneous l [] []
            end) ;;
      Val (VList r)
  end.

(* lists_functions.cc:190-209 ListFlattenImpl.  One element, then the loop;
   [built] is the builder shared by the recursive calls. *)
Fixpoint flatten_elem (remaining_depth : Z) (v : value) (built : list value) {struct v} : out (list value) :=
  match v with
  | VList l =>
      if 0 <? remaining_depth then
        (fix go (l : list value) (built : list value) : out (list value) :=
           match l with
           | [] => Val built
           | x :: l' => built' <- flatten_elem (remaining_depth - 1) x built ;; go l' built'
           end) l built
      else ListAdd built v
  | _ => ListAdd built v
  end.
Fixpoint flatten_list (remaining_depth : Z) (l : list value) (built : list value) : out (list value) :=
  match l with
  | [] => Val built
  | x :: l' => built' <- flatten_elem remaining_depth x built ;; flatten_list remaining_depth l' built'
  end.
(* lists_functions.cc:211-224 ListFlatten; the one-argument overload
   (lists_functions.cc:494-513) passes depth 1 *)
Definition ListFlatten (l : list value) (depth : Z) : out value :=
  if depth <? 0 then
    Val (VError (mkStatus kInvalidArgument "flatten(): level must be non-negative"))
  else r <- flatten_list depth l [] ;; Val (VList r).

(* std::vector<Value>::reserve (value_builder.cc:232): capacities the
   allocator cannot provide end in std::length_error or an allocation failure,
   which nothing catches.  [limit] is the largest capacity available. *)
Definition Reserve (limit capacity : Z) : out unit := if capacity <=? limit then Val tt else UB.
(* lists_functions.cc:226-236 ListRange; int64_t end converts to size_t.  The
   loop runs end times, or not at all. *)
Fixpoint range_loop (n : nat) (i : Z) (built : list value) : out (list value) :=
  match n with
  | O => Val built
  | S n' => built' <- ListAdd built (VInt i) ;; range_loop n' (i + 1) built'
  end.
Definition ListRange (limit end_ : Z) : out value :=
  _ <- Reserve limit (c_uint64 end_) ;;
  r <- range_loop (Z.to_nat end_) 0 [] ;;
  Val (VList r).

(* list.Get(i): an index outside the list yields an error value, which the
   builder then rejects (value_builder.cc:69-79, 323-335,
   error_value.cc:81-84; the index in the message is left out) *)
Definition index_out_of_bounds : status := mkStatus kInvalidArgument "index out of bounds".
Definition ListGet (l : list value) (i : Z) : value :=
  if i <? 0 then VError index_out_of_bounds
  else match nth_error l (Z.to_nat i) with Some v => v | None => VError index_out_of_bounds end.

(* lists_functions.cc:238-251 ListReverse: i from size - 1 down to 0 *)
Fixpoint reverse_loop (l : list value) (n : nat) (built : list value) : out (list value) :=
  match n with
  | O => Val built
  | S n' => built' <- ListAdd built (ListGet l (Z.of_nat n')) ;; reverse_loop l n' built'
  end.
Definition ListReverse (l : list value) : out value :=
  r <- reverse_loop l (List.length l) [] ;; Val (VList r).

(* lists_functions.cc:253-280 ListSlice; the numbers in the messages are left
   out *)
Fixpoint get_loop (l : list value) (n : nat) (i : Z) (built : list value) : out (list value) :=
  match n with
  | O => Val built
  | S n' => built' <- ListAdd built (ListGet l i) ;; get_loop l n' (i + 1) built'
  end.
Definition ListSlice (l : list value) (start end_ : Z) : out value :=
  if (start <? 0) || (end_ <? 0) then
    Val (VError (mkStatus kInvalidArgument "cannot slice(), negative indexes not supported"))
  else if end_ <? start then
    Val (VError (mkStatus kInvalidArgument "cannot slice(), start index must be less than or equal to end index"))
  else if Z.of_nat (List.length l) <? end_ then
    Val (VError (mkStatus kInvalidArgument "cannot slice(), list is length"))
  else r <- get_loop l (Z.to_nat (end_ - start)) start [] ;; Val (VList r).

(* operator< of the key types: int_value.h:85, double_value.h:82 and
   bool_value.h:54 by conversion; string_value.h:352, bytes_value.h:236
   (bytewise); duration_value.h:112, timestamp_value.h:111 *)
Definition dur_ltb (a b : duration) : bool :=
  match a, b with
  | DInf true, DInf true => false
  | DInf true, _ => true
  | _, DInf true => false
  | DInf false, _ => false
  | DFin _, DInf false => true
  | DFin x, DFin y => x <? y
  end.
Definition time_ltb (a b : time) : bool :=
  match a, b with
  | TInf true, TInf true => false
  | TInf true, _ => true
  | _, TInf true => false
  | TInf false, _ => false
  | TFin _, TInf false => true
  | TFin x, TFin y => x <? y
  end.
Definition key_ltb (a b : value) : bool :=
  match a, b with
  | VInt x, VInt y => x <? y
  | VUint x, VUint y => x <? y
  | VDouble x, VDouble y => d_lt x y
  | VBool x, VBool y => negb x && y
  | VString x, VString y => bytes_ltb x y
  | VBytes x, VBytes y => bytes_ltb x y
  | VDuration x, VDuration y => dur_ltb x y
  | VTimestamp x, VTimestamp y => time_ltb x y
  | _, _ => false
  end.

(* std::sort is a parameter: given the comparison and the sequence it yields
   the new sequence (or is undefined).  Its contract is in S_Ext. *)
Definition sorter := (Z -> Z -> bool) -> list Z -> out (list Z).
Fixpoint iota (n : nat) (i : Z) : list Z :=
  match n with O => [] | S n' => i :: iota n' (i + 1) end.
Fixpoint gather (l : list value) (indices : list Z) (built : list value) : out (list value) :=
  match indices with
  | [] => Val built
  | i :: rest => built' <- ListAdd built (ListGet l i) ;; gather l rest built'
  end.
(* lists_functions.cc:282-324 ListSortByAssociatedKeysNative<ValueType>;
   keys_vec[a] on an index outside the vector is undefined behaviour, and the
   indices are always those of iota *)
Definition SortNative (std_sort : sorter) (k : kind) (l keys : list value) : out value :=
  match l with
  | [] | [_] => Val (VList l)
  | _ =>
      if forallb (fun v => kind_eqb (kind_of v) k) keys then
        idx <- std_sort (fun a b => key_ltb (ListGet keys a) (ListGet keys b))
                 (iota (List.length keys) 0) ;;
        r <- gather l idx [] ;;
        Val (VList r)
      else Val (VError (mkStatus kInvalidArgument "sort(): list elements must have the same type"))
  end.
(* lists_functions.cc:340-391 ListSortByAssociatedKeys; the numbers and type
   names in the messages are left out *)
Definition ListSortByAssociatedKeys (std_sort : sorter) (l keys : list value) : out value :=
  if negb (Nat.eqb (List.length l) (List.length keys)) then
    Val (VError (mkStatus kInvalidArgument "@sortByAssociatedKeys() expected a list of the same size"))
  else match keys with
  | [] => Val (VList l)
  | first :: _ =>
      match kind_of first with
      | kIntT | kUintT | kDoubleT | kBoolT | kStringT | kTimestampT | kDurationT | kBytesT =>
          SortNative std_sort (kind_of first) l keys
      | _ => Val (VError (mkStatus kInvalidArgument "sort(): unsupported type"))
      end
  end.
(* lists_functions.cc:480-487 ListSort *)
Definition ListSort (std_sort : sorter) (l : list value) : out value :=
  ListSortByAssociatedKeys std_sort l l.
