(* Independent specification of the set and list extensions. *)
From Coq Require Import ZArith QArith List Bool Sorted Permutation.
From Verif Require Import Base M_Overflow M_Number M_Attr M_Value S_Num S_Value M_Ext.
Import ListNotations.
Open Scope list_scope.
Open Scope Z_scope.

(* Equality of elements: as list membership has it, where map keys of
   different kinds are different keys (C44). *)
Definition same (a b : value) : Prop := equal_values eq a b.

(* Removing one level of nesting. *)
Definition flatten_once (l : list value) : list value :=
  flat_map (fun v => match v with VList l' => l' | _ => [v] end) l.
Fixpoint flatten_times (n : nat) (l : list value) : list value :=
  match n with O => l | S n' => flatten_times n' (flatten_once l) end.
Definition no_lists (l : list value) : Prop :=
  Forall (fun v => match v with VList _ => False | _ => True end) l.

(* r keeps, in order, the elements of l that equal none of those kept before;
   [kept] are the ones kept so far. *)
Inductive keeps_new : list value -> list value -> list value -> Prop :=
| KeepNil kept : keeps_new kept [] []
| KeepDrop kept x l r : (exists y, In y kept /\ same x y) ->
    keeps_new kept l r -> keeps_new kept (x :: l) r
| KeepAdd kept x l r : (forall y, In y kept -> ~ same x y) ->
    keeps_new (kept ++ [x]) l r -> keeps_new kept (x :: l) (x :: r).
(* r keeps, in order, the elements of l that equal no earlier element. *)
Inductive keeps_first : list value -> list value -> list value -> Prop :=
| FirstNil earlier : keeps_first earlier [] []
| FirstDrop earlier x l r : (exists y, In y earlier /\ same x y) ->
    keeps_first (earlier ++ [x]) l r -> keeps_first earlier (x :: l) r
| FirstAdd earlier x l r : (forall y, In y earlier -> ~ same x y) ->
    keeps_first (earlier ++ [x]) l r -> keeps_first earlier (x :: l) (x :: r).

(* The documented order of values of one type. *)
Definition lexicographic (a b : list Z) : Prop :=
  exists p, (a = p /\ exists y b', b = p ++ y :: b') \/
            (exists x y a' b', a = p ++ x :: a' /\ b = p ++ y :: b' /\ x < y).
Inductive less : value -> value -> Prop :=
| LessInt a b : a < b -> less (VInt a) (VInt b)
| LessUint a b : a < b -> less (VUint a) (VUint b)
| LessDouble a b : math_lt (NDouble a) (NDouble b) -> less (VDouble a) (VDouble b)
| LessBool : less (VBool false) (VBool true)
| LessString a b : lexicographic a b -> less (VString a) (VString b)
| LessBytes a b : lexicographic a b -> less (VBytes a) (VBytes b)
| LessDuration a b : a < b -> less (VDuration (DFin a)) (VDuration (DFin b))
| LessDurationInf a : less (VDuration (DInf true)) (VDuration (DFin a))
| LessDurationInf' a : less (VDuration (DFin a)) (VDuration (DInf false))
| LessDurationInfs : less (VDuration (DInf true)) (VDuration (DInf false))
| LessTimestamp a b : a < b -> less (VTimestamp (TFin a)) (VTimestamp (TFin b))
| LessTimestampInf a : less (VTimestamp (TInf true)) (VTimestamp (TFin a))
| LessTimestampInf' a : less (VTimestamp (TFin a)) (VTimestamp (TInf false))
| LessTimestampInfs : less (VTimestamp (TInf true)) (VTimestamp (TInf false)).

(* no element is less than one before it *)
Definition ordered (l : list value) : Prop := StronglySorted (fun a b => ~ less b a) l.

(* the types whose values can be sorted *)
Definition sortable (k : kind) : Prop :=
  In k [kIntT; kUintT; kDoubleT; kBoolT; kStringT; kTimestampT; kDurationT; kBytesT].

(* The contract of std::sort [alg.sorting]: the comparison must be a strict
   weak order of the elements; then the result is a permutation in which no
   element compares less than one before it. *)
Definition strict_weak {A} (lt : A -> A -> bool) (l : list A) : Prop :=
  (forall a, In a l -> lt a a = false) /\
  (forall a b c, In a l -> In b l -> In c l -> lt a b = true -> lt b c = true -> lt a c = true) /\
  (forall a b c, In a l -> In b l -> In c l ->
     lt a b = false -> lt b a = false -> lt b c = false -> lt c b = false ->
     lt a c = false /\ lt c a = false).
Definition sort_contract (std_sort : sorter) : Prop :=
  forall lt l, strict_weak lt l ->
    exists l', std_sort lt l = Val l' /\ Permutation l l' /\
               StronglySorted (fun a b => lt b a = false) l'.
