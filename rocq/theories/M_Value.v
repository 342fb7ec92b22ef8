(* Model of CEL runtime values, their equality, maps, membership and
   container access:
     common/values/*.cc, common/values/value_builder.cc,
     runtime/standard/equality_functions.cc,
     runtime/standard/container_membership_functions.cc,
     eval/eval/equality_steps.cc, eval/eval/container_access_step.cc.

   Simplifications.  Protobuf messages (struct values), lists and maps backed
   by protobuf fields or JSON, user-defined custom/opaque values, and legacy
   values are not modelled; lists and maps are the ones made by
   NewListValueBuilder / NewMapValueBuilder.  Of opaque values only optionals
   are modelled.  Error messages keep their fixed prefix; the printed key,
   index or kind appended to it is dropped. *)
From Coq Require Import ZArith List Bool String.
From Verif Require Import Base M_Overflow M_Number M_Attr.
Import ListNotations.
Local Open Scope string_scope.
Open Scope list_scope.
Open Scope Z_scope.
Local Open Scope out_scope.

(* Map keys: the four key kinds accepted by CheckMapKey
   (common/values/map_value.cc:318-333). *)
Inductive mkey := KBool (b : bool) | KInt (i : Z) | KUint (u : Z) | KString (s : list Z).

(* common/value.h Value: a tagged union.  A list is its elements in order; a
   map is its entries in iteration order. *)
Inductive value :=
| VNull
| VBool (b : bool)
| VInt (i : Z)
| VUint (u : Z)
| VDouble (d : double)
| VString (s : list Z)
| VBytes (s : list Z)
| VDuration (d : duration)
| VTimestamp (t : time)
| VType (name : string)
| VList (l : list value)
| VMap (m : list (mkey * value))
| VOptional (o : option value)
| VError (s : status)
| VUnknown (u : attr_set).

Definition entries := list (mkey * value).

(* common/value_kind.h ValueKind *)
Inductive kind :=
| kNullT | kBoolT | kIntT | kUintT | kDoubleT | kStringT | kBytesT
| kDurationT | kTimestampT | kTypeT | kListT | kMapT | kOpaqueT | kErrorT | kUnknownT.
Definition kind_of (v : value) : kind :=
  match v with
  | VNull => kNullT | VBool _ => kBoolT | VInt _ => kIntT | VUint _ => kUintT
  | VDouble _ => kDoubleT | VString _ => kStringT | VBytes _ => kBytesT
  | VDuration _ => kDurationT | VTimestamp _ => kTimestampT | VType _ => kTypeT
  | VList _ => kListT | VMap _ => kMapT | VOptional _ => kOpaqueT
  | VError _ => kErrorT | VUnknown _ => kUnknownT
  end.
Definition kind_eqb (a b : kind) : bool :=
  match a, b with
  | kNullT, kNullT | kBoolT, kBoolT | kIntT, kIntT | kUintT, kUintT
  | kDoubleT, kDoubleT | kStringT, kStringT | kBytesT, kBytesT
  | kDurationT, kDurationT | kTimestampT, kTimestampT | kTypeT, kTypeT
  | kListT, kListT | kMapT, kMapT | kOpaqueT, kOpaqueT | kErrorT, kErrorT
  | kUnknownT, kUnknownT => true
  | _, _ => false
  end.

Definition is_error (v : value) : bool := match v with VError _ => true | _ => false end.
Definition is_unknown (v : value) : bool := match v with VUnknown _ => true | _ => false end.
Definition is_true (v : value) : bool := match v with VBool true => true | _ => false end.
Definition is_false (v : value) : bool := match v with VBool false => true | _ => false end.

(* Error values. runtime/internal/errors.cc:29-44, common/values/error_value.cc:53-75,
   common/values/map_value.cc:41-44 *)
Definition no_matching_overload (fn : string) : status :=
  mkStatus kUnknown (append (if String.eqb fn "" then "No matching overloads found"
                             else "No matching overloads found : ") fn).
Definition no_such_key : status := mkStatus kNotFound "Key not found in map".
Definition invalid_map_key : status := mkStatus kInvalidArgument "Invalid map key type".
Definition duplicate_key : status := mkStatus kAlreadyExists "duplicate key in map".
Definition list_unknown : status :=
  mkStatus kInvalidArgument "cannot add unknown value to list".
Definition map_unknown : status :=
  mkStatus kInvalidArgument "cannot add unknown value to list".
(* error_value.cc:96-100 IsNoSuchKey *)
Definition IsNoSuchKey (s : status) : bool :=
  code_eqb (st_code s) kNotFound && String.prefix "Key not found in map" (st_msg s).

(* ---- map keys and hash maps ---- *)

(* value_builder.cc:677-734 ValueEquals on key kinds (and the matching
   ValueHash 645-676, which only separates keys that differ) *)
Definition key_eqb (a b : mkey) : bool :=
  match a, b with
  | KBool x, KBool y => Bool.eqb x y
  | KInt x, KInt y => x =? y
  | KUint x, KUint y => x =? y
  | KString x, KString y => bytes_eqb x y
  | _, _ => false
  end.
Definition value_of_key (k : mkey) : value :=
  match k with KBool b => VBool b | KInt i => VInt i | KUint u => VUint u | KString s => VString s end.
Definition key_of_value (v : value) : option mkey :=
  match v with
  | VBool b => Some (KBool b) | VInt i => Some (KInt i)
  | VUint u => Some (KUint u) | VString s => Some (KString s)
  | _ => None
  end.

(* flat_hash_map::find on key kinds *)
Fixpoint find_key (k : mkey) (m : entries) : option value :=
  match m with
  | [] => None
  | (k', v) :: m' => if key_eqb k' k then Some v else find_key k m'
  end.

(* map_value.cc:318-333 CheckMapKey *)
Definition CheckMapKey (v : value) : out mkey :=
  match v with
  | VError s => Err s
  | _ => match key_of_value v with Some k => Val k | None => Err invalid_map_key end
  end.
(* value_builder.cc:69-79 CheckListElement *)
Definition CheckListElement (v : value) : out unit :=
  match v with
  | VError s => Err s
  | VUnknown _ => Err list_unknown
  | _ => Val tt
  end.
(* value_builder.cc:634-643 CheckMapValue *)
Definition CheckMapValue (v : value) : out unit :=
  match v with
  | VError s => Err s
  | VUnknown _ => Err map_unknown
  | _ => Val tt
  end.
(* value_builder.cc:958-966 MapValueBuilderImpl::Put on the entries so far *)
Definition MapPut (m : entries) (k v : value) : out entries :=
  key <- CheckMapKey k ;;
  _ <- CheckMapValue v ;;
  match find_key key m with
  | Some _ => Err duplicate_key
  | None => Val (m ++ [(key, v)])
  end.
(* value_builder.cc:215-222 ListValueBuilderImpl::Add on the elements so far *)
Definition ListAdd (l : list value) (v : value) : out (list value) :=
  _ <- CheckListElement v ;; Val (l ++ [v]).

(* Inserting a sequence of entries into a new builder and building it
   (value_builder.cc:958-966, 1129-1160).  The iteration order of the
   resulting flat_hash_map is unspecified: [reorder] stands for it, and every
   theorem holds for all permutations. *)
Fixpoint MapPutAll (m : entries) (kvs : list (value * value)) : out entries :=
  match kvs with
  | [] => Val m
  | (k, v) :: kvs' => m' <- MapPut m k v ;; MapPutAll m' kvs'
  end.
Definition MapBuild (reorder : entries -> entries) (kvs : list (value * value)) : out value :=
  m <- MapPutAll [] kvs ;; Val (VMap (reorder m)).

(* custom_map_value.cc:650-694 CustomMapValue::Find with value_builder.cc:1083-1096:
   None when the key is absent, is an error or unknown, or has an invalid kind *)
Definition MapFind (m : entries) (k : value) : option value :=
  match key_of_value k with Some key => find_key key m | None => None end.
(* custom_map_value.cc:696-738 CustomMapValue::Has *)
Definition MapHas (m : entries) (k : value) : value :=
  match k with
  | VError _ | VUnknown _ => k
  | _ =>
      match key_of_value k with
      | Some key => VBool (match find_key key m with Some _ => true | None => false end)
      | None => VError invalid_map_key
      end
  end.
(* custom_map_value.cc:622-648 CustomMapValue::Get *)
Definition MapGet (m : entries) (k : value) : value :=
  match k with
  | VError _ | VUnknown _ => k
  | _ =>
      match key_of_value k with
      | Some key => match find_key key m with Some v => v | None => VError no_such_key end
      | None => VError invalid_map_key
      end
  end.

(* ---- equality ---- *)

(* equality_functions.cc:176-186 NumberFromValue, container_access_step.cc:49-60 *)
Definition NumberFromValue (v : value) : option number :=
  match v with
  | VInt i => Some (NInt i)
  | VUint u => Some (NUint u)
  | VDouble d => Some (NDouble d)
  | _ => None
  end.

(* absl::Duration and absl::Time operator== *)
Definition duration_eqb (a b : duration) : bool :=
  match a, b with
  | DFin x, DFin y => x =? y
  | DInf x, DInf y => Bool.eqb x y
  | _, _ => false
  end.
Definition time_eqb (a b : time) : bool :=
  match a, b with
  | TFin x, TFin y => x =? y
  | TInf x, TInf y => Bool.eqb x y
  | _, _ => false
  end.

(* list_value.cc:181-258 ListValueEqual after the size check *)
Definition list_equal_loop (eq : value -> value -> bool) :=
  fix go (xs ys : list value) : bool :=
    match xs, ys with
    | x :: xs', y :: ys' => if eq x y then go xs' ys' else false
    | _, _ => true
    end.
(* map_value.cc:225-315 MapValueEqual after the size check; lhs.Get(lhs_key)
   is the entry's own value because keys are unique *)
Definition map_equal_loop (eq : value -> value -> bool) (rhs : entries) :=
  fix go (lhs : entries) : bool :=
    match lhs with
    | [] => true
    | (k, v) :: lhs' =>
        match MapFind rhs (value_of_key k) with
        | None => false
        | Some w => if eq v w then go lhs' else false
        end
    end.

(* Value::Equal, by kind of the receiver: bool_value.cc, int_value.cc:60-90,
   uint_value.cc, double_value.cc, string_value.cc, bytes_value.cc,
   duration_value.cc, timestamp_value.cc, null_value.cc, type_value.cc,
   custom_list_value.cc:440-467, custom_map_value.cc:542-570,
   optional_value.cc:88-122, error_value.cc:134-146, unknown_value.cc.
   The result is always a BoolValue. *)
Fixpoint ValueEqual (v1 v2 : value) {struct v1} : bool :=
  match v1 with
  | VNull => match v2 with VNull => true | _ => false end
  | VBool a => match v2 with VBool b => Bool.eqb a b | _ => false end
  | VInt a =>
      match v2 with
      | VInt b => a =? b
      | VDouble d => num_eq (NInt a) (NDouble d)
      | VUint u => num_eq (NInt a) (NUint u)
      | _ => false
      end
  | VUint a =>
      match v2 with
      | VUint b => a =? b
      | VDouble d => num_eq (NUint a) (NDouble d)
      | VInt i => num_eq (NUint a) (NInt i)
      | _ => false
      end
  | VDouble a =>
      match v2 with
      | VDouble b => d_eq a b
      | VInt i => num_eq (NDouble a) (NInt i)
      | VUint u => num_eq (NDouble a) (NUint u)
      | _ => false
      end
  | VString a => match v2 with VString b => bytes_eqb a b | _ => false end
  | VBytes a => match v2 with VBytes b => bytes_eqb a b | _ => false end
  | VDuration a => match v2 with VDuration b => duration_eqb a b | _ => false end
  | VTimestamp a => match v2 with VTimestamp b => time_eqb a b | _ => false end
  | VType a => match v2 with VType b => String.eqb a b | _ => false end
  | VList xs =>
      match v2 with
      | VList ys =>
          if negb (Nat.eqb (List.length xs) (List.length ys)) then false
          else list_equal_loop ValueEqual xs ys
      | _ => false
      end
  | VMap xs =>
      match v2 with
      | VMap ys =>
          if negb (Nat.eqb (List.length xs) (List.length ys)) then false
          else map_equal_loop ValueEqual ys xs
      | _ => false
      end
  | VOptional a =>
      match v2 with
      | VOptional b =>
          match a, b with
          | None, None => true
          | Some x, Some y => ValueEqual x y
          | _, _ => false
          end
      | _ => false
      end
  | VError _ | VUnknown _ => false
  end.

(* equality_functions.cc:129-156 ListEqual after the size check.  The
   &lhs == &rhs shortcut is not modelled: the evaluator always compares two
   distinct Value objects. *)
Definition ListEqual_loop (eq : value -> value -> out (option bool)) :=
  fix go (xs ys : list value) : out (option bool) :=
    match xs, ys with
    | x :: xs', y :: ys' =>
        r <- eq x y ;;
        match r with
        | Some true => go xs' ys'
        | _ => Val r
        end
    | _, _ => Val (Some true)
    end.

(* equality_functions.cc:187-219 CheckAlternativeNumericType *)
Definition CheckAlternativeNumericType (key : value) (rhs : entries) : out (option value) :=
  match NumberFromValue key with
  | None => Val None
  | Some n =>
      r <- (if match key with VInt _ => false | _ => true end
            then
              b <- LosslessConvertibleToInt n ;;
              if b then (i <- AsInt n ;; Val (MapFind rhs (VInt i))) else Val None
            else Val None) ;;
      match r with
      | Some v => Val (Some v)
      | None =>
          if match key with VUint _ => false | _ => true end
          then
            b <- LosslessConvertibleToUint n ;;
            if b then (u <- AsUint n ;; Val (MapFind rhs (VUint u))) else Val None
          else Val None
      end
  end.

(* equality_functions.cc:224-267 MapEqual after the size check; h is
   EqualsProvider::kIsHeterogeneous *)
Definition MapEqual_loop (h : bool) (eq : value -> value -> out (option bool)) (rhs : entries) :=
  fix go (lhs : entries) : out (option bool) :=
    match lhs with
    | [] => Val (Some true)
    | (k, v) :: lhs' =>
        entry <- match MapFind rhs (value_of_key k) with
                 | Some w => Val (Some w)
                 | None => if h then CheckAlternativeNumericType (value_of_key k) rhs
                           else Val None
                 end ;;
        match entry with
        | None => Val (Some false)
        | Some w =>
            r <- eq v w ;;
            match r with
            | Some true => go lhs'
            | _ => Val r
            end
        end
    end.

(* equality_functions.cc:437-488 HomogenousValueEqual and 555-589
   ValueEqualImpl, in one function: h selects HeterogeneousEqualProvider
   (ValueEqualImpl itself) or HomogenousEqualProvider.  None is nullopt. *)
Fixpoint EqualImpl (h : bool) (v1 v2 : value) {struct v1} : out (option bool) :=
  match v1, v2 with
  | VNull, VNull => Val (Some true)
  | VBool a, VBool b => Val (Some (Bool.eqb a b))
  | VInt a, VInt b => Val (Some (a =? b))
  | VUint a, VUint b => Val (Some (a =? b))
  | VDouble a, VDouble b => Val (Some (d_eq a b))
  | VDuration a, VDuration b => Val (Some (duration_eqb a b))
  | VTimestamp a, VTimestamp b => Val (Some (time_eqb a b))
  | VType a, VType b => Val (Some (String.eqb a b))
  | VString a, VString b => Val (Some (bytes_eqb a b))
  | VBytes a, VBytes b => Val (Some (bytes_eqb a b))
  | VList xs, VList ys =>
      if negb (Nat.eqb (List.length xs) (List.length ys)) then Val (Some false)
      else ListEqual_loop (EqualImpl h) xs ys
  | VMap xs, VMap ys =>
      if negb (Nat.eqb (List.length xs) (List.length ys)) then Val (Some false)
      else MapEqual_loop h (EqualImpl h) ys xs
  | VOptional _, VOptional _ => Val (Some (ValueEqual v1 v2))
  | VError _, VError _ | VUnknown _, VUnknown _ => Val None
  | _, _ =>
      if h then
        match NumberFromValue v1, NumberFromValue v2 with
        | Some x, Some y => Val (Some (num_eq x y))
        | _, _ =>
            if is_error v1 || is_unknown v1 || is_error v2 || is_unknown v2
            then Val None else Val (Some false)
        end
      else Val None
  end.
Definition ValueEqualImpl : value -> value -> out (option bool) := EqualImpl true.

(* equality_functions.cc:490-520 EqualOverloadImpl / InequalOverloadImpl, and
   equality_steps.cc:64-75: the boolean or no-matching-overload *)
Definition equality_result (negation : bool) (r : option bool) : value :=
  match r with
  | Some b => VBool (if negation then negb b else b)
  | None => VError (no_matching_overload (if negation then "_!=_" else "_==_"))
  end.
(* equality_steps.cc:48-76 EvaluateEquality with unknown processing off *)
Definition EvaluateEquality (negation : bool) (lhs rhs : value) : out value :=
  if is_error lhs then Val lhs
  else if is_error rhs then Val rhs
  else r <- ValueEqualImpl lhs rhs ;; Val (equality_result negation r).

(* ---- membership ---- *)

(* custom_list_value.cc:326-348 Contains: element.Equal(other) for each *)
Definition ListContains (l : list value) (x : value) : bool :=
  existsb (fun e => ValueEqual e x) l.

(* equality_steps.cc:127-177 EvaluateInMap *)
Definition try_has_int (m : entries) (n : number) : out bool :=
  b <- LosslessConvertibleToInt n ;;
  if b then (i <- AsInt n ;; Val (is_true (MapHas m (VInt i)))) else Val false.
Definition try_has_uint (m : entries) (n : number) : out bool :=
  b <- LosslessConvertibleToUint n ;;
  if b then (u <- AsUint n ;; Val (is_true (MapHas m (VUint u)))) else Val false.
Definition EvaluateInMap (item : value) (m : entries) : out value :=
  match item with
  | VBool _ | VString _ | VInt _ | VUint _ | VDouble _ =>
      if is_true (MapHas m item) then Val (VBool true)
      else
        b1 <- (match item with
               | VDouble d => try_has_int m (NDouble d)
               | VUint u => try_has_int m (NUint u)
               | _ => Val false
               end) ;;
        if (b1 : bool) then Val (VBool true)
        else
          b2 <- (match item with
                 | VDouble d => try_has_uint m (NDouble d)
                 | VInt i => try_has_uint m (NInt i)
                 | _ => Val false
                 end) ;;
          Val (VBool b2)
  | _ => Val (VError (no_matching_overload "@in"))
  end.
(* equality_steps.cc:179-206 EvaluateIn with unknown processing off *)
Definition EvaluateIn (item container : value) : out value :=
  if is_error item then Val item
  else if is_error container then Val container
  else match container with
       | VList l => Val (VBool (ListContains l item))
       | VMap m => EvaluateInMap item m
       | _ => Val (VError (no_matching_overload "@in"))
       end.

(* container_membership_functions.cc:171-288: the overloads of `in` registered
   when fast builtins are off; h is enable_heterogeneous_equality *)
Definition boolKeyInSet (h : bool) (key : bool) (m : entries) : out value :=
  let has := MapHas m (VBool key) in
  if is_true has then Val has else if h then Val (VBool false) else Val has.
Definition stringKeyInSet (h : bool) (key : list Z) (m : entries) : out value :=
  let result := MapHas m (VString key) in
  match result with
  | VBool _ => Val result
  | _ => if h then Val (VBool false) else Val result
  end.
Definition intKeyInSet (h : bool) (key : Z) (m : entries) : out value :=
  let result := MapHas m (VInt key) in
  if h then
    if is_true result then Val result
    else
      b <- LosslessConvertibleToUint (NInt key) ;;
      if b then
        u <- AsUint (NInt key) ;;
        let result_alt := MapHas m (VUint u) in
        if is_true result_alt then Val result_alt else Val (VBool false)
      else Val (VBool false)
  else Val result.
(* lines 235-261: after looking up the alternative the code tests [has], not
   [has_alt] *)
Definition uintKeyInSet (h : bool) (key : Z) (m : entries) : out value :=
  let has := MapHas m (VUint key) in
  if h then
    if is_true has then Val has
    else
      b <- LosslessConvertibleToInt (NUint key) ;;
      if b then
        i <- AsInt (NUint key) ;;
        let has_alt := MapHas m (VInt i) in
        if is_true has then Val has else Val (VBool false)
      else Val (VBool false)
  else Val has.
Definition doubleKeyInSet (key : double) (m : entries) : out value :=
  b1 <- LosslessConvertibleToInt (NDouble key) ;;
  h1 <- (if b1 then (i <- AsInt (NDouble key) ;; Val (is_true (MapHas m (VInt i))))
         else Val false) ;;
  if (h1 : bool) then Val (VBool true)
  else
    b2 <- LosslessConvertibleToUint (NDouble key) ;;
    h2 <- (if b2 then (u <- AsUint (NDouble key) ;; Val (is_true (MapHas m (VUint u))))
           else Val false) ;;
    Val (VBool h2).
(* the overload of `in` on maps selected for a key: lines 290-330; double keys
   only have an overload with heterogeneous equality *)
Definition KeyInSet (h : bool) (key : value) (m : entries) : out value :=
  match key with
  | VBool b => boolKeyInSet h b m
  | VInt i => intKeyInSet h i m
  | VUint u => uintKeyInSet h u m
  | VString s => stringKeyInSet h s m
  | VDouble d => if h then doubleKeyInSet d m else Val (VError (no_matching_overload "@in"))
  | _ => Val (VError (no_matching_overload "@in"))
  end.

(* ---- container access ---- *)

Definition index_type_error : status := mkStatus kUnknown "Index error: expected integer type".
Definition index_range_error : status := mkStatus kUnknown "Index error: index out of bounds".
Definition invalid_container : status := mkStatus kInvalidArgument "Invalid container type".

Definition find_int (m : entries) (n : number) : out (option value) :=
  b <- LosslessConvertibleToInt n ;;
  if b then (i <- AsInt n ;; Val (MapFind m (VInt i))) else Val None.
Definition find_uint (m : entries) (n : number) : out (option value) :=
  b <- LosslessConvertibleToUint n ;;
  if b then (u <- AsUint n ;; Val (MapFind m (VUint u))) else Val None.
(* container_access_step.cc:91-156 LookupInMap; h is enable_heterogeneous_equality *)
Definition LookupInMap (h : bool) (m : entries) (key : value) : out value :=
  match (if h then NumberFromValue key else None) with
  | Some n =>
      let r0 := match key with VUint _ => MapFind m key | _ => None end in
      match r0 with
      | Some v => Val v
      | None =>
          r1 <- find_int m n ;;
          match r1 with
          | Some v => Val v
          | None =>
              r2 <- find_uint m n ;;
              match r2 with
              | Some v => Val v
              | None => Val (VError no_such_key)
              end
          end
      end
  | None =>
      match key_of_value key with
      | None => Val (VError invalid_map_key)
      | Some _ => Val (MapGet m key)
      end
  end.
(* container_access_step.cc:158-199 LookupInList *)
Definition LookupInList (h : bool) (l : list value) (key : value) : out value :=
  idx <- (if h then
            match NumberFromValue key with
            | Some n =>
                b <- LosslessConvertibleToInt n ;;
                if b then (i <- AsInt n ;; Val (Some i)) else Val None
            | None => Val None
            end
          else match key with VInt i => Val (Some i) | _ => Val None end) ;;
  match idx with
  | None => Val (VError index_type_error)
  | Some i =>
      if (i <? 0) || (Z.of_nat (List.length l) <=? i) then Val (VError index_range_error)
      else match nth_error l (Z.to_nat i) with Some v => Val v | None => UB end
  end.
(* container_access_step.cc:201-219 LookupInContainer *)
Definition LookupInContainer (h : bool) (container key : value) : out value :=
  match container with
  | VMap m => LookupInMap h m key
  | VList l => LookupInList h l key
  | _ => Val (VError invalid_container)
  end.
(* container_access_step.cc:221-275 PerformLookup with unknown processing off;
   opt is enable_optional_types *)
Definition PerformLookup (h opt : bool) (container key : value) : out value :=
  match container, key with
  | VError _, _ => Val container
  | _, VError _ => Val key
  | VOptional o, _ =>
      if opt then
        match o with
        | None => Val (VOptional None)
        | Some c =>
            r <- LookupInContainer h c key ;;
            match r with
            | VError s => if IsNoSuchKey s then Val (VOptional None) else Val (VOptional (Some r))
            | _ => Val (VOptional (Some r))
            end
        end
      else LookupInContainer h container key
  | _, _ => LookupInContainer h container key
  end.
