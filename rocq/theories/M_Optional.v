(* Model of the functions of optional values: runtime/optional_types.cc with
   Value::IsZeroValue (common/value.cc and common/values/*.h).  optional.of,
   optional.none, value() and hasValue() are in M_Macro.  Not modelled: structs
   (`_?._` on a message), and the arena arguments. *)
From Coq Require Import ZArith List Bool String.
From Verif Require Import Base M_Overflow M_Number M_Attr M_Value M_Logic M_Expr M_Macro M_Registry.
Import ListNotations.
Local Open Scope string_scope.
Open Scope list_scope.
Open Scope Z_scope.

(* common/value.cc:278-282 Value::IsZeroValue, which visits: null_value.h:76,
   bool_value.h:81, int_value.h:80, uint_value.h:80, double_value.h:77,
   string_value.h:162, bytes_value.h:159, duration_value.h:90,
   timestamp_value.h:91, type_value.h:80, custom_list_value.h:213,
   custom_map_value.h:220, opaque_value.h:205, error_value.h:111,
   unknown_value.h:81 *)
Definition IsZeroValue (v : value) : bool :=
  match v with
  | VNull => true
  | VBool b => Bool.eqb b false
  | VInt i => i =? 0
  | VUint u => u =? 0
  | VDouble d => d_eq d (double_of_Z 0)
  | VString s => Nat.eqb (List.length s) 0
  | VBytes s => Nat.eqb (List.length s) 0
  | VDuration d => duration_eqb d (DFin 0)
  | VTimestamp t => time_eqb t (TFin 0)
  | VType _ => false
  | VList l => Nat.eqb (List.length l) 0
  | VMap m => Nat.eqb (List.length m) 0
  | VOptional _ => false
  | VError _ => false
  | VUnknown _ => false
  end.

(* optional_types.cc:58-67 OptionalOfNonZeroValue *)
Definition OptionalOfNonZeroValue (v : value) : value :=
  if IsZeroValue v then VOptional None else VOptional (Some v).

(* optional_types.cc:102-114 SelectOptionalFieldMap *)
Definition SelectOptionalFieldMap (m : entries) (key : list Z) : value :=
  match MapFind m (VString key) with
  | Some v => VOptional (Some v)
  | None => VOptional None
  end.
(* optional_types.cc:116-137 SelectOptionalField, without structs *)
Definition SelectOptionalField (o : value) (key : list Z) : value :=
  match o with
  | VOptional None => VOptional None
  | VOptional (Some (VMap m)) => SelectOptionalFieldMap m key
  | _ => VError (no_matching_overload "_[?_]")
  end.

(* optional_types.cc:139-193 MapOptIndexOptionalValue *)
Definition MapOptIndexOptionalValue (m : entries) (key : value) : out value :=
  match key with
  | VDouble d =>
      let number := NDouble d in
      b1 <- LosslessConvertibleToInt number ;;
      r1 <- (if b1 then i <- AsInt number ;; Val (MapFind m (VInt i)) else Val None) ;;
      match r1 with
      | Some v => Val (VOptional (Some v))
      | None =>
          b2 <- LosslessConvertibleToUint number ;;
          r2 <- (if b2 then u <- AsUint number ;; Val (MapFind m (VUint u)) else Val None) ;;
          match r2 with
          | Some v => Val (VOptional (Some v))
          | None => Val (VOptional None)
          end
      end
  | _ =>
      match MapFind m key with
      | Some v => Val (VOptional (Some v))
      | None =>
          match key with
          | VInt i =>
              if 0 <=? i then
                match MapFind m (VUint i) with
                | Some v => Val (VOptional (Some v))
                | None => Val (VOptional None)
                end
              else Val (VOptional None)
          | VUint u =>
              if u <=? int64_max then
                match MapFind m (VInt u) with
                | Some v => Val (VOptional (Some v))
                | None => Val (VOptional None)
                end
              else Val (VOptional None)
          | _ => Val (VOptional None)
          end
      end
  end.
(* optional_types.cc:195-209 ListOptIndexOptionalInt *)
Definition ListOptIndexOptionalInt (l : list value) (key : Z) : out value :=
  if (key <? 0) || (Z.of_nat (List.length l) <=? key) then Val (VOptional None)
  else match nth_error l (Z.to_nat key) with
       | Some v => Val (VOptional (Some v))
       | None => UB
       end.
(* optional_types.cc:211-234 OptionalOptIndexOptionalValue *)
Definition OptionalOptIndexOptionalValue (o key : value) : out value :=
  match o with
  | VOptional None => Val (VOptional None)
  | VOptional (Some (VMap m)) => MapOptIndexOptionalValue m key
  | VOptional (Some (VList l)) =>
      match key with
      | VInt i => ListOptIndexOptionalInt l i
      | _ => Val (VError (no_matching_overload "_[?_]"))
      end
  | _ => Val (VError (no_matching_overload "_[?_]"))
  end.

(* optional_types.cc:236-247 ListFirst *)
Definition ListFirst (l : list value) : out value :=
  if Nat.eqb (List.length l) 0 then Val (VOptional None)
  else match nth_error l 0 with Some v => Val (VOptional (Some v)) | None => UB end.
(* optional_types.cc:249-261 ListLast *)
Definition ListLast (l : list value) : out value :=
  if Nat.eqb (List.length l) 0 then Val (VOptional None)
  else match nth_error l (List.length l - 1) with
       | Some v => Val (VOptional (Some v))
       | None => UB
       end.

(* optional_types.cc:279-283; the name of the type is left out of the text *)
Definition unwrap_error : status :=
  mkStatus kInvalidArgument "optional.unwrap() expected a list(optional(T))".
(* optional_types.cc:263-291 ListUnwrapOpt: the callback of ForEach on each
   element, with the builder's elements so far *)
Fixpoint unwrap_loop (l built : list value) : out (list value) :=
  match l with
  | [] => Val built
  | VOptional (Some v) :: l' => built' <- ListAdd built v ;; unwrap_loop l' built'
  | VOptional None :: l' => unwrap_loop l' built
  | _ :: _ => Err unwrap_error
  end.
Definition ListUnwrapOpt (l : list value) : out value :=
  match unwrap_loop l [] with
  | Val built => Val (VList built)
  | Err s => Val (VError s)
  | UB => UB
  end.

(* optional_types.cc:293-375 RegisterOptionalTypeFunctions: the descriptors,
   in order, without the one of `_?._` on structs.  The adapters
   (runtime/function_adapter.h) take an argument of the declared kind. *)
Definition optional_of_non_zero : overload :=
  mkOverload "optional.ofNonZeroValue" false [None] true
    (fun args => match args with [v] => Val (OptionalOfNonZeroValue v) | _ => UB end).
Definition opt_select_map : overload :=
  mkOverload "_?._" false [Some kMapT; Some kStringT] true
    (fun args => match args with
                 | [VMap m; VString f] => Val (SelectOptionalFieldMap m f)
                 | _ => UB
                 end).
Definition opt_select_optional : overload :=
  mkOverload "_?._" false [Some kOpaqueT; Some kStringT] true
    (fun args => match args with
                 | [o; VString f] => Val (SelectOptionalField o f)
                 | _ => UB
                 end).
Definition opt_index_map : overload :=
  mkOverload "_[?_]" false [Some kMapT; None] true
    (fun args => match args with
                 | [VMap m; k] => MapOptIndexOptionalValue m k
                 | _ => UB
                 end).
Definition opt_index_list : overload :=
  mkOverload "_[?_]" false [Some kListT; Some kIntT] true
    (fun args => match args with
                 | [VList l; VInt i] => ListOptIndexOptionalInt l i
                 | _ => UB
                 end).
Definition opt_index_optional : overload :=
  mkOverload "_[?_]" false [Some kOpaqueT; None] true
    (fun args => match args with
                 | [o; k] => OptionalOptIndexOptionalValue o k
                 | _ => UB
                 end).
Definition unwrap_impl (args : list value) : out value :=
  match args with [VList l] => ListUnwrapOpt l | _ => UB end.
Definition optional_unwrap : overload :=
  mkOverload "optional.unwrap" false [Some kListT] true unwrap_impl.
Definition optional_unwrap_opt : overload :=
  mkOverload "unwrapOpt" true [Some kListT] true unwrap_impl.
Definition list_first : overload :=
  mkOverload "first" true [Some kListT] true
    (fun args => match args with [VList l] => ListFirst l | _ => UB end).
Definition list_last : overload :=
  mkOverload "last" true [Some kListT] true
    (fun args => match args with [VList l] => ListLast l | _ => UB end).
Definition optional_functions : registry :=
  [optional_of; optional_of_non_zero; optional_none; optional_value; optional_has_value;
   opt_select_map; opt_select_optional; opt_index_map; opt_index_list; opt_index_optional;
   optional_unwrap; optional_unwrap_opt; list_first; list_last].

(* optional_types.cc:293-375: the options the functions require are checked
   before any is registered, then CEL_RETURN_IF_ERROR stops at the first
   registration that fails; the functions registered before it stay.  q is
   enable_qualified_type_identifiers and h enable_heterogeneous_equality. *)
Fixpoint register_all (ds : list overload) (r : full_registry) : option status * full_registry :=
  match ds with
  | [] => (None, r)
  | d :: ds' =>
      match register (mkEntry false d) r with
      | (Some s, r') => (Some s, r')
      | (None, r') => register_all ds' r'
      end
  end.
Definition RegisterOptionalTypeFunctions (q h : bool) (r : full_registry)
    : option status * full_registry :=
  if negb q then
    (Some (mkStatus kFailedPrecondition
             "optional_type requires RuntimeOptions.enable_qualified_type_identifiers"), r)
  else if negb h then
    (Some (mkStatus kFailedPrecondition
             "optional_type requires RuntimeOptions.enable_heterogeneous_equality"), r)
  else register_all optional_functions r.
