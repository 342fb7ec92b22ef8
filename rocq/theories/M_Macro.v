(* Model of the macro expanders: parser/macro.cc,
   extensions/comprehensions_v2_macros.cc, extensions/bindings_ext.cc, and of
   the library functions their expansions call.  Expression ids and source
   positions are left out; an expander returns the expansion or its error
   message.  [accu] is the factory's accumulator variable: "@result", or
   "__result__" when ParserOptions::enable_hidden_accumulator_var is off
   (parser/parser.cc:90, options.h:57). *)
From Coq Require Import ZArith List Bool String Ascii.
From Verif Require Import Base M_Overflow M_Number M_Attr M_Value M_Logic M_Expr.
Import ListNotations.
Open Scope list_scope.
Open Scope Z_scope.
Local Open Scope out_scope.

Definition expansion := (expr + string)%type.
(* common/expr.h:49 *)
Definition kDeprecatedAccu : string := "__result__"%string.
(* macro.cc:45-48 *)
Definition IsSimpleIdentifier (e : expr) : option string :=
  match e with
  | EIdent (String c s) => if Ascii.eqb c "."%char then None else Some (String c s)
  | _ => None
  end.
(* the checks on an iteration variable: macro.cc:97-105 and alike *)
Definition simple_var (name : string) (e : expr) (k : string -> expansion) : expansion :=
  match IsSimpleIdentifier e with
  | None => inr (append name "() variable name must be a simple identifier")
  | Some x =>
      if String.eqb x kDeprecatedAccu
      then inr (append name "() variable name cannot be __result__")
      else k x
  end.
(* the checks on two iteration variables: comprehensions_v2_macros.cc:54-80 *)
Definition simple_vars (name : string) (e1 e2 : expr) (k : string -> string -> expansion) : expansion :=
  match IsSimpleIdentifier e1, IsSimpleIdentifier e2 with
  | None, _ => inr (append name "() first variable name must be a simple identifier")
  | _, None => inr (append name "() second variable name must be a simple identifier")
  | Some x, Some x2 =>
      if String.eqb x x2
      then inr (append name "() second variable must be different from the first variable")
      else if String.eqb x kDeprecatedAccu
      then inr (append name "() first variable name cannot be __result__")
      else if String.eqb x2 kDeprecatedAccu
      then inr (append name "() second variable name cannot be __result__")
      else k x x2
  end.

Section Factory.
  Variable accu : string.
  Definition NewAccuIdent : expr := EIdent accu.
  Definition NewCall (fn : string) (args : list expr) : expr := ECall fn None args.
  Definition NewMemberCall (fn : string) (target : expr) : expr := ECall fn (Some target) [].
  Definition NewBoolConst (b : bool) : expr := EConst (VBool b).
  Definition NewIntConst (i : Z) : expr := EConst (VInt i).
  Definition NewList (l : list expr) : expr := EList (map (fun e => (false, e)) l).

  (* the parts shared by the one- and two-variable forms; x2 = "" for the former *)
  (* macro.cc:106-115 *)
  Definition all_comp (x x2 : string) (range p : expr) : expr :=
    EComp x x2 accu range (NewBoolConst true) (NewCall "@not_strictly_false" [NewAccuIdent])
      (NewCall "_&&_" [NewAccuIdent; p]) NewAccuIdent.
  (* macro.cc:138-148 *)
  Definition exists_comp (x x2 : string) (range p : expr) : expr :=
    EComp x x2 accu range (NewBoolConst false)
      (NewCall "@not_strictly_false" [NewCall "!_" [NewAccuIdent]])
      (NewCall "_||_" [NewAccuIdent; p]) NewAccuIdent.
  (* macro.cc:172-188 *)
  Definition exists_one_comp (x x2 : string) (range p : expr) : expr :=
    EComp x x2 accu range (NewIntConst 0) (NewBoolConst true)
      (NewCall "_?_:_" [p; NewCall "_+_" [NewAccuIdent; NewIntConst 1]; NewAccuIdent])
      (NewCall "_==_" [NewAccuIdent; NewIntConst 1]).
  (* macro.cc:211-221 *)
  Definition map_comp (x x2 : string) (range f : expr) : expr :=
    EComp x x2 accu range (NewList []) (NewBoolConst true)
      (NewCall "_+_" [NewAccuIdent; NewList [f]]) NewAccuIdent.
  (* macro.cc:244-257, 281-293 *)
  Definition map_filter_comp (x x2 : string) (range p f : expr) : expr :=
    EComp x x2 accu range (NewList []) (NewBoolConst true)
      (NewCall "_?_:_" [p; NewCall "_+_" [NewAccuIdent; NewList [f]]; NewAccuIdent]) NewAccuIdent.
  (* comprehensions_v2_macros.cc:325-333 *)
  Definition transform_map_comp (x x2 : string) (range : expr) (entry : list expr) : expr :=
    EComp x x2 accu range (EMap []) (NewBoolConst true)
      (NewCall "cel.@mapInsert" (NewAccuIdent :: entry)) NewAccuIdent.
  (* comprehensions_v2_macros.cc:380-390 *)
  Definition transform_map_filter_comp (x x2 : string) (range p : expr) (entry : list expr) : expr :=
    EComp x x2 accu range (EMap []) (NewBoolConst true)
      (NewCall "_?_:_" [p; NewCall "cel.@mapInsert" (NewAccuIdent :: entry); NewAccuIdent])
      NewAccuIdent.

  (* macro.cc:71-84 *)
  Definition ExpandHasMacro (args : list expr) : expansion :=
    match args with
    | [ESelect operand field false] => inl (ESelect operand field true)
    | [_] => inr "has() argument must be a field selection"%string
    | _ => inr "has() requires 1 arguments"%string
    end.
  (* macro.cc:92-116 *)
  Definition ExpandAllMacro (target : expr) (args : list expr) : expansion :=
    match args with
    | [v; p] => simple_var "all" v (fun x => inl (all_comp x "" target p))
    | _ => inr "all() requires 2 arguments"%string
    end.
  (* macro.cc:124-149 *)
  Definition ExpandExistsMacro (target : expr) (args : list expr) : expansion :=
    match args with
    | [v; p] => simple_var "exists" v (fun x => inl (exists_comp x "" target p))
    | _ => inr "exists() requires 2 arguments"%string
    end.
  (* macro.cc:158-189 *)
  Definition ExpandExistsOneMacro (target : expr) (args : list expr) : expansion :=
    match args with
    | [v; p] => simple_var "exists_one" v (fun x => inl (exists_one_comp x "" target p))
    | _ => inr "exists_one() requires 2 arguments"%string
    end.
  (* macro.cc:198-222 *)
  Definition ExpandMap2Macro (target : expr) (args : list expr) : expansion :=
    match args with
    | [v; f] => simple_var "map" v (fun x => inl (map_comp x "" target f))
    | _ => inr "map() requires 2 arguments"%string
    end.
  (* macro.cc:230-258 *)
  Definition ExpandMap3Macro (target : expr) (args : list expr) : expansion :=
    match args with
    | [v; p; f] => simple_var "map" v (fun x => inl (map_filter_comp x "" target p f))
    | _ => inr "map() requires 3 arguments"%string
    end.
  (* macro.cc:266-294 *)
  Definition ExpandFilterMacro (target : expr) (args : list expr) : expansion :=
    match args with
    | [v; p] => simple_var "filter" v (fun x => inl (map_filter_comp x "" target p v))
    | _ => inr "filter() requires 2 arguments"%string
    end.
  (* macro.cc:303-332 *)
  Definition ExpandOptMapMacro (target : expr) (args : list expr) : expansion :=
    match args with
    | [v; f] =>
        simple_var "optMap" v (fun x =>
          inl (NewCall "_?_:_"
                 [NewMemberCall "hasValue" target;
                  NewCall "optional.of"
                    [EComp "#unused" "" x (NewList []) (NewMemberCall "value" target)
                       (NewBoolConst false) v f];
                  NewCall "optional.none" []]))
    | _ => inr "optMap() requires 2 arguments"%string
    end.
  (* macro.cc:340-371 *)
  Definition ExpandOptFlatMapMacro (target : expr) (args : list expr) : expansion :=
    match args with
    | [v; f] =>
        simple_var "optFlatMap" v (fun x =>
          inl (NewCall "_?_:_"
                 [NewMemberCall "hasValue" target;
                  EComp "#unused" "" x (NewList []) (NewMemberCall "value" target)
                    (NewBoolConst false) v f;
                  NewCall "optional.none" []]))
    | _ => inr "optFlatMap() requires 2 arguments"%string
    end.
  (* bindings_ext.cc:71-88; None when the call is not cel.bind *)
  Definition ExpandBindMacro (target : expr) (args : list expr) : option expansion :=
    match target, args with
    | EIdent ns, [v; init; body] =>
        if String.eqb ns "cel" then
          match v with
          | EIdent x => Some (inl (EComp "#unused" "" x (NewList []) init (NewBoolConst false) v body))
          | _ => Some (inr "cel.bind() variable name must be a simple identifier"%string)
          end
        else None
    | _, _ => None
    end.

  (* comprehensions_v2_macros.cc:49-89 *)
  Definition ExpandAllMacro2 (target : expr) (args : list expr) : expansion :=
    match args with
    | [v; v2; p] => simple_vars "all" v v2 (fun x x2 => inl (all_comp x x2 target p))
    | _ => inr "all() requires 3 arguments"%string
    end.
  (* comprehensions_v2_macros.cc:97-138 *)
  Definition ExpandExistsMacro2 (target : expr) (args : list expr) : expansion :=
    match args with
    | [v; v2; p] => simple_vars "exists" v v2 (fun x x2 => inl (exists_comp x x2 target p))
    | _ => inr "exists() requires 3 arguments"%string
    end.
  (* comprehensions_v2_macros.cc:147-193 *)
  Definition ExpandExistsOneMacro2 (target : expr) (args : list expr) : expansion :=
    match args with
    | [v; v2; p] => simple_vars "existsOne" v v2 (fun x x2 => inl (exists_one_comp x x2 target p))
    | _ => inr "existsOne() requires 3 arguments"%string
    end.
  (* comprehensions_v2_macros.cc:201-244 *)
  Definition ExpandTransformList3Macro (target : expr) (args : list expr) : expansion :=
    match args with
    | [v; v2; f] => simple_vars "transformList" v v2 (fun x x2 => inl (map_comp x x2 target f))
    | _ => inr "transformList() requires 3 arguments"%string
    end.
  (* comprehensions_v2_macros.cc:252-297 *)
  Definition ExpandTransformList4Macro (target : expr) (args : list expr) : expansion :=
    match args with
    | [v; v2; p; f] => simple_vars "transformList" v v2 (fun x x2 => inl (map_filter_comp x x2 target p f))
    | _ => inr "transformList() requires 4 arguments"%string
    end.
  (* comprehensions_v2_macros.cc:306-349 *)
  Definition ExpandTransformMap3Macro (target : expr) (args : list expr) : expansion :=
    match args with
    | [v; v2; f] =>
        simple_vars "transformMap" v v2 (fun x x2 => inl (transform_map_comp x x2 target [v; f]))
    | _ => inr "transformMap() requires 3 arguments"%string
    end.
  (* comprehensions_v2_macros.cc:357-402 *)
  Definition ExpandTransformMap4Macro (target : expr) (args : list expr) : expansion :=
    match args with
    | [v; v2; p; f] =>
        simple_vars "transformMap" v v2 (fun x x2 => inl (transform_map_filter_comp x x2 target p [v; f]))
    | _ => inr "transformMap() requires 4 arguments"%string
    end.
  (* comprehensions_v2_macros.cc:411-457 *)
  Definition ExpandTransformMapEntry3Macro (target : expr) (args : list expr) : expansion :=
    match args with
    | [v; v2; f] =>
        simple_vars "transformMapEntry" v v2 (fun x x2 => inl (transform_map_comp x x2 target [f]))
    | _ => inr "transformMapEntry() requires 3 arguments"%string
    end.
  (* comprehensions_v2_macros.cc:466-513 *)
  Definition ExpandTransformMapEntry4Macro (target : expr) (args : list expr) : expansion :=
    match args with
    | [v; v2; p; f] =>
        simple_vars "transformMapEntry" v v2
          (fun x x2 => inl (transform_map_filter_comp x x2 target p [f]))
    | _ => inr "transformMapEntry() requires 4 arguments"%string
    end.
End Factory.

(* ---- the functions the expansions call ---- *)

(* runtime/standard/arithmetic_functions.cc:38-45 Add on int64, with
   CheckedAdd; an overflow is an error value *)
Definition AddInt (args : list value) : out value :=
  match args with
  | [VInt a; VInt b] =>
      match CheckedAddInt true a b with
      | Val s => Val (VInt s)
      | Err e => Val (VError e)
      | UB => UB
      end
  | _ => UB
  end.
Definition add_int : overload := mkOverload "_+_" false [Some kIntT; Some kIntT] true AddInt.

(* runtime/standard/container_functions.cc:47-80 ConcatList *)
Fixpoint list_add_all (l added : list value) : out (list value) :=
  match added with
  | [] => Val l
  | v :: added' => l' <- ListAdd l v ;; list_add_all l' added'
  end.
Definition ConcatList (args : list value) : out value :=
  match args with
  | [VList a; VList b] =>
      if Nat.eqb (List.length a) 0 then Val (VList b)
      else if Nat.eqb (List.length b) 0 then Val (VList a)
      else l <- list_add_all [] a ;; l' <- list_add_all l b ;; Val (VList l')
  | _ => UB
  end.
Definition concat_list : overload := mkOverload "_+_" false [Some kListT; Some kListT] true ConcatList.

(* runtime/optional_types.cc:44-90 *)
Definition optional_of : overload :=
  mkOverload "optional.of" false [None] true
    (fun args => match args with [v] => Val (VOptional (Some v)) | _ => UB end).
Definition optional_none : overload :=
  mkOverload "optional.none" false [] true
    (fun args => match args with [] => Val (VOptional None) | _ => UB end).
(* optional_value.cc OptionalValue::Value on none *)
Definition optional_none_dereference : status :=
  mkStatus kFailedPrecondition "optional.none() dereference".
Definition optional_value : overload :=
  mkOverload "value" true [Some kOpaqueT] true
    (fun args => match args with
                 | [VOptional (Some v)] => Val v
                 | [VOptional None] => Val (VError optional_none_dereference)
                 | [_] => Val (VError (no_matching_overload "value"))
                 | _ => UB
                 end).
Definition optional_has_value : overload :=
  mkOverload "hasValue" true [Some kOpaqueT] true
    (fun args => match args with
                 | [VOptional o] => Val (VBool match o with Some _ => true | None => false end)
                 | [_] => Val (VError (no_matching_overload "hasValue"))
                 | _ => UB
                 end).

(* extensions/comprehensions_v2_functions.cc:38-69 MapInsertKeyValue: the
   entries of the map, then the new one, into a new builder; Build gives them
   an unspecified iteration order.  The mutable-map fast path adds to the same
   entries. *)
Definition put_all (m : entries) (added : list (value * value)) : out entries := MapPutAll m added.
Definition map_items_of (m : entries) : list (value * value) :=
  map (fun p => (value_of_key (fst p), snd p)) m.
Definition MapInsertKeyValue (reorder : entries -> entries) (args : list value) : out value :=
  match args with
  | [VMap m; k; v] =>
      match put_all [] (map_items_of m ++ [(k, v)]) with
      | Val m' => Val (VMap (reorder m'))
      | Err e => Val (VError e)
      | UB => UB
      end
  | _ => UB
  end.
Definition map_insert (reorder : entries -> entries) : overload :=
  mkOverload "cel.@mapInsert" false [Some kMapT; None; None] true (MapInsertKeyValue reorder).
(* comprehensions_v2_functions.cc:71-117 MapInsertMap *)
Definition MapInsertMap (reorder : entries -> entries) (args : list value) : out value :=
  match args with
  | [VMap m; VMap m2] =>
      match put_all [] (map_items_of m ++ map_items_of m2) with
      | Val m' => Val (VMap (reorder m'))
      | Err e => Val (VError e)
      | UB => UB
      end
  | _ => UB
  end.
Definition map_insert_map (reorder : entries -> entries) : overload :=
  mkOverload "cel.@mapInsert" false [Some kMapT; Some kMapT] true (MapInsertMap reorder).
