(* Model of the CEL expression tree, of the function registry and call
   resolution, and of the evaluation steps whose operands are evaluated first:
     common/expr.h, runtime/runtime_options.h, runtime/function_registry.cc,
     common/function_descriptor.cc, eval/eval/function_step.cc,
     eval/eval/select_step.cc, eval/eval/container_access_step.cc,
     eval/eval/equality_steps.cc, eval/eval/logic_step.cc,
     eval/eval/create_list_step.cc, eval/eval/create_map_step.cc,
     eval/eval/ident_step.cc, eval/eval/optional_or_step.cc,
     eval/eval/ternary_step.cc, and the operator dispatch of
     eval/compiler/flat_expr_builder.cc.

   Not modelled: message construction and message fields, namespace prefixes
   and enum or type constants, lazily provided functions, unknown function
   results, missing-attribute errors, cel.@block, the list-append and map-insert
   optimisations, tracing listeners. *)
From Coq Require Import ZArith List Bool String Ascii.
From Verif Require Import Base M_Overflow M_Number M_Attr M_Value M_Logic.
Import ListNotations.
Local Open Scope string_scope.
Open Scope list_scope.
Open Scope Z_scope.
Local Open Scope out_scope.

(* The bytes of an identifier or field name. *)
Fixpoint bytes_of_string (s : string) : list Z :=
  match s with
  | EmptyString => []
  | String c s' => Z.of_nat (nat_of_ascii c) :: bytes_of_string s'
  end.

(* ---- expression tree ---- *)

(* common/expr.h Expr.  A constant is the value ConvertConstant makes of it
   (flat_expr_builder.cc:672-700). *)
Inductive expr :=
| EConst (v : value)
| EIdent (name : string)
| ESelect (operand : expr) (field : string) (test_only : bool)
| ECall (fn : string) (target : option expr) (args : list expr)
| EList (elems : list (bool * expr))
| EMap (ents : list (bool * (expr * expr)))
| EComp (iter_var iter_var2 accu_var : string)
        (iter_range accu_init loop_condition loop_step result : expr).

(* runtime/runtime_options.h RuntimeOptions, the fields the model reads;
   o_unknowns is unknown_processing <> kDisabled. *)
Record options := mkOptions {
  o_unknowns : bool;
  o_short_circuiting : bool;
  o_max_iterations : Z;
  o_fast_builtins : bool;
  o_heterogeneous : bool;
  o_optional_types : bool;
  o_fail_on_warnings : bool
}.
(* runtime_options.h defaults *)
Definition default_options : options := mkOptions false true 10000 true true false true.

(* ---- function registry ---- *)

(* common/function_descriptor.h FunctionDescriptor with the implementation of
   a statically registered function; None is Kind::kAny. *)
Record overload := mkOverload {
  ov_name : string;
  ov_receiver : bool;
  ov_kinds : list (option kind);
  ov_strict : bool;
  ov_impl : list value -> out value
}.
Definition registry := list overload.

(* function_descriptor.cc:26-45 FunctionDescriptor::ShapeMatches *)
Definition kind_compatible (a b : option kind) : bool :=
  match a, b with
  | Some x, Some y => kind_eqb x y
  | _, _ => true
  end.
Fixpoint kinds_compatible (a b : list (option kind)) : bool :=
  match a, b with
  | [], [] => true
  | x :: a', y :: b' => if kind_compatible x y then kinds_compatible a' b' else false
  | _, _ => false
  end.
Definition ShapeMatches (o : overload) (receiver : bool) (kinds : list (option kind)) : bool :=
  if negb (Bool.eqb (ov_receiver o) receiver) then false
  else kinds_compatible (ov_kinds o) kinds.

(* function_registry.cc:220-238 DescriptorRegistered *)
Definition named (r : registry) (name : string) : list overload :=
  filter (fun o => String.eqb (ov_name o) name) r.
Definition DescriptorRegistered (r : registry) (d : overload) : bool :=
  existsb (fun o => ShapeMatches o (ov_receiver d) (ov_kinds d)) (named r (ov_name d)).
(* function_registry.cc:240-262 ValidateNonStrictOverload *)
Definition ValidateNonStrictOverload (r : registry) (d : overload) : bool :=
  match named r (ov_name d) with
  | [] => true
  | o :: _ => if negb (ov_strict d) then false else ov_strict o
  end.
(* function_registry.cc:79-96 Register *)
Definition Register (r : registry) (d : overload) : out registry :=
  if DescriptorRegistered r d
  then Err (mkStatus kAlreadyExists "CelFunction with specified parameters already registered")
  else if negb (ValidateNonStrictOverload r d)
  then Err (mkStatus kAlreadyExists "Only one overload is allowed for non-strict function")
  else Val (r ++ [d]).
(* function_registry.cc:114-134 FindStaticOverloads *)
Definition FindStaticOverloads (r : registry) (name : string) (receiver : bool)
    (kinds : list (option kind)) : list overload :=
  filter (fun o => ShapeMatches o receiver kinds) (named r name).
(* function_registry.cc:136-156 FindStaticOverloadsByArity *)
Definition FindStaticOverloadsByArity (r : registry) (name : string) (receiver : bool)
    (arity : nat) : list overload :=
  filter (fun o => Bool.eqb (ov_receiver o) receiver
                   && Nat.eqb (List.length (ov_kinds o)) arity) (named r name).

(* ---- calls ---- *)

(* A value on the evaluator stack: the value and its attribute trail
   (eval/eval/evaluator_stack.h). *)
Definition vt := (value * trail)%type.

(* function_step.cc:60-77 ArgumentKindsMatch *)
Fixpoint kinds_match (ks : list (option kind)) (args : list value) : bool :=
  match ks, args with
  | [], [] => true
  | k :: ks', a :: args' =>
      if match k with None => true | Some k' => kind_eqb (kind_of a) k' end
      then kinds_match ks' args' else false
  | _, _ => false
  end.
(* function_step.cc:49-58 ShouldAcceptOverload *)
Definition ShouldAcceptOverload (o : overload) (args : list value) : bool :=
  if existsb (fun a => is_unknown a || is_error a) args then negb (ov_strict o) else true.
(* function_step.cc:286-295 ResolveStatic *)
Definition ResolveStatic (ovs : list overload) (args : list value) : option overload :=
  find (fun o => kinds_match (ov_kinds o) args) ovs.

(* common/kind.cc:20-60 KindToString with function_step.cc:82-88
   ToLegacyKindName *)
Definition legacy_kind_name (k : kind) : string :=
  match k with
  | kNullT => "null_type" | kBoolT => "bool" | kIntT => "int64" | kUintT => "uint64"
  | kDoubleT => "double" | kStringT => "string" | kBytesT => "bytes"
  | kDurationT => "duration" | kTimestampT => "timestamp" | kTypeT => "type"
  | kListT => "list" | kMapT => "map" | kOpaqueT => "*opaque*"
  | kErrorT => "*error*" | kUnknownT => "*unknown*"
  end.
(* function_step.cc:90-103 CallArgTypeString *)
Fixpoint call_arg_types (args : list value) : string :=
  match args with
  | [] => ""
  | [a] => legacy_kind_name (kind_of a)
  | a :: args' => append (legacy_kind_name (kind_of a)) (append ", " (call_arg_types args'))
  end.
Definition CallArgTypeString (args : list value) : string :=
  append "(" (append (call_arg_types args) ")").

(* function_step.cc:202-242 NoOverloadResult *)
Definition NoOverloadResult (unk : bool) (name : string) (receiver : bool) (args : list value)
    : value :=
  match find is_error args with
  | Some e => e
  | None =>
      match (if unk then MergeUnknowns args else None) with
      | Some s => VUnknown s
      | None =>
          VError (no_matching_overload
            (if receiver then
               match args with
               | [] => append "()." (append name "()")
               | a :: args' =>
                   append "(" (append (legacy_kind_name (kind_of a))
                     (append ")." (append name (CallArgTypeString args'))))
               end
             else append name (CallArgTypeString args)))
      end
  end.

(* function_step.cc:105-128 CheckForPartialUnknowns *)
Definition CheckForPartialUnknowns (pats : list pattern) (args : list vt) : list value :=
  map (fun a =>
         match (if CheckForUnknown pats (snd a) true then snd a else None) with
         | Some at_ => VUnknown [at_]
         | None => fst a
         end) args.
Definition call_args (unk : bool) (pats : list pattern) (args : list vt) : list value :=
  if unk then CheckForPartialUnknowns pats args else map fst args.

(* function_step.cc:244-269: the overload invoked, if any *)
Definition accepted (ovs : list overload) (args : list value) : option overload :=
  match ResolveStatic ovs args with
  | Some o => if ShouldAcceptOverload o args then Some o else None
  | None => None
  end.
(* function_step.cc:244-284 AbstractFunctionStep::DoEvaluate, with Invoke
   (184-200) and an eager resolver *)
Definition CallFunction (unk : bool) (pats : list pattern) (name : string) (receiver : bool)
    (ovs : list overload) (args : list vt) : out value :=
  let input := call_args unk pats args in
  match accepted ovs input with
  | Some o => ov_impl o input
  | None => Val (NoOverloadResult unk name receiver input)
  end.

(* ---- run-time configuration ---- *)

(* The options, the activation (runtime/activation.h: FindVariable and the
   unknown attribute patterns) and the iteration order of the maps built by
   map literals (see M_Value.MapBuild). *)
Record config := mkConfig {
  cf_opts : options;
  cf_vars : string -> out (option value);
  cf_pats : list pattern;
  cf_reorder : entries -> entries
}.
Definition unk (C : config) : bool := o_unknowns (cf_opts C).
Definition sc (C : config) : bool := o_short_circuiting (cf_opts C).

(* comprehension_step.cc:45-60, container_access_step.cc:76-90
   AttributeQualifierFromValue *)
Definition qualifier_of (v : value) : qualifier :=
  match v with
  | VString s => QString s
  | VInt i => QInt i
  | VUint u => QUint u
  | VBool b => QBool b
  | _ => QInvalid
  end.

(* attribute_utility.h CheckForUnknownExact with CreateUnknownSet: the unknown
   value of a trail that fully matches a pattern *)
Definition unknown_exact (C : config) (t : trail) : option value :=
  if unk C && CheckForUnknown (cf_pats C) t false
  then match t with Some a => Some (VUnknown [a]) | None => None end
  else None.
Definition unknown_partial (C : config) (t : trail) : option value :=
  if unk C && CheckForUnknown (cf_pats C) t true
  then match t with Some a => Some (VUnknown [a]) | None => None end
  else None.

(* ident_step.cc:41-73 LookupIdent; attribute tracking is on exactly when
   unknown processing is (missing-attribute errors are not modelled) *)
Definition no_value_error (name : string) : status :=
  mkStatus kUnknown (append "No value with name """ (append name """ found in Activation")).
Definition LookupIdent (C : config) (name : string) : out vt :=
  let t := if unk C then Some (mkAttr (bytes_of_string name) []) else None in
  match unknown_exact C t with
  | Some u => Val (u, t)
  | None =>
      found <- cf_vars C name ;;
      match found with
      | Some v => Val (v, t)
      | None => Val (VError (no_value_error name), t)
      end
  end.

(* ---- steps on evaluated operands ---- *)

Definition invalid_select : status :=
  mkStatus kInvalidArgument "Applying SELECT to non-message type".

(* select_step.cc:139-302 SelectStep::Evaluate, without messages *)
Definition SelectStep (C : config) (field : string) (test_only : bool) (a : vt) : out vt :=
  let (v, t) := a in
  match v with
  | VUnknown _ | VError _ => Val a
  | _ =>
      let f := bytes_of_string field in
      let rt := if unk C then trail_step t (QString f) else None in
      let optional_arg :=
        match v with VOptional o => if o_optional_types (cf_opts C) then Some o else None
                   | _ => None end in
      match optional_arg, v with
      | None, VMap m =>
          match unknown_exact C rt with
          | Some u => Val (u, rt)
          | None => if test_only then Val (MapHas m (VString f), None)
                    else Val (MapGet m (VString f), rt)
          end
      | Some o, _ =>
          match unknown_exact C rt with
          | Some u => Val (u, rt)
          | None =>
              match o with
              | None => if test_only then Val (VBool false, None) else Val a
              | Some (VMap m) =>
                  if test_only then Val (MapHas m (VString f), None)
                  else Val (VOptional (MapFind m (VString f)), rt)
              | Some _ => Err invalid_select
              end
          end
      | None, _ => Val (VError invalid_select, rt)
      end
  end.

(* container_access_step.cc:222-308 PerformLookup and ContainerAccessStep *)
Definition IndexStep (C : config) (container key : vt) : out vt :=
  let acc := acc_MaybeAdd (acc_MaybeAdd acc_new (fst container)) (fst key) in
  if unk C && negb (acc_IsEmpty acc) then Val (acc_Build acc, None)
  else
    let t := if unk C then trail_step (snd container) (qualifier_of (fst key)) else None in
    match unknown_exact C t with
    | Some u => Val (u, t)
    | None =>
        r <- PerformLookup (o_heterogeneous (cf_opts C)) (o_optional_types (cf_opts C))
               (fst container) (fst key) ;;
        Val (r, t)
    end.

(* the unknown set collected from two operands: equality_steps.cc:61-68, 200-207 *)
Definition pair_unknowns (C : config) (a b : vt) : option value :=
  if unk C then
    let acc := acc_MaybeAddTrail (cf_pats C)
                 (acc_MaybeAddTrail (cf_pats C) acc_new (fst a) (snd a)) (fst b) (snd b) in
    if acc_IsEmpty acc then None else Some (acc_Build acc)
  else None.
(* equality_steps.cc:48-76, 108-130 *)
Definition EqualityStep (C : config) (negation : bool) (a b : vt) : out vt :=
  if is_error (fst a) then Val (fst a, None)
  else if is_error (fst b) then Val (fst b, None)
  else match pair_unknowns C a b with
       | Some u => Val (u, None)
       | None => r <- EvaluateEquality negation (fst a) (fst b) ;; Val (r, None)
       end.
(* equality_steps.cc:187-215, 245-262 *)
Definition InStep (C : config) (a b : vt) : out vt :=
  if is_error (fst a) then Val (fst a, None)
  else if is_error (fst b) then Val (fst b, None)
  else match pair_unknowns C a b with
       | Some u => Val (u, None)
       | None => r <- EvaluateIn (fst a) (fst b) ;; Val (r, None)
       end.

(* the unknowns of a literal's operands: create_list_step.cc:83-91,
   create_map_step.cc:80-87 *)
Definition literal_unknowns (C : config) (args : list vt) : option attr_set :=
  if unk C then IdentifyAndMergeUnknowns (cf_pats C) (map fst args) (map snd args) true else None.
Definition optional_conversion_error : status :=
  mkStatus kInvalidArgument "type conversion error to 'optional_type'".

(* create_list_step.cc:96-121: the elements added to the builder; None when
   the step's result is the given error *)
Fixpoint list_loop (opts : list bool) (args : list value) (l : list value) : out value :=
  match args with
  | [] => Val (VList l)
  | a :: args' =>
      let opts' := match opts with [] => [] | _ :: o => o end in
      if match opts with o :: _ => o | [] => false end then
        match a with
        | VOptional None => list_loop opts' args' l
        | VOptional (Some (VError s)) => Val (VError s)
        | VOptional (Some v) => l' <- ListAdd l v ;; list_loop opts' args' l'
        | _ => Val (VError optional_conversion_error)
        end
      else l' <- ListAdd l a ;; list_loop opts' args' l'
  end.
(* create_list_step.cc:53-122 *)
Definition ListStep (C : config) (opts : list bool) (args : list vt) : out vt :=
  match find is_error (map fst args) with
  | Some e => Val (e, None)
  | None =>
      match literal_unknowns C args with
      | Some s => Val (VUnknown s, None)
      | None => r <- list_loop opts (map fst args) [] ;; Val (r, None)
      end
  end.

(* create_map_step.cc:89-118 *)
Fixpoint map_loop (reorder : entries -> entries) (opts : list bool) (args : list value)
    (m : entries) : out value :=
  match args with
  | k :: v :: args' =>
      let opts' := match opts with [] => [] | _ :: o => o end in
      match CheckMapKey k with
      | Err s => Val (VError s)
      | UB => UB
      | Val _ =>
          if match opts with o :: _ => o | [] => false end then
            match v with
            | VOptional None => map_loop reorder opts' args' m
            | VOptional (Some (VError s)) => Val (VError s)
            | VOptional (Some w) => m' <- MapPut m k w ;; map_loop reorder opts' args' m'
            | _ => Val (VError optional_conversion_error)
            end
          else m' <- MapPut m k v ;; map_loop reorder opts' args' m'
      end
  | _ => Val (VMap (reorder m))
  end.
(* create_map_step.cc:70-132 *)
Definition MapStep (C : config) (opts : list bool) (args : list vt) : out vt :=
  match find is_error (map fst args) with
  | Some e => Val (e, None)
  | None =>
      match literal_unknowns C args with
      | Some s => Val (VUnknown s, None)
      | None => r <- map_loop (cf_reorder C) opts (map fst args) [] ;; Val (r, None)
      end
  end.

(* logic_step.cc:333-364: the NOT step keeps the trail of an
   operand it forwards *)
Definition NotStepT (C : config) (a : vt) : vt :=
  let r := NotStep (unk C) (cf_pats C) (fst a) (snd a) in
  match unknown_partial C (snd a) with
  | Some _ => (r, None)
  | None => match fst a with
            | VUnknown _ | VError _ => (r, snd a)
            | _ => (r, None)
            end
  end.
(* logic_step.cc:410-434 *)
Definition NotStrictlyFalseStepT (a : vt) : vt :=
  match fst a with
  | VBool _ => a
  | _ => (NotStrictlyFalseStep (fst a), None)
  end.

(* The operations whose operands are all evaluated first. *)
Inductive sop :=
| OSelect (field : string) (test_only : bool)
| OIndex
| ONot
| ONotStrictlyFalse
| OEqual (negation : bool)
| OIn
| OCall (name : string) (receiver : bool) (ovs : list overload)
| OList (opts : list bool)
| OMap (opts : list bool).

(* One step on its operands, first operand first. *)
Definition apply_op (C : config) (op : sop) (args : list vt) : out vt :=
  match op, args with
  | OSelect f t, [a] => SelectStep C f t a
  | OIndex, [a; b] => IndexStep C a b
  | ONot, [a] => Val (NotStepT C a)
  | ONotStrictlyFalse, [a] => Val (NotStrictlyFalseStepT a)
  | OEqual n, [a; b] => EqualityStep C n a b
  | OIn, [a; b] => InStep C a b
  | OCall f r ovs, _ => v <- CallFunction (unk C) (cf_pats C) f r ovs args ;; Val (v, None)
  | OList opts, _ => ListStep C opts args
  | OMap opts, _ => MapStep C opts args
  | _, _ => UB
  end.
(* The implementations invoked by one step, for the invocation log: the
   function's name and the arguments passed. *)
Definition invocation := (string * list value)%type.
Definition op_invokes (C : config) (op : sop) (args : list vt) : list invocation :=
  match op with
  | OCall f _ ovs =>
      let input := call_args (unk C) (cf_pats C) args in
      match accepted ovs input with Some _ => [(f, input)] | None => [] end
  | _ => []
  end.

(* ternary_step.cc:132-170 TernaryStep::Evaluate, used when short-circuiting is
   off: the chosen branch is pushed without its attribute *)
Definition TernaryStep (C : config) (c a b : vt) : vt :=
  if (unk C && is_unknown (fst c)) || is_error (fst c) then c
  else match fst c with
       | VBool true => (fst a, None)
       | VBool false => (fst b, None)
       | _ => (VError (no_matching_overload "_?_:_"), None)
       end.

(* optional_or_step.cc: or_value is OptionalOrKind::kOrValue *)
Definition optional_or_name (or_value : bool) : string := if or_value then "orValue" else "or".
(* optional_or_step.cc:126-163 EvalOptionalOr *)
Definition EvalOptionalOr (or_value : bool) (lhs rhs : vt) : vt :=
  match fst lhs with
  | VError _ | VUnknown _ => lhs
  | VOptional (Some v) => if or_value then (v, snd lhs) else lhs
  | VOptional None =>
      match fst rhs with
      | VError _ | VUnknown _ | VOptional _ => rhs
      | _ => if or_value then rhs
             else (VError (no_matching_overload (optional_or_name or_value)), None)
      end
  | _ => (VError (no_matching_overload (optional_or_name or_value)), None)
  end.
(* optional_or_step.cc:80-109 OptionalHasValueJumpStep: the top of the stack
   when the step jumps, None when it does not *)
Definition OptionalJump (or_value : bool) (a : vt) : option vt :=
  match fst a with
  | VOptional (Some v) => Some (if or_value then (v, None) else a)
  | VError _ | VUnknown _ => Some a
  | _ => None
  end.

(* jump_step.cc:83-115 BoolCheckJumpStep: Some r when the step jumps with r on
   top of the stack *)
Definition BoolCheck (a : vt) : option vt :=
  match fst a with
  | VBool _ => None
  | VError _ | VUnknown _ => Some a
  | _ => Some (VError (no_matching_overload "<jump_condition>"), None)
  end.

(* ---- the planner's view of an expression ---- *)

(* What FlatExprVisitor plans for each node: the dispatch of PreVisitCall,
   PostVisitCall and the call handlers, with && and || on more than two
   arguments nested to the left (BinaryCondVisitor::PostVisitArg emits the
   same steps). *)
Inductive core :=
| KConst (v : value)
| KVar (name : string)
| KGlobal (name : string)
| KLogic (op : op_type) (a b : core)
| KCond (c a b : core)
| KOr (or_value : bool) (a b : core)
| KApp (op : sop) (args : list core)
| KComp (iter iter2 accu : string) (range init cond step res : core)
| KBind (accu : string) (init res : core).

Definition plan_error (msg : string) : status := mkStatus kInvalidArgument msg.

(* flat_expr_builder.cc:401-410 IsBind *)
Definition IsBind (iter_var iter_var2 : string) (range cond : expr) : bool :=
  match cond, range with
  | EConst (VBool false), EList [] =>
      String.eqb iter_var "#unused" && String.eqb iter_var2 ""
  | _, _ => false
  end.

(* flat_expr_builder.cc:1633-1690 AddResolvedFunctionStep *)
Definition resolved_call (O : options) (R : registry) (fn : string) (receiver : bool)
    (args : list core) : out core :=
  match FindStaticOverloadsByArity R fn receiver (List.length args) with
  | [] => if o_fail_on_warnings O
          then Err (plan_error "No overloads provided for FunctionStep creation")
          else Val (KApp (OCall fn receiver []) args)
  | ovs => Val (KApp (OCall fn receiver ovs) args)
  end.

(* flat_expr_builder.cc:568-590: == and != are intercepted unless the user
   registered an (any, any) overload *)
Definition fast_equality (O : options) (R : registry) : bool :=
  o_fast_builtins O && o_heterogeneous O
  && match FindStaticOverloads R "_==_" false [None; None] with [] => true | _ => false end.

Definition is_in_name (fn : string) : bool :=
  String.eqb fn "@in" || String.eqb fn "_in_" || String.eqb fn "in".
Definition is_nsf_name (fn : string) : bool :=
  String.eqb fn "@not_strictly_false" || String.eqb fn "__not_strictly_false__".

(* left-nested && or || *)
Fixpoint logic_chain (op : op_type) (a : core) (args : list core) : core :=
  match args with
  | [] => a
  | b :: args' => logic_chain op (KLogic op a b) args'
  end.

(* PreVisitCall (flat_expr_builder.cc:992-1075), PostVisitCall (1268-1290) and
   the call handlers (1942-2148) on planned operands; target first *)
Definition plan_call (O : options) (R : registry) (fn : string) (receiver : bool)
    (args : list core) : out core :=
  if String.eqb fn "_&&_" || String.eqb fn "_||_" then
    let op := if String.eqb fn "_&&_" then OpAnd else OpOr in
    match receiver, args with
    | false, a :: b :: args' => Val (logic_chain op a (b :: args'))
    | _, _ => Err (plan_error "Invalid argument count for a binary function call.")
    end
  else if String.eqb fn "_?_:_" then
    match receiver, args with
    | false, [c; a; b] => Val (KCond c a b)
    | _, _ => Err (plan_error "Invalid argument count for a ternary function call.")
    end
  else if o_optional_types O && receiver && Nat.eqb (List.length args) 2
          && (String.eqb fn "or" || String.eqb fn "orValue") then
    match args with
    | [a; b] => Val (KOr (String.eqb fn "orValue") a b)
    | _ => UB
    end
  else if String.eqb fn "_[_]" then
    match args with
    | [_; _] => Val (KApp OIndex args)
    | _ => Err (plan_error "unexpected number of args for builtin index operator")
    end
  else if o_fast_builtins O && is_nsf_name fn then
    match receiver, args with
    | false, [_] => Val (KApp ONotStrictlyFalse args)
    | _, _ => Err (plan_error "unexpected number of args for builtin not_strictly_false operator")
    end
  else if o_fast_builtins O && String.eqb fn "!_" then
    match receiver, args with
    | false, [_] => Val (KApp ONot args)
    | _, _ => Err (plan_error "unexpected number of args for builtin not operator")
    end
  else if o_fast_builtins O && o_heterogeneous O && is_in_name fn then
    match receiver, args with
    | false, [_; _] => Val (KApp OIn args)
    | _, _ => Err (plan_error "unexpected number of args for builtin 'in' operator")
    end
  else if fast_equality O R && (String.eqb fn "_==_" || String.eqb fn "_!=_") then
    match receiver, args with
    | false, [_; _] => Val (KApp (OEqual (String.eqb fn "_!=_")) args)
    | _, _ => Err (plan_error "unexpected number of args for builtin equality operator")
    end
  else resolved_call O R fn receiver args.

(* flat_expr_builder.cc:1303-1328: the checks on a comprehension *)
Definition check_comprehension (iter_var iter_var2 accu_var : string) : out unit :=
  if String.eqb accu_var "" then
    Err (plan_error "Invalid comprehension: 'accu_var' must not be empty")
  else if String.eqb iter_var "" then
    Err (plan_error "Invalid comprehension: 'iter_var' must not be empty")
  else if String.eqb accu_var iter_var then
    Err (plan_error "Invalid comprehension: 'accu_var' must not be the same as 'iter_var'")
  else if String.eqb accu_var iter_var2 then
    Err (plan_error "Invalid comprehension: 'accu_var' must not be the same as 'iter_var2'")
  else if String.eqb iter_var2 iter_var then
    Err (plan_error "Invalid comprehension: 'iter_var2' must not be the same as 'iter_var'")
  else Val tt.

(* flat_expr_builder.cc:713-717, 892: a leading dot never names a local
   variable and is stripped *)
Definition plan_ident (name : string) : out core :=
  match name with
  | EmptyString => Err (plan_error "Invalid expression: identifier 'name' must not be empty")
  | String c rest => if Ascii.eqb c "."%char then Val (KGlobal rest) else Val (KVar name)
  end.

Definition map_out {A B} (f : A -> out B) :=
  fix go (l : list A) : out (list B) :=
    match l with
    | [] => Val []
    | x :: l' => y <- f x ;; ys <- go l' ;; Val (y :: ys)
    end.

(* AstTraverse (common/ast_traverse.cc:191-269, 362-378) visits the operands
   left to right, target first, keys before values; the suppressed branches of
   a bind (ComprehensionVisitor::PreVisit) leave no steps, and are not planned
   here at all, so an expression whose suppressed loop step does not plan is
   accepted by the model. *)
Fixpoint elaborate (O : options) (R : registry) (e : expr) : out core :=
  match e with
  | EConst v => Val (KConst v)
  | EIdent name => plan_ident name
  | ESelect operand field test_only =>
      if String.eqb field "" then
        Err (plan_error "invalid expression: select 'field' must not be empty")
      else a <- elaborate O R operand ;; Val (KApp (OSelect field test_only) [a])
  | ECall fn target args =>
      t <- match target with
           | None => Val []
           | Some x => a <- elaborate O R x ;; Val [a]
           end ;;
      cs <- map_out (elaborate O R) args ;;
      plan_call O R fn (match target with None => false | Some _ => true end) (t ++ cs)
  | EList elems =>
      cs <- map_out (fun p => elaborate O R (snd p)) elems ;;
      Val (KApp (OList (map fst elems)) cs)
  | EMap ents =>
      cs <- map_out (fun p => k <- elaborate O R (fst (snd p)) ;;
                              v <- elaborate O R (snd (snd p)) ;; Val [k; v]) ents ;;
      Val (KApp (OMap (map fst ents)) (List.concat cs))
  | EComp iter_var iter_var2 accu_var range init cond step res =>
      _ <- check_comprehension iter_var iter_var2 accu_var ;;
      if IsBind iter_var iter_var2 range cond then
        i <- elaborate O R init ;;
        b <- elaborate O R res ;;
        Val (KBind accu_var i b)
      else
        r <- elaborate O R range ;;
        i <- elaborate O R init ;;
        c <- elaborate O R cond ;;
        s <- elaborate O R step ;;
        b <- elaborate O R res ;;
        Val (KComp iter_var iter_var2 accu_var r i c s b)
  end.
