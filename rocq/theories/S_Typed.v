(* Specification of type soundness: which values a type has, which errors are
   type errors, and what the host has to provide. *)
From Coq Require Import String List Bool NArith ZArith Ascii Permutation.
From Verif Require Import Base M_Overflow M_Number M_Attr M_Value M_Logic M_Expr M_Plan M_Machine
  S_Arith S_Num S_Value S_Eval S_Macro M_Infer S_Infer M_Checker S_Checker.
Import ListNotations.
Local Open Scope string_scope.
Open Scope list_scope.
Open Scope Z_scope.

(* The values of a type.  [opts]: optional types are enabled; without them
   there are no optional values.  Messages are not modelled, so a message type
   has no values here. *)
Fixpoint of_type (opts : bool) (t : ty) (v : value) {struct t} : Prop :=
  match t with
  | TDyn | TAny => True
  | TNull => v = VNull
  | TPrim PBool => exists b, v = VBool b
  | TPrim PInt => exists i, v = VInt i
  | TPrim PUint => exists u, v = VUint u
  | TPrim PDouble => exists d, v = VDouble d
  | TPrim PString => exists s, v = VString s
  | TPrim PBytes => exists s, v = VBytes s
  | TWrapper PBool => v = VNull \/ exists b, v = VBool b
  | TWrapper PInt => v = VNull \/ exists i, v = VInt i
  | TWrapper PUint => v = VNull \/ exists u, v = VUint u
  | TWrapper PDouble => v = VNull \/ exists d, v = VDouble d
  | TWrapper PString => v = VNull \/ exists s, v = VString s
  | TWrapper PBytes => v = VNull \/ exists s, v = VBytes s
  | TEnum _ => exists i, v = VInt i
  | TDuration => exists d, v = VDuration d
  | TTimestamp => exists d, v = VTimestamp d
  | TType _ => exists n, v = VType n
  | TList e => exists l, v = VList l /\ Forall (of_type opts e) l
  | TMap k w => exists m, v = VMap m /\
      Forall (fun p => of_type opts k (value_of_key (fst p)) /\ of_type opts w (snd p)) m
  | TOpaque n [e] =>
      n = "optional_type" /\ opts = true /\
      (v = VOptional None \/ exists x, v = VOptional (Some x) /\ of_type opts e x)
  | _ => False
  end.
(* and they are well formed: numbers in range, distinct keys, no error inside *)
Definition has_type (opts : bool) (t : ty) (v : value) : Prop := value_ok v /\ of_type opts t v.

(* The errors that mean an operand did not have the type its operation needs.
   Two errors about map keys are not counted: which types can be keys is not
   part of CEL's typing rules. *)
Definition type_error (st : status) : Prop :=
  (exists fn, fn <> "@in" /\ st = no_matching_overload fn) \/
  st = invalid_select \/ st = index_type_error \/ st = invalid_container \/
  st = optional_conversion_error.

(* What evaluating an expression of type t may give: a value of the type, or an
   error that is not a type error. *)
Definition good (opts : bool) (t : ty) (o : out vt) : Prop :=
  match o with
  | Val (v, _) => has_type opts t v \/ exists st, v = VError st /\ ~ type_error st
  | Err st => ~ type_error st
  | UB => False
  end.

(* The operators the evaluator implements itself; a host declares them as the
   standard library does. *)
Definition opt_ovls (fn : string) : list overload_decl :=
  if String.eqb fn "or"
  then [mem_ovl "optional_or_optional" (optional_of (TParam "A")) [optional_of (TParam "A"); optional_of (TParam "A")]]
  else if String.eqb fn "orValue"
  then [mem_ovl "optional_orValue_value" (TParam "A") [optional_of (TParam "A"); TParam "A"]]
  else [].
Definition operators : list string :=
  ["_&&_"; "_||_"; "_?_:_"; "_[_]"; "@not_strictly_false"; "__not_strictly_false__"; "!_";
   "@in"; "_in_"; "in"; "_==_"; "_!=_"; "or"; "orValue"].
Definition standard (fn : string) (o : overload_decl) : Prop :=
  exists o', In o' (match std_funcs fn with Some l => l | None => opt_ovls fn end) /\
    od_args o = od_args o' /\ od_result o = od_result o' /\ od_member o = od_member o'.

(* The host keeps the promises its declarations make: variables hold values of
   all instances of the declared type, and so do the results of the functions
   it registers; the operators have their standard declarations. *)
Record conforms (D : decls) (C : config) (R : registry) : Prop := {
  cf_unknowns_off : unk C = false;
  cf_builtins : o_fast_builtins (cf_opts C) = true;
  cf_hetero : o_heterogeneous (cf_opts C) = true;
  cf_equality : fast_equality (cf_opts C) R = true;
  cf_order : forall m, Permutation (cf_reorder C m) m;
  cf_variables : forall x T, d_vars D x = Some T ->
    match cf_vars C x with
    | Val (Some v) => forall s, has_type (o_optional_types (cf_opts C)) (tsub s T) v
    | Val None => True
    | Err st => ~ type_error st
    | UB => False
    end;
  cf_operators : forall fn ovls o, In fn operators -> d_funcs D fn = Some ovls -> In o ovls -> standard fn o;
  cf_optional_operators : o_optional_types (cf_opts C) = false ->
    d_funcs D "or" = None /\ d_funcs D "orValue" = None;
  cf_strict : forall fn, d_funcs D fn <> None -> ~ In fn operators ->
    forall o, In o R -> ov_name o = fn -> ov_strict o = true;
  cf_functions : forall fn ovls o s vs, d_funcs D fn = Some ovls -> In o ovls -> ~ In fn operators ->
    Forall2 (has_type (o_optional_types (cf_opts C))) (map (tsub s) (od_args o)) vs ->
    exists f, ResolveStatic (FindStaticOverloadsByArity R fn (od_member o) (length vs)) vs = Some f /\
      good (o_optional_types (cf_opts C)) (tsub s (od_result o)) (obind (ov_impl f vs) (fun v => Val (v, None)))
}.

(* the numbers written in the expression are in range *)
Definition constants_ok (e : expr) : Prop := forall v, part_of e (EConst v) -> value_ok v.
