(* Model of eval/compiler/qualified_reference_resolver.cc: the references of a checked
   expression and the names of functions are resolved before planning.

   Simplifications.  A reference is its name, its value and whether it lists overloads.  An
   issue is its message without the name of the function; collecting it stops nothing, and the
   first one is the status if the collector fails on warnings.  ArgumentsMatcher(n) is n times any kind,
   so that overloads match just if they take n arguments. *)
From Coq Require Import ZArith String Ascii List Bool.
From Verif Require Import Base M_Ast M_Registry M_Namespace M_Rewrite.
From Verif Require M_Expr.
Import ListNotations.
Open Scope list_scope.

(* qualified_reference_resolver.cc:50-73 IsSpecialFunction, base/builtins.h *)
Definition special_functions : list string :=
  ["_&&_"; "_||_"; "_[_]"; "_?_:_"; "or"; "orValue"; "_==_"; "_!=_"; "!_"; "@not_strictly_false"; "__not_strictly_false__";
   "@in"; "_in_"; "in"; "cel.@block"]%string.
Definition IsSpecialFunction (name : string) : bool := existsb (String.eqb name) special_functions.

Definition nonempty {A} (l : list A) : bool := match l with [] => false | _ => true end.
(* resolver.cc:176-190 FindLazyOverloads by kinds *)
Definition ResolveLazyKinds (r : full_registry) (cname name : string) (receiver : bool) (arity : nat) : list M_Expr.overload :=
  first_found (fun n => FindLazy r n receiver arity) (FullyQualifiedNames cname name).
(* resolver.cc:134-153 FindOverloads by kinds *)
Definition ResolveStaticKinds (r : full_registry) (cname name : string) (receiver : bool) (arity : nat) : list M_Expr.overload :=
  first_found (fun n => FindStatic r n receiver arity) (FullyQualifiedNames cname name).
(* 75-82 OverloadExists *)
Definition OverloadExists (r : full_registry) (cname name : string) (arity : nat) (receiver : bool) : bool :=
  nonempty (ResolveStaticKinds r cname name receiver arity) || nonempty (ResolveLazyKinds r cname name receiver arity).
(* 84-107 BestOverloadMatch *)
Fixpoint best_loop (r : full_registry) (cname base_name : string) (arity : nat) (names : list string) : option string :=
  match names with
  | [] => None
  | name :: names' =>
      if OverloadExists r cname name arity false then Some (if starts_dot base_name then base_name else name)
      else best_loop r cname base_name arity names'
  end.
Definition BestOverloadMatch (r : full_registry) (cname base_name : string) (arity : nat) : option string :=
  if IsSpecialFunction base_name then Some base_name
  else best_loop r cname base_name arity (FullyQualifiedNames cname base_name).

(* common/ast/metadata.h Reference *)
Record Reference := mkReference { ref_name : string; ref_has_overloads : bool; ref_value : option constant }.
Definition ReferenceMap := list (Z * Reference).
(* rewritten_reference_ and the issues so far, newest first *)
Record rstate := mkState { marked : list Z; issues : list string }.
Definition warn (st : rstate) (m : string) : rstate := mkState (marked st) (m :: issues st).
Definition mark (st : rstate) (id : Z) : rstate := mkState (id :: marked st) (issues st).
(* 298-312 GetReferenceForId *)
Definition find_reference (refs : ReferenceMap) (id : Z) : option Reference :=
  option_map snd (find (fun e => Z.eqb (fst e) id) refs).
Definition GetReferenceForId (refs : ReferenceMap) (id : Z) (st : rstate) : option Reference * rstate :=
  match find_reference refs id with
  | None => (None, st)
  | Some ref => if (id =? 0)%Z then (None, warn st "reference map entries for expression id 0 are not supported") else (Some ref, st)
  end.

(* 247-257 MaybeUpdateSelectNode *)
Definition MaybeUpdateSelectNode (e : Expr) (ref : Reference) (st : rstate) : Expr * bool * rstate :=
  match e with
  | Select id _ _ true => (e, false, warn st "Reference map points to a presence test -- has(container.attr)")
  | Select id _ _ false =>
      if negb (String.eqb (ref_name ref) "") then (Ident id (ref_name ref), true, mark st id) else (e, false, st)
  | _ => (e, false, st)
  end.
(* 261-269 MaybeUpdateIdentNode *)
Definition MaybeUpdateIdentNode (e : Expr) (ref : Reference) (st : rstate) : Expr * bool * rstate :=
  match e with
  | Ident id name =>
      if negb (String.eqb (ref_name ref) "") && negb (String.eqb (ref_name ref) name)
      then (Ident id (ref_name ref), true, mark st id) else (e, false, st)
  | _ => (e, false, st)
  end.
(* 137-174 PreVisitRewrite *)
Definition ResolverPreVisit (refs : ReferenceMap) (e : Expr) (st : rstate) : Expr * bool * rstate :=
  let '(reference, st) := GetReferenceForId refs (expr_id e) st in
  match reference with
  | None => (e, false, st)
  | Some ref =>
      match ref_value ref with
      | Some (CInt n) => (Const (expr_id e) (CInt n), true, st)
      | Some v =>
          match e with
          | Ident id name =>
              if match v with CNull => true | _ => false end && String.eqb name "google.protobuf.NullValue.NULL_VALUE" then (e, false, st)
              else (Const id v, true, st)
          | _ => (e, false, st)
          end
      | None =>
          match e with
          | Ident _ _ => MaybeUpdateIdentNode e ref st
          | Select _ _ _ _ => MaybeUpdateSelectNode e ref st
          | _ => (e, false, st)
          end
      end
  end.
(* 271-296 ToNamespace *)
Fixpoint ToNamespace (st : rstate) (e : Expr) : option string :=
  if existsb (Z.eqb (expr_id e)) (marked st) then None
  else match e with
       | Ident _ name => Some name
       | Select _ operand field test_only =>
           if test_only then None
           else match operand with
                | Some o => match ToNamespace st o with Some p => Some (p ++ "." ++ field)%string | None => None end
                | None => None
                end
       | _ => None
       end.
Definition no_overload : string := "No overload found in reference resolve step for ".
(* 187-243 MaybeUpdateCallNode *)
Definition MaybeUpdateCallNode (r : full_registry) (cname : string) (reference : option Reference) (e : Expr) (st : rstate) : Expr * bool * rstate :=
  match e with
  | Call id function target args =>
      let st := match reference with
                | Some ref => if ref_has_overloads ref then st else warn st "Reference map doesn't provide overloads for "
                | None => st end in
      let arg_num := List.length args in
      match target with
      | Some t =>
          let resolved := match ToNamespace st t with
                          | Some ns => BestOverloadMatch r cname (ns ++ "." ++ function)%string arg_num
                          | None => None end in
          match resolved with
          | Some f => (Call id f None args, true, st)
          | None =>
              if negb (IsSpecialFunction function) && negb (OverloadExists r cname function (arg_num + 1) true)
              then (e, false, warn st no_overload) else (e, false, st)
          end
      | None =>
          match BestOverloadMatch r cname function arg_num with
          | None => (e, false, warn st no_overload)
          | Some f => if negb (String.eqb f function) then (Call id f None args, true, st) else (e, false, st)
          end
      end
  | _ => (e, false, st)
  end.
(* 176-182 PostVisitRewrite *)
Definition ResolverPostVisit (r : full_registry) (cname : string) (refs : ReferenceMap) (e : Expr) (st : rstate) : Expr * bool * rstate :=
  let '(reference, st) := GetReferenceForId refs (expr_id e) st in
  match e with
  | Call _ _ _ _ => MaybeUpdateCallNode r cname reference e st
  | _ => (e, false, st)
  end.

(* 109-133 the visitor; the state is changed in place *)
Definition resolver (r : full_registry) (cname : string) (refs : ReferenceMap) : AstRewriter rstate :=
  mkRewriter rstate
    (fun st e => let '(e', b, st') := ResolverPreVisit refs e st in (st', e', b))
    (fun st e => let '(e', b, st') := ResolverPostVisit r cname refs e st in (st', e', b))
    (fun st _ => st) (fun st _ => st).
Definition no_state : rstate := mkState [] [].
(* 341-353 ResolveReferences; None if the traversal has not ended within the fuel *)
Definition ResolveReferences (fuel : nat) (r : full_registry) (cname : string) (fail_on_warnings : bool) (refs : ReferenceMap) (e : Expr)
  : option (Expr * out bool) :=
  match AstRewrite (resolver r cname refs) false fuel no_state e with
  | Some (Val (st, e', b)) =>
      Some (e', match (if fail_on_warnings then rev (issues st) else []) with
                | m :: _ => Err (mkStatus kInvalidArgument m)
                | [] => Val b
                end)
  | Some _ => Some (e, UB)
  | None => None
  end.
(* 322-339 ReferenceResolverExtension::UpdateAst *)
Definition UpdateAst (fuel : nat) (checked_only : bool) (r : full_registry) (cname : string) (fail_on_warnings : bool) (refs : ReferenceMap) (e : Expr)
  : option (Expr * out unit) :=
  if checked_only && match refs with [] => true | _ => false end then Some (e, Val tt)
  else match ResolveReferences fuel r cname fail_on_warnings refs e with
       | Some (e', s) => Some (e', match s with Val _ => Val tt | Err x => Err x | UB => UB end)
       | None => None
       end.
