(* The type checker's visitor: checker/internal/type_checker_impl.cc, on top of
   the inference context of M_Infer, with the scopes of
   checker/internal/type_check_env.h and the visiting order of
   common/ast_traverse.cc.

   Simplifications.  The container is empty and no declared variable, type
   constant or function has a dot in its name, so that a name has a single
   candidate and a chain of selects is never one name
   (ResolveQualifiedIdentifier then resolves its first segment and the selects
   one by one); references and warnings are left out; of the error issues only
   the number is kept; message construction, cel.@block and the limits on nodes
   and issues are not modelled. *)
From Coq Require Import String List Bool NArith ZArith Ascii.
From Verif Require Import Base M_Overflow M_Number M_Attr M_Value M_Logic M_Expr M_Infer.
Import ListNotations.
Local Open Scope string_scope.
Open Scope list_scope.
Local Open Scope nat_scope.

(* TypeCheckEnv: LookupGlobalIdentifier (type_checker_impl.cc:971-995, the
   declared variables and the constants of the type providers, enum constants
   as int), LookupFunction (type_check_env.cc:43-50) and the type of
   LookupStructField. *)
Record decls := mkDecls {
  d_vars : string -> option ty;
  d_funcs : string -> option (list overload_decl);
  d_fields : string -> string -> option ty }.

(* VariableScope, type_check_env.h:50-82: the variables of the scope and of its
   parents, innermost first. *)
Definition scope := list (string * ty).
Fixpoint scope_find (G : scope) (x : string) : option ty :=
  match G with
  | [] => None
  | (y, t) :: G' => if String.eqb y x then Some t else scope_find G' x
  end.

(* The types recorded for an expression and its parts (types_), in the shape of
   the expression: parts in the order they are visited. *)
Inductive ttree := Node (t : ty) (parts : list ttree).
Definition tt_type (n : ttree) : ty := match n with Node t _ => t end.

(* The recorded types, the number of error issues, the inference context. *)
Definition checked := option (ttree * nat * context).

(* PostVisitConst, 510-549 *)
Definition const_type (v : value) : ty * nat :=
  match v with
  | VNull => (TNull, 0)
  | VBool _ => (TPrim PBool, 0)
  | VInt _ => (TPrim PInt, 0)
  | VUint _ => (TPrim PUint, 0)
  | VDouble _ => (TPrim PDouble, 0)
  | VBytes _ => (TPrim PBytes, 0)
  | VString _ => (TPrim PString, 0)
  | VDuration _ => (TDuration, 0)
  | VTimestamp _ => (TTimestamp, 0)
  | _ => (TError, 1)
  end.

(* ResolveSimpleIdentifier, 997-1033, with LookupLocalIdentifier, 961-969: a
   leading dot skips the local variables *)
Definition split_root (name : string) : bool * string :=
  match name with
  | String "."%char rest => (true, rest)
  | _ => (false, name)
  end.
Definition ident_type (D : decls) (c : context) (G : scope) (name : string) : ty * nat * context :=
  let (root, x) := split_root name in
  match (if root then None else scope_find G x) with
  | Some t => let '(t', c', _) := instantiate c [] t in (t', 0, c')
  | None =>
      match d_vars D x with
      | Some t => let '(t', c', _) := instantiate c [] t in (t', 0, c')
      | None => (TError, 1, c)
      end
  end.

(* Type::IsOptional, OptionalType::GetParameter *)
Definition optional_of (t : ty) : ty := TOpaque "optional_type" [t].
Definition as_optional (t : ty) : option ty :=
  match t with
  | TOpaque n [p] => if String.eqb n "optional_type" then Some p else None
  | _ => None
  end.

(* CheckFieldType, 1105-1156: None when an issue was reported *)
Definition field_type (fuel : nat) (D : decls) (c : context) (t : ty) (field : string)
  : option (option ty * context) :=
  match t with
  | TDyn | TAny => Some (Some TDyn, c)
  | TStruct n =>
      Some (match d_fields D n field with
            | Some (TEnum _) => Some (TPrim PInt)
            | o => o
            end, c)
  | TMap _ v => Some (Some v, c)
  | TParam _ =>
      match is_assignable fuel c TDyn t with
      | None => None
      | Some (true, c') => Some (Some TDyn, c')
      | Some (false, c') => Some (None, c')
      end
  | _ => Some (None, c)
  end.

(* ResolveSelectOperation, 1158-1187 *)
Definition select_type (fuel : nat) (D : decls) (c : context) (t : ty) (field : string)
    (test_only : bool) : option (ty * nat * context) :=
  match (match as_optional t with
         | Some h =>
             match field_type fuel D c h field with
             | None => None
             | Some (o, c') => Some (option_map optional_of o, c')
             end
         | None => field_type fuel D c t field
         end) with
  | None => None
  | Some (None, c') => Some (TError, 1, c')
  | Some (Some u, c') => Some (if test_only then TPrim PBool else u, 0, c')
  end.

(* ResolveFunctionCallShape, 889-913 *)
Definition is_logical (fn : string) (arity : nat) : bool :=
  (String.eqb fn "_&&_" || String.eqb fn "_||_") && Nat.leb 2 arity.
Definition call_shape (D : decls) (fn : string) (arity : nat) (receiver : bool)
  : option (list overload_decl) :=
  match d_funcs D fn with
  | None => None
  | Some ovls =>
      if existsb (fun o => Bool.eqb (od_member o) receiver
                           && (Nat.eqb (length (od_args o)) arity || is_logical fn arity)) ovls
      then Some ovls else None
  end.

(* PostVisitCall, 721-761, and ResolveFunctionOverloads, 915-959, for the types
   of the target (if any) and the arguments *)
Definition call_type (fuel : nat) (D : decls) (c : context) (fn : string) (receiver : bool)
    (args : list ty) : option (ty * nat * context) :=
  match call_shape D fn (length args) receiver with
  | None => Some (TError, 1, c)
  | Some ovls =>
      match resolve_overload fuel c fn ovls args receiver with
      | None => None
      | Some (None, c') => Some (TError, 1, c')
      | Some (Some (t, _), c') => Some (t, 0, c')
      end
  end.

(* HandleOptSelect, 1189-1225, for a call of "_?._" with these arguments; its
   status errors count as one issue *)
Definition opt_select_type (fuel : nat) (D : decls) (c : context) (args : list expr)
    (ts : list ty) : option (ty * nat * context) :=
  match args, ts with
  | [_; EConst (VString f)], [t; _] =>
      let h := match as_optional t with Some h => h | None => t end in
      match field_type fuel D c h (string_of_list_ascii (map (fun z => ascii_of_nat (Z.to_nat z)) f)) with
      | None => None
      | Some (None, c') => Some (TError, 1, c')
      | Some (Some u, c') => Some (optional_of u, 0, c')
      end
  | _, _ => Some (TError, 1, c)
  end.

(* The element types of a literal, 645-659 and 605-616: an optional element
   contributes the type it holds, or an issue and nothing *)
Fixpoint held_types (l : list (bool * ty)) : list ty * nat :=
  match l with
  | [] => ([], 0)
  | (opt, t) :: l' =>
      let (ts, n) := held_types l' in
      if opt then match as_optional t with Some h => (h :: ts, n) | None => (ts, S n) end
      else (t :: ts, n)
  end.

(* The types of the keys and of the values of a map literal *)
Fixpoint entry_types (l : list ttree) : list ty * list ty :=
  match l with
  | k :: v :: l' => let (ks, vs) := entry_types l' in (tt_type k :: ks, tt_type v :: vs)
  | _ => ([], [])
  end.

(* The variables of a loop, 827-880: the iteration variables' types and the
   number of issues *)
Definition iter_scope (x x2 : string) (range : ty) : scope * nat :=
  let '(one, k, v, n) :=
    match range with
    | TList e => (e, TPrim PInt, e, 0)
    | TMap k v => (k, k, v, 0)
    | TDyn => (TDyn, TDyn, TDyn, 0)
    | _ => (TDyn, TDyn, TDyn, 1)
    end in
  (if String.eqb x2 "" then [(x, one)] else [(x, k); (x2, v)], n).

(* A chain of selects on an identifier: as the target of a call it is resolved
   after the arguments (PostVisitIdent, 465-508, and PostVisitCall, 727-743) *)
Fixpoint is_chain (e : expr) : bool :=
  match e with
  | EIdent _ => true
  | ESelect a _ false => is_chain a
  | _ => false
  end.

(* Parts visited one after the other. *)
Definition check_all {A} (f : context -> A -> option (list ttree * nat * context)) :=
  fix go (c : context) (l : list A) : option (list ttree * nat * context) :=
    match l with
    | [] => Some ([], 0, c)
    | x :: l' =>
        match f c x with
        | None => None
        | Some (ns, m, c1) =>
            match go c1 l' with
            | None => None
            | Some (ns', m', c2) => Some (ns ++ ns', m + m', c2)
            end
        end
    end.
Definition single (r : checked) : option (list ttree * nat * context) :=
  match r with
  | None => None
  | Some (n, m, c) => Some ([n], m, c)
  end.
(* the entry of the expression itself, after its parts *)
Definition finish (parts : list ttree) (m : nat) (r : option (ty * nat * context)) : checked :=
  match r with
  | None => None
  | Some (t, m', c) => Some (Node t parts, m + m', c)
  end.

(* The traversal; [fuel] is the fuel of each inference step. *)
Fixpoint check (fuel : nat) (D : decls) (c : context) (G : scope) (e : expr) {struct e} : checked :=
  match e with
  | EConst v => let (t, m) := const_type v in Some (Node t [], m, c)
  | EIdent x => let '(t, m, c') := ident_type D c G x in Some (Node t [], m, c')
  | ESelect a f test_only =>
      match check fuel D c G a with
      | None => None
      | Some (n, m, c1) => finish [n] m (select_type fuel D c1 (tt_type n) f test_only)
      end
  | ECall fn target args =>
      let targets c := match target with
                       | None => Some ([], 0, c)
                       | Some t => single (check fuel D c G t)
                       end in
      let arguments c := check_all (fun c a => single (check fuel D c G a)) c args in
      let late := match target with Some t => is_chain t | None => false end in
      match (if late
             then match arguments c with
                  | None => None
                  | Some (us, m, c1) =>
                      match targets c1 with
                      | None => None
                      | Some (ns, m', c2) => Some (ns ++ us, m + m', c2)
                      end
                  end
             else match targets c with
                  | None => None
                  | Some (ns, m, c1) =>
                      match arguments c1 with
                      | None => None
                      | Some (us, m', c2) => Some (ns ++ us, m + m', c2)
                      end
                  end) with
      | None => None
      | Some (parts, m, c1) =>
          if String.eqb fn "_?._"
          then finish parts m
                 (opt_select_type fuel D c1 args
                    (map tt_type (match target with None => parts | Some _ => tl parts end)))
          else finish parts m
                 (call_type fuel D c1 fn (match target with None => false | Some _ => true end)
                    (map tt_type parts))
      end
  | EList elems =>
      match check_all (fun c p => single (check fuel D c G (snd p))) c elems with
      | None => None
      | Some (parts, m, c1) =>
          let (ts, n) := held_types (combine (map fst elems) (map tt_type parts)) in
          match list_literal_type fuel c1 ts with
          | None => None
          | Some (t, c2) => Some (Node t parts, m + n, c2)
          end
      end
  | EMap ents =>
      match check_all (fun c p =>
              match check fuel D c G (fst (snd p)) with
              | None => None
              | Some (nk, m, c1) =>
                  match check fuel D c1 G (snd (snd p)) with
                  | None => None
                  | Some (nv, m', c2) => Some ([nk; nv], m + m', c2)
                  end
              end) c ents with
      | None => None
      | Some (parts, m, c1) =>
          let (keys, vals) := entry_types parts in
          let (ts, n) := held_types (combine (map fst ents) vals) in
          match map_literal_type fuel c1 keys ts with
          | None => None
          | Some (t, c2) => Some (Node t parts, m + n, c2)
          end
      end
  | EComp x x2 y range init cond step result =>
      match check fuel D c G range with
      | None => None
      | Some (nr, m1, c1) =>
      let (its, m2) := iter_scope x x2 (tt_type nr) in
      match check fuel D c1 G init with
      | None => None
      | Some (ni, m3, c2) =>
      let accu := (y, tt_type ni) :: G in
      match check fuel D c2 accu cond with
      | None => None
      | Some (nc, m4, c3) =>
      match check fuel D c3 (its ++ accu) step with
      | None => None
      | Some (ns, m5, c4) =>
      match check fuel D c4 accu result with
      | None => None
      | Some (nb, m6, c5) =>
      match fully_substitute fuel (cx_bindings c5) false (tt_type nb) with
      | None => None
      | Some t => Some (Node t [nr; ni; nc; ns; nb], m1 + m2 + m3 + m4 + m5 + m6, c5)
      end end end end end end
  end.

(* CheckImpl, 1330-1431: the traversal from an empty scope, and the expected
   type of the whole expression if one is set (AssertExpectedType, 308-313) *)
Definition check_ast (fuel : nat) (legacy : bool) (D : decls) (expected : option ty) (e : expr)
  : checked :=
  match check fuel D (new_context legacy) [] e with
  | None => None
  | Some (n, m, c) =>
      match expected with
      | None => Some (n, m, c)
      | Some t =>
          match is_assignable fuel c (tt_type n) t with
          | None => None
          | Some (ok, c') => Some (n, if ok then m else S m, c')
          end
      end
  end.

(* checker/standard_library.cc: the operators, `size` and `dyn`
   (AddArithmeticOps 124-218, AddLogicalOps 220-263, AddTypeConversions 265-270,
   AddEqualityOps 380-395, AddContainerOps 397-453, AddRelationOps 455-565
   without the mixed numeric comparisons). *)
Definition tint := TPrim PInt.
Definition tuint := TPrim PUint.
Definition tdouble := TPrim PDouble.
Definition tbool := TPrim PBool.
Definition tstring := TPrim PString.
Definition tbytes := TPrim PBytes.
Definition ovl (id : string) (result : ty) (args : list ty) := mkOverload id args result false.
Definition mem_ovl (id : string) (result : ty) (args : list ty) := mkOverload id args result true.
Definition list_a := TList (TParam "A").
Definition map_ab := TMap (TParam "A") (TParam "B").
Definition relation_ovls (p : string) : list overload_decl :=
  [ovl (p ++ "_int64") tbool [tint; tint]; ovl (p ++ "_uint64") tbool [tuint; tuint];
   ovl (p ++ "_double") tbool [tdouble; tdouble]; ovl (p ++ "_bool") tbool [tbool; tbool];
   ovl (p ++ "_string") tbool [tstring; tstring]; ovl (p ++ "_bytes") tbool [tbytes; tbytes];
   ovl (p ++ "_duration") tbool [TDuration; TDuration];
   ovl (p ++ "_timestamp") tbool [TTimestamp; TTimestamp]]%string.
Definition in_ovls : list overload_decl :=
  [ovl "in_list" tbool [TParam "A"; list_a]; ovl "in_map" tbool [TParam "A"; map_ab]].
Definition std_table : list (string * list overload_decl) :=
  [("_+_", [ovl "add_int64" tint [tint; tint]; ovl "add_double" tdouble [tdouble; tdouble];
            ovl "add_uint64" tuint [tuint; tuint];
            ovl "add_duration_duration" TDuration [TDuration; TDuration];
            ovl "add_duration_timestamp" TTimestamp [TDuration; TTimestamp];
            ovl "add_timestamp_duration" TTimestamp [TTimestamp; TDuration];
            ovl "add_bytes" tbytes [tbytes; tbytes]; ovl "add_string" tstring [tstring; tstring];
            ovl "add_list" list_a [list_a; list_a]]);
   ("_-_", [ovl "subtract_int64" tint [tint; tint]; ovl "subtract_uint64" tuint [tuint; tuint];
            ovl "subtract_double" tdouble [tdouble; tdouble];
            ovl "subtract_duration_duration" TDuration [TDuration; TDuration];
            ovl "subtract_timestamp_duration" TTimestamp [TTimestamp; TDuration];
            ovl "subtract_timestamp_timestamp" TDuration [TTimestamp; TTimestamp]]);
   ("_*_", [ovl "multiply_int64" tint [tint; tint]; ovl "multiply_uint64" tuint [tuint; tuint];
            ovl "multiply_double" tdouble [tdouble; tdouble]]);
   ("_/_", [ovl "divide_int64" tint [tint; tint]; ovl "divide_uint64" tuint [tuint; tuint];
            ovl "divide_double" tdouble [tdouble; tdouble]]);
   ("_%_", [ovl "modulo_int64" tint [tint; tint]; ovl "modulo_uint64" tuint [tuint; tuint]]);
   ("-_", [ovl "negate_int64" tint [tint]; ovl "negate_double" tdouble [tdouble]]);
   ("!_", [ovl "logical_not" tbool [tbool]]);
   ("_&&_", [ovl "logical_and" tbool [tbool; tbool]]);
   ("_||_", [ovl "logical_or" tbool [tbool; tbool]]);
   ("_?_:_", [ovl "conditional" (TParam "A") [tbool; TParam "A"; TParam "A"]]);
   ("@not_strictly_false", [ovl "not_strictly_false" tbool [tbool]]);
   ("__not_strictly_false__", [ovl "not_strictly_false" tbool [tbool]]);
   ("dyn", [ovl "to_dyn" TDyn [TParam "A"]]);
   ("_==_", [ovl "equals" tbool [TParam "A"; TParam "A"]]);
   ("_!=_", [ovl "not_equals" tbool [TParam "A"; TParam "A"]]);
   ("_[_]", [ovl "index_list" (TParam "A") [list_a; tint];
             ovl "index_map" (TParam "B") [map_ab; TParam "A"]]);
   ("@in", in_ovls); ("in", in_ovls); ("_in_", in_ovls);
   ("size", [ovl "size_list" tint [list_a]; mem_ovl "list_size" tint [list_a];
             ovl "size_map" tint [map_ab]; mem_ovl "map_size" tint [map_ab];
             ovl "size_bytes" tint [tbytes]; mem_ovl "bytes_size" tint [tbytes];
             ovl "size_string" tint [tstring]; mem_ovl "string_size" tint [tstring]]);
   ("_<_", relation_ovls "less"); ("_>_", relation_ovls "greater");
   ("_<=_", relation_ovls "less_equals"); ("_>=_", relation_ovls "greater_equals")].
Definition std_funcs (fn : string) : option (list overload_decl) :=
  option_map snd (find (fun p => String.eqb (fst p) fn) std_table).
