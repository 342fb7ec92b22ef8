(* Specification of type checking: which types the expressions of CEL have, and
   vocabulary for the hypotheses of the theorems. *)
From Coq Require Import String List Bool NArith ZArith Ascii.
From Verif Require Import Base M_Overflow M_Number M_Attr M_Value M_Logic M_Expr S_Macro M_Infer S_Infer.
From Verif Require Import M_Checker.
Import ListNotations.
Local Open Scope string_scope.
Open Scope list_scope.

(* What declaring a variable or function with type parameters means: it has
   every instance of the type.  [tsub s t] is t with its parameters replaced. *)

(* the type of a literal *)
Inductive literal : value -> ty -> Prop :=
| lit_null : literal VNull TNull
| lit_bool b : literal (VBool b) (TPrim PBool)
| lit_int i : literal (VInt i) (TPrim PInt)
| lit_uint u : literal (VUint u) (TPrim PUint)
| lit_double d : literal (VDouble d) (TPrim PDouble)
| lit_bytes s : literal (VBytes s) (TPrim PBytes)
| lit_string s : literal (VString s) (TPrim PString)
| lit_duration d : literal (VDuration d) TDuration
| lit_timestamp d : literal (VTimestamp d) TTimestamp.

(* values of type t have a member f of type u: the fields of messages, the
   entries of maps, and both through an optional *)
Inductive member (D : decls) : ty -> string -> ty -> Prop :=
| member_map k v f : member D (TMap k v) f v
| member_field n f t : d_fields D n f = Some t -> (forall m, t <> TEnum m) -> member D (TStruct n) f t
| member_enum n f m : d_fields D n f = Some (TEnum m) -> member D (TStruct n) f (TPrim PInt).

(* iterating over t with one or two variables gives them these types *)
Inductive iterates (x x2 : string) : ty -> scope -> Prop :=
| iter_list e : x2 = "" -> iterates x x2 (TList e) [(x, e)]
| iter_map k v : x2 = "" -> iterates x x2 (TMap k v) [(x, k)]
| iter_list2 e : x2 <> "" -> iterates x x2 (TList e) [(x, TPrim PInt); (x2, e)]
| iter_map2 k v : x2 <> "" -> iterates x x2 (TMap k v) [(x, k); (x2, v)].

(* e has type t, with the local variables G (innermost first) and the
   declarations D.  No rule mentions dyn: an expression that is well typed
   here needs no run-time type check. *)
Inductive wt (D : decls) : scope -> expr -> ty -> Prop :=
| wt_const G v t : literal v t -> wt D G (EConst v) t
| wt_local G x t :
    (forall r, x <> String "."%char r) -> scope_find G x = Some t -> wt D G (EIdent x) t
| wt_global G x T s :
    (forall r, x <> String "."%char r) -> scope_find G x = None -> d_vars D x = Some T ->
    wt D G (EIdent x) (tsub s T)
| wt_root G x T s :
    d_vars D x = Some T -> wt D G (EIdent (String "."%char x)) (tsub s T)
| wt_select G a f t u :
    wt D G a t -> member D t f u -> wt D G (ESelect a f false) u
| wt_has G a f t u :
    wt D G a t -> member D t f u -> wt D G (ESelect a f true) (TPrim PBool)
| wt_select_optional G a f t u :
    wt D G a (optional_of t) -> member D t f u -> wt D G (ESelect a f false) (optional_of u)
| wt_has_optional G a f t u :
    wt D G a (optional_of t) -> member D t f u -> wt D G (ESelect a f true) (TPrim PBool)
| wt_call G fn target args ovls o s ts :
    d_funcs D fn = Some ovls -> In o ovls ->
    od_member o = (match target with None => false | Some _ => true end) ->
    Forall2 (wt D G) (match target with None => args | Some t => t :: args end) ts ->
    ts = map (tsub s) (od_args o) ->
    wt D G (ECall fn target args) (tsub s (od_result o))
| wt_logical G fn target args ovls o s q qs ts :
    (* && and || take two or more operands, all of the first parameter's type *)
    fn = "_&&_" \/ fn = "_||_" ->
    d_funcs D fn = Some ovls -> In o ovls ->
    od_member o = (match target with None => false | Some _ => true end) ->
    od_args o = q :: qs ->
    Forall2 (wt D G) (match target with None => args | Some t => t :: args end) ts ->
    (2 <= length ts)%nat -> Forall (eq (tsub s q)) ts ->
    wt D G (ECall fn target args) (tsub s (od_result o))
| wt_list G elems t :
    Forall (fun p => wt D G (snd p) (if fst p : bool then optional_of t else t)) elems ->
    wt D G (EList elems) (TList t)
| wt_map G ents k v :
    Forall (fun p => wt D G (fst (snd p)) k /\
                     wt D G (snd (snd p)) (if fst p : bool then optional_of v else v)) ents ->
    wt D G (EMap ents) (TMap k v)
| wt_comp G x x2 y range init cond step result tr its ta t :
    wt D G range tr -> iterates x x2 tr its ->
    wt D G init ta ->
    wt D (its ++ (y, ta) :: G) cond (TPrim PBool) ->
    wt D (its ++ (y, ta) :: G) step ta ->
    wt D ((y, ta) :: G) result t ->
    wt D G (EComp x x2 y range init cond step result) t.

(* ---- the hypotheses ---- *)

(* the parts of an expression, in the order their types are recorded *)
Definition parts_of (e : expr) : list expr :=
  match e with
  | EConst _ | EIdent _ => []
  | ESelect a _ _ => [a]
  | ECall _ target args => match target with None => args | Some t => t :: args end
  | EList l => map snd l
  | EMap l => flat_map (fun p => [fst (snd p); snd (snd p)]) l
  | EComp _ _ _ r i c s b => [r; i; c; s; b]
  end.
(* a occurs in e, and n are the types recorded for a within those of e *)
Inductive recorded : expr -> ttree -> expr -> ttree -> Prop :=
| recorded_here e n : recorded e n e n
| recorded_part e t ns i a m b k :
    nth_error (parts_of e) i = Some a -> nth_error ns i = Some m ->
    recorded a m b k -> recorded e (Node t ns) b k.

(* types that declarations without dyn, null, wrappers and types of types use;
   their parameters are not named like the checker's own variables *)
Fixpoint declarable (t : ty) : Prop :=
  match t with
  | TPrim _ | TDuration | TTimestamp | TStruct _ => True
  | TParam n => is_type_var n = false
  | TList e => declarable e
  | TMap k v => declarable k /\ declarable v
  | TOpaque _ ps =>
      (fix all (l : list ty) : Prop :=
         match l with [] => True | x :: r => declarable x /\ all r end) ps
  | _ => False
  end.

(* what the final bindings make of a recorded type *)
Definition resolves (b : bindings) (t u : ty) : Prop :=
  exists k, fully_substitute k b false t = Some u.

(* e is within the fragment whose types are statically known, given the types n
   recorded for it and the final bindings b:
   - no recorded type is dyn or one of the types treated like it;
   - the variables and functions it uses are declared without such types;
   - the operand of a select has a type that is not a bare type variable;
   - loop conditions are boolean, loop steps have the accumulator's type, and
     conditions do not read the loop's own variables;
   - it does not use the optional select operator. *)
Definition static (D : decls) (b : bindings) (e : expr) (n : ttree) : Prop :=
  (forall a m, recorded e n a m -> plain (tt_type m)) /\
  (forall x m T, recorded e n (EIdent x) m -> d_vars D (snd (split_root x)) = Some T -> declarable T) /\
  (forall fn target args m ovls, recorded e n (ECall fn target args) m ->
     fn <> "_?._" /\
     (d_funcs D fn = Some ovls ->
      forall o, In o ovls -> declarable (od_result o) /\ Forall declarable (od_args o))) /\
  (forall a f test m, recorded e n (ESelect a f test) m ->
     forall t k, m = Node t [k] ->
     forall v, tt_type k <> TParam v /\ tt_type k <> optional_of (TParam v)) /\
  (forall x x2 y r i c s body m, recorded e n (EComp x x2 y r i c s body) m ->
     free x c = false /\ free x2 c = false /\
     forall t nr ni nc ns nb, m = Node t [nr; ni; nc; ns; nb] ->
       resolves b (tt_type nc) (TPrim PBool) /\
       exists u, resolves b (tt_type ns) u /\ resolves b (tt_type ni) u).

(* the fields of messages have types without type parameters *)
Definition fields_ground (D : decls) : Prop :=
  forall n f t, d_fields D n f = Some t -> ground t.

(* the recorded types have the shape of the expression: one for every part *)
Inductive shaped : expr -> ttree -> Prop :=
| shaped_node e t ns : Forall2 shaped (parts_of e) ns -> shaped e (Node t ns).

(* b is e or occurs in it *)
Inductive part_of : expr -> expr -> Prop :=
| part_here e : part_of e e
| part_inside e a b : In a (parts_of e) -> part_of a b -> part_of e b.

(* a call of this name, style and number of arguments has a declaration; && and
   || take any number of arguments from two *)
Definition call_declared (D : decls) (fn : string) (member : bool) (arity : nat) : Prop :=
  exists ovls o, d_funcs D fn = Some ovls /\ In o ovls /\ od_member o = member /\
    (length (od_args o) = arity \/ ((fn = "_&&_" \/ fn = "_||_") /\ (2 <= arity)%nat)).
