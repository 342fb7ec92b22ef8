(* The type inference context of the type checker:
   checker/internal/type_inference_context.h and .cc, with the parts of
   common/type.h it uses.

   Loops and recursions whose termination is itself a claim run on fuel;
   [None] means "has not finished within this much fuel". *)
From Coq Require Import String List Bool NArith.
From Coq Require Import Decimal DecimalString.
Import ListNotations.
Local Open Scope string_scope.
Open Scope list_scope.

(* The six primitive kinds that have a wrapper kind.
   common/type_kind.h lines 31-62. *)
Inductive prim := PBool | PInt | PUint | PDouble | PString | PBytes.

Definition prim_eqb (a b : prim) : bool :=
  match a, b with
  | PBool, PBool | PInt, PInt | PUint, PUint | PDouble, PDouble
  | PString, PString | PBytes, PBytes => true
  | _, _ => false
  end.

(* cel::Type, common/type.h.  Message types and basic struct types are both
   [TStruct]: they are compared by name (common/type.cc lines 131-139).
   [TType] carries no or one parameter (common/types/type_type.cc lines
   60-66); optional types are opaque types named "optional_type". *)
Inductive ty :=
| TNull | TPrim (p : prim) | TDuration | TTimestamp | TUnknown | TError | TAny
| TDyn
| TWrapper (p : prim)
| TStruct (name : string)
| TEnum (name : string)
| TParam (name : string)
| TType (ps : list ty)
| TList (elem : ty)
| TMap (key value : ty)
| TOpaque (name : string) (ps : list ty)
| TFunction (ps : list ty).

(* cel::TypeKind, common/type_kind.h lines 31-62. *)
Inductive tkind :=
| KNull | KPrim (p : prim) | KDuration | KTimestamp | KUnknown | KError | KAny
| KDyn | KWrapper (p : prim) | KStruct | KEnum | KParam | KType | KList | KMap
| KOpaque | KFunction.

Definition kind_of (t : ty) : tkind :=
  match t with
  | TNull => KNull | TPrim p => KPrim p | TDuration => KDuration
  | TTimestamp => KTimestamp | TUnknown => KUnknown | TError => KError
  | TAny => KAny | TDyn => KDyn | TWrapper p => KWrapper p
  | TStruct _ => KStruct | TEnum _ => KEnum | TParam _ => KParam
  | TType _ => KType | TList _ => KList | TMap _ _ => KMap
  | TOpaque _ _ => KOpaque | TFunction _ => KFunction
  end.

Definition tkind_eqb (a b : tkind) : bool :=
  match a, b with
  | KNull, KNull | KDuration, KDuration | KTimestamp, KTimestamp
  | KUnknown, KUnknown | KError, KError | KAny, KAny | KDyn, KDyn
  | KStruct, KStruct | KEnum, KEnum | KParam, KParam | KType, KType
  | KList, KList | KMap, KMap | KOpaque, KOpaque | KFunction, KFunction => true
  | KPrim p, KPrim q | KWrapper p, KWrapper q => prim_eqb p q
  | _, _ => false
  end.

(* Type::name, common/type.cc: for kinds other than these four the name is a
   constant of the kind. *)
Definition type_name (t : ty) : string :=
  match t with
  | TStruct n | TEnum n | TParam n | TOpaque n _ => n
  | _ => ""
  end.

(* Type::GetParameters, common/type.cc lines 123-129, list_type.cc 57-61,
   map_type.cc 68-72, opaque_type.cc 87-92, type_type.cc 60-66,
   function_type.cc 74-77 (result first, then the arguments). *)
Definition params (t : ty) : list ty :=
  match t with
  | TType ps | TOpaque _ ps | TFunction ps => ps
  | TList e => [e]
  | TMap k v => [k; v]
  | _ => []
  end.

(* operator== on types: common/type.cc lines 131-139, common/type.h lines
   1242-1280; all TypeType instances are equal (type_type.h lines 71-73). *)
Fixpoint ty_eqb (a b : ty) : bool :=
  let fix go (l m : list ty) : bool :=
    match l, m with
    | [], [] => true
    | x :: l', y :: m' => ty_eqb x y && go l' m'
    | _, _ => false
    end in
  match a, b with
  | TNull, TNull | TDuration, TDuration | TTimestamp, TTimestamp
  | TUnknown, TUnknown | TError, TError | TAny, TAny | TDyn, TDyn => true
  | TPrim p, TPrim q | TWrapper p, TWrapper q => prim_eqb p q
  | TStruct n, TStruct m | TEnum n, TEnum m | TParam n, TParam m =>
      String.eqb n m
  | TType _, TType _ => true
  | TList x, TList y => ty_eqb x y
  | TMap k v, TMap k' v' => ty_eqb k k' && ty_eqb v v'
  | TOpaque n l, TOpaque m l' => String.eqb n m && go l l'
  | TFunction l, TFunction l' => go l l'
  | _, _ => false
  end.

Definition is_null (t : ty) : bool := match t with TNull => true | _ => false end.
Definition is_param (t : ty) : bool :=
  match t with TParam _ => true | _ => false end.

(* IsWildCardType, type_inference_context.cc lines 40-49. *)
Definition is_wildcard (t : ty) : bool :=
  match t with TAny | TDyn | TError => true | _ => false end.

(* IsLegacyNullable, lines 58-69. *)
Definition is_legacy_nullable (t : ty) : bool :=
  match t with
  | TStruct _ | TDuration | TTimestamp | TAny | TOpaque _ _ => true
  | _ => false
  end.

(* IsTypeVar, line 71. *)
Definition is_type_var (name : string) : bool := String.prefix "T%" name.

(* IsUnionType, lines 73-87. *)
Definition is_union (t : ty) : bool :=
  match t with TAny | TDyn | TWrapper _ => true | _ => false end.

(* IsSubsetOf, lines 91-112: [b] is more general than [a] and admits it. *)
Definition is_subset_of (a b : ty) : bool :=
  match b with
  | TAny | TDyn => true
  | TWrapper p =>
      match a with TPrim q => prim_eqb p q | TNull => true | _ => false end
  | _ => false
  end.

(* WrapperToPrimitive, lines 135-152. *)
Definition wrapper_to_primitive (t : ty) : option ty :=
  match t with TWrapper p => Some (TPrim p) | _ => None end.

(* SubstitutionMap: header line 57.  Finding and assigning by name; an
   assignment replaces an earlier one. *)
Definition smap := list (string * ty).

Fixpoint sm_find (p : smap) (n : string) : option ty :=
  match p with
  | [] => None
  | (m, t) :: r => if String.eqb n m then Some t else sm_find r n
  end.

Fixpoint sm_remove (p : smap) (n : string) : smap :=
  match p with
  | [] => []
  | (m, t) :: r => if String.eqb n m then sm_remove r n else (m, t) :: sm_remove r n
  end.

Definition sm_set (p : smap) (n : string) (t : ty) : smap :=
  (n, t) :: sm_remove p n.

(* type_parameter_bindings_, header lines 146-149 and 208-221: a registered
   type variable is free ([None]) or bound.  TypeVar::name, used only for
   debug output, is left out. *)
Definition bindings := list (string * option ty).

Fixpoint bd_find (b : bindings) (n : string) : option (option ty) :=
  match b with
  | [] => None
  | (m, o) :: r => if String.eqb n m then Some o else bd_find r n
  end.

Fixpoint bd_set (b : bindings) (n : string) (t : ty) : bindings :=
  match b with
  | [] => []
  | (m, o) :: r =>
      if String.eqb n m then (m, Some t) :: r else (m, o) :: bd_set r n t
  end.

(* One step of the lookups in Substitute and OccursWithin, lines 361-371 and
   476-485: prospective substitutions first, then the bindings. *)
Definition resolve (b : bindings) (p : smap) (n : string) : option ty :=
  match sm_find p n with
  | Some t => Some t
  | None => match bd_find b n with Some (Some t) => Some t | _ => None end
  end.

(* Substitute, lines 356-374. *)
Fixpoint substitute (fuel : nat) (b : bindings) (p : smap) (t : ty)
  : option ty :=
  match fuel with
  | O => None
  | S k =>
      match t with
      | TParam n =>
          match resolve b p n with
          | Some u => substitute k b p u
          | None => Some t
          end
      | _ => Some t
      end
  end.

(* A short-circuiting "any of" loop. *)
Fixpoint any_opt (f : ty -> option bool) (l : list ty) : option bool :=
  match l with
  | [] => Some false
  | x :: r =>
      match f x with
      | None => None
      | Some true => Some true
      | Some false => any_opt f r
      end
  end.

(* OccursWithin, lines 447-497.  An iteration of the while loop on a bound
   variable does what a recursive call on the bound type would do. *)
Fixpoint occurs_within (fuel : nat) (b : bindings) (p : smap) (v : string)
  (t : ty) : option bool :=
  match fuel with
  | O => None
  | S k =>
      match t with
      | TParam n =>
          if String.eqb n v then Some true
          else match resolve b p n with
               | Some u => occurs_within k b p v u
               | None => Some false
               end
      | _ => any_opt (occurs_within k b p v) (params t)
      end
  end.

(* RelativeGenerality, header lines 152-158. *)
Inductive generality := kMoreGeneral | kLessGeneral | kEquivalent.

(* The loop over the parameters of two opaque types, lines 426-439. *)
Fixpoint max_generality (cmp : ty -> ty -> option generality)
  (acc : generality) (fs ts : list ty) : option generality :=
  match fs, ts with
  | f :: fs', t :: ts' =>
      match cmp f t with
      | None => None
      | Some kLessGeneral => Some kLessGeneral
      | Some kMoreGeneral => max_generality cmp kMoreGeneral fs' ts'
      | Some kEquivalent => max_generality cmp acc fs' ts'
      end
  | _, _ => Some acc
  end.

(* CompareGenerality, lines 376-445. *)
Fixpoint compare_generality (fuel : nat) (legacy : bool) (b : bindings)
  (p : smap) (from to : ty) : option generality :=
  match fuel with
  | O => None
  | S k =>
      match substitute k b p from, substitute k b p to with
      | Some f, Some t =>
          if ty_eqb f t then Some kEquivalent
          else if is_union f && is_subset_of t f then Some kMoreGeneral
          else if is_union t then Some kLessGeneral
          else if legacy && is_legacy_nullable f && is_null t
               then Some kMoreGeneral
          else
            match f, t with
            | TList x, TList y => compare_generality k legacy b p x y
            | TMap fk fv, TMap tk tv =>
                match compare_generality k legacy b p fk tk,
                      compare_generality k legacy b p fv tv with
                | Some kLessGeneral, Some _ | Some _, Some kLessGeneral =>
                    Some kLessGeneral
                | Some kMoreGeneral, Some _ | Some _, Some kMoreGeneral =>
                    Some kMoreGeneral
                | Some kEquivalent, Some kEquivalent => Some kEquivalent
                | _, _ => None
                end
            | TOpaque n fs, TOpaque m ts =>
                if String.eqb n m && Nat.eqb (length fs) (length ts)
                then max_generality (compare_generality k legacy b p)
                       kEquivalent fs ts
                else Some kEquivalent
            | _, _ => Some kEquivalent
            end
      | _, _ => None
      end
  end.

(* IsAssignableWithConstraints, lines 499-535. *)
Definition assignable_with_constraints (fuel : nat) (b : bindings) (p : smap)
  (from to : ty) : option (bool * smap) :=
  match from, to with
  | TParam fn, TParam tn =>
      Some (true, if String.eqb tn fn then p else sm_set p fn to)
  | _, TParam n =>
      match occurs_within fuel b p n from with
      | None => None
      | Some false => Some (true, sm_set p n from)
      | Some true => Some (is_wildcard from || is_wildcard to, p)
      end
  | TParam n, _ =>
      match occurs_within fuel b p n to with
      | None => None
      | Some false => Some (true, sm_set p n to)
      | Some true => Some (is_wildcard from || is_wildcard to, p)
      end
  | _, _ => Some (is_wildcard from || is_wildcard to, p)
  end.

(* The loop over the type parameters, lines 347-352. *)
Fixpoint check_params (chk : smap -> ty -> ty -> option (bool * smap))
  (p : smap) (fs ts : list ty) : option (bool * smap) :=
  match fs, ts with
  | f :: fs', t :: ts' =>
      match chk p f t with
      | None => None
      | Some (false, p1) => Some (false, p1)
      | Some (true, p1) => check_params chk p1 fs' ts'
      end
  | _, _ => Some (true, p)
  end.

(* The attempt to widen a prospective binding, lines 259-279: [Some (Some p)]
   when it succeeds, [Some None] when the normal check continues.  [chk] is
   the recursive call of IsAssignableInternal. *)
Definition try_widen (fuel : nat) (legacy : bool) (b : bindings)
  (chk : smap -> ty -> ty -> option (bool * smap)) (p : smap)
  (to from_subs to_subs : ty) : option (option smap) :=
  match to with
  | TParam n =>
      match sm_find p n with
      | None => Some None
      | Some _ =>
          match compare_generality fuel legacy b p from_subs to_subs with
          | None => None
          | Some kMoreGeneral =>
              match chk p to_subs from_subs with
              | None => None
              | Some (false, _) => Some None
              | Some (true, cpy) =>
                  match occurs_within fuel b cpy n from_subs with
                  | None => None
                  | Some true => Some None
                  | Some false => Some (Some (sm_set cpy n from_subs))
                  end
              end
          | Some _ => Some None
          end
      end
  | _ => Some None
  end.

(* IsAssignableInternal from line 281 on, for two types that are as concrete as
   the substitutions make them and different: lines 281-353.  [chk] is the
   recursive call. *)
Definition assign_concrete (legacy : bool)
  (chk : smap -> ty -> ty -> option (bool * smap)) (p : smap)
  (from_subs to_subs : ty) : option (bool * smap) :=
  match wrapper_to_primitive to_subs with
  | Some w =>
      if is_null from_subs then Some (true, p) else chk p w from_subs
  | None =>
  match wrapper_to_primitive from_subs with
  | Some w => chk p w to_subs
  | None =>
  if legacy && is_null from_subs && is_legacy_nullable to_subs
  then Some (true, p)
  else if legacy && is_null to_subs && is_legacy_nullable from_subs
  then Some (true, p)
  else if tkind_eqb (kind_of from_subs) KType && tkind_eqb (kind_of to_subs) KType
  then Some (true, p)
  else if tkind_eqb (kind_of to_subs) KEnum
          && tkind_eqb (kind_of from_subs) (KPrim PInt)
  then Some (true, p)
  else if tkind_eqb (kind_of from_subs) KEnum
          && tkind_eqb (kind_of to_subs) (KPrim PInt)
  then Some (true, p)
  else if is_wildcard from_subs || is_wildcard to_subs
  then Some (true, p)
  else if negb (tkind_eqb (kind_of to_subs) (kind_of from_subs))
          || negb (String.eqb (type_name to_subs) (type_name from_subs))
  then Some (false, p)
  else if negb (Nat.eqb (length (params to_subs)) (length (params from_subs)))
  then Some (false, p)
  else check_params chk p (params from_subs) (params to_subs)
  end
  end.

(* IsAssignableInternal, lines 239-354.  The result carries the prospective
   substitutions as they are left, also when the check fails. *)
Fixpoint assignable_internal (fuel : nat) (legacy : bool) (b : bindings)
  (p : smap) (from to : ty) : option (bool * smap) :=
  match fuel with
  | O => None
  | S k =>
      match substitute k b p to, substitute k b p from with
      | Some to_subs, Some from_subs =>
          if ty_eqb to_subs from_subs then Some (true, p)
          else if is_param to_subs || is_param from_subs then
            assignable_with_constraints k b p from_subs to_subs
          else
            match try_widen k legacy b (assignable_internal k legacy b) p
                    to from_subs to_subs with
            | None => None
            | Some (Some p') => Some (true, p')
            | Some None =>
                assign_concrete legacy (assignable_internal k legacy b) p
                  from_subs to_subs
            end
      | _, _ => None
      end
  end.

(* UpdateTypeParameterBindings, lines 592-606: names that are not registered
   are only logged.  The names are distinct, so the order does not matter. *)
Fixpoint update_bindings (b : bindings) (p : smap) : bindings :=
  match p with
  | [] => b
  | (n, t) :: r => bd_set (update_bindings b r) n t
  end.

(* TypeInferenceContext, header lines 221-224, without the arena. *)
Record context := mkContext {
  cx_bindings : bindings;
  cx_next_id : N;
  cx_legacy : bool }.

(* The constructor, header lines 98-101. *)
Definition new_context (legacy : bool) : context := mkContext [] 0 legacy.

Definition set_bindings (c : context) (b : bindings) : context :=
  mkContext b (cx_next_id c) (cx_legacy c).

(* IsAssignable, lines 230-237. *)
Definition is_assignable (fuel : nat) (c : context) (from to : ty)
  : option (bool * context) :=
  match assignable_internal fuel (cx_legacy c) (cx_bindings c) [] from to with
  | None => None
  | Some (true, p) => Some (true, set_bindings c (update_bindings (cx_bindings c) p))
  | Some (false, _) => Some (false, c)
  end.

(* AssignabilityContext::IsAssignable, lines 658-662: the prospective
   substitutions of the helper are kept from check to check. *)
Definition ctx_is_assignable (fuel : nat) (c : context) (p : smap)
  (from to : ty) : option (bool * smap) :=
  assignable_internal fuel (cx_legacy c) (cx_bindings c) p from to.

(* AssignabilityContext::UpdateInferredTypeAssignments, lines 677-681. *)
Definition ctx_update (c : context) (p : smap) : context * smap :=
  (set_bindings c (update_bindings (cx_bindings c) p), []).

(* absl::StrCat of an integer. *)
Definition decimal (n : N) : string := NilEmpty.string_of_uint (N.to_uint n).

(* NewTypeVar, header lines 160-166.  insert does not overwrite.  The
   overflow of the 64-bit counter is not modelled. *)
Definition new_type_var (c : context) : string * context :=
  let id := N.succ (cx_next_id c) in
  let n := ("T%" ++ decimal id)%string in
  let b := match bd_find (cx_bindings c) n with
           | Some _ => cx_bindings c
           | None => (n, None) :: cx_bindings c
           end in
  (n, mkContext b id (cx_legacy c)).

(* InstanceMap, header line 45. *)
Definition imap := list (string * string).

Fixpoint im_find (m : imap) (n : string) : option string :=
  match m with
  | [] => None
  | (k, v) :: r => if String.eqb n k then Some v else im_find r n
  end.

(* InstantiateTypeParams, lines 156-228. *)
Fixpoint instantiate (c : context) (m : imap) (t : ty)
  : ty * context * imap :=
  let fix go (c : context) (m : imap) (l : list ty)
    : list ty * context * imap :=
    match l with
    | [] => ([], c, m)
    | x :: r =>
        let '(x', c1, m1) := instantiate c m x in
        let '(r', c2, m2) := go c1 m1 r in
        (x' :: r', c2, m2)
    end in
  match t with
  | TParam n =>
      if is_type_var n then (t, c, m)
      else match im_find m n with
           | Some v => (TParam v, c, m)
           | None =>
               let '(v, c') := new_type_var c in
               (TParam v, c', (n, v) :: m)
           end
  | TType [] => (t, c, m)
  | TType [x] =>
      let '(x', c', m') := instantiate c m x in (TType [x'], c', m')
  | TType _ => (TError, c, m)
  | TList e => let '(e', c', m') := instantiate c m e in (TList e', c', m')
  | TMap k v =>
      let '(k', c1, m1) := instantiate c m k in
      let '(v', c2, m2) := instantiate c1 m1 v in
      (TMap k' v', c2, m2)
  | TOpaque n ps =>
      let '(ps', c', m') := go c m ps in (TOpaque n ps', c', m')
  | TUnknown | TEnum _ | TFunction _ => (TError, c, m)
  | _ => (t, c, m)
  end.

Definition map_opt {A B} (f : A -> option B) : list A -> option (list B) :=
  fix go l :=
    match l with
    | [] => Some []
    | x :: r =>
        match f x, go r with
        | Some y, Some s => Some (y :: s)
        | _, _ => None
        end
    end.

(* FullySubstitute, lines 612-656. *)
Fixpoint fully_substitute (fuel : nat) (b : bindings) (free_to_dyn : bool)
  (t : ty) : option ty :=
  match fuel with
  | O => None
  | S k =>
      match t with
      | TParam _ =>
          match substitute k b [] t with
          | None => None
          | Some (TParam n) => Some (if free_to_dyn then TDyn else TParam n)
          | Some u => fully_substitute k b free_to_dyn u
          end
      | TType [] => Some t
      | TType ps => option_map TType (map_opt (fully_substitute k b free_to_dyn) ps)
      | TList e => option_map TList (fully_substitute k b free_to_dyn e)
      | TMap x y =>
          match fully_substitute k b free_to_dyn x,
                fully_substitute k b free_to_dyn y with
          | Some x', Some y' => Some (TMap x' y')
          | _, _ => None
          end
      | TOpaque n ps =>
          option_map (TOpaque n) (map_opt (fully_substitute k b free_to_dyn) ps)
      | _ => Some t
      end
  end.

(* FinalizeType, header lines 116-118. *)
Definition finalize_type (fuel : nat) (c : context) (t : ty) : option ty :=
  fully_substitute fuel (cx_bindings c) true t.

(* OverloadDecl, common/decl.h: the parts overload resolution reads. *)
Record overload_decl := mkOverload {
  od_id : string; od_args : list ty; od_result : ty; od_member : bool }.

(* InstantiateFunctionOverload, lines 119-133. *)
Fixpoint instantiate_list (c : context) (m : imap) (l : list ty)
  : list ty * context * imap :=
  match l with
  | [] => ([], c, m)
  | x :: r =>
      let '(x', c1, m1) := instantiate c m x in
      let '(r', c2, m2) := instantiate_list c1 m1 r in
      (x' :: r', c2, m2)
  end.

Definition instantiate_overload (c : context) (o : overload_decl)
  : ty * list ty * context :=
  let '(res, c1, m1) := instantiate c [] (od_result o) in
  let '(args, c2, _) := instantiate_list c1 m1 (od_args o) in
  (res, args, c2).

(* The loop over the arguments of a call, lines 562-570. *)
Fixpoint check_args (fuel : nat) (c : context) (logical : bool) (p : smap)
  (args : list ty) (ps : list ty) : option (bool * smap) :=
  match args with
  | [] => Some (true, p)
  | a :: args' =>
      match ps with
      | [] => Some (false, p)   (* only for a logical operator declared without
                                   parameters, where the code reads past the
                                   end; the standard ones have two *)
      | q :: ps' =>
          match ctx_is_assignable fuel c p a q with
          | None => None
          | Some (false, p1) => Some (false, p1)
          | Some (true, p1) =>
              check_args fuel c logical p1 args' (if logical then ps else ps')
          end
      end
  end.

(* ResolveOverload, lines 537-590.  [logical] is is_logical_op. *)
Fixpoint resolve_loop (fuel : nat) (c : context) (logical : bool)
  (args : list ty) (receiver : bool) (result : option ty)
  (matching : list overload_decl) (ovls : list overload_decl)
  : option (option ty * list overload_decl * context) :=
  match ovls with
  | [] => Some (result, matching, c)
  | o :: r =>
      if negb (Bool.eqb (od_member o) receiver)
         || (negb logical && negb (Nat.eqb (length args) (length (od_args o))))
      then resolve_loop fuel c logical args receiver result matching r
      else
        let '(res, ps, c1) := instantiate_overload c o in
        match check_args fuel c1 logical [] args ps with
        | None => None
        | Some (false, _) =>
            resolve_loop fuel c1 logical args receiver result matching r
        | Some (true, p) =>
            let c2 := fst (ctx_update c1 p) in
            let result' :=
              match result with
              | None => res
              | Some t => if ty_eqb t res then t else TDyn
              end in
            resolve_loop fuel c2 logical args receiver (Some result')
              (matching ++ [o]) r
        end
  end.

Definition resolve_overload (fuel : nat) (c : context) (name : string)
  (ovls : list overload_decl) (args : list ty) (receiver : bool)
  : option (option (ty * list overload_decl) * context) :=
  let logical := (String.eqb name "_&&_" || String.eqb name "_||_")
                 && Nat.leb 2 (length args) in
  match resolve_loop fuel c logical args receiver None [] ovls with
  | None => None
  | Some (Some t, o :: os, c') =>
      match fully_substitute fuel (cx_bindings c') false t with
      | None => None
      | Some t' => Some (Some (t', o :: os), c')
      end
  | Some (_, _, c') => Some (None, c')
  end.

(* ResolveVisitor::PostVisitList, checker/internal/type_checker_impl.cc lines
   635-673, for elements that are not optional: the element types are checked
   one after the other against a fresh variable, or against dyn once one has
   failed. *)
Fixpoint list_elements (fuel : nat) (c : context) (p : smap) (overall : ty)
  (elems : list ty) : option (ty * smap) :=
  match elems with
  | [] => Some (overall, p)
  | e :: r =>
      match ctx_is_assignable fuel c p e overall with
      | None => None
      | Some (true, p1) => list_elements fuel c p1 overall r
      | Some (false, p1) => list_elements fuel c p1 TDyn r
      end
  end.

Definition is_dyn (t : ty) : bool := match t with TDyn => true | _ => false end.

Definition list_literal_type (fuel : nat) (c : context) (elems : list ty)
  : option (ty * context) :=
  let '(e, c1, _) := instantiate c [] (TParam "E") in
  match list_elements fuel c1 [] e elems with
  | None => None
  | Some (overall, p) =>
      let c2 := if is_dyn overall then c1 else fst (ctx_update c1 p) in
      match fully_substitute fuel (cx_bindings c2) false (TList overall) with
      | None => None
      | Some t => Some (t, c2)
      end
  end.

(* ResolveVisitor::PostVisitMap, lines 563-633, for entries that are not
   optional.  The keys go through an assignability context, the values
   directly through the inference context. *)
Fixpoint map_values (fuel : nat) (c : context) (overall : ty)
  (vals : list ty) : option (ty * context) :=
  match vals with
  | [] => Some (overall, c)
  | v :: r =>
      match is_assignable fuel c v overall with
      | None => None
      | Some (true, c1) => map_values fuel c1 overall r
      | Some (false, c1) => map_values fuel c1 TDyn r
      end
  end.

Definition map_literal_type (fuel : nat) (c : context) (keys vals : list ty)
  : option (ty * context) :=
  let '(kt, c1, _) := instantiate c [] (TParam "K") in
  let '(vt, c2, _) := instantiate c1 [] (TParam "V") in
  match list_elements fuel c2 [] kt keys with
  | None => None
  | Some (kall, p) =>
      let c3 := if is_dyn kall then c2 else fst (ctx_update c2 p) in
      match map_values fuel c3 vt vals with
      | None => None
      | Some (vall, c4) =>
          match fully_substitute fuel (cx_bindings c4) false (TMap kall vall) with
          | None => None
          | Some t => Some (t, c4)
          end
      end
  end.
