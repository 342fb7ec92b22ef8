(* Model of runtime/function_registry.cc with both static and lazy overloads.
   functions_ maps a name to its overloads; an entry exists exactly when some
   registration of the name succeeded, so the state is the list of successful
   registrations in order.  A lazy registration has no implementation: its
   ov_impl is not used. *)
From Coq Require Import ZArith List Bool String.
From Verif Require Import Base M_Overflow M_Number M_Attr M_Value M_Logic M_Expr.
Import ListNotations.
Open Scope list_scope.

Record reg_entry := mkEntry { re_lazy : bool; re_desc : overload }.
Definition full_registry := list reg_entry.

Definition entries_named (r : full_registry) (name : string) : list reg_entry :=
  filter (fun x => String.eqb (ov_name (re_desc x)) name) r.
Definition static_overloads (l : list reg_entry) : list overload :=
  map re_desc (filter (fun x => negb (re_lazy x)) l).
Definition lazy_overloads (l : list reg_entry) : list overload :=
  map re_desc (filter re_lazy l).

(* function_registry.cc:220-238 DescriptorRegistered *)
Definition FullDescriptorRegistered (r : full_registry) (d : overload) : bool :=
  let l := entries_named r (ov_name d) in
  existsb (fun o => ShapeMatches o (ov_receiver d) (ov_kinds d)) (static_overloads l)
  || existsb (fun o => ShapeMatches o (ov_receiver d) (ov_kinds d)) (lazy_overloads l).
(* function_registry.cc:240-262 ValidateNonStrictOverload *)
Definition FullValidateNonStrict (r : full_registry) (d : overload) : bool :=
  match entries_named r (ov_name d) with
  | [] => true
  | l =>
      if negb (ov_strict d) then false
      else match static_overloads l with [] => true | o :: _ => ov_strict o end
           && match lazy_overloads l with [] => true | o :: _ => ov_strict o end
  end.
(* function_registry.cc:79-112 Register and RegisterLazyFunction: the status
   and the registry afterwards *)
Definition register (x : reg_entry) (r : full_registry) : option status * full_registry :=
  if FullDescriptorRegistered r (re_desc x)
  then (Some (mkStatus kAlreadyExists "CelFunction with specified parameters already registered"), r)
  else if negb (FullValidateNonStrict r (re_desc x))
  then (Some (mkStatus kAlreadyExists "Only one overload is allowed for non-strict function"), r)
  else (None, r ++ [x]).

(* a history of registration attempts, failed ones included *)
Definition attempts (l : list reg_entry) (r : full_registry) : full_registry :=
  fold_left (fun r x => snd (register x r)) l r.

(* function_registry.cc:136-156 FindStaticOverloadsByArity and 178-200
   FindLazyOverloadsByArity *)
Definition by_arity (receiver : bool) (arity : nat) (l : list overload) : list overload :=
  filter (fun o => Bool.eqb (ov_receiver o) receiver && Nat.eqb (List.length (ov_kinds o)) arity) l.
Definition FindStatic (r : full_registry) (name : string) (receiver : bool) (arity : nat) :=
  by_arity receiver arity (static_overloads (entries_named r name)).
Definition FindLazy (r : full_registry) (name : string) (receiver : bool) (arity : nat) :=
  by_arity receiver arity (lazy_overloads (entries_named r name)).
