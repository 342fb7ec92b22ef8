(* What constant folding may and may not change. *)
From Coq Require Import List Bool String.
From Verif Require Import Base M_Value M_Expr.
Import ListNotations.
Local Open Scope string_scope.

(* a is b with some entries left out *)
Inductive thinned {A} : list A -> list A -> Prop :=
| thinned_nil : thinned [] []
| thinned_keep x a b : thinned a b -> thinned (x :: a) (x :: b)
| thinned_drop x a b : thinned a b -> thinned a (x :: b).

(* An expression made of literals, field selections and calls, none of the
   functions it calls having an overload that depends on the evaluation
   (varies).  The operators with their own evaluation order and the empty
   literals are left out. *)
Fixpoint constant_expr (varies : overload -> bool) (R : registry) (e : expr) : bool :=
  match e with
  | EConst _ => true
  | EIdent _ | EComp _ _ _ _ _ _ _ _ => false
  | ESelect a _ _ => constant_expr varies R a
  | ECall fn t args =>
      let receiver := match t with Some _ => true | None => false end in
      let arity := (List.length args + if receiver then 1 else 0)%nat in
      negb (existsb (String.eqb fn) ["_&&_"; "_||_"; "_?_:_"; "cel.@block"])
      && forallb (fun o =>
           negb (String.eqb (ov_name o) fn && Bool.eqb (ov_receiver o) receiver
                 && Nat.eqb (List.length (ov_kinds o)) arity && varies o)) R
      && match t with Some a => constant_expr varies R a | None => true end
      && forallb (constant_expr varies R) args
  | EList l =>
      match l with [] => false | _ => true end && forallb (fun p => constant_expr varies R (snd p)) l
  | EMap l =>
      match l with [] => false | _ => true end
      && forallb (fun p => constant_expr varies R (fst (snd p)) && constant_expr varies R (snd (snd p))) l
  end.
