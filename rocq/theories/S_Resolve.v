(* What resolving the references of an expression means. *)
From Coq Require Import ZArith String List Bool.
From Verif Require Import Base M_Ast S_Ast M_Registry M_Namespace P_Names.
From Verif Require Import M_Resolve.
Import ListNotations.
Open Scope list_scope.

(* the name under which a call is planned: the resolved one, else the one written *)
Definition planned (r : full_registry) (cname name : string) (arity : nat) : string :=
  match BestOverloadMatch r cname name arity with Some f => f | None => name end.

(* no function is called like a candidate behind another container of the expression *)
Definition unambiguous (r : full_registry) (cs ns : list string) (arity : nat) : Prop :=
  forall c c', In c (enclosing cs) -> In c' (enclosing cs) -> c <> [] -> c' <> [] ->
  FindStatic r (join (c ++ c' ++ ns)) false arity = [].

(* x is a part of the expression, or all of it *)
Inductive inside (x : Expr) : Expr -> Prop :=
| inside_here : inside x x
| inside_part c e : In c (children e) -> inside x c -> inside x e.

(* the qualified name  name.f1.f2...  with the ids of its parts *)
Definition selects (fields : list (Z * string)) (e : Expr) : Expr :=
  fold_left (fun e x => Select (fst x) (Some e) (snd x) false) fields e.
Definition text (name : string) (fields : list (Z * string)) : string :=
  fold_left (fun s x => (s ++ "." ++ snd x)%string) fields name.

(* the variable that the references give to an expression *)
Definition named (refs : ReferenceMap) (id : Z) (n : string) : Prop :=
  id <> 0%Z /\ n <> ""%string /\ exists ref, find_reference refs id = Some ref /\ ref_value ref = None /\ ref_name ref = n.
(* no variable, nor a constant *)
Definition unnamed (refs : ReferenceMap) (id : Z) : Prop :=
  id = 0%Z \/ find_reference refs id = None
  \/ exists ref, find_reference refs id = Some ref /\ ref_value ref = None /\ ref_name ref = ""%string.

(* the functions that no registry provides, which keep their names *)
Definition reserved : list string :=
  ["_&&_"; "_||_"; "_[_]"; "_?_:_"; "or"; "orValue"; "_==_"; "_!=_"; "!_"; "@not_strictly_false"; "__not_strictly_false__";
   "@in"; "_in_"; "in"; "cel.@block"]%string.
