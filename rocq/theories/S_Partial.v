(* What it means that a result found with unknown attributes holds for every
   value of those attributes (C32). *)
From Coq Require Import ZArith List Bool String Ascii.
From Verif Require Import Base M_Overflow M_Number M_Attr M_Value M_Logic M_Expr M_Plan M_Machine
  S_Value S_Attr S_Eval S_Short.
Import ListNotations.
Local Open Scope string_scope.
Open Scope list_scope.
Open Scope Z_scope.

(* the attribute of a variable, and of an element or entry of a value *)
Definition root (x : string) : attribute := mkAttr (bytes_of_string x) [].
Definition child (a : attribute) (q : qualifier) : attribute := mkAttr (a_var a) (a_path a ++ [q]).

(* The attribute is marked unknown by one of the patterns; something below it is. *)
Definition marked (P : list pattern) (a : attribute) : Prop := exists p, In p P /\ full_match p a.
Definition marked_below (P : list pattern) (a : attribute) : Prop :=
  exists b, descendant a b /\ marked P b.

(* The two values of attribute a are the same except at attributes marked
   unknown.  Lists keep their length. *)
Inductive agree (P : list pattern) : attribute -> value -> value -> Prop :=
| agree_same a v : agree P a v v
| agree_list a l m :
    marked_below P a -> List.length l = List.length m -> Z.of_nat (List.length l) < 2 ^ 63 ->
    (forall i v w, ~ marked P (child a (QInt (Z.of_nat i))) ->
       nth_error l i = Some v -> nth_error m i = Some w ->
       agree P (child a (QInt (Z.of_nat i))) v w) ->
    agree P a (VList l) (VList m)
| agree_map a l m :
    marked_below P a ->
    (forall k, ~ marked P (child a (qualifier_of (value_of_key k))) ->
       find_key k l = None <-> find_key k m = None) ->
    (forall k v w, ~ marked P (child a (qualifier_of (value_of_key k))) ->
       find_key k l = Some v -> find_key k m = Some w ->
       agree P (child a (qualifier_of (value_of_key k))) v w) ->
    agree P a (VMap l) (VMap m)
| agree_optional a v w : agree P a v w -> agree P a (VOptional (Some v)) (VOptional (Some w)).

(* vars' gives the unmarked attributes the values vars gives them; the marked
   ones any value. *)
Definition completes (P : list pattern) (vars vars' : string -> out (option value)) : Prop :=
  forall x, ~ marked P (root x) ->
  match vars x, vars' x with
  | Val (Some v), Val (Some w) => agree P (root x) v w
  | o, o' => o = o'
  end.

(* evaluation with these variables, nothing unknown *)
Definition completed (C : config) (vars : string -> out (option value)) : config :=
  mkConfig (mkOptions false (o_short_circuiting (cf_opts C)) (o_max_iterations (cf_opts C))
              (o_fast_builtins (cf_opts C)) (o_heterogeneous (cf_opts C))
              (o_optional_types (cf_opts C)) (o_fail_on_warnings (cf_opts C)))
    vars [] (cf_reorder C).

(* The same result, but for the attributes marked unknown and for which error it
   is; for a result that is no container the same value. *)
Definition same_result (P : list pattern) (v w : value) : Prop :=
  (is_error v = true /\ is_error w = true) \/ v = w \/ exists a, agree P a v w.
Definition is_container (v : value) : bool :=
  match v with VList _ | VMap _ | VOptional (Some _) => true | _ => false end.

(* no pattern qualifier is a number *)
Definition no_numbers (P : list pattern) : Prop :=
  Forall (fun p => Forall (fun q => match q with Some (QInt _) | Some (QUint _) => False | _ => True end)
                     (p_path p)) P.
(* every function of the registry is strict *)
Definition all_strict (R : registry) : Prop := Forall (fun o => ov_strict o = true) R.

(* Expressions of the source language: @not_strictly_false occurs only in
   the conditions of the all and exists macros (whose accumulator starts as a
   boolean), comprehensions are those of the macros or a cel.bind; index calls
   only if [index], or and orValue only if [optional]. *)
Fixpoint source (index optional : bool) (e : expr) : bool :=
  match e with
  | EConst _ | EIdent _ => true
  | ESelect a _ _ => source index optional a
  | ECall fn t args =>
      negb (is_nsf_name fn)
      && (index || negb (String.eqb fn "_[_]"))
      && (optional || negb (String.eqb fn "or" || String.eqb fn "orValue"))
      && match t with Some a => source index optional a | None => true end
      && (fix go l := match l with [] => true | a :: l' => source index optional a && go l' end) args
  | EList l =>
      (fix go l := match l with [] => true | (_, a) :: l' => source index optional a && go l' end) l
  | EMap l =>
      (fix go l := match l with
                   | [] => true
                   | (_, (k, v)) :: l' => source index optional k && source index optional v && go l'
                   end) l
  | EComp x x2 y r i c s b =>
      source index optional i && source index optional b
      && (IsBind x x2 r c
          || (source index optional r && source index optional s && settled x x2 y c s
              && match c, i with
                 | EConst _, _ => true
                 | _, EConst (VBool _) => true
                 | _, _ => false
                 end))
  end.
