(* Specification for printing and parsing: which expressions print to text that
   reads back, and sameness up to the grouping of && and ||. *)
From Coq Require Import ZArith String Ascii List Bool.
From Verif Require Import Base M_Overflow M_Number M_Attr M_Value M_Logic M_Expr M_Macro M_Namespace S_Utf8.
From Verif Require Import M_Lex M_Parse.
Import ListNotations.
Open Scope list_scope.
Open Scope Z_scope.

(* ---- grouping ---- *)
Definition logical (fn : string) : bool := String.eqb fn "_&&_" || String.eqb fn "_||_".
Definition parts (fn : string) (e : expr) : list expr :=
  match e with ECall g None l => if String.eqb g fn then l else [e] | _ => [e] end.
(* The expression with each chain of && or of || made one call, in order.  (The
   step of a loop keeps its form.) *)
Fixpoint flat (e : expr) : expr :=
  match e with
  | EConst _ | EIdent _ => e
  | ESelect o f t => ESelect (flat o) f t
  | ECall fn None args =>
      ECall fn None (if logical fn then flat_map (parts fn) (map flat args) else map flat args)
  | ECall fn (Some t) args => ECall fn (Some (flat t)) (map flat args)
  | EList l => EList (map (fun p => match p with (o, a) => (o, flat a) end) l)
  | EMap l => EMap (map (fun p => match p with (o, (k, v)) => (o, (flat k, flat v)) end) l)
  | EComp x y a range init cond step result =>
      EComp x y a (flat range) (flat init) (flat cond)
        (match step with
         | ECall fn None [u; p] => ECall fn None [flat u; flat p]
         | _ => flat step
         end) (flat result)
  end.
Definition same_up_to_grouping (e e' : expr) : Prop := flat e = flat e'.

(* ---- the expressions that read back ---- *)
Definition unary (e : expr) : bool :=
  match e with ECall fn _ _ => String.eqb fn "!_" || String.eqb fn "-_" | _ => false end.
(* the binary operators other than && and ||, and not the deprecated in *)
Definition binary_names : list string :=
  ["_<_"; "_<=_"; "_>=_"; "_>_"; "_==_"; "_!=_"; "@in"; "_+_"; "_-_"; "_*_"; "_/_"; "_%_"]%string.
Definition operator_call (e : expr) : bool :=
  match e with
  | ECall fn _ _ => String.eqb fn "!_" || String.eqb fn "-_" || existsb (String.eqb fn) binary_names
                    || String.eqb fn "_&&_" || String.eqb fn "_||_" || String.eqb fn "_?_:_"
  | _ => false
  end.
(* the text begins with the digits of a number, or with a sign before them *)
Fixpoint leading_number (e : expr) : bool :=
  match e with
  | EConst (VInt _) | EConst (VDouble _) => true
  | ESelect o _ false => leading_number o
  | ECall _ (Some t) _ => leading_number t
  | ECall fn None (a :: _) =>
      (String.eqb fn "_[_]" || String.eqb fn "_[?_]" || String.eqb fn "_?._") && leading_number a
  | EComp _ _ _ range _ _ _ _ => leading_number range
  | _ => false
  end.
(* words that the lexer takes for keywords *)
Definition keyword (s : string) : bool := existsb (String.eqb s) ["in"; "true"; "false"; "null"]%string.
Definition is_word (s : string) : bool :=
  match codes s with d :: r => id_start d && forallb id_char r | [] => false end.

Section Printable.
  Variable c : config.
  (* Field names: identifiers; or, between back quotes, anything made of letters,
     digits and _ . - / and spaces. *)
  Definition field_ok (f : string) : Prop :=
    (is_word f = true /\ keyword f = false) \/
    (c_quoted c = true /\ (is_word f = false \/ f = "in"%string) /\ f <> ""%string /\ forallb esc_char (codes f) = true).
  Definition const_ok (v : value) : Prop :=
    match v with
    | VInt n => - 2 ^ 63 <= n < 2 ^ 63
    | VUint n => 0 <= n < 2 ^ 64
    | VBool _ | VNull => True
    | VString s => well_formed s
    | VBytes s => bytes s
    | _ => False
    end.
  (* an identifier, perhaps after a dot *)
  Definition name_ok (s : string) : Prop :=
    LexisIsIdentifier s = true \/ exists n, s = String "." n /\ LexisIsIdentifier n = true.
  Definition marks_ok (o : bool) : Prop := o = true -> c_optional c = true.
  Definition global_macro (fn : string) (n : nat) : bool := String.eqb fn "has" && Nat.eqb n 1.
  Definition receiver_macro (fn : string) (n : nat) : bool :=
    existsb (fun p => String.eqb fn (fst p) && Nat.eqb n (snd p))
      [("all", 2%nat); ("exists", 2%nat); ("exists_one", 2%nat); ("map", 2%nat); ("map", 3%nat);
       ("filter", 2%nat); ("optMap", 2%nat); ("optFlatMap", 2%nat)]%string.
  Definition variable_ok (x : string) : Prop :=
    LexisIsIdentifier x = true /\ x <> "__result__"%string.

  Inductive printable : expr -> Prop :=
  | P_const v : const_ok v -> printable (EConst v)
  | P_ident n : name_ok n -> printable (EIdent n)
  | P_select o f : printable o -> unary o = false -> field_ok f -> printable (ESelect o f false)
  | P_has o f : c_macros c = true -> printable o -> operator_call o = false -> field_ok f ->
      printable (ESelect o f true)
  | P_not a : printable a -> unary a = false -> printable (ECall "!_" None [a])
  | P_neg a : printable a -> unary a = false -> leading_number a = false -> printable (ECall "-_" None [a])
  | P_binary fn l r : In fn binary_names -> printable l -> printable r -> printable (ECall fn None [l; r])
  | P_logical fn args : logical fn = true -> (2 <= List.length args)%nat -> Forall printable args ->
      printable (ECall fn None args)
  | P_cond x y z : printable x -> printable y -> printable z -> printable (ECall "_?_:_" None [x; y; z])
  | P_index a i : printable a -> unary a = false -> printable i -> printable (ECall "_[_]" None [a; i])
  | P_opt_index a i : c_optional c = true -> printable a -> unary a = false -> printable i ->
      printable (ECall "_[?_]" None [a; i])
  | P_opt_select a f : c_optional c = true -> printable a -> unary a = false -> field_ok f ->
      printable (ECall "_?._" None [a; EConst (VString (codes f))])
  | P_call fn args : name_ok fn -> fn <> "_in_"%string -> global_macro fn (List.length args) = false -> Forall printable args ->
      printable (ECall fn None args)
  | P_method fn t args : is_word fn = true -> keyword fn = false -> fn <> "_in_"%string ->
      receiver_macro fn (List.length args) = false -> printable t -> unary t = false -> Forall printable args ->
      printable (ECall fn (Some t) args)
  | P_list l : Forall (fun p => marks_ok (fst p) /\ printable (snd p)) l -> printable (EList l)
  | P_map l : Forall (fun p => marks_ok (fst p) /\ printable (fst (snd p)) /\ printable (snd (snd p))) l ->
      printable (EMap l)
  (* what the macros make *)
  | P_all x range p : c_macros c = true -> variable_ok x -> printable range -> unary range = false -> printable p ->
      printable (all_comp accu_name x "" range p)
  | P_exists x range p : c_macros c = true -> variable_ok x -> printable range -> unary range = false -> printable p ->
      printable (exists_comp accu_name x "" range p)
  | P_exists_one x range p : c_macros c = true -> variable_ok x -> printable range -> unary range = false -> printable p ->
      printable (exists_one_comp accu_name x "" range p)
  | P_map2 x range f : c_macros c = true -> variable_ok x -> printable range -> unary range = false -> printable f ->
      printable (map_comp accu_name x "" range f)
  | P_map3 x range p f : c_macros c = true -> variable_ok x -> printable range -> unary range = false ->
      printable p -> printable f -> printable (map_filter_comp accu_name x "" range p f).
End Printable.
