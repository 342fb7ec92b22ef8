(* Model of the planner's check for comprehensions that could exhaust memory:
     eval/compiler/comprehension_vulnerability_check.cc,
     eval/compiler/flat_expr_builder.cc (where it is called).

   Simplifications.  The expressions are those of M_Expr, without message
   literals (visitor of StructExpr, 185-197) and unset entries.  The count is
   a natural number: the C++ int wraps only beyond 2^31 references. *)
From Coq Require Import ZArith String List Bool Arith.
From Verif Require Import Base M_Overflow M_Number M_Attr M_Value M_Expr.
Import ListNotations.
Open Scope list_scope.
Local Open Scope nat_scope.

(* comprehension_vulnerability_check.cc:94-236
   ComprehensionAccumulationReferences; the target of a call is not visited *)
Fixpoint ComprehensionAccumulationReferences (e : expr) (var_name : string) {struct e} : nat :=
  match e with
  | ECall fn _ args =>
      if String.eqb fn "_?_:_" && Nat.eqb (List.length args) 3 then
        match args with
        | [_; a; b] => Nat.max (ComprehensionAccumulationReferences a var_name)
                               (ComprehensionAccumulationReferences b var_name)
        | _ => 0
        end
      else if String.eqb fn "_+_" then
        (fix go (l : list expr) : nat :=
           match l with
           | [] => 0
           | a :: l' => ComprehensionAccumulationReferences a var_name + go l'
           end) args
      else if (String.eqb fn "_[_]" && Nat.eqb (List.length args) 2)
              || (String.eqb fn "dyn" && Nat.eqb (List.length args) 1) then
        match args with
        | a :: _ => ComprehensionAccumulationReferences a var_name
        | [] => 0
        end
      else 0
  | EComp iter_var _ accu_var iter_range accu_init _ loop_step result =>
      let loop_step_references :=
        if negb (String.eqb accu_var var_name) && negb (String.eqb iter_var var_name)
        then ComprehensionAccumulationReferences loop_step var_name else 0 in
      let result_references :=
        if negb (String.eqb accu_var var_name)
        then ComprehensionAccumulationReferences result var_name else 0 in
      let sum_of_accumulator_references :=
        ComprehensionAccumulationReferences accu_init var_name
        + ComprehensionAccumulationReferences iter_range var_name in
      Nat.max loop_step_references (Nat.max result_references sum_of_accumulator_references)
  | EList elements =>
      (fix go (l : list (bool * expr)) : nat :=
         match l with
         | [] => 0
         | (_, a) :: l' => ComprehensionAccumulationReferences a var_name + go l'
         end) elements
  | EMap entries =>
      (fix go (l : list (bool * (expr * expr))) : nat :=
         match l with
         | [] => 0
         | (_, (_, v)) :: l' => ComprehensionAccumulationReferences v var_name + go l'
         end) entries
  | ESelect operand _ test_only =>
      if test_only then 0 else ComprehensionAccumulationReferences operand var_name
  | EIdent name => if String.eqb name var_name then 1 else 0
  | EConst _ => 0
  end.

(* comprehension_vulnerability_check.cc:238-246
   ComprehensionHasMemoryExhaustionVulnerability *)
Definition ComprehensionHasMemoryExhaustionVulnerability (accu_var : string) (loop_step : expr) : bool :=
  Nat.leb 2 (ComprehensionAccumulationReferences loop_step accu_var).

(* comprehension_vulnerability_check.cc:249-259 OnPreVisit, called on every
   node the planner visits (flat_expr_builder.cc:595-628), the suppressed
   branches of a bind included: whether no node is refused *)
Fixpoint CheckPasses (e : expr) : bool :=
  match e with
  | EConst _ | EIdent _ => true
  | ESelect a _ _ => CheckPasses a
  | ECall _ t args =>
      match t with Some a => CheckPasses a | None => true end
      && (fix go l := match l with [] => true | a :: l' => CheckPasses a && go l' end) args
  | EList l => (fix go l := match l with [] => true | (_, a) :: l' => CheckPasses a && go l' end) l
  | EMap l =>
      (fix go l := match l with
                   | [] => true
                   | (_, (k, v)) :: l' => CheckPasses k && CheckPasses v && go l'
                   end) l
  | EComp _ _ accu_var range init cond step res =>
      negb (ComprehensionHasMemoryExhaustionVulnerability accu_var step)
      && CheckPasses range && CheckPasses init && CheckPasses cond && CheckPasses step && CheckPasses res
  end.

(* ---- registered functions that return their operands ---- *)

(* runtime/standard/string_functions.cc:36-43, 96-98 ConcatString *)
Definition ConcatString (args : list value) : out value :=
  match args with
  | [VString a; VString b] => Val (VString (a ++ b))
  | _ => UB
  end.
Definition concat_string : overload := mkOverload "_+_" false [Some kStringT; Some kStringT] true ConcatString.
(* runtime/standard/type_conversion_functions.cc:218-223 string(string) *)
Definition string_string : overload :=
  mkOverload "string" false [Some kStringT] true
    (fun args => match args with [VString a] => Val (VString a) | _ => UB end).
(* runtime/standard/type_conversion_functions.cc:456-460 dyn(any) *)
Definition dyn_any : overload :=
  mkOverload "dyn" false [None] true (fun args => match args with [a] => Val a | _ => UB end).
