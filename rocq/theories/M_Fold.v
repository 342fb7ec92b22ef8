(* Model of constant folding: eval/compiler/constant_folding.cc, with the hooks
   FlatExprVisitor calls around each node (flat_expr_builder.cc:621-645).


   A statically registered function that is not contextual gives the same
   result at plan time and at run time.  A contextual function
   (common/function_descriptor.h is_contextual) reads the evaluation context,
   and a lazily registered one is found in the activation: what either does at
   plan time is given apart, by h_plan_impl.

   Simplifications: those of M_Expr; when a name has both lazy and static
   overloads the call keeps all of them (the planner keeps only the lazy ones),
   which folding does not look at because it leaves such calls alone. *)
From Coq Require Import ZArith List Bool String.
From Verif Require Import Base M_Overflow M_Number M_Attr M_Value M_Logic M_Expr M_Plan M_Machine
  L_Seval L_Alloc L_Eval.
Import ListNotations.
Local Open Scope string_scope.
Open Scope list_scope.
Open Scope Z_scope.
Local Open Scope out_scope.

Record host := mkHost {
  h_contextual : overload -> bool;
  h_lazy : overload -> bool;
  h_plan_impl : overload -> list value -> out value
}.
(* the function as it behaves at plan time *)
Definition at_plan (H : host) (o : overload) : overload :=
  if h_contextual H o || h_lazy H o
  then mkOverload (ov_name o) (ov_receiver o) (ov_kinds o) (ov_strict o) (h_plan_impl H o)
  else o.
Definition op_at (H : host) (op : sop) : sop :=
  match op with OCall f r ovs => OCall f r (map (at_plan H) ovs) | _ => op end.
(* a planned expression, run at plan time *)
Fixpoint core_at (H : host) (e : core) : core :=
  match e with
  | KConst _ | KVar _ | KGlobal _ => e
  | KLogic op a b => KLogic op (core_at H a) (core_at H b)
  | KOr k a b => KOr k (core_at H a) (core_at H b)
  | KCond c a b => KCond (core_at H c) (core_at H a) (core_at H b)
  | KApp op args => KApp (op_at H op) (map (core_at H) args)
  | KComp x x2 y r i c s b =>
      KComp x x2 y (core_at H r) (core_at H i) (core_at H c) (core_at H s) (core_at H b)
  | KBind y i b => KBind y (core_at H i) (core_at H b)
  end.

(* constant_folding.cc:107-175 IsConstExpr; true is kConditional *)
Definition IsConstExpr (H : host) (R : registry) (e : expr) : bool :=
  match e with
  | EConst _ => true
  | EIdent _ => false
  | EComp _ _ _ _ _ _ _ _ => false
  | EMap ents => match ents with [] => false | _ => true end
  | EList elems => match elems with [] => false | _ => true end
  | ESelect _ _ _ => true
  | ECall fn target args =>
      if String.eqb fn "_&&_" || String.eqb fn "_||_" || String.eqb fn "_?_:_" then false
      else if String.eqb fn "cel.@block" then false
      else
        let receiver := match target with None => false | Some _ => true end in
        let arg_len := (List.length args + if receiver then 1 else 0)%nat in
        let ovs := FindStaticOverloadsByArity R fn receiver arg_len in
        if existsb (h_lazy H) ovs then false
        else negb (existsb (h_contextual H) ovs)
  end.

(* The empty activation (constant_folding.cc:101, 212). *)
Definition plan_config (O : options) (reorder : entries -> entries) : config :=
  mkConfig O (fun _ => Val None) [] reorder.

(* What the iterative evaluator gives on the steps of a planned expression with
   that activation; L_Eval.evaluates_seval says that this is the machine of
   M_Machine. *)
Definition run_subplan (H : host) (O : options) (reorder : entries -> entries) (k : core)
    : res value :=
  final (seval (plan_config O reorder) (resolved (core_at H k)) no_lazy est_init).

Section Fold.
  Variables (O : options) (R : registry) (H : host) (run : core -> res value).

  (* constant_folding.cc:185-250 OnPostVisit on a node that is no constant:
     const says that the node and all nodes below it are kConditional; k are
     its steps, with what is below already folded *)
  Definition OnPostVisit (const : bool) (k : core) : out core :=
    if const then
      match run k with
      | RVal v _ => if is_unknown v then Val k else Val (KConst v)
      | RErr _ _ => Val k
      | RFault _ | RUB => UB
      end
    else Val k.
  Definition post (e : expr) (below : bool) (k : core) : out (bool * core) :=
    let const := IsConstExpr H R e && below in
    k' <- OnPostVisit const k ;; Val (const, k').

  (* M_Expr.elaborate with the optimizer's hooks: whether the node is still
     kConditional after its visit, and the node's steps *)
  Fixpoint fold_elab (e : expr) : out (bool * core) :=
    match e with
    | EConst v => Val (true, KConst v)
    | EIdent name => k <- plan_ident name ;; post e true k
    | ESelect operand field test_only =>
        if String.eqb field "" then
          Err (plan_error "invalid expression: select 'field' must not be empty")
        else a <- fold_elab operand ;; post e (fst a) (KApp (OSelect field test_only) [snd a])
    | ECall fn target args =>
        t <- match target with
             | None => Val []
             | Some x => a <- fold_elab x ;; Val [a]
             end ;;
        cs <- map_out fold_elab args ;;
        k <- plan_call O R fn (match target with None => false | Some _ => true end)
               (map snd (t ++ cs)) ;;
        post e (forallb fst (t ++ cs)) k
    | EList elems =>
        cs <- map_out (fun p => fold_elab (snd p)) elems ;;
        post e (forallb fst cs) (KApp (OList (map fst elems)) (map snd cs))
    | EMap ents =>
        cs <- map_out (fun p => k <- fold_elab (fst (snd p)) ;;
                                v <- fold_elab (snd (snd p)) ;; Val [k; v]) ents ;;
        post e (forallb fst (List.concat cs))
          (KApp (OMap (map fst ents)) (map snd (List.concat cs)))
    | EComp iter_var iter_var2 accu_var range init cond step res =>
        _ <- check_comprehension iter_var iter_var2 accu_var ;;
        if IsBind iter_var iter_var2 range cond then
          i <- fold_elab init ;;
          b <- fold_elab res ;;
          post e (fst i && fst b) (KBind accu_var (snd i) (snd b))
        else
          r <- fold_elab range ;;
          i <- fold_elab init ;;
          c <- fold_elab cond ;;
          s <- fold_elab step ;;
          b <- fold_elab res ;;
          post e (fst r && fst i && fst c && fst s && fst b)
            (KComp iter_var iter_var2 accu_var (snd r) (snd i) (snd c) (snd s) (snd b))
    end.
End Fold.

(* FlatExprBuilder::CreateExpressionImpl (flat_expr_builder.cc:2551-2632) with
   the constant folding optimizer *)
Definition fold_plan (O : options) (R : registry) (H : host) (reorder : entries -> entries)
    (e : expr) : out program :=
  p <- fold_elab O R H (run_subplan H O reorder) e ;;
  Val (plan_core (o_short_circuiting O) (snd p)).
