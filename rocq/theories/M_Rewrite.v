(* Model of rewriting an abstract syntax tree in place (common/ast_rewrite.cc).

   The tree is mutable and the records of the stack point into it.  A pointer
   Expr* is modelled as the place it points to, the way down from the root, and
   reading or writing through it goes down that way in the tree as it is then;
   a place that is not there is undefined behaviour.  A callback that gets an
   Expr& replaces the expression at that place and nothing else.  What is below a
   place is only pointed to between the two visits of the place, so a place does
   not get reused while a pointer to it is held. *)
From Coq Require Import ZArith String List Bool.
From Verif Require Import Base M_Ast.
Import ListNotations.
Open Scope list_scope.
Open Scope Z_scope.
Local Open Scope out_scope.

(* The members of an Expr that hold a child. *)
Inductive member :=
| InOperand | InTarget | InArg (i : nat) | InElement (i : nat) | InField (i : nat)
| InKey (i : nat) | InValue (i : nat) | InPiece (a : ComprehensionArg).
Definition place := list member.

(* the child that a member holds *)
Definition child (k : member) (e : Expr) : option Expr :=
  match k, e with
  | InOperand, Select _ operand _ _ => operand
  | InTarget, Call _ _ target _ => target
  | InArg i, Call _ _ _ args => nth_error args i
  | InElement i, ListE _ elements => match nth_error elements i with Some (o, _) => o | None => None end
  | InField i, StructE _ _ fields => match nth_error fields i with Some (_, _, o, _) => o | None => None end
  | InKey i, MapE _ entries => match nth_error entries i with Some (_, o, _, _) => o | None => None end
  | InValue i, MapE _ entries => match nth_error entries i with Some (_, _, o, _) => o | None => None end
  | InPiece a, Comprehension _ _ _ _ iter_range accu_init loop_condition loop_step result =>
      match a with
      | ITER_RANGE => iter_range | ACCU_INIT => accu_init | LOOP_CONDITION => loop_condition
      | LOOP_STEP => loop_step | RESULT => result
      end
  | _, _ => None
  end.
Fixpoint at_nth {A} (i : nat) (f : A -> A) (l : list A) : list A :=
  match l, i with
  | [], _ => []
  | x :: l', O => f x :: l'
  | x :: l', S i' => x :: at_nth i' f l'
  end.
(* the expression with another child in a member *)
Definition with_child (k : member) (e c : Expr) : Expr :=
  match k, e with
  | InOperand, Select id _ field test_only => Select id (Some c) field test_only
  | InTarget, Call id function _ args => Call id function (Some c) args
  | InArg i, Call id function target args => Call id function target (at_nth i (fun _ => c) args)
  | InElement i, ListE id elements => ListE id (at_nth i (fun '(_, optional) => (Some c, optional)) elements)
  | InField i, StructE id name fields =>
      StructE id name (at_nth i (fun '(fid, fname, _, optional) => (fid, fname, Some c, optional)) fields)
  | InKey i, MapE id entries => MapE id (at_nth i (fun '(eid, _, value, optional) => (eid, Some c, value, optional)) entries)
  | InValue i, MapE id entries => MapE id (at_nth i (fun '(eid, key, _, optional) => (eid, key, Some c, optional)) entries)
  | InPiece a, Comprehension id v v2 accu iter_range accu_init loop_condition loop_step result =>
      match a with
      | ITER_RANGE => Comprehension id v v2 accu (Some c) accu_init loop_condition loop_step result
      | ACCU_INIT => Comprehension id v v2 accu iter_range (Some c) loop_condition loop_step result
      | LOOP_CONDITION => Comprehension id v v2 accu iter_range accu_init (Some c) loop_step result
      | LOOP_STEP => Comprehension id v v2 accu iter_range accu_init loop_condition (Some c) result
      | RESULT => Comprehension id v v2 accu iter_range accu_init loop_condition loop_step (Some c)
      end
  | _, _ => e
  end.
(* reading and writing through a pointer *)
Fixpoint get (p : place) (t : Expr) : out Expr :=
  match p with
  | [] => Val t
  | k :: p' => match child k t with Some c => get p' c | None => UB end
  end.
Fixpoint put (p : place) (v t : Expr) : out Expr :=
  match p with
  | [] => Val v
  | k :: p' => match child k t with
               | Some c => c' <- put p' v c ;; Val (with_child k t c')
               | None => UB
               end
  end.
Fixpoint get_all (ps : list place) (t : Expr) : out (list Expr) :=
  match ps with
  | [] => Val []
  | p :: ps' => e <- get p t ;; es <- get_all ps' t ;; Val (e :: es)
  end.

(* ast_rewrite.cc:31-59, 61-96 *)
Inductive rrecord :=
| RExpr (p : place)
| RArg (p calling_expr : place) (call_arg : Z)
| RComprehension (p comprehension_expr : place) (a : ComprehensionArg).
Definition rstack := list (rrecord * bool).
Definition rpush (st : rstack) (r : rrecord) : rstack := (r, false) :: st.
Definition rcomprehension (use_comprehension_callbacks : bool) (p c : place) (a : ComprehensionArg) : rrecord :=
  if use_comprehension_callbacks then RComprehension p c a else RArg p c (arg_number a).
Definition IsExprRecord (r : rrecord) : bool := match r with RExpr _ => true | _ => false end.

(* ast_rewrite.cc:109-155, 157-213: the callbacks are those of ast_traverse.cc,
   with the expressions as they are in the tree at the time *)
Definition rPreVisit (t : Expr) (r : rrecord) : out (list event) :=
  match r with
  | RExpr p => e <- get p t ;; Val (PreVisit (ExprRecord e))
  | RArg _ _ _ => Val []
  | RComprehension _ c a => e <- get c t ;; Val [PreVisitComprehensionSubexpression e a]
  end.
Definition rPostVisit (t : Expr) (r : rrecord) : out (list event) :=
  match r with
  | RExpr p => e <- get p t ;; Val (PostVisit (ExprRecord e))
  | RArg _ c n => e <- get c t ;; Val (if n =? kTarget then [PostVisitTarget e] else [PostVisitArg e n])
  | RComprehension _ c a => e <- get c t ;; Val [PostVisitComprehensionSubexpression e a]
  end.

(* ast_rewrite.cc:215-219 *)
Definition rPushSelectDeps (p : place) (operand : option Expr) (st : rstack) : rstack :=
  match operand with Some _ => rpush st (RExpr (p ++ [InOperand])) | None => st end.
(* ast_rewrite.cc:221-234 *)
Definition rPushCallDeps (p : place) (target : option Expr) (args : list Expr) (st : rstack) : rstack :=
  let st := fold_left (fun st i => rpush st (RArg (p ++ [InArg i]) p (Z.of_nat i))) (rev (seq 0 (length args))) st in
  match target with Some _ => rpush st (RArg (p ++ [InTarget]) p kTarget) | None => st end.
(* ast_rewrite.cc:236-242; mutable_expr() of an unset element sets it, expr.h:1507-1513 *)
Definition mutable (o : option Expr) : option Expr := match o with Some e => Some e | None => Some (Unspecified 0) end.
Definition rPushListDeps (p : place) (elements : list (option Expr * bool)) (st : rstack)
  : list (option Expr * bool) * rstack :=
  (map (fun '(o, optional) => (mutable o, optional)) elements,
   fold_left (fun st i => rpush st (RExpr (p ++ [InElement i]))) (rev (seq 0 (length elements))) st).
(* ast_rewrite.cc:244-254 *)
Definition rPushStructDeps (p : place) (fields : list (Z * string * option Expr * bool)) (st : rstack) : rstack :=
  fold_left (fun st i =>
    match nth_error fields i with
    | Some (_, _, Some _, _) => rpush st (RExpr (p ++ [InField i]))
    | _ => st
    end) (rev (seq 0 (length fields))) st.
(* ast_rewrite.cc:256-271 *)
Definition rPushMapDeps (p : place) (entries : list (Z * option Expr * option Expr * bool)) (st : rstack) : rstack :=
  fold_left (fun st i =>
    match nth_error entries i with
    | Some (_, key, value, _) =>
        let st := match value with Some _ => rpush st (RExpr (p ++ [InValue i])) | None => st end in
        match key with Some _ => rpush st (RExpr (p ++ [InKey i])) | None => st end
    | None => st
    end) (rev (seq 0 (length entries))) st.
(* ast_rewrite.cc:273-293; the pieces are made in the tree, see rPushDependencies *)
Definition rPushComprehensionDeps (use_comprehension_callbacks : bool) (p : place) (st : rstack) : rstack :=
  let r a := rcomprehension use_comprehension_callbacks (p ++ [InPiece a]) p a in
  rpush (rpush (rpush (rpush (rpush st (r RESULT)) (r LOOP_STEP)) (r LOOP_CONDITION)) (r ACCU_INIT)) (r ITER_RANGE).
(* ast_rewrite.cc:295-346: the tree, which may get new empty children, and the stack *)
Definition rPushDependencies (use_comprehension_callbacks : bool) (t : Expr) (r : rrecord) (st : rstack) : out (Expr * rstack) :=
  match r with
  | RExpr p =>
      e <- get p t ;;
      match e with
      | Unspecified _ | Const _ _ | Ident _ _ => Val (t, st)
      | Select _ operand _ _ => Val (t, rPushSelectDeps p operand st)
      | Call _ _ target args => Val (t, rPushCallDeps p target args st)
      | ListE id elements =>
          let '(elements, st) := rPushListDeps p elements st in
          t <- put p (ListE id elements) t ;; Val (t, st)
      | StructE _ _ fields => Val (t, rPushStructDeps p fields st)
      | MapE _ entries => Val (t, rPushMapDeps p entries st)
      | Comprehension id v v2 accu iter_range accu_init loop_condition loop_step result =>
          t <- put p (Comprehension id v v2 accu (mutable iter_range) (mutable accu_init) (mutable loop_condition)
                        (mutable loop_step) (mutable result)) t ;;
          Val (t, rPushComprehensionDeps use_comprehension_callbacks p st)
      end
  | RArg p _ _ | RComprehension p _ _ => Val (t, rpush st (RExpr p))
  end.

(* ast_rewrite.h:37-57: the user's object, with a state of its own.  The two
   rewriting callbacks say what they make of the expression and whether they
   report a rewrite; TraversalStackUpdate gets pointers, here the expressions that
   it finds behind them. *)
Record AstRewriter (S : Type) := mkRewriter {
  PreVisitRewrite : S -> Expr -> S * Expr * bool;
  PostVisitRewrite : S -> Expr -> S * Expr * bool;
  TraversalStackUpdate : S -> list Expr -> S;
  Visit : S -> event -> S
}.
Arguments PreVisitRewrite {S}. Arguments PostVisitRewrite {S}. Arguments TraversalStackUpdate {S}. Arguments Visit {S}.

Section Loop.
Context {S : Type} (visitor : AstRewriter S) (use_comprehension_callbacks : bool).
Record machine := mkMachine { tree : Expr; records : rstack; traversal_path : list place; rewritten : bool; user : S }.

(* ast_rewrite.cc:359-385: the body of the loop *)
Definition rstep (m : machine) : out machine :=
  match records m with
  | [] => Val m
  | (record, false) :: below =>
      m <- match record with
           | RExpr p =>
               let path := traversal_path m ++ [p] in
               exprs <- get_all path (tree m) ;;
               let s := TraversalStackUpdate visitor (user m) exprs in
               e <- get p (tree m) ;;
               let '(s, e, changed) := PreVisitRewrite visitor s e in
               t <- put p e (tree m) ;;
               Val (mkMachine t (records m) path (rewritten m || changed) s)
           | _ => Val m
           end ;;
      evs <- rPreVisit (tree m) record ;;
      let s := fold_left (Visit visitor) evs (user m) in
      deps <- rPushDependencies use_comprehension_callbacks (tree m) record ((record, true) :: below) ;;
      Val (mkMachine (fst deps) (snd deps) (traversal_path m) (rewritten m) s)
  | (record, true) :: below =>
      evs <- rPostVisit (tree m) record ;;
      let s := fold_left (Visit visitor) evs (user m) in
      match record with
      | RExpr p =>
          e <- get p (tree m) ;;
          let '(s, e, changed) := PostVisitRewrite visitor s e in
          t <- put p e (tree m) ;;
          match traversal_path m with
          | [] => UB
          | _ :: _ =>
              let path := removelast (traversal_path m) in
              exprs <- get_all path t ;;
              Val (mkMachine t below path (rewritten m || changed) (TraversalStackUpdate visitor s exprs))
          end
      | _ => Val (mkMachine (tree m) below (traversal_path m) (rewritten m) s)
      end
  end.
(* None: the loop has not ended within the fuel *)
Fixpoint rloop (fuel : nat) (m : machine) : option (out machine) :=
  match records m with
  | [] => Some (Val m)
  | _ :: _ =>
      match fuel with
      | O => None
      | Datatypes.S fuel' =>
          match rstep m with
          | Val m' => rloop fuel' m'
          | other => Some other
          end
      end
  end.
(* ast_rewrite.cc:350-389: the user's state, the tree and the result *)
Definition AstRewrite (fuel : nat) (s : S) (e : Expr) : option (out (S * Expr * bool)) :=
  match rloop fuel (mkMachine e [(RExpr [], false)] [] false s) with
  | Some o => Some (m <- o ;; Val (user m, tree m, rewritten m))
  | None => None
  end.
End Loop.
Arguments mkMachine {S}. Arguments tree {S}. Arguments records {S}. Arguments traversal_path {S}. Arguments rewritten {S}. Arguments user {S}.
