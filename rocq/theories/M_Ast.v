(* Model of the abstract syntax tree (common/expr.h, common/constant.h), of its
   traversal with callbacks (common/ast_traverse.cc) and of the navigable tree
   (common/navigable_ast.cc, common/ast/navigable_ast_internal.h).

   An Expr owns its children, so a tree is a value here.  A const Expr& handed to
   a callback is the subtree; which address it has is not modelled, and so
   neither is NavigableAst::FindExpr.  Children of a class that may be unset
   (unique_ptr) are options; reading an unset child gives the default instance. *)
From Coq Require Import ZArith String List Bool.
From Verif Require Import Base M_Overflow M_Number.
Import ListNotations.
Open Scope list_scope.
Open Scope Z_scope.

(* constant.h:111-114 the alternatives of a Constant *)
Inductive constant :=
| CUnspecified | CNull | CBool (b : bool) | CInt (n : Z) | CUint (n : Z) | CDouble (d : double)
| CBytes (s : list Z) | CString (s : list Z) | CDuration (d : duration) | CTimestamp (t : time).

(* expr.h:78-1126; every alternative carries the id of the Expr.  The alternatives
   of a list element, a struct field and a map entry are tuples of their members
   in the order of the class. *)
Inductive Expr :=
| Unspecified (id : Z)
| Const (id : Z) (c : constant)
| Ident (id : Z) (name : string)
| Select (id : Z) (operand : option Expr) (field : string) (test_only : bool)
| Call (id : Z) (function : string) (target : option Expr) (args : list Expr)
| ListE (id : Z) (elements : list (option Expr * bool))
| StructE (id : Z) (name : string) (fields : list (Z * string * option Expr * bool))
| MapE (id : Z) (entries : list (Z * option Expr * option Expr * bool))
| Comprehension (id : Z) (iter_var iter_var2 accu_var : string)
    (iter_range accu_init loop_condition loop_step result : option Expr).

(* expr.h:910 *)
Definition expr_id (e : Expr) : Z :=
  match e with
  | Unspecified i | Const i _ | Ident i _ | Select i _ _ _ | Call i _ _ _ | ListE i _
  | StructE i _ _ | MapE i _ | Comprehension i _ _ _ _ _ _ _ _ => i
  end.
(* expr.cc:177-180 *)
Definition default_instance : Expr := Unspecified 0.
(* expr.h:1148-1150 and the like *)
Definition read (o : option Expr) : Expr := match o with Some e => e | None => default_instance end.

(** ** common/ast_traverse.cc *)

(* ast_visitor.h:24-30 *)
Inductive ComprehensionArg := ITER_RANGE | ACCU_INIT | LOOP_CONDITION | LOOP_STEP | RESULT.
Definition arg_number (a : ComprehensionArg) : Z :=
  match a with ITER_RANGE => 0 | ACCU_INIT => 1 | LOOP_CONDITION => 2 | LOOP_STEP => 3 | RESULT => 4 end.

(* ast_visitor.h:38-115: the callbacks, with the expression (the call or the
   comprehension for an argument) they are given; the part of the expression they
   are given as well (const SelectExpr& and so on) is part of it *)
Inductive event :=
| PreVisitExpr (e : Expr) | PostVisitExpr (e : Expr)
| PostVisitConst (e : Expr) | PostVisitIdent (e : Expr)
| PreVisitSelect (e : Expr) | PostVisitSelect (e : Expr)
| PreVisitCall (e : Expr) | PostVisitCall (e : Expr) | PostVisitTarget (e : Expr)
| PreVisitComprehension (e : Expr) | PostVisitComprehension (e : Expr)
| PreVisitComprehensionSubexpression (e : Expr) (a : ComprehensionArg)
| PostVisitComprehensionSubexpression (e : Expr) (a : ComprehensionArg)
| PostVisitArg (e : Expr) (arg_num : Z)
| PostVisitList (e : Expr) | PostVisitStruct (e : Expr) | PostVisitMap (e : Expr).

(* ast_traverse.cc:30-58 *)
Inductive record :=
| ExprRecord (e : Expr)
| ArgRecord (e calling_expr : Expr) (call_arg : Z)
| ComprehensionRecord (e comprehension_expr : Expr) (a : ComprehensionArg).
Definition kTarget : Z := -2.
(* ast_traverse.cc:69-88 *)
Definition comprehension_record (use_comprehension_callbacks : bool) (e c : Expr) (a : ComprehensionArg) : record :=
  if use_comprehension_callbacks then ComprehensionRecord e c a else ArgRecord e c (arg_number a).

(* The stack, top first, each record with its mark "visited". *)
Definition stack := list (record * bool).
Definition push (st : stack) (r : record) : stack := (r, false) :: st.

(* ast_traverse.cc:100-129 *)
Definition PreVisit (r : record) : list event :=
  match r with
  | ExprRecord e =>
      PreVisitExpr e ::
      match e with
      | Select _ _ _ _ => [PreVisitSelect e]
      | Call _ _ _ _ => [PreVisitCall e]
      | Comprehension _ _ _ _ _ _ _ _ _ => [PreVisitComprehension e]
      | _ => []
      end
  | ArgRecord _ _ _ => []
  | ComprehensionRecord _ c a => [PreVisitComprehensionSubexpression c a]
  end.
(* ast_traverse.cc:131-189; an unset kind is logged *)
Definition PostVisit (r : record) : list event :=
  match r with
  | ExprRecord e =>
      match e with
      | Const _ _ => [PostVisitConst e]
      | Ident _ _ => [PostVisitIdent e]
      | Select _ _ _ _ => [PostVisitSelect e]
      | Call _ _ _ _ => [PostVisitCall e]
      | ListE _ _ => [PostVisitList e]
      | StructE _ _ _ => [PostVisitStruct e]
      | MapE _ _ => [PostVisitMap e]
      | Comprehension _ _ _ _ _ _ _ _ _ => [PostVisitComprehension e]
      | Unspecified _ => []
      end ++ [PostVisitExpr e]
  | ArgRecord _ c n => if n =? kTarget then [PostVisitTarget c] else [PostVisitArg c n]
  | ComprehensionRecord _ c a => [PostVisitComprehensionSubexpression c a]
  end.

(* ast_traverse.cc:191-196 *)
Definition PushSelectDeps (operand : option Expr) (st : stack) : stack :=
  match operand with Some e => push st (ExprRecord e) | None => st end.
(* ast_traverse.cc:198-211: the arguments from the last to the first, then the target *)
Definition PushCallDeps (expr : Expr) (target : option Expr) (args : list Expr) (st : stack) : stack :=
  let st := fold_left (fun st i => match nth_error args i with
                                   | Some e => push st (ArgRecord e expr (Z.of_nat i))
                                   | None => st
                                   end) (rev (seq 0 (length args))) st in
  match target with Some e => push st (ArgRecord e expr kTarget) | None => st end.
(* ast_traverse.cc:213-219 *)
Definition PushListDeps (elements : list (option Expr * bool)) (st : stack) : stack :=
  fold_left (fun st element => push st (ExprRecord (read (fst element)))) (rev elements) st.
(* ast_traverse.cc:221-232 *)
Definition PushStructDeps (fields : list (Z * string * option Expr * bool)) (st : stack) : stack :=
  fold_left (fun st (entry : Z * string * option Expr * bool) =>
    let '(_, _, value, _) := entry in
    match value with Some e => push st (ExprRecord e) | None => st end) (rev fields) st.
(* ast_traverse.cc:234-249: the value of an entry is pushed before its key *)
Definition PushMapDeps (entries : list (Z * option Expr * option Expr * bool)) (st : stack) : stack :=
  fold_left (fun st (entry : Z * option Expr * option Expr * bool) =>
    let '(_, key, value, _) := entry in
    let st := match value with Some e => push st (ExprRecord e) | None => st end in
    match key with Some e => push st (ExprRecord e) | None => st end) (rev entries) st.
(* ast_traverse.cc:251-272 *)
Definition PushComprehensionDeps (use_comprehension_callbacks : bool) (expr : Expr)
    (iter_range accu_init loop_condition loop_step result : option Expr) (st : stack) : stack :=
  let r o a := comprehension_record use_comprehension_callbacks (read o) expr a in
  push (push (push (push (push st
    (r result RESULT)) (r loop_step LOOP_STEP)) (r loop_condition LOOP_CONDITION))
    (r accu_init ACCU_INIT)) (r iter_range ITER_RANGE).
(* ast_traverse.cc:274-318 *)
Definition PushDependencies (use_comprehension_callbacks : bool) (r : record) (st : stack) : stack :=
  match r with
  | ExprRecord e =>
      match e with
      | Unspecified _ | Const _ _ | Ident _ _ => st
      | Select _ operand _ _ => PushSelectDeps operand st
      | Call _ _ target args => PushCallDeps e target args st
      | ListE _ elements => PushListDeps elements st
      | StructE _ _ fields => PushStructDeps fields st
      | MapE _ entries => PushMapDeps entries st
      | Comprehension _ _ _ _ iter_range accu_init loop_condition loop_step result =>
          PushComprehensionDeps use_comprehension_callbacks e iter_range accu_init loop_condition loop_step result st
      end
  | ArgRecord e _ _ | ComprehensionRecord e _ _ => push st (ExprRecord e)
  end.

(* ast_traverse.cc:340-356 AstTraversal::Step, and the body of the loop at
   367-377: the callbacks it makes and the stack afterwards.  The top is marked
   in place, under the records just pushed. *)
Definition Step (use_comprehension_callbacks : bool) (st : stack) : list event * stack :=
  match st with
  | [] => ([], [])
  | (record, visited) :: below =>
      if negb visited then
        (PreVisit record, PushDependencies use_comprehension_callbacks record ((record, true) :: below))
      else (PostVisit record, below)
  end.
(* ast_traverse.cc:328-334, 358-360 *)
Definition Create (e : Expr) : stack := push [] (ExprRecord e).
Definition IsDone (st : stack) : bool := match st with [] => true | _ => false end.

(* ast_traverse.cc:362-378; None: the loop has not ended within the fuel *)
Fixpoint traverse_loop (fuel : nat) (use_comprehension_callbacks : bool) (st : stack) (seen : list event) : option (list event) :=
  if IsDone st then Some seen else
  match fuel with
  | O => None
  | S fuel' =>
      let '(evs, st') := Step use_comprehension_callbacks st in
      traverse_loop fuel' use_comprehension_callbacks st' (seen ++ evs)
  end.
Definition AstTraverse (fuel : nat) (use_comprehension_callbacks : bool) (e : Expr) : option (list event) :=
  traverse_loop fuel use_comprehension_callbacks (Create e) [].

(** ** common/navigable_ast.cc *)

(* navigable_ast_kinds.h:25-52 *)
Inductive ChildKind :=
| kUnspecifiedChild | kSelectOperand | kCallReceiver | kCallArg | kListElem | kMapKey | kMapValue | kStructValue
| kComprehensionRange | kComprehensionInit | kComprehensionCondition | kComprehensionLoopStep | kComprensionResult.
Inductive NodeKind :=
| kUnspecifiedNode | kConstant | kIdent | kSelect | kCall | kList | kMap | kStruct | kComprehension.

(* navigable_ast.cc:42-64 *)
Definition GetNodeKind (e : Expr) : NodeKind :=
  match e with
  | Const _ _ => kConstant | Ident _ _ => kIdent | Select _ _ _ _ => kSelect | Call _ _ _ _ => kCall
  | ListE _ _ => kList | StructE _ _ _ => kStruct | MapE _ _ => kMap
  | Comprehension _ _ _ _ _ _ _ _ _ => kComprehension | Unspecified _ => kUnspecifiedNode
  end.

(* navigable_ast_internal.h:111-123 NavigableAstNodeData.  A pointer to a node is
   its index in the vector of nodes, which owns them; the pointer to the metadata
   is left out, there is one. *)
Record node := mkNode {
  n_parent : option nat;
  n_expr : Expr;
  n_parent_relation : ChildKind;
  n_node_kind : NodeKind;
  n_index : nat;
  n_tree_size : nat;
  n_height : nat;
  n_child_index : Z;
  n_children : list nat
}.
(* navigable_ast_internal.h:125-137; id_to_node is an association list, without
   two entries for an id *)
Record metadata := mkMetadata { m_nodes : list node; m_postorder : list nat; m_id_to_node : list (Z * nat) }.

(* navigable_ast.cc:66-109 *)
Definition GetChildKind (parent : node) (child_index : nat) (comprehension_arg : option ComprehensionArg) : ChildKind :=
  match n_node_kind parent with
  | kStruct => kStructValue
  | kMap => if Nat.eqb (Nat.modulo child_index 2) 0 then kMapKey else kMapValue
  | kList => kListElem
  | kSelect => kSelectOperand
  | kCall =>
      match n_expr parent with
      | Call _ _ (Some _) _ => if Nat.eqb child_index 0 then kCallReceiver else kCallArg
      | _ => kCallArg
      end
  | kComprehension =>
      match comprehension_arg with
      | None => kUnspecifiedChild
      | Some ITER_RANGE => kComprehensionRange
      | Some ACCU_INIT => kComprehensionInit
      | Some LOOP_CONDITION => kComprehensionCondition
      | Some LOOP_STEP => kComprehensionLoopStep
      | Some RESULT => kComprensionResult
      end
  | _ => kUnspecifiedChild
  end.

(* navigable_ast.cc:111-187 NavigableExprBuilderVisitor: its members *)
Record builder := mkBuilder {
  b_metadata : metadata;
  b_parent_stack : list nat;                       (* back first *)
  b_comprehension_arg : option ComprehensionArg
}.
(* flat_hash_map::insert: an entry with the key is kept *)
Fixpoint insert (id : Z) (n : nat) (m : list (Z * nat)) : list (Z * nat) :=
  match m with
  | [] => [(id, n)]
  | (id', n') :: m' => if id =? id' then m else (id', n') :: insert id n m'
  end.
Fixpoint lookup (id : Z) (m : list (Z * nat)) : option nat :=
  match m with
  | [] => None
  | (id', n') :: m' => if id =? id' then Some n' else lookup id m'
  end.
(* writing to *nodes[i]; out of range is undefined *)
Fixpoint update {A} (i : nat) (f : A -> A) (l : list A) : out (list A) :=
  match l, i with
  | [], _ => UB
  | x :: l', O => Val (f x :: l')
  | x :: l', S i' => obind (update i' f l') (fun l'' => Val (x :: l''))
  end.
Local Open Scope out_scope.
Definition at_index {A} (l : list A) (i : nat) : out A :=
  match nth_error l i with Some x => Val x | None => UB end.

(* navigable_ast.cc:125-154 *)
Definition builder_PreVisitExpr (e : Expr) (b : builder) : out builder :=
  let md := b_metadata b in
  let index := length (m_nodes md) in
  let fresh := mkNode (match b_parent_stack b with [] => None | p :: _ => Some p end) e
                 kUnspecifiedChild (GetNodeKind e) index 1 1 (-1) [] in
  let ids := insert (expr_id e) index (m_id_to_node md) in
  nodes <- match b_parent_stack b with
           | [] => Val (m_nodes md ++ [fresh])
           | p :: _ =>
               parent <- at_index (m_nodes md) p ;;
               let child_index := length (n_children parent) in
               nodes <- update p (fun d => mkNode (n_parent d) (n_expr d) (n_parent_relation d) (n_node_kind d)
                                   (n_index d) (n_tree_size d) (n_height d) (n_child_index d)
                                   (n_children d ++ [index])) (m_nodes md) ;;
               Val (nodes ++ [mkNode (n_parent fresh) (n_expr fresh)
                                (GetChildKind parent child_index (b_comprehension_arg b))
                                (n_node_kind fresh) (n_index fresh) (n_tree_size fresh) (n_height fresh)
                                (Z.of_nat child_index) (n_children fresh)])
           end ;;
  Val (mkBuilder (mkMetadata nodes (m_postorder md) ids) (index :: b_parent_stack b) (b_comprehension_arg b)).
(* navigable_ast.cc:162-174 *)
Definition builder_PostVisitExpr (b : builder) : out builder :=
  let md := b_metadata b in
  match b_parent_stack b with
  | [] => UB
  | idx :: rest =>
      n <- at_index (m_nodes md) idx ;;
      nodes <- match rest with
               | [] => Val (m_nodes md)
               | p :: _ =>
                   update p (fun d => mkNode (n_parent d) (n_expr d) (n_parent_relation d) (n_node_kind d)
                     (n_index d) (n_tree_size d + n_tree_size n) (Nat.max (n_height d) (n_height n + 1))
                     (n_child_index d) (n_children d)) (m_nodes md)
               end ;;
      Val (mkBuilder (mkMetadata nodes (m_postorder md ++ [idx]) (m_id_to_node md)) rest (b_comprehension_arg b))
  end.
(* the callbacks of the visitor; the others do nothing (ast_visitor_base.h) *)
Definition builder_visit (b : builder) (ev : event) : out builder :=
  match ev with
  | PreVisitExpr e => builder_PreVisitExpr e b
  | PreVisitComprehensionSubexpression _ a => Val (mkBuilder (b_metadata b) (b_parent_stack b) (Some a))
  | PostVisitExpr _ => builder_PostVisitExpr b
  | _ => Val b
  end.
Fixpoint visit_all (evs : list event) (b : builder) : out builder :=
  match evs with
  | [] => Val b
  | ev :: evs' => b <- builder_visit b ev ;; visit_all evs' b
  end.
(* navigable_ast.cc:190-201; the callbacks are made while the traversal goes on,
   which they cannot influence *)
Definition Build (fuel : nat) (e : Expr) : option (out metadata) :=
  match AstTraverse fuel true e with
  | None => None
  | Some evs => Some (b <- visit_all evs (mkBuilder (mkMetadata [] [] []) [] None) ;; Val (b_metadata b))
  end.

(* navigable_ast_internal.h:204-215: absl::Span::subspan; a start after the end is an error *)
Definition subspan {A} (l : list A) (pos len : nat) : out (list A) :=
  if Nat.leb pos (length l) then Val (firstn len (skipn pos l)) else UB.
(* navigable_ast_internal.h:204-215; the range gives nodes, by their index *)
Definition DescendantsPreorder (md : metadata) (n : node) : out (list nat) :=
  subspan (seq 0 (length (m_nodes md))) (n_index n) (n_tree_size n).
Definition DescendantsPostorder (md : metadata) (n : node) : out (list nat) :=
  subspan (m_postorder md) (n_index n) (n_tree_size n).
(* navigable_ast_internal.h:252-262 *)
Definition FindId (md : metadata) (id : Z) : option nat := lookup id (m_id_to_node md).
(* navigable_ast_internal.h:275-284 *)
Definition Root (md : metadata) : out node := at_index (m_nodes md) 0.
Definition IdsAreUnique (md : metadata) : bool := Nat.eqb (length (m_id_to_node md)) (length (m_nodes md)).
