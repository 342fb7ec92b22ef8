(* What visiting an abstract syntax tree means, without a stack. *)
From Coq Require Import ZArith String List Bool.
From Verif Require Import Base.
From Verif Require Import M_Ast.
Import ListNotations.
Open Scope list_scope.
Open Scope Z_scope.

(* The parts of an expression in their natural order, each with what it is to
   the expression.  A list element or a piece of a comprehension that is not set
   stands for the empty expression; other parts that are not set do not count. *)
Inductive role :=
| Operand | Receiver | Argument (i : nat) | Element | FieldValue | EntryKey | EntryValue | Piece (a : ComprehensionArg).
Definition present (r : role) (o : option Expr) : list (role * Expr) :=
  match o with Some e => [(r, e)] | None => [] end.
Definition or_empty (o : option Expr) : Expr := match o with Some e => e | None => Unspecified 0 end.
Fixpoint arguments (i : nat) (args : list Expr) : list (role * Expr) :=
  match args with [] => [] | a :: args' => (Argument i, a) :: arguments (S i) args' end.
Definition parts (e : Expr) : list (role * Expr) :=
  match e with
  | Unspecified _ | Const _ _ | Ident _ _ => []
  | Select _ operand _ _ => present Operand operand
  | Call _ _ target args => present Receiver target ++ arguments 0 args
  | ListE _ elements => map (fun x => (Element, or_empty (fst x))) elements
  | StructE _ _ fields => concat (map (fun '(_, _, value, _) => present FieldValue value) fields)
  | MapE _ entries => concat (map (fun '(_, key, value, _) => present EntryKey key ++ present EntryValue value) entries)
  | Comprehension _ _ _ _ iter_range accu_init loop_condition loop_step result =>
      [(Piece ITER_RANGE, or_empty iter_range); (Piece ACCU_INIT, or_empty accu_init);
       (Piece LOOP_CONDITION, or_empty loop_condition); (Piece LOOP_STEP, or_empty loop_step);
       (Piece RESULT, or_empty result)]
  end.
Definition children (e : Expr) : list Expr := map snd (parts e).

(* The callbacks for an expression before and after its parts. *)
Definition before (e : Expr) : list event :=
  match e with
  | Select _ _ _ _ => [PreVisitSelect e]
  | Call _ _ _ _ => [PreVisitCall e]
  | Comprehension _ _ _ _ _ _ _ _ _ => [PreVisitComprehension e]
  | _ => []
  end.
Definition after (e : Expr) : list event :=
  match e with
  | Unspecified _ => []
  | Const _ _ => [PostVisitConst e]
  | Ident _ _ => [PostVisitIdent e]
  | Select _ _ _ _ => [PostVisitSelect e]
  | Call _ _ _ _ => [PostVisitCall e]
  | ListE _ _ => [PostVisitList e]
  | StructE _ _ _ => [PostVisitStruct e]
  | MapE _ _ => [PostVisitMap e]
  | Comprehension _ _ _ _ _ _ _ _ _ => [PostVisitComprehension e]
  end.
(* The callbacks for an expression before and after one of its parts; [special]
   is the option for callbacks of their own for comprehensions. *)
Definition enter (special : bool) (e : Expr) (r : role) : list event :=
  match r with
  | Piece a => if special then [PreVisitComprehensionSubexpression e a] else []
  | _ => []
  end.
Definition leave (special : bool) (e : Expr) (r : role) : list event :=
  match r with
  | Receiver => [PostVisitTarget e]
  | Argument i => [PostVisitArg e (Z.of_nat i)]
  | Piece a =>
      if special then [PostVisitComprehensionSubexpression e a]
      else [PostVisitArg e (match a with
                            | ITER_RANGE => 0 | ACCU_INIT => 1 | LOOP_CONDITION => 2 | LOOP_STEP => 3 | RESULT => 4
                            end)]
  | _ => []
  end.

(* The callbacks of a visit of an expression; of its parts in order. *)
Inductive walk (special : bool) : Expr -> list event -> Prop :=
| walk_expr e inner :
    walk_parts special e (parts e) inner ->
    walk special e ([PreVisitExpr e] ++ before e ++ inner ++ after e ++ [PostVisitExpr e])
with walk_parts (special : bool) : Expr -> list (role * Expr) -> list event -> Prop :=
| walk_none e : walk_parts special e [] []
| walk_part e r c ps w rest :
    walk special c w -> walk_parts special e ps rest ->
    walk_parts special e ((r, c) :: ps) (enter special e r ++ w ++ leave special e r ++ rest).

(* The expressions in a tree, each before, or after, those below it. *)
Inductive preorder : Expr -> list Expr -> Prop :=
| preorder_expr e ls : Forall2 preorder (children e) ls -> preorder e (e :: concat ls).
Inductive postorder : Expr -> list Expr -> Prop :=
| postorder_expr e ls : Forall2 postorder (children e) ls -> postorder e (concat ls ++ [e]).
(* The number of expressions on a longest way down. *)
Inductive tall : Expr -> nat -> Prop :=
| tall_expr e hs : Forall2 tall (children e) hs -> tall e (S (fold_right Nat.max O hs)).

(* The expressions given to PreVisitExpr, and to PostVisitExpr, in order. *)
Definition entered (w : list event) : list Expr :=
  concat (map (fun ev => match ev with PreVisitExpr e => [e] | _ => [] end) w).
Definition left (w : list event) : list Expr :=
  concat (map (fun ev => match ev with PostVisitExpr e => [e] | _ => [] end) w).

(** ** The navigable tree *)

Definition kind_of_part (r : role) : ChildKind :=
  match r with
  | Operand => kSelectOperand | Receiver => kCallReceiver | Argument _ => kCallArg | Element => kListElem
  | FieldValue => kStructValue | EntryKey => kMapKey | EntryValue => kMapValue
  | Piece ITER_RANGE => kComprehensionRange | Piece ACCU_INIT => kComprehensionInit
  | Piece LOOP_CONDITION => kComprehensionCondition | Piece LOOP_STEP => kComprehensionLoopStep
  | Piece RESULT => kComprensionResult
  end.
(* Every entry of a map has its key and its value, in the whole tree. *)
Inductive complete : Expr -> Prop :=
| complete_expr e :
    (match e with
     | MapE _ entries => Forall (fun '(_, key, value, _) => key <> None /\ value <> None) entries
     | _ => True
     end) ->
    Forall complete (children e) -> complete e.

(* The node with index i is the node of expression e, under the given parent, and
   its children are, in order, the nodes of the parts of e. *)
Inductive mirrors (md : metadata) : option nat -> Z -> nat -> Expr -> Prop :=
| mirrors_expr parent child_index i e n hs l :
    nth_error (m_nodes md) i = Some n ->
    n_expr n = e -> n_index n = i -> n_parent n = parent -> n_child_index n = child_index ->
    n_node_kind n = GetNodeKind e ->
    preorder e l -> n_tree_size n = length l ->
    tall e hs -> n_height n = hs ->
    length (n_children n) = length (children e) ->
    (forall k c j, nth_error (children e) k = Some c -> nth_error (n_children n) k = Some j ->
       mirrors md (Some i) (Z.of_nat k) j c) ->
    mirrors md parent child_index i e.

(* What each node is to its parent agrees with the expression. *)
Inductive labelled (md : metadata) : ChildKind -> nat -> Expr -> Prop :=
| labelled_expr rel i e n :
    nth_error (m_nodes md) i = Some n -> n_parent_relation n = rel ->
    (forall k r c j, nth_error (parts e) k = Some (r, c) -> nth_error (n_children n) k = Some j ->
       labelled md (kind_of_part r) j c) ->
    labelled md rel i e.

(* The nodes below a node and the node itself, by the children of the nodes: the
   node first, or last. *)
Inductive node_preorder (md : metadata) : nat -> list nat -> Prop :=
| node_preorder_at i n ls :
    nth_error (m_nodes md) i = Some n -> Forall2 (node_preorder md) (n_children n) ls -> node_preorder md i (i :: concat ls).
Inductive node_postorder (md : metadata) : nat -> list nat -> Prop :=
| node_postorder_at i n ls :
    nth_error (m_nodes md) i = Some n -> Forall2 (node_postorder md) (n_children n) ls -> node_postorder md i (concat ls ++ [i]).

(* Node i is the first with the id. *)
Definition first_with_id (md : metadata) (id : Z) (i : nat) : Prop :=
  (exists n, nth_error (m_nodes md) i = Some n /\ expr_id (n_expr n) = id) /\
  forall j n, (j < i)%nat -> nth_error (m_nodes md) j = Some n -> expr_id (n_expr n) <> id.
