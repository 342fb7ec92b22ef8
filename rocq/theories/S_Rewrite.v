(* What rewriting a tree means: by recursion, each expression before and after its
   parts. *)
From Coq Require Import ZArith String List Bool.
From Verif Require Import Base M_Ast S_Ast.
From Verif Require Import M_Rewrite.
Import ListNotations.
Open Scope list_scope.

(* The expression with its unset list elements and pieces of a comprehension
   made empty expressions. *)
Definition or_new (o : option Expr) : option Expr := Some (or_empty o).
Definition settled (e : Expr) : Expr :=
  match e with
  | ListE id elements => ListE id (map (fun x => (or_new (fst x), snd x)) elements)
  | Comprehension id v v2 a r i c s f => Comprehension id v v2 a (or_new r) (or_new i) (or_new c) (or_new s) (or_new f)
  | _ => e
  end.
(* The members of an expression that hold a part, in their natural order, and
   what the part is to the expression. *)
Definition held (k : member) (o : option Expr) : list member := match o with Some _ => [k] | None => [] end.
Fixpoint numbered {A} (f : nat -> A -> list member) (i : nat) (l : list A) : list member :=
  match l with [] => [] | x :: l' => f i x ++ numbered f (S i) l' end.
Definition members (e : Expr) : list member :=
  match e with
  | Unspecified _ | Const _ _ | Ident _ _ => []
  | Select _ operand _ _ => held InOperand operand
  | Call _ _ target args => held InTarget target ++ numbered (fun i _ => [InArg i]) 0 args
  | ListE _ elements => numbered (fun i x => held (InElement i) (fst x)) 0 elements
  | StructE _ _ fields => numbered (fun i x => let '(_, _, value, _) := x in held (InField i) value) 0 fields
  | MapE _ entries =>
      numbered (fun i x => let '(_, key, value, _) := x in held (InKey i) key ++ held (InValue i) value) 0 entries
  | Comprehension _ _ _ _ r i c s f =>
      held (InPiece ITER_RANGE) r ++ held (InPiece ACCU_INIT) i ++ held (InPiece LOOP_CONDITION) c ++
      held (InPiece LOOP_STEP) s ++ held (InPiece RESULT) f
  end.
Definition role_of (k : member) : role :=
  match k with
  | InOperand => Operand | InTarget => Receiver | InArg i => Argument i | InElement _ => Element
  | InField _ => FieldValue | InKey _ => EntryKey | InValue _ => EntryValue | InPiece a => Piece a
  end.

Section Rewrite.
Context {S : Type} (v : AstRewriter S) (special : bool).
Definition told (s : S) (evs : list event) : S := fold_left (Visit v) evs s.

(* Rewriting the expression e; [above] gives the expressions above it, from the
   root down, as they are when it is replaced by another one.  The user's state
   goes from s to s', the expression becomes e', and [b] tells whether some
   callback reported a rewrite. *)
Inductive rewrites : (Expr -> list Expr) -> S -> Expr -> S -> Expr -> bool -> Prop :=
| rewrites_expr above s e s1 e1 b1 s2 e2 b2 s3 e3 b3 :
    PreVisitRewrite v (TraversalStackUpdate v s (above e ++ [e])) e = (s1, e1, b1) ->
    rewrites_parts above (members (settled e1)) (told s1 ([PreVisitExpr e1] ++ before e1)) (settled e1) s2 e2 b2 ->
    PostVisitRewrite v (told s2 (after e2 ++ [PostVisitExpr e2])) e2 = (s3, e3, b3) ->
    rewrites above s e (TraversalStackUpdate v s3 (above e3)) e3 (b1 || b2 || b3)
(* Rewriting the parts of e in the given members, one after the other. *)
with rewrites_parts : (Expr -> list Expr) -> list member -> S -> Expr -> S -> Expr -> bool -> Prop :=
| rewrites_none above s e : rewrites_parts above [] s e s e false
| rewrites_part above k ks s e c s1 c' b1 s2 e' b2 :
    child k e = Some c ->
    rewrites (fun x => above (with_child k e x) ++ [with_child k e x]) (told s (enter special e (role_of k))) c s1 c' b1 ->
    rewrites_parts above ks (told s1 (leave special (with_child k e c') (role_of k))) (with_child k e c') s2 e' b2 ->
    rewrites_parts above (k :: ks) s e s2 e' (b1 || b2).
End Rewrite.

(* Every list element and every piece of a comprehension is set. *)
Inductive filled : Expr -> Prop :=
| filled_expr e : settled e = e -> Forall filled (children e) -> filled e.

(* Rewriting from the leaves up with a function, which tells whether it rewrote. *)
Definition with_children (e : Expr) (cs : list Expr) : Expr :=
  fold_left (fun e kc => with_child (fst kc) e (snd kc)) (combine (members e) cs) e.
Inductive bottom_up (f : Expr -> Expr * bool) : Expr -> Expr -> bool -> Prop :=
| bottom_up_expr e cs bs : bottom_ups f (children e) cs bs ->
    bottom_up f e (fst (f (with_children (settled e) cs))) (fold_right orb false bs || snd (f (with_children (settled e) cs)))
with bottom_ups (f : Expr -> Expr * bool) : list Expr -> list Expr -> list bool -> Prop :=
| bottom_ups_nil : bottom_ups f [] [] []
| bottom_ups_cons e es c cs b bs : bottom_up f e c b -> bottom_ups f es cs bs -> bottom_ups f (e :: es) (c :: cs) (b :: bs).
