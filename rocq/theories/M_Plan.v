(* Model of the planner's slot allocation and code generation:
     eval/compiler/flat_expr_builder.cc (IndexManager, FlatExprVisitor,
     BinaryCondVisitor, TernaryCondVisitor, ComprehensionVisitor),
     eval/compiler/flat_expr_builder_extensions.cc (extracted subexpressions).

   Simplifications.  Jump offsets are unbounded integers (the builder refuses
   programs whose offsets do not fit an int).  The suppressed branches of a
   bind are not traversed, so they reserve no slots. *)
From Coq Require Import ZArith List Bool String Ascii.
From Verif Require Import Base M_Overflow M_Number M_Attr M_Value M_Logic M_Expr.
Import ListNotations.
Local Open Scope string_scope.
Open Scope list_scope.
Open Scope Z_scope.

(* ---- resolved expressions ---- *)

(* An expression whose local variables are replaced by comprehension slots.
   RLazy slot idx reads a bind variable, RBind slot idx init body is the bind
   itself; init is extracted as subexpression idx. *)
Inductive rcore :=
| RConst (v : value)
| RVar (name : string)
| RSlot (name : string) (slot : nat)
| RLazy (slot idx : nat)
| RLogic (op : op_type) (a b : rcore)
| RCond (c a b : rcore)
| ROr (or_value : bool) (a b : rcore)
| RApp (op : sop) (args : list rcore)
| RComp (it it2 ac : nat) (range init cond step res : rcore)
| RBind (slot idx : nat) (init res : rcore).

(* ComprehensionStackRecord (flat_expr_builder.cc:484-505) as LookupSlot sees
   it: what a name in scope stands for. *)
Inductive vref := LSlot (n : nat) | LLazy (n idx : nat).
Definition scope := list (string * vref).
(* flat_expr_builder.cc:743-770 LookupSlot: innermost record first; in one
   record iter_var, iter_var2, accu_var *)
Fixpoint lookup_slot (s : scope) (name : string) : option vref :=
  match s with
  | [] => None
  | (x, r) :: s' => if String.eqb x name then Some r else lookup_slot s' name
  end.

(* IndexManager (flat_expr_builder.cc:122-145): next free slot and the largest
   value it took; the extracted subexpressions so far. *)
Record alloc_state := mkAlloc { al_next : nat; al_max : nat; al_subs : list rcore }.
(* IndexManager::ReserveSlots (flat_expr_builder.cc:126-133) *)
Definition ReserveSlots (n : nat) (s : alloc_state) : alloc_state :=
  mkAlloc (al_next s + n) (Nat.max (al_max s) (al_next s + n)) (al_subs s).
(* IndexManager::ReleaseSlots (135-138), to a given next free slot *)
Definition release_to (n : nat) (s : alloc_state) : alloc_state :=
  mkAlloc n (al_max s) (al_subs s).
(* ProgramBuilder::ExtractSubexpression
   (flat_expr_builder_extensions.cc:359-380) *)
Definition extract (r : rcore) (s : alloc_state) : alloc_state :=
  mkAlloc (al_next s) (al_max s) (al_subs s ++ [r]).

(* PreVisitComprehension, PostVisitComprehension and the scope switches
   (flat_expr_builder.cc:1293-1458).  in_init says that some enclosing
   optimisable bind is having its initialiser planned: the slots reserved there
   are accounted to the outermost such bind (1354-1369), so they stay reserved
   until it ends. *)
Fixpoint alloc (in_init : bool) (sc : scope) (e : core) (s : alloc_state)
    {struct e} : rcore * alloc_state :=
  match e with
  | KConst v => (RConst v, s)
  | KVar name =>
      match lookup_slot sc name with
      | Some (LSlot n) => (RSlot name n, s)
      | Some (LLazy n i) => (RLazy n i, s)
      | None => (RVar name, s)
      end
  | KGlobal name => (RVar name, s)
  | KLogic op a b =>
      let (ra, s1) := alloc in_init sc a s in
      let (rb, s2) := alloc in_init sc b s1 in
      (RLogic op ra rb, s2)
  | KCond c a b =>
      let (rc, s1) := alloc in_init sc c s in
      let (ra, s2) := alloc in_init sc a s1 in
      let (rb, s3) := alloc in_init sc b s2 in
      (RCond rc ra rb, s3)
  | KOr k a b =>
      let (ra, s1) := alloc in_init sc a s in
      let (rb, s2) := alloc in_init sc b s1 in
      (ROr k ra rb, s2)
  | KApp op args =>
      let (rs, s1) :=
        (fix go (l : list core) (s : alloc_state) : list rcore * alloc_state :=
           match l with
           | [] => ([], s)
           | x :: l' => let (r, s1) := alloc in_init sc x s in
                        let (rs, s2) := go l' s1 in (r :: rs, s2)
           end) args s in
      (RApp op rs, s1)
  | KComp x x2 y range init cond step res =>
      let n := al_next s in
      let two := negb (String.eqb x2 "") in
      let it2 := if two then S n else n in
      let ac := S it2 in
      let s0 := ReserveSlots (if two then 3 else 2) s in
      let loop_scope := (x, LSlot n) :: (if two then [(x2, LSlot it2)] else [])
                          ++ (y, LSlot ac) :: sc in
      let (rr, s1) := alloc in_init sc range s0 in
      let (ri, s2) := alloc in_init sc init s1 in
      let (rc, s3) := alloc in_init loop_scope cond s2 in
      let (rs, s4) := alloc in_init loop_scope step s3 in
      let (rb, s5) := alloc in_init ((y, LSlot ac) :: sc) res s4 in
      (RComp n it2 ac rr ri rc rs rb, if in_init then s5 else release_to n s5)
  | KBind y init res =>
      let n := al_next s in
      let s0 := ReserveSlots 1 s in
      let (ri, s1) := alloc true sc init s0 in
      let idx := List.length (al_subs s1) in
      let s2 := extract ri s1 in
      let (rb, s3) := alloc in_init ((y, LLazy n idx) :: sc) res s2 in
      (RBind n idx ri rb, if in_init then s3 else release_to n s3)
  end.

(* ---- steps ---- *)

Inductive step :=
| SConst (v : value)                                   (* compiler_constant_step.cc:31-35 *)
| SIdent (name : string)                               (* ident_step.cc:30-39 *)
| SSlot (name : string) (slot : nat)                   (* ident_step.cc:96-112 *)
| SLazyInit (slot idx : nat)                           (* lazy_init_step.cc:39-59 *)
| SClearSlot (slot : nat)                              (* lazy_init_step.cc:129-142 *)
| SApp (op : sop) (n : nat)
| SLogic (op : op_type)                                (* logic_step.cc:196-271 *)
| STernary                                             (* ternary_step.cc:124-170 *)
| SOptOr (or_value : bool)                             (* optional_or_step.cc:111-181 *)
| SJump (off : Z)                                      (* jump_step.cc:37-46 *)
| SCondJump (cond leave : bool) (off : Z)              (* jump_step.cc:48-81 *)
| SBoolCheckJump (off : Z)                             (* jump_step.cc:83-120 *)
| SOptJump (or_value : bool) (off : Z)                 (* optional_or_step.cc:80-109 *)
| SCompInit (err : Z)                                  (* comprehension_step.cc:442-483 *)
| SCompNext (it it2 ac : nat) (off : Z)                (* comprehension_step.cc:485-590 *)
| SCompCond (it it2 ac : nat) (sc : bool) (off err : Z)(* comprehension_step.cc:592-663 *)
| SCompFinish (ac : nat).                              (* comprehension_step.cc:60-78 *)

Definition len (l : list step) : Z := Z.of_nat (List.length l).

(* The steps planned for an expression; sc is options.short_circuiting.
   BinaryCondVisitor (flat_expr_builder.cc:2150-2287), TernaryCondVisitor
   (2289-2369), ExhaustiveTernaryCondVisitor (2371-2385), ComprehensionVisitor
   (2387-2497), Jump::CalculateOffset (166-176). *)
Fixpoint code (sc : bool) (r : rcore) : list step :=
  match r with
  | RConst v => [SConst v]
  | RVar name => [SIdent name]
  | RSlot name n => [SSlot name n]
  | RLazy n idx => [SLazyInit n idx]
  | RLogic op a b =>
      let ca := code sc a in
      let cb := code sc b in
      ca ++ (if sc then [SCondJump (shortcircuit op) true (len cb + 1)] else [])
         ++ cb ++ [SLogic op]
  | RCond c a b =>
      let cc := code sc c in
      let ca := code sc a in
      let cb := code sc b in
      if sc then
        cc ++ [SBoolCheckJump (len ca + len cb + 2); SCondJump false false (len ca + 1)]
           ++ ca ++ [SJump (len cb)] ++ cb
      else cc ++ ca ++ cb ++ [STernary]
  | ROr k a b =>
      let ca := code sc a in
      let cb := code sc b in
      ca ++ (if sc then [SOptJump k (len cb + 1)] else []) ++ cb ++ [SOptOr k]
  | RApp op args =>
      (fix go (l : list rcore) : list step :=
         match l with
         | [] => []
         | x :: l' => code sc x ++ go l'
         end) args ++ [SApp op (List.length args)]
  | RComp it it2 ac range init cond st res =>
      let cr := code sc range in
      let ci := code sc init in
      let cc := code sc cond in
      let cs := code sc st in
      let cb := code sc res in
      cr ++ [SCompInit (len ci + len cc + len cs + len cb + 4)]
         ++ ci ++ [SCompNext it it2 ac (len cc + len cs + 2)]
         ++ cc ++ [SCompCond it it2 ac sc (len cs + 1) (len cs + len cb + 2)]
         ++ cs ++ [SJump (- (len cc + len cs + 3))]
         ++ cb ++ [SCompFinish ac]
  | RBind n idx init res => code sc res ++ [SClearSlot n]
  end.

(* FlatExpression: the main path, the extracted subexpressions
   (FlattenExpressionTable, flat_expr_builder.cc:2511-2531) and the number of
   comprehension slots (2626-2632). *)
Record program := mkProgram { p_main : list step; p_subs : list (list step); p_slots : nat }.

(* the resolved expression a program is generated from *)
Definition resolved (e : core) : rcore := fst (alloc false [] e (mkAlloc 0 0 [])).

Definition plan_core (sc : bool) (e : core) : program :=
  let (r, s) := alloc false [] e (mkAlloc 0 0 []) in
  mkProgram (code sc r) (map (code sc) (al_subs s)) (al_max s).

(* FlatExprBuilder::CreateExpressionImpl (flat_expr_builder.cc:2551-2632) *)
Definition plan (O : options) (R : registry) (e : expr) : out program :=
  obind (elaborate O R e) (fun k => Val (plan_core (o_short_circuiting O) k)).
