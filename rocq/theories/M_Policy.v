(* Model of the policy compiler: policy/compiler.cc (FirstMatchComposer,
   Unnester, CompilePolicy), with the parts of common/navigable_ast.cc,
   common/ast_rewrite.cc and policy/internal/optimizer_expr_factory.cc it uses.

   The input is the checked policy (CompiledRule, compiler.cc:85-119): every
   condition and output is an expression.  Simplifications: explanations are
   not used by composition and left out; expression ids, positions and macro
   calls are left out (nodes are picked by what the ids stand for); a name that
   the type checker resolved to a variable is one identifier, so that a
   reference to a policy variable is EIdent variables.x (the runtime reads it
   so, eval/compiler/qualified_reference_resolver.cc); the final type check of
   the composed expression is left out; heights are unbounded integers. *)
From Coq Require Import ZArith List Bool String Ascii.
From Coq Require Import Numbers.DecimalString.
From Verif Require Import Base M_Overflow M_Number M_Attr M_Value M_Logic M_Expr M_Macro.
Import ListNotations.
Local Open Scope string_scope.
Open Scope list_scope.
Open Scope Z_scope.
Local Open Scope out_scope.

(* compiler.cc:85-119 CompiledRule, CompiledMatch, CompiledOutputBlock: the
   variables of a rule by name, and its matches, each with a condition or none
   and an output or a nested rule *)
Inductive rule :=
| Rule (variables : list (string * expr)) (matches : list (option expr * (expr + rule))).

(* absl::StrCat("@index", i) (compiler.cc:749, 955) *)
Definition index_name (i : nat) : string := "@index" ++ NilEmpty.string_of_uint (Nat.to_uint i).
(* absl::StrCat("variables.", name) (compiler.cc:461) *)
Definition variable_ident (name : string) : string := "variables." ++ name.

(* compiler.cc:641-653 IsTriviallyTrueCondition *)
Definition IsTriviallyTrueCondition (condition : option expr) : bool :=
  match condition with
  | None => true
  | Some (EConst (VBool true)) => true
  | Some _ => false
  end.

(* compiler.cc:657-690 IsExhaustive *)
Fixpoint IsExhaustive (r : rule) : bool :=
  let exhaustive_match p := match p with inl _ => true | inr r' => IsExhaustive r' end in
  match r with
  | Rule _ matches =>
      (fix go (has_default : bool) (l : list (option expr * (expr + rule))) : bool :=
         match l with
         | [] => has_default
         | (c, p) :: l' =>
             let has_default := has_default || (IsTriviallyTrueCondition c && exhaustive_match p) in
             if negb (IsTriviallyTrueCondition c) && negb (exhaustive_match p) then false
             else go has_default l'
         end) false matches
  end.
Definition exhaustive_production (p : expr + rule) : bool :=
  match p with inl _ => true | inr r => IsExhaustive r end.

(* compiler.cc:692-727 CheckMatchStructure; false: an issue was reported *)
Fixpoint CheckMatchStructure (r : rule) : bool :=
  match r with
  | Rule _ [] => false
  | Rule _ matches =>
      (fix go (valid seen : bool) (l : list (option expr * (expr + rule))) : bool :=
         match l with
         | [] => valid
         | (c, p) :: l' =>
             let valid := valid && negb seen in
             let seen := seen || (IsTriviallyTrueCondition c && exhaustive_production p) in
             let valid := valid && match p with inl _ => true | inr r' => CheckMatchStructure r' end in
             go valid seen l'
         end) true false matches
  end.

(* ---- policy variables ---- *)

(* compiler.cc:570 VariableScope; the innermost scope first *)
Definition scope := list (string * nat).
Definition scope_find (s : scope) (x : string) : option nat :=
  option_map snd (find (fun p => String.eqb (fst p) x) s).
(* compiler.cc:729-738 ResolvePolicyVariable *)
Fixpoint ResolvePolicyVariable (scopes : list scope) (x : string) : option nat :=
  match scopes with
  | [] => None
  | s :: scopes' => match scope_find s x with Some i => Some i | None => ResolvePolicyVariable scopes' x end
  end.
(* compiler.cc:858-875 ResolveBlockIndexes on one reference, 740-759 IndexRewrite *)
Definition map_name (scopes : list scope) (x : string) : string :=
  if String.prefix "variable" x then
    match ResolvePolicyVariable scopes x with Some i => index_name i | None => x end
  else x.
(* compiler.cc:877-881 MapVariables *)
Fixpoint rename (f : string -> string) (e : expr) : expr :=
  match e with
  | EConst _ => e
  | EIdent x => EIdent (f x)
  | ESelect a field t => ESelect (rename f a) field t
  | ECall fn t args => ECall fn (option_map (rename f) t) (map (rename f) args)
  | EList l => EList (map (fun p => (fst p, rename f (snd p))) l)
  | EMap l => EMap (map (fun p => (fst p, (rename f (fst (snd p)), rename f (snd (snd p))))) l)
  | EComp x x2 y r i c s b =>
      EComp x x2 y (rename f r) (rename f i) (rename f c) (rename f s) (rename f b)
  end.
Definition MapVariables (scopes : list scope) (e : expr) : expr := rename (map_name scopes) e.

(* compiler.cc:883-900 ComposeRuleVariables: s is scopes_.back(), init the
   elements of the block's list *)
Fixpoint ComposeRuleVariables (scopes : list scope) (variables : list (string * expr))
    (s : scope) (init : list expr) : scope * list expr :=
  match variables with
  | [] => (s, init)
  | (name, e) :: rest =>
      let init' := init ++ [MapVariables (s :: scopes) e] in
      ComposeRuleVariables scopes rest ((variable_ident name, List.length init) :: s) init'
  end.

(* ---- composition ---- *)

Definition internal (msg : string) : status := mkStatus kInternal msg.

(* compiler.cc:761-831 ComposeRule, 833-856 ComposeProduction.  Gives whether
   the expression is optional, the block's list and the expression.  A failing
   ABSL_DCHECK, and back() of no matches, is UB. *)
Fixpoint ComposeRule (r : rule) (scopes : list scope) (init : list expr) {struct r}
    : out (bool * (list expr * expr)) :=
  match r with
  | Rule variables matches =>
      let (s, init1) := ComposeRuleVariables scopes variables [] init in
      let scopes1 := s :: scopes in
      let needs_wrap := negb (IsExhaustive r) in
      let go :=
        fix go (l : list (option expr * (expr + rule))) (init : list expr)
            : out (bool * (list expr * expr)) :=
          match l with
          | [] => Val (true, (init, NewCall "optional.none" []))
          | (c, p) :: l' =>
              let trivial := IsTriviallyTrueCondition c in
              let default := trivial && match l' with [] => true | _ => false end in
              if negb default && trivial && exhaustive_production p
              then Err (internal "detected unreachable match after validation")
              else
                composed <- match p with
                            | inl e => Val (false, (init, MapVariables scopes1 e))
                            | inr r' => ComposeRule r' scopes1 init
                            end ;;
                let is_wrapped := fst composed in
                let init2 := fst (snd composed) in
                let production :=
                  if needs_wrap && negb is_wrapped
                  then NewCall "optional.of" [snd (snd composed)]
                  else snd (snd composed) in
                if default then
                  if negb needs_wrap && is_wrapped then UB
                  else Val (needs_wrap, (init2, production))
                else
                  match c with
                  | Some condition =>
                      if negb trivial then
                        if negb needs_wrap && is_wrapped then UB
                        else
                          rest <- go l' init2 ;;
                          Val (fst rest, (fst (snd rest),
                            NewCall "_?_:_" [MapVariables scopes1 condition; production; snd (snd rest)]))
                      else if negb is_wrapped then
                        Err (internal "composition failed. expected optional wrapped rule but got a plain value")
                      else
                        rest <- go l' init2 ;;
                        Val (fst rest, (fst (snd rest),
                          ECall (if needs_wrap then "or" else "orValue") (Some production) [snd (snd rest)]))
                  | None =>
                      if negb is_wrapped then
                        Err (internal "composition failed. expected optional wrapped rule but got a plain value")
                      else
                        rest <- go l' init2 ;;
                        Val (fst rest, (fst (snd rest),
                          ECall (if needs_wrap then "or" else "orValue") (Some production) [snd (snd rest)]))
                  end
          end in
      match matches with [] => UB | _ => go matches init1 end
  end.

(* An expression cel.@block(list, body).  Its list elements are evaluated when
   first referred to. *)
Definition block := (list expr * expr)%type.

(* compiler.cc:601-639 Compose; None: issues were reported *)
Definition Compose (root : rule) : out (option (bool * block)) :=
  let optionalize := negb (IsExhaustive root) in
  if negb (CheckMatchStructure root) then Val None
  else
    composed <- ComposeRule root [] [] ;;
    if Bool.eqb (fst composed) optionalize then Val (Some composed)
    else Err (internal "composition failed to handle non-exhaustive rules").

(* ---- unnesting ---- *)

(* navigable_ast.cc:121-173 *)
Definition max_of (l : list Z) : Z := fold_right Z.max 0 l.
Fixpoint height (e : expr) : Z :=
  1 + match e with
      | EConst _ | EIdent _ => 0
      | ESelect a _ _ => height a
      | ECall _ t args => Z.max (match t with Some a => height a | None => 0 end) (max_of (map height args))
      | EList l => max_of (map (fun p => height (snd p)) l)
      | EMap l => max_of (map (fun p => Z.max (height (fst (snd p))) (height (snd (snd p)))) l)
      | EComp _ _ _ r i c s b =>
          Z.max (height r) (Z.max (height i) (Z.max (height c) (Z.max (height s) (height b))))
      end.
(* node.height() % height_ == 0 (compiler.cc:988) *)
Definition at_cut (h : Z) (e : expr) : bool := Z.rem (height e) h =? 0.
(* some node of e is at a cut *)
Fixpoint has_cut (h : Z) (e : expr) : bool :=
  at_cut h e
  || match e with
     | EConst _ | EIdent _ => false
     | ESelect a _ _ => has_cut h a
     | ECall _ t args =>
         match t with Some a => has_cut h a | None => false end || existsb (has_cut h) args
     | EList l => existsb (fun p => has_cut h (snd p)) l
     | EMap l => existsb (fun p => has_cut h (fst (snd p)) || has_cut h (snd (snd p))) l
     | EComp _ _ _ r i c s b => has_cut h r || has_cut h i || has_cut h c || has_cut h s || has_cut h b
     end.
(* some node at a cut has a comprehension parent (compiler.cc:902-911, 988-997) *)
Fixpoint cut_in_comprehension (h : Z) (e : expr) : bool :=
  match e with
  | EConst _ | EIdent _ => false
  | ESelect a _ _ => cut_in_comprehension h a
  | ECall _ t args =>
      match t with Some a => cut_in_comprehension h a | None => false end
      || existsb (cut_in_comprehension h) args
  | EList l => existsb (fun p => cut_in_comprehension h (snd p)) l
  | EMap l => existsb (fun p => cut_in_comprehension h (fst (snd p)) || cut_in_comprehension h (snd (snd p))) l
  | EComp _ _ _ _ _ _ _ _ => has_cut h e
  end.

(* ast_rewrite.cc:350-386 AstRewrite, children first and from left to right,
   with UnnestRewriter::PostVisitRewrite (compiler.cc:948-963) *)
Definition map_state {A B S} (f : A -> S -> B * S) : list A -> S -> list B * S :=
  fix go (l : list A) (s : S) : list B * S :=
    match l with
    | [] => ([], s)
    | a :: l' => let (b, s1) := f a s in let (bs, s2) := go l' s1 in (b :: bs, s2)
    end.
Fixpoint slice (h : Z) (e : expr) (init : list expr) : expr * list expr :=
  let (e', init') :=
    match e with
    | EConst _ | EIdent _ => (e, init)
    | ESelect a f t => let (a', i1) := slice h a init in (ESelect a' f t, i1)
    | ECall fn t args =>
        let (t', i1) := match t with
                        | Some a => let (a', i1) := slice h a init in (Some a', i1)
                        | None => (None, init)
                        end in
        let (args', i2) := map_state (slice h) args i1 in (ECall fn t' args', i2)
    | EList l =>
        let (l', i1) := map_state (fun p i => let (a, i1) := slice h (snd p) i in ((fst p, a), i1)) l init in
        (EList l', i1)
    | EMap l =>
        let (l', i1) := map_state (fun p i =>
            let (k, i1) := slice h (fst (snd p)) i in
            let (v, i2) := slice h (snd (snd p)) i1 in ((fst p, (k, v)), i2)) l init in
        (EMap l', i1)
    | EComp x x2 y r i c s b =>
        let (r', i1) := slice h r init in
        let (i', i2) := slice h i i1 in
        let (c', i3) := slice h c i2 in
        let (s', i4) := slice h s i3 in
        let (b', i5) := slice h b i4 in
        (EComp x x2 y r' i' c' s' b', i5)
    end in
  if at_cut h e then (EIdent (index_name (List.length init')), init' ++ [e']) else (e', init').

(* compiler.cc:971-1019 Slice; None: issues were reported *)
Definition Slice (h : Z) (b : block) : option block :=
  if existsb (cut_in_comprehension h) (fst b) || cut_in_comprehension h (snd b) then None
  else let (body, init) := slice h (snd b) (fst b) in Some (init, body).
(* compiler.cc:921-927 Unnest *)
Definition Unnest (h : Z) (b : block) : option block := if h >? 0 then Slice h b else Some b.

(* compiler.cc:1052-1113 CompilePolicy from the checked policy on; None: the
   result is not valid.  true: the result is optional. *)
Definition CompilePolicy (h : Z) (root : rule) : out (option (bool * block)) :=
  if negb (h =? 0) && (h <? 2)
  then Err (mkStatus kInvalidArgument "unnesting_height_limit must be at least 2")
  else
    composed <- Compose root ;;
    match composed with
    | None => Val None
    | Some (optional, b) =>
        match Unnest h b with
        | None => Val None
        | Some b' => Val (Some (optional, b'))
        end
    end.

(* compiler.cc:1021-1039 Cleanup: the syntax tree returned *)
Definition Cleanup (b : block) : expr :=
  match fst b with
  | [] => snd b
  | _ => ECall "cel.@block" None [EList (map (fun e => (false, e)) (fst b)); snd b]
  end.
