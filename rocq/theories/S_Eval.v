(* Reference semantics of expressions: a plain recursive evaluator with an
   environment of local variables.  It has no program, no jumps, no stack, no
   slots and no iteration budget; a local variable introduced by cel.bind is
   bound to the outcome of its initialiser. *)
From Coq Require Import ZArith List Bool String Ascii Permutation.
From Verif Require Import Base M_Overflow M_Number M_Attr M_Value M_Logic M_Expr M_Plan M_Machine
  S_Arith S_Num S_Value.
Import ListNotations.
Open Scope list_scope.
Open Scope Z_scope.
Local Open Scope out_scope.

Definition env := string -> option (out vt).
Definition no_locals : env := fun _ => None.
Definition bind_local (x : string) (o : out vt) (rho : env) : env :=
  fun y => if String.eqb x y then Some o else rho y.

(* the environment of a loop's condition and step *)
Definition loop_env (C : config) (x x2 y : string) (is_map : bool) (t : trail)
    (kv : value * value) (accu : vt) (rho : env) : env :=
  if String.eqb x2 "" then
    bind_local x (Val (iter_one C is_map t kv)) (bind_local y (Val accu) rho)
  else
    bind_local x (Val (fst (iter_two C t kv)))
      (bind_local x2 (Val (snd (iter_two C t kv))) (bind_local y (Val accu) rho)).

(* Iterating: the comprehension's result once a condition is an error or
   unknown, otherwise what the result expression makes of the accumulator. *)
Fixpoint eval_loop (short : bool) (condition step : value * value -> vt -> out vt)
    (result : vt -> out vt) (items : list (value * value)) (accu : vt) : out vt :=
  match items with
  | [] => result accu
  | kv :: items' =>
      c <- condition kv accu ;;
      match loop_condition c with
      | inl r => Val r
      | inr go_on =>
          if negb go_on && short then result accu
          else a <- step kv accu ;; eval_loop short condition step result items' a
      end
  end.

Definition eval_list (f : core -> out vt) :=
  fix go (l : list core) : out (list vt) :=
    match l with
    | [] => Val []
    | x :: l' => v <- f x ;; vs <- go l' ;; Val (v :: vs)
    end.

Fixpoint eval (C : config) (e : core) (rho : env) {struct e} : out vt :=
  match e with
  | KConst v => Val (v, None)
  | KVar x => match rho x with Some o => o | None => LookupIdent C x end
  | KGlobal x => LookupIdent C x
  | KLogic op a b =>
      x <- eval C a rho ;;
      if sc C && decides op (fst x) then Val x
      else y <- eval C b rho ;; Val (Calculate (unk C) op (fst x) (fst y), None)
  | KCond c a b =>
      x <- eval C c rho ;;
      if sc C then
        match BoolCheck x with
        | Some r => Val r
        | None => if is_true (fst x) then eval C a rho else eval C b rho
        end
      else y <- eval C a rho ;; z <- eval C b rho ;; Val (TernaryStep C x y z)
  | KOr k a b =>
      x <- eval C a rho ;;
      match (if sc C then OptionalJump k x else None) with
      | Some r => Val r
      | None => y <- eval C b rho ;; Val (EvalOptionalOr k x y)
      end
  | KApp op args => vs <- eval_list (fun x => eval C x rho) args ;; apply_op C op vs
  | KComp x x2 y range init cond step res =>
      r <- eval C range rho ;;
      match comp_init C r with
      | inl v => Val v
      | inr (is_map, items) =>
          i <- eval C init rho ;;
          eval_loop (sc C)
            (fun kv accu => eval C cond (loop_env C x x2 y is_map (snd r) kv accu rho))
            (fun kv accu => eval C step (loop_env C x x2 y is_map (snd r) kv accu rho))
            (fun accu => eval C res (bind_local y (Val accu) rho))
            items i
      end
  | KBind y init res => eval C res (bind_local y (eval C init rho) rho)
  end.

(* The same semantics directly on the syntax tree: what a call means, from the
   outcomes of its operands (the target first).  Which operator a name denotes
   is CEL's definition; the other names are the registered functions. *)
Fixpoint sequence (l : list (out vt)) : out (list vt) :=
  match l with
  | [] => Val []
  | o :: l' => v <- o ;; vs <- sequence l' ;; Val (v :: vs)
  end.
Definition logic_outcome (C : config) (op : op_type) (a b : out vt) : out vt :=
  x <- a ;;
  if sc C && decides op (fst x) then Val x
  else y <- b ;; Val (Calculate (unk C) op (fst x) (fst y), None).
Definition call_outcome (C : config) (R : registry) (fn : string) (receiver : bool)
    (operands : list (out vt)) : out vt :=
  let O := cf_opts C in
  let step op := vs <- sequence operands ;; apply_op C op vs in
  let call := step (OCall fn receiver
                      (FindStaticOverloadsByArity R fn receiver (List.length operands))) in
  if String.eqb fn "_&&_" then
    match operands with a :: l => fold_left (logic_outcome C OpAnd) l a | [] => UB end
  else if String.eqb fn "_||_" then
    match operands with a :: l => fold_left (logic_outcome C OpOr) l a | [] => UB end
  else if String.eqb fn "_?_:_" then
    match operands with
    | [c; a; b] =>
        x <- c ;;
        if sc C then
          match BoolCheck x with
          | Some r => Val r
          | None => if is_true (fst x) then a else b
          end
        else y <- a ;; z <- b ;; Val (TernaryStep C x y z)
    | _ => UB
    end
  else if String.eqb fn "_[_]" then step OIndex
  else if o_optional_types O && receiver && Nat.eqb (List.length operands) 2
          && (String.eqb fn "or" || String.eqb fn "orValue") then
    match operands with
    | [a; b] =>
        let k := String.eqb fn "orValue" in
        x <- a ;;
        match (if sc C then OptionalJump k x else None) with
        | Some r => Val r
        | None => y <- b ;; Val (EvalOptionalOr k x y)
        end
    | _ => UB
    end
  else if o_fast_builtins O && is_nsf_name fn then step ONotStrictlyFalse
  else if o_fast_builtins O && String.eqb fn "!_" then step ONot
  else if o_fast_builtins O && o_heterogeneous O && is_in_name fn then step OIn
  else if fast_equality O R && String.eqb fn "_==_" then step (OEqual false)
  else if fast_equality O R && String.eqb fn "_!=_" then step (OEqual true)
  else call.

Fixpoint meaning (C : config) (R : registry) (e : expr) (rho : env) {struct e} : out vt :=
  match e with
  | EConst v => Val (v, None)
  | EIdent (String "."%char global) => LookupIdent C global
  | EIdent name => match rho name with Some o => o | None => LookupIdent C name end
  | ESelect a field test_only => x <- meaning C R a rho ;; SelectStep C field test_only x
  | ECall fn target args =>
      call_outcome C R fn (match target with None => false | Some _ => true end)
        (match target with None => [] | Some t => [meaning C R t rho] end
         ++ map (fun a => meaning C R a rho) args)
  | EList elems =>
      vs <- sequence (map (fun p => meaning C R (snd p) rho) elems) ;;
      ListStep C (map fst elems) vs
  | EMap ents =>
      vs <- sequence (flat_map (fun p => [meaning C R (fst (snd p)) rho;
                                          meaning C R (snd (snd p)) rho]) ents) ;;
      MapStep C (map fst ents) vs
  | EComp x x2 y range init cond step res =>
      if IsBind x x2 range cond
      then meaning C R res (bind_local y (meaning C R init rho) rho)
      else
        r <- meaning C R range rho ;;
        match comp_init C r with
        | inl v => Val v
        | inr (is_map, items) =>
            i <- meaning C R init rho ;;
            eval_loop (sc C)
              (fun kv accu => meaning C R cond (loop_env C x x2 y is_map (snd r) kv accu rho))
              (fun kv accu => meaning C R step (loop_env C x x2 y is_map (snd r) kv accu rho))
              (fun accu => meaning C R res (bind_local y (Val accu) rho))
              items i
        end
  end.

(* ---- vocabulary of the statements about expressions ---- *)

(* x is free in e: some occurrence of the name is not under a binder of it *)
Fixpoint reads (x : string) (e : core) : bool :=
  match e with
  | KConst _ | KGlobal _ => false
  | KVar y => String.eqb y x
  | KLogic _ a b | KOr _ a b => reads x a || reads x b
  | KCond c a b => reads x c || reads x a || reads x b
  | KApp _ args => (fix go l := match l with [] => false | a :: l' => reads x a || go l' end) args
  | KComp i i2 y range init cond step res =>
      reads x range || reads x init
      || negb (String.eqb i x || negb (String.eqb i2 "") && String.eqb i2 x || String.eqb y x)
         && (reads x cond || reads x step)
      || negb (String.eqb y x) && reads x res
  | KBind y init res => reads x init || negb (String.eqb y x) && reads x res
  end.

(* x is bound somewhere in e *)
Fixpoint binds (x : string) (e : core) : bool :=
  match e with
  | KConst _ | KVar _ | KGlobal _ => false
  | KLogic _ a b | KOr _ a b => binds x a || binds x b
  | KCond c a b => binds x c || binds x a || binds x b
  | KApp _ args => (fix go l := match l with [] => false | a :: l' => binds x a || go l' end) args
  | KComp i i2 y range init cond step res =>
      String.eqb i x || String.eqb i2 x || String.eqb y x
      || binds x range || binds x init || binds x cond || binds x step || binds x res
  | KBind y init res => String.eqb y x || binds x init || binds x res
  end.

(* e with the free occurrences of x replaced by a *)
Fixpoint subst (x : string) (a e : core) : core :=
  match e with
  | KConst _ | KGlobal _ => e
  | KVar y => if String.eqb y x then a else e
  | KLogic op b c => KLogic op (subst x a b) (subst x a c)
  | KOr k b c => KOr k (subst x a b) (subst x a c)
  | KCond b c d => KCond (subst x a b) (subst x a c) (subst x a d)
  | KApp op args => KApp op (map (subst x a) args)
  | KComp i i2 y range init cond step res =>
      let shadowed := String.eqb i x || negb (String.eqb i2 "") && String.eqb i2 x || String.eqb y x in
      KComp i i2 y (subst x a range) (subst x a init)
        (if shadowed then cond else subst x a cond) (if shadowed then step else subst x a step)
        (if String.eqb y x then res else subst x a res)
  | KBind y init res => KBind y (subst x a init) (if String.eqb y x then res else subst x a res)
  end.

(* an expression with one hole *)
Inductive ctx :=
| CHole
| CLogic1 (op : op_type) (c : ctx) (b : core) | CLogic2 (op : op_type) (a : core) (c : ctx)
| COr1 (k : bool) (c : ctx) (b : core) | COr2 (k : bool) (a : core) (c : ctx)
| CCond1 (c : ctx) (a b : core) | CCond2 (x : core) (c : ctx) (b : core)
| CCond3 (x a : core) (c : ctx)
| CApp (op : sop) (before : list core) (c : ctx) (after : list core)
| CRange (x x2 y : string) (c : ctx) (init cond step res : core)
| CInit (x x2 y : string) (range : core) (c : ctx) (cond step res : core)
| CCondition (x x2 y : string) (range init : core) (c : ctx) (step res : core)
| CStep (x x2 y : string) (range init cond : core) (c : ctx) (res : core)
| CResult (x x2 y : string) (range init cond step : core) (c : ctx)
| CBindInit (y : string) (c : ctx) (res : core)
| CBindBody (y : string) (init : core) (c : ctx).
Fixpoint plug (c : ctx) (e : core) : core :=
  match c with
  | CHole => e
  | CLogic1 op c b => KLogic op (plug c e) b
  | CLogic2 op a c => KLogic op a (plug c e)
  | COr1 k c b => KOr k (plug c e) b
  | COr2 k a c => KOr k a (plug c e)
  | CCond1 c a b => KCond (plug c e) a b
  | CCond2 x c b => KCond x (plug c e) b
  | CCond3 x a c => KCond x a (plug c e)
  | CApp op l c l' => KApp op (l ++ plug c e :: l')
  | CRange x x2 y c i cd s r => KComp x x2 y (plug c e) i cd s r
  | CInit x x2 y g c cd s r => KComp x x2 y g (plug c e) cd s r
  | CCondition x x2 y g i c s r => KComp x x2 y g i (plug c e) s r
  | CStep x x2 y g i cd c r => KComp x x2 y g i cd (plug c e) r
  | CResult x x2 y g i cd s c => KComp x x2 y g i cd s (plug c e)
  | CBindInit y c r => KBind y (plug c e) r
  | CBindBody y i c => KBind y i (plug c e)
  end.

(* no cel.bind in e *)
Fixpoint no_binds (e : core) : Prop :=
  match e with
  | KConst _ | KVar _ | KGlobal _ => True
  | KLogic _ a b | KOr _ a b => no_binds a /\ no_binds b
  | KCond c a b => no_binds c /\ no_binds a /\ no_binds b
  | KApp _ args => (fix go l := match l with [] => True | a :: l' => no_binds a /\ go l' end) args
  | KComp _ _ _ r i c s b => no_binds r /\ no_binds i /\ no_binds c /\ no_binds s /\ no_binds b
  | KBind _ _ _ => False
  end.
(* no comprehension of e is left early by its condition: each is the constant
   true, as in the map, filter and exists_one macros *)
Fixpoint run_through (e : core) : Prop :=
  match e with
  | KConst _ | KVar _ | KGlobal _ => True
  | KLogic _ a b | KOr _ a b => run_through a /\ run_through b
  | KCond c a b => run_through c /\ run_through a /\ run_through b
  | KApp _ args => (fix go l := match l with [] => True | a :: l' => run_through a /\ go l' end) args
  | KComp _ _ _ r i c s b =>
      c = KConst (VBool true) /\ run_through r /\ run_through i /\ run_through s /\ run_through b
  | KBind _ i b => run_through i /\ run_through b
  end.

(* the same on the syntax tree *)
Fixpoint any_comp (f : string -> string -> string -> expr -> expr -> expr -> expr -> expr -> bool)
    (e : expr) : bool :=
  match e with
  | EConst _ | EIdent _ => false
  | ESelect a _ _ => any_comp f a
  | ECall _ t args =>
      match t with Some a => any_comp f a | None => false end
      || (fix go l := match l with [] => false | a :: l' => any_comp f a || go l' end) args
  | EList l => (fix go l := match l with [] => false | (_, a) :: l' => any_comp f a || go l' end) l
  | EMap l =>
      (fix go l := match l with
                   | [] => false
                   | (_, (k, v)) :: l' => any_comp f k || any_comp f v || go l'
                   end) l
  | EComp x x2 y r i c s b =>
      f x x2 y r i c s b || any_comp f r || any_comp f i || any_comp f c || any_comp f s || any_comp f b
  end.
(* e has a cel.bind *)
Definition has_bind (e : expr) : bool :=
  any_comp (fun x x2 _ range _ cond _ _ => IsBind x x2 range cond) e.
(* e has a comprehension, not a cel.bind, whose condition is not the constant true *)
Definition has_early_exit (e : expr) : bool :=
  any_comp (fun x x2 _ range _ cond _ _ =>
    negb (IsBind x x2 range cond)
    && negb match cond with EConst (VBool true) => true | _ => false end) e.

(* Slots of a planned expression: those holding bind variables, and the
   iteration slots of comprehensions whose condition can end the loop early. *)
Fixpoint bind_slot (n : nat) (r : rcore) : Prop :=
  match r with
  | RConst _ | RVar _ | RSlot _ _ | RLazy _ _ => False
  | RLogic _ a b | ROr _ a b => bind_slot n a \/ bind_slot n b
  | RCond c a b => bind_slot n c \/ bind_slot n a \/ bind_slot n b
  | RApp _ args => (fix go l := match l with [] => False | a :: l' => bind_slot n a \/ go l' end) args
  | RComp _ _ _ r i c s b =>
      bind_slot n r \/ bind_slot n i \/ bind_slot n c \/ bind_slot n s \/ bind_slot n b
  | RBind k _ i b => k = n \/ bind_slot n i \/ bind_slot n b
  end.
Fixpoint early_exit_slot (n : nat) (r : rcore) : Prop :=
  match r with
  | RConst _ | RVar _ | RSlot _ _ | RLazy _ _ => False
  | RLogic _ a b | ROr _ a b => early_exit_slot n a \/ early_exit_slot n b
  | RCond c a b => early_exit_slot n c \/ early_exit_slot n a \/ early_exit_slot n b
  | RApp _ args =>
      (fix go l := match l with [] => False | a :: l' => early_exit_slot n a \/ go l' end) args
  | RComp it it2 _ r i c s b =>
      (c <> RConst (VBool true) /\ (it = n \/ it2 = n)) \/
      early_exit_slot n r \/ early_exit_slot n i \/ early_exit_slot n c \/
      early_exit_slot n s \/ early_exit_slot n b
  | RBind _ _ i b => early_exit_slot n i \/ early_exit_slot n b
  end.

(* the slots of binds and of comprehensions that may end early are apart *)
Definition stale_free (C : config) (k : core) : Prop :=
  sc C = true -> forall n, bind_slot n (resolved k) -> ~ early_exit_slot n (resolved k).

(* what the evaluator returns, against the reference semantics' outcome *)
Definition agrees (o : out vt) (r : res value) : Prop :=
  match o with
  | Val x => exists s, r = RVal (fst x) s
  | Err e => exists s, r = RErr e s
  | UB => r = RUB
  end.

(* the outcome of evaluating a program: what the caller sees *)
Definition outcome (r : res value) : out value :=
  match r with RVal v _ => Val v | RErr e _ => Err e | RFault _ | RUB => UB end.
(* how many loop bodies it began, and which implementations it invoked on which
   arguments, the latest first *)
Definition bodies (r : res value) : Z :=
  match r with RVal _ s | RErr _ s => Z.of_nat (e_loops s) | RFault _ | RUB => 0 end.
Definition calls (r : res value) : list invocation :=
  match r with RVal _ s | RErr _ s => e_log s | RFault _ | RUB => [] end.
(* how often the initialiser of bind i was evaluated *)
Definition initialised (i : nat) (r : res value) : nat :=
  match r with
  | RVal _ s | RErr _ s => count_occ Nat.eq_dec (e_inits s) i
  | RFault _ | RUB => 0%nat
  end.
(* evaluation failed because of the iteration budget N, after N - 1 loop bodies *)
Definition out_of_budget (C : config) (r : res value) : Prop :=
  0 < o_max_iterations (cf_opts C) /\
  exists s, r = RErr budget_exceeded s /\
            Z.of_nat (e_loops s) = o_max_iterations (cf_opts C) - 1.

(* the same configuration with another comprehension_max_iterations *)
Definition with_budget (n : Z) (C : config) : config :=
  mkConfig (mkOptions (o_unknowns (cf_opts C)) (o_short_circuiting (cf_opts C)) n
              (o_fast_builtins (cf_opts C)) (o_heterogeneous (cf_opts C))
              (o_optional_types (cf_opts C)) (o_fail_on_warnings (cf_opts C)))
    (cf_vars C) (cf_pats C) (cf_reorder C).

(* loop bodies begun *)
Definition loops (s : est) : Z := Z.of_nat (e_loops s).

(* how often the initialiser with index i was evaluated *)
Definition inits_of (i : nat) (s : est) : nat := count_occ Nat.eq_dec (e_inits s) i.
(* The index of a bind at the root. *)
Definition root_index (e : core) : nat :=
  match resolved e with RBind _ i _ _ => i | _ => 0%nat end.

(* A value as the host or the parser can make it: numbers of their C++ types,
   at any depth; errors and unknowns allowed. *)
Definition node_in_range (v : value) : Prop :=
  match v with
  | VInt i => in_int64 i = true
  | VUint u => in_uint64 u = true
  | VDouble d => valid_double d = true
  | VMap m => Forall key_ok (map fst m)
  | _ => True
  end.
Definition in_range : value -> Prop := everywhere node_in_range.

(* A host that behaves: its variables, and its functions on arguments of the
   declared kinds, give values of the C++ types and have no undefined behaviour;
   maps keep their entries. *)
Definition overload_ok (o : overload) : Prop :=
  forall args, Forall in_range args -> kinds_match (ov_kinds o) args = true ->
  match ov_impl o args with Val v => in_range v | Err _ => True | UB => False end.
Definition host_ok (C : config) (R : registry) : Prop :=
  Forall overload_ok R /\
  (forall x, match cf_vars C x with Val (Some v) => in_range v | UB => False | _ => True end) /\
  (forall m, Permutation (cf_reorder C m) m).
(* the constants of an expression *)
Fixpoint constants_ok (e : expr) : Prop :=
  match e with
  | EConst v => in_range v
  | EIdent _ => True
  | ESelect a _ _ => constants_ok a
  | ECall _ t args =>
      match t with Some a => constants_ok a | None => True end /\
      (fix go l := match l with [] => True | a :: l' => constants_ok a /\ go l' end) args
  | EList l => (fix go l := match l with [] => True | (_, a) :: l' => constants_ok a /\ go l' end) l
  | EMap l =>
      (fix go l := match l with
                   | [] => True
                   | (_, (k, v)) :: l' => constants_ok k /\ constants_ok v /\ go l'
                   end) l
  | EComp _ _ _ r i c s b =>
      constants_ok r /\ constants_ok i /\ constants_ok c /\ constants_ok s /\ constants_ok b
  end.
