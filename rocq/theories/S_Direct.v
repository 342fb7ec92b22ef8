(* What the statements about the recursive evaluator (C22) speak of. *)
From Coq Require Import ZArith List Bool String.
From Verif Require Import Base M_Overflow M_Number M_Attr M_Value M_Logic M_Expr M_Plan M_Machine M_Direct S_Short.
Import ListNotations.
Local Open Scope string_scope.
Open Scope list_scope.
Open Scope Z_scope.

Definition any_of (f : rcore -> bool) :=
  fix go (l : list rcore) : bool := match l with [] => false | x :: l' => f x || go l' end.
Definition all_of (f : rcore -> bool) :=
  fix go (l : list rcore) : bool := match l with [] => true | x :: l' => f x && go l' end.
Definition also (i : nat) (b : bool) (M : nat -> bool) : nat -> bool :=
  fun j => if Nat.eqb j i then b else M j.

(* ---- when loop steps may be evaluated in place ---- *)

(* r reads, sets or clears slot n; M i says whether the initialiser of the
   enclosing cel.bind i does *)
Fixpoint touches (n : nat) (M : nat -> bool) (r : rcore) {struct r} : bool :=
  match r with
  | RConst _ | RVar _ => false
  | RSlot _ k => Nat.eqb k n
  | RLazy k i => Nat.eqb k n || M i
  | RLogic _ a b | ROr _ a b => touches n M a || touches n M b
  | RCond c a b => touches n M c || touches n M a || touches n M b
  | RApp _ args => any_of (touches n M) args
  | RComp it it2 ac r i c s b =>
      Nat.eqb it n || Nat.eqb it2 n || Nat.eqb ac n ||
      touches n M r || touches n M i || touches n M c || touches n M s || touches n M b
  | RBind k i init res =>
      Nat.eqb k n || touches n M init || touches n (also i (touches n M init) M) res
  end.
(* r sets or clears slot n *)
Fixpoint overwrites (n : nat) (M : nat -> bool) (r : rcore) {struct r} : bool :=
  match r with
  | RConst _ | RVar _ | RSlot _ _ => false
  | RLazy k i => Nat.eqb k n || M i
  | RLogic _ a b | ROr _ a b => overwrites n M a || overwrites n M b
  | RCond c a b => overwrites n M c || overwrites n M a || overwrites n M b
  | RApp _ args => any_of (overwrites n M) args
  | RComp it it2 ac r i c s b =>
      Nat.eqb it n || Nat.eqb it2 n || Nat.eqb ac n ||
      overwrites n M r || overwrites n M i || overwrites n M c || overwrites n M s || overwrites n M b
  | RBind k i init res =>
      Nat.eqb k n || overwrites n M init || overwrites n (also i (touches n M init) M) res
  end.
(* When r is evaluated into slot n, no part of r is evaluated after a write to
   the slot that would read it: in a logical operator, equality, `in`, an
   optional alternative or a list literal only the first operand may use it. *)
Fixpoint in_place (n : nat) (M : nat -> bool) (r : rcore) {struct r} : bool :=
  match r with
  | RConst _ | RVar _ | RSlot _ _ => true
  | RLazy _ i => negb (M i)
  | RLogic _ a b | ROr _ a b => in_place n M a && negb (touches n M b)
  | RCond _ a b => in_place n M a && in_place n M b
  | RApp op args =>
      match op, args with
      | (OSelect _ _ | ONot | ONotStrictlyFalse), _ => all_of (in_place n M) args
      | (OEqual _ | OIn | OList _), x :: args' => in_place n M x && negb (any_of (touches n M) args')
      | _, _ => true
      end
  | RComp _ _ _ _ _ _ _ b => in_place n M b
  | RBind k i init res => in_place n (also i (touches n M init) M) res
  end.
(* so for every loop step and its accumulator, which the loop's condition and
   step do not overwrite otherwise *)
Fixpoint alias_free (M : nat -> nat -> bool) (r : rcore) {struct r} : bool :=
  match r with
  | RConst _ | RVar _ | RSlot _ _ | RLazy _ _ => true
  | RLogic _ a b | ROr _ a b => alias_free M a && alias_free M b
  | RCond c a b => alias_free M c && alias_free M a && alias_free M b
  | RApp _ args => all_of (alias_free M) args
  | RComp _ _ ac r i c s b =>
      negb (overwrites ac (fun j => M j ac) c) &&
      negb (overwrites ac (fun j => M j ac) s) && in_place ac (fun j => M j ac) s &&
      alias_free M r && alias_free M i && alias_free M c && alias_free M s && alias_free M b
  | RBind k i init res =>
      alias_free M init &&
      alias_free (fun j n => if Nat.eqb j i then touches n (fun j => M j n) init else M j n) res
  end.
Definition no_inits : nat -> nat -> bool := fun _ _ => false.

(* ---- the same on the syntax tree ---- *)

(* a loop's condition and step see its own variables *)
Definition loop_binds (x x2 y z : string) : bool :=
  String.eqb x z || negb (String.eqb x2 "") && String.eqb x2 z || String.eqb y z.
Definition any_expr (f : expr -> bool) :=
  fix go (l : list expr) : bool := match l with [] => false | x :: l' => f x || go l' end.
Definition all_expr (f : expr -> bool) :=
  fix go (l : list expr) : bool := match l with [] => true | x :: l' => f x && go l' end.
(* e reads the variable z *)
Fixpoint mentions (z : string) (e : expr) : bool :=
  match e with
  | EConst _ => false
  | EIdent x => String.eqb x z
  | ESelect a _ _ => mentions z a
  | ECall _ t args =>
      match t with Some a => mentions z a | None => false end || any_expr (mentions z) args
  | EList l => (fix go l := match l with [] => false | (_, a) :: l' => mentions z a || go l' end) l
  | EMap l =>
      (fix go l := match l with
                   | [] => false
                   | (_, (k, v)) :: l' => mentions z k || mentions z v || go l'
                   end) l
  | EComp x x2 y r i c s b =>
      mentions z r || mentions z i || negb (loop_binds x x2 y z) && (mentions z c || mentions z s)
      || negb (String.eqb y z) && mentions z b
  end.
(* some cel.bind in e has an initialiser that reads z *)
Fixpoint bound_from (z : string) (e : expr) : bool :=
  match e with
  | EConst _ | EIdent _ => false
  | ESelect a _ _ => bound_from z a
  | ECall _ t args =>
      match t with Some a => bound_from z a | None => false end || any_expr (bound_from z) args
  | EList l => (fix go l := match l with [] => false | (_, a) :: l' => bound_from z a || go l' end) l
  | EMap l =>
      (fix go l := match l with
                   | [] => false
                   | (_, (k, v)) :: l' => bound_from z k || bound_from z v || go l'
                   end) l
  | EComp x x2 y r i c s b =>
      IsBind x x2 r c && mentions z i ||
      bound_from z r || bound_from z i || negb (loop_binds x x2 y z) && (bound_from z c || bound_from z s)
      || negb (String.eqb y z) && bound_from z b
  end.
(* the calls whose first operand is evaluated into the result variable *)
Definition writes_first (fn : string) : bool :=
  String.eqb fn "_&&_" || String.eqb fn "_||_" || String.eqb fn "_==_" || String.eqb fn "_!=_"
  || String.eqb fn "or" || String.eqb fn "orValue" || is_in_name fn.
(* When e is evaluated into the variable z, no part of e reads z after it was
   written. *)
Fixpoint into (z : string) (e : expr) : bool :=
  match e with
  | EConst _ | EIdent _ => true
  | ESelect a _ _ => into z a
  | ECall fn t args =>
      if writes_first fn then
        match t, args with
        | Some a, _ => into z a && negb (any_expr (mentions z) args)
        | None, a :: args' => into z a && negb (any_expr (mentions z) args')
        | None, [] => true
        end
      else if String.eqb fn "_?_:_" then
        match args with _ :: args' => all_expr (into z) args' | [] => true end
      else if String.eqb fn "!_" || is_nsf_name fn then all_expr (into z) args
      else true
  | EList l =>
      match l with
      | [] => true
      | (_, a) :: l' => into z a && negb (existsb (fun p => mentions z (snd p)) l')
      end
  | EMap _ => true
  | EComp _ _ y r i c s b => String.eqb y z || into z b
  end.
(* Every loop step of e may be evaluated into its accumulator. *)
Fixpoint steps_in_place (e : expr) : bool :=
  match e with
  | EConst _ | EIdent _ => true
  | ESelect a _ _ => steps_in_place a
  | ECall _ t args =>
      match t with Some a => steps_in_place a | None => true end && all_expr steps_in_place args
  | EList l => (fix go l := match l with [] => true | (_, a) :: l' => steps_in_place a && go l' end) l
  | EMap l =>
      (fix go l := match l with
                   | [] => true
                   | (_, (k, v)) :: l' => steps_in_place k && steps_in_place v && go l'
                   end) l
  | EComp x x2 y r i c s b =>
      (IsBind x x2 r c || negb (bound_from y c) && negb (bound_from y s) && into y s) &&
      steps_in_place r && steps_in_place i && steps_in_place c && steps_in_place s && steps_in_place b
  end.

(* ---- literals ---- *)

(* The entries of a map literal have distinct constant keys of the key types. *)
Definition const_key (e : expr) : option mkey :=
  match e with EConst v => key_of_value v | _ => None end.
Definition distinct_keys (keys : list expr) : Prop :=
  exists ks, map const_key keys = map Some ks /\ NoDup ks.
(* Only the last element or entry may be optional. *)
Definition optional_last (opts : list bool) : bool := forallb negb (removelast opts).
(* The literals of e, when all errors count as the same (loose) or not. *)
Fixpoint plain_literals (loose : bool) (e : expr) : Prop :=
  match e with
  | EConst _ | EIdent _ => True
  | ESelect a _ _ => plain_literals loose a
  | ECall _ t args =>
      match t with Some a => plain_literals loose a | None => True end /\
      (fix go l := match l with [] => True | a :: l' => plain_literals loose a /\ go l' end) args
  | EList l =>
      (loose = true \/ optional_last (map fst l) = true) /\
      (fix go l := match l with [] => True | (_, a) :: l' => plain_literals loose a /\ go l' end) l
  | EMap l =>
      (distinct_keys (map (fun p => fst (snd p)) l) /\ (loose = true \/ optional_last (map fst l) = true) \/
       loose = true /\ (List.length l <= 1)%nat) /\
      (fix go l := match l with
                   | [] => True
                   | (_, (k, v)) :: l' => plain_literals loose k /\ plain_literals loose v /\ go l'
                   end) l
  | EComp _ _ _ r i c s b =>
      plain_literals loose r /\ plain_literals loose i /\ plain_literals loose c /\
      plain_literals loose s /\ plain_literals loose b
  end.

(* Errors that count as the same: all (loose), or equal ones and those of a
   ternary with a non-boolean condition, which the recursive evaluator and the
   exhaustive plan report as "_?_:_", the short-circuiting plan as
   "<jump_condition>". *)
Definition equal_errors (loose : bool) (a b : status) : Prop :=
  loose = true \/ renamed b a.
