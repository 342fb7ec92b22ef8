(* Model of the ExpressionBalancer of parser/parser.cc: how a chain of && or ||
   becomes a tree.  terms_ is a vector whose entries are moved out, so an entry
   is None afterwards and taking it again, or past the end, is UB.  An
   expression built by the balancer carries the ids of its operator nodes. *)
From Coq Require Import ZArith List Bool String.
From Verif Require Import Base M_Overflow M_Number M_Attr M_Value M_Logic M_Expr.
Import ListNotations.
Open Scope list_scope.
Open Scope Z_scope.
Local Open Scope out_scope.

(* PTerm: an operand as parsed; PCall: NewCall(id, function, args) *)
Inductive pexpr := PTerm (e : expr) | PCall (id : Z) (fn : string) (args : list pexpr).

Definition balancer_terms := list (option expr).
(* std::move(terms_[i]) *)
Definition take (i : Z) (terms : balancer_terms) : out (expr * balancer_terms) :=
  if (i <? 0) then UB else
  match nth_error terms (Z.to_nat i) with
  | Some (Some e) => Val (e, firstn (Z.to_nat i) terms ++ None :: skipn (S (Z.to_nat i)) terms)
  | _ => UB
  end.
Definition op_at (i : Z) (ops : list Z) : out Z :=
  if (i <? 0) then UB else match nth_error ops (Z.to_nat i) with Some o => Val o | None => UB end.
(* int arithmetic *)
Definition int_add (a b : Z) : out Z :=
  if (-2 ^ 31 <=? a + b) && (a + b <? 2 ^ 31) then Val (a + b) else UB.

(* parser.cc:590-608 BalancedTree; fuel bounds the depth of the recursion *)
Fixpoint BalancedTree (fuel : nat) (fn : string) (ops : list Z) (lo hi : Z) (terms : balancer_terms)
  : out (pexpr * balancer_terms) :=
  match fuel with
  | O => UB
  | S fuel' =>
      s <- int_add lo hi ;; s1 <- int_add s 1 ;;
      let mid := Z.quot s1 2 in
      left <- (if mid =? lo
               then r <- take mid terms ;; Val (PTerm (fst r), snd r)
               else BalancedTree fuel' fn ops lo (mid - 1) terms) ;;
      right <- (if mid =? hi
                then r <- take (mid + 1) (snd left) ;; Val (PTerm (fst r), snd r)
                else BalancedTree fuel' fn ops (mid + 1) hi (snd left)) ;;
      id <- op_at mid ops ;;
      Val (PCall id fn [fst left; fst right], snd right)
  end.
(* parser.cc:580-588 Balance; ops_.size() - 1 is converted to int *)
Definition Balance (variadic : bool) (fn : string) (terms : list expr) (ops : list Z) : out pexpr :=
  match terms with
  | [e] => Val (PTerm e)
  | _ =>
      if variadic then id <- op_at 0 ops ;; Val (PCall id fn (map PTerm terms))
      else
        n <- int_add (Z.of_nat (List.length ops)) (-1) ;;
        r <- BalancedTree (S (List.length ops)) fn ops 0 n (map Some terms) ;; Val (fst r)
  end.
(* parser.cc:569-578 the constructor and AddTerm, and 914-953: the operators of
   a chain and the operands after them, in order *)
Definition balance_chain (variadic : bool) (fn : string) (first : expr) (rest : list (Z * expr)) : out pexpr :=
  let st := fold_left (fun st x => (fst st ++ [snd x], snd st ++ [fst x])) rest ([first], []) in
  Balance variadic fn (fst st) (snd st).

(* the expression without ids *)
Fixpoint erase (t : pexpr) : expr :=
  match t with
  | PTerm e => e
  | PCall _ fn args => ECall fn None (map erase args)
  end.
