(* What a policy means, without composing it into an expression. *)
From Coq Require Import ZArith List Bool String.
From Verif Require Import Base M_Value M_Expr M_Machine S_Eval.
From Verif Require Import M_Policy.
Import ListNotations.
Local Open Scope string_scope.
Open Scope list_scope.
Open Scope Z_scope.
Local Open Scope out_scope.

Inductive verdict :=
| Output (v : value)       (* the output of the match that applies *)
| NoMatch                  (* no match applies *)
| Failure (v : value).     (* evaluation met this error or unknown *)

(* The variables of a rule, each visible to those after it and to the matches;
   a variable hides those of the same name of the rules around. *)
Definition with_variables (C : config) (R : registry) (vars : list (string * expr)) (rho : env) : env :=
  fold_left (fun rho p => bind_local ("variables." ++ fst p) (meaning C R (snd p) rho) rho) vars rho.

(* no condition, or the literal true *)
Definition unconditional (c : option expr) : bool :=
  match c with None => true | Some (EConst (VBool b)) => b | Some _ => false end.

(* First match: the matches are tried in order.  The first whose condition is
   true decides, by its output or its nested rule; later ones are not looked at,
   except that the search goes on after an unconditional nested rule in which no
   match applies. *)
Fixpoint decide (C : config) (R : registry) (r : rule) (rho : env) {struct r} : out verdict :=
  match r with
  | Rule vars matches =>
      let rho1 := with_variables C R vars rho in
      (fix go (l : list (option expr * (expr + rule))) : out verdict :=
         match l with
         | [] => Val NoMatch
         | (c, p) :: l' =>
             let production :=
               match p with
               | inl e => x <- meaning C R e rho1 ;;
                          Val (match fst x with VError s => Failure (VError s) | v => Output v end)
               | inr r' => decide C R r' rho1
               end in
             if unconditional c then
               d <- production ;; match d with NoMatch => go l' | _ => Val d end
             else
               x <- match c with Some e => meaning C R e rho1 | None => Val (VBool true, None) end ;;
               match fst x with
               | VBool true => production
               | VBool false => go l'
               | VError _ | VUnknown _ => Val (Failure (fst x))
               | _ => Val (Failure (VError (no_matching_overload "<jump_condition>")))
               end
         end) matches
  end.

(* The value a policy gives: if it may have no output, an optional. *)
Definition verdict_value (optional : bool) (d : verdict) : value :=
  match d with
  | Output v => if optional then VOptional (Some v) else v
  | NoMatch => VOptional None
  | Failure v => v
  end.
Definition verdict_unknown (d : verdict) : bool :=
  match d with Output v | Failure v => is_unknown v | NoMatch => false end.

(* cel.@block: the elements of the list are bound to @index0, @index1, ... in
   turn, each visible to those after it and to the body. *)
Fixpoint block_env (C : config) (R : registry) (i : nat) (init : list expr) (rho : env) : env :=
  match init with
  | [] => rho
  | e :: l => block_env C R (S i) l (bind_local (index_name i) (meaning C R e rho) rho)
  end.
Definition block_meaning (C : config) (R : registry) (b : block) (rho : env) : out vt :=
  meaning C R (snd b) (block_env C R 0 (fst b) rho).

(* An expression as users write it: it does not use the names @index..., and
   no comprehension binds one of those or a policy variable. *)
Definition reserved_name (x : string) : bool := String.prefix "@index" x || String.prefix "variables." x.
Fixpoint user_expr (e : expr) : bool :=
  match e with
  | EConst _ => true
  | EIdent x => negb (String.prefix "@index" x)
  | ESelect a _ _ => user_expr a
  | ECall _ t args => match t with Some a => user_expr a | None => true end && forallb user_expr args
  | EList l => forallb (fun p => user_expr (snd p)) l
  | EMap l => forallb (fun p => user_expr (fst (snd p)) && user_expr (snd (snd p))) l
  | EComp x x2 y r i c s b =>
      negb (reserved_name x) && negb (reserved_name x2) && negb (reserved_name y)
      && (user_expr r && user_expr i && user_expr c && user_expr s && user_expr b)
  end.
Fixpoint user_policy (r : rule) : bool :=
  match r with
  | Rule vars matches =>
      forallb (fun p => user_expr (snd p)) vars
      && forallb (fun m => match fst m with Some e => user_expr e | None => true end
                           && match snd m with inl e => user_expr e | inr r' => user_policy r' end) matches
  end.

(* A rule that always has an output: the matches are tried in order until one
   that is unconditional and always has an output, and no conditional match
   leads to a rule that may have none. *)
Inductive always_outputs : rule -> Prop :=
| always_rule vars matches : always_last matches -> always_outputs (Rule vars matches)
with always_last : list (option expr * (expr + rule)) -> Prop :=
| last_output c e l : unconditional c = true -> always_last ((c, inl e) :: l)
| last_rule c r l : unconditional c = true -> always_outputs r -> always_last ((c, inr r) :: l)
| skip_output c e l : always_last l -> always_last ((c, inl e) :: l)
| skip_optional c r l : unconditional c = true -> always_last l -> always_last ((c, inr r) :: l)
| skip_rule c r l : always_outputs r -> always_last l -> always_last ((c, inr r) :: l).

(* Well-formed: every rule has matches, and none comes after a match that is
   unconditional and always has an output. *)
Inductive well_formed : rule -> Prop :=
| wf_rule vars matches : matches <> [] -> wf_matches matches -> well_formed (Rule vars matches)
with wf_matches : list (option expr * (expr + rule)) -> Prop :=
| wf_nil : wf_matches []
| wf_output c e l : (l = [] \/ unconditional c = false) -> wf_matches l -> wf_matches ((c, inl e) :: l)
| wf_nested c r l : (l = [] \/ unconditional c = false \/ ~ always_outputs r) ->
    well_formed r -> wf_matches l -> wf_matches ((c, inr r) :: l).

Definition no_variables (r : rule) : Prop := match r with Rule vars _ => vars = [] end.
(* no nested rules, and expressions of height at most k *)
Definition flat (k : Z) (r : rule) : Prop :=
  match r with
  | Rule vars matches =>
      Forall (fun p => height (snd p) <= k) vars /\
      Forall (fun m => match fst m with Some c => height c <= k | None => True end /\
                       match snd m with inl e => height e <= k | inr _ => False end) matches
  end.

(* Expressions that cannot be told apart, and policies made of such. *)
Definition same (C : config) (R : registry) (a b : expr) : Prop :=
  forall rho, meaning C R a rho = meaning C R b rho.
Definition same_condition (C : config) (R : registry) (c c' : option expr) : Prop :=
  match c, c' with None, None => True | Some a, Some b => same C R a b | _, _ => False end.
Inductive alike_vars (C : config) (R : registry) : list (string * expr) -> list (string * expr) -> Prop :=
| vars_nil : alike_vars C R [] []
| vars_cons x e e' v v' : same C R e e' -> alike_vars C R v v' -> alike_vars C R ((x, e) :: v) ((x, e') :: v').
Inductive alike (C : config) (R : registry) (ok : option expr -> option expr -> Prop) : rule -> rule -> Prop :=
| alike_rule v v' m m' : alike_vars C R v v' -> alike_matches C R ok m m' -> alike C R ok (Rule v m) (Rule v' m')
with alike_matches (C : config) (R : registry) (ok : option expr -> option expr -> Prop) :
    list (option expr * (expr + rule)) -> list (option expr * (expr + rule)) -> Prop :=
| matches_nil : alike_matches C R ok [] []
| matches_output c c' e e' m m' : same_condition C R c c' -> ok c c' -> same C R e e' ->
    alike_matches C R ok m m' -> alike_matches C R ok ((c, inl e) :: m) ((c', inl e') :: m')
| matches_rule c c' r r' m m' : same_condition C R c c' -> ok c c' -> alike C R ok r r' ->
    alike_matches C R ok m m' -> alike_matches C R ok ((c, inr r) :: m) ((c', inr r') :: m').
