(* What it means that short-circuiting does not change results (C20). *)
From Coq Require Import ZArith List Bool String Ascii.
From Verif Require Import Base M_Overflow M_Number M_Attr M_Value M_Logic M_Expr M_Plan M_Machine
  S_Value S_Eval.
Import ListNotations.
Local Open Scope string_scope.
Open Scope list_scope.
Open Scope Z_scope.

(* the same configuration, short-circuiting or exhaustive *)
Definition with_short (b : bool) (C : config) : config :=
  mkConfig (mkOptions (o_unknowns (cf_opts C)) b (o_max_iterations (cf_opts C))
              (o_fast_builtins (cf_opts C)) (o_heterogeneous (cf_opts C))
              (o_optional_types (cf_opts C)) (o_fail_on_warnings (cf_opts C)))
    (cf_vars C) (cf_pats C) (cf_reorder C).

(* The same value, except that errors related by E may be exchanged. *)
Definition same_up_to (E : status -> status -> Prop) (v w : value) : Prop :=
  v = w \/ exists a b, E a b /\ v = VError a /\ w = VError b.
(* A ternary condition that is no boolean is reported under two names:
   "<jump_condition>" by the jump of the short-circuiting plan, "_?_:_" by the
   step of the exhaustive one. *)
Definition renamed (a b : status) : Prop :=
  a = no_matching_overload "<jump_condition>" /\ b = no_matching_overload "_?_:_".
Definition same_value : value -> value -> Prop := same_up_to renamed.

(* no unknown anywhere in a value *)
Definition known : value -> Prop := everywhere (fun v => is_unknown v = false).

(* A host that makes no unknown values. *)
Definition overload_known (o : overload) : Prop :=
  forall args v, Forall known args -> ov_impl o args = Val v -> known v.
Definition host_known (C : config) (R : registry) : Prop :=
  Forall overload_known R /\
  (forall x v, cf_vars C x = Val (Some v) -> known v) /\
  (forall m e, In e (cf_reorder C m) -> In e m).
(* Non-strict functions, which can be called with errors, do not tell apart
   errors related by E. *)
Definition overload_blind (E : status -> status -> Prop) (o : overload) : Prop :=
  ov_strict o = true \/
  forall args args', Forall2 (same_up_to E) args args' ->
    forall w, ov_impl o args' = Val w -> exists v, ov_impl o args = Val v /\ same_up_to E v w.
Definition blind (E : status -> status -> Prop) (R : registry) : Prop := Forall (overload_blind E) R.
Fixpoint constants_known (e : expr) : Prop :=
  match e with
  | EConst v => known v
  | EIdent _ => True
  | ESelect a _ _ => constants_known a
  | ECall _ t args =>
      match t with Some a => constants_known a | None => True end /\
      (fix go l := match l with [] => True | a :: l' => constants_known a /\ go l' end) args
  | EList l => (fix go l := match l with [] => True | (_, a) :: l' => constants_known a /\ go l' end) l
  | EMap l =>
      (fix go l := match l with
                   | [] => True
                   | (_, (k, v)) :: l' => constants_known k /\ constants_known v /\ go l'
                   end) l
  | EComp _ _ _ r i c s b =>
      constants_known r /\ constants_known i /\ constants_known c /\ constants_known s /\
      constants_known b
  end.

(* A comprehension whose result is settled once its condition is false: the
   condition is the constant true (map, filter, exists_one), or
   @not_strictly_false(accu) with the step accu && p (all), or
   @not_strictly_false(!accu) with the step accu || p (exists). *)
Definition is_name (y : string) (e : expr) : bool :=
  match e with EIdent z => String.eqb z y | _ => false end.
Definition is_not_name (y : string) (e : expr) : bool :=
  match e with ECall f None [a] => String.eqb f "!_" && is_name y a | _ => false end.
Definition local_name (x x2 y : string) : bool :=
  negb (String.eqb x y) && negb (String.eqb x2 y)
  && match y with String c _ => negb (Ascii.eqb c ".") | EmptyString => true end.
Definition settled (x x2 y : string) (cond step : expr) : bool :=
  match cond with
  | EConst (VBool true) => true
  | ECall f None [a] =>
      is_nsf_name f && local_name x x2 y &&
      match step with
      | ECall g None [b; p] =>
          is_name y b && (is_name y a && String.eqb g "_&&_" || is_not_name y a && String.eqb g "_||_")
      | _ => false
      end
  | _ => false
  end.
(* every comprehension of e is of that kind, or is a cel.bind *)
Definition settled_loops (e : expr) : Prop :=
  any_comp (fun x x2 y range _ cond step _ =>
    negb (IsBind x x2 range cond) && negb (settled x x2 y cond step)) e = false.
