(* Specification vocabulary for function registration and calls. *)
From Coq Require Import ZArith List Bool String Ascii.
From Verif Require Import Base M_Overflow M_Number M_Attr M_Value M_Logic M_Expr M_Registry.
Import ListNotations.
Open Scope list_scope.

(* An overload accepts a call by name, style and the kinds of the arguments; a
   parameter declared `any` accepts every kind. *)
Definition accepts (o : overload) (name : string) (receiver : bool) (ks : list kind) : Prop :=
  ov_name o = name /\ ov_receiver o = receiver /\
  Forall2 (fun d k => d = None \/ d = Some k) (ov_kinds o) ks.
(* two overloads that some call could not tell apart *)
Definition ambiguous (o p : overload) : Prop :=
  exists name receiver ks, accepts o name receiver ks /\ accepts p name receiver ks.
(* a non-strict overload must be the only one of its name *)
Definition strictness_conflict (o p : overload) : Prop :=
  ov_name o = ov_name p /\ (ov_strict o = false \/ ov_strict p = false).

(* Names the planner gives a meaning of its own; other calls go to the
   registered functions. *)
Definition operator_names : list string :=
  ["_&&_"; "_||_"; "_?_:_"; "_[_]"; "@not_strictly_false"; "__not_strictly_false__"; "!_";
   "@in"; "_in_"; "in"; "_==_"; "_!=_"; "or"; "orValue"]%string.

(* An invocation of an implementation that a call may make: by name, of a
   registered overload, on arguments of its declared kinds, and, unless it is
   non-strict, on no error and no unknown. *)
Definition proper_invocation (R : registry) (i : invocation) : Prop :=
  exists o receiver, In o R /\ accepts o (fst i) receiver (map kind_of (snd i)) /\
    (ov_strict o = true -> forall a, In a (snd i) -> is_error a = false /\ is_unknown a = false).

(* An operand whose value is known outright: a constant or a variable of the
   activation. *)
Definition operand_value (C : config) (e : expr) (v : value) : Prop :=
  match e with
  | EConst w => w = v
  | EIdent x => x <> ""%string /\ get 0 x <> Some "."%char /\ cf_vars C x = Val (Some v)
  | _ => False
  end.
Definition call_operands (target : option expr) (args : list expr) : list expr :=
  match target with None => [] | Some t => [t] end ++ args.
Definition is_method (target : option expr) : bool :=
  match target with None => false | Some _ => true end.
