(* Independent specification of attributes, patterns, unknown sets and the
   three-valued logical operators. *)
From Coq Require Import ZArith List Bool.
From Verif Require Import Base M_Attr M_Value.
Import ListNotations.

(* A qualifier made from a value of a key kind. *)
Definition valid_attr (a : attribute) : Prop := Forall (fun q => q <> QInvalid) (a_path a).

(* A pattern qualifier accepts a qualifier: wildcards accept all. *)
Definition accepts (p : qpattern) (q : qualifier) : Prop :=
  match p with
  | None => True
  | Some x => x = q /\ q <> QInvalid
  end.
(* The pattern describes the attribute or one of its ancestors. *)
Definition full_match (p : pattern) (a : attribute) : Prop :=
  a_var a = p_var p /\
  exists pre rest, a_path a = pre ++ rest /\ Forall2 accepts (p_path p) pre.
(* b is reached from a by at least one more qualifier *)
Definition descendant (a b : attribute) : Prop :=
  a_var b = a_var a /\ exists q rest, a_path b = a_path a ++ q :: rest.
(* no qualifier of the pattern is an invalid one *)
Definition valid_pattern (p : pattern) : Prop := Forall (fun q => q <> Some QInvalid) (p_path p).

(* Two-valued reading of operands for the logical operators. *)
Definition truth (v : value) : option bool := match v with VBool b => Some b | _ => None end.
