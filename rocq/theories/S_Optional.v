(* Specification vocabulary for the functions of optional values. *)
From Coq Require Import ZArith List Bool String.
From Verif Require Import Base M_Overflow M_Number M_Attr M_Value M_Logic M_Expr M_Macro M_Registry.
From Verif Require Import M_Optional.
Import ListNotations.
Open Scope list_scope.
Open Scope Z_scope.

(* The functions of an evaluator for which optional types were enabled
   successfully, after any registrations before and after it. *)
Definition enabled (R : registry) : Prop :=
  exists before after r,
    RegisterOptionalTypeFunctions true true (attempts before []) = (None, r) /\
    R = static_overloads (attempts after r).

(* A call of a function on values without attributes, unknown processing off. *)
Definition call (R : registry) (name : string) (receiver : bool) (args : list value) : out value :=
  CallFunction false [] name receiver
    (FindStaticOverloadsByArity R name receiver (List.length args))
    (map (fun v => (v, None)) args).

(* `==` holds *)
Definition equals (a b : value) : Prop := EvaluateEquality false a b = Val (VBool true).

(* The default of a kind: null, false, 0, 0u, 0.0, "", b"", duration("0s"),
   timestamp(0), [] and {}; the other kinds have none. *)
Definition default (k : kind) : option value :=
  match k with
  | kNullT => Some VNull
  | kBoolT => Some (VBool false)
  | kIntT => Some (VInt 0)
  | kUintT => Some (VUint 0)
  | kDoubleT => Some (VDouble (double_of_Z 0))
  | kStringT => Some (VString [])
  | kBytesT => Some (VBytes [])
  | kDurationT => Some (VDuration (DFin 0))
  | kTimestampT => Some (VTimestamp (TFin 0))
  | kListT => Some (VList [])
  | kMapT => Some (VMap [])
  | kTypeT | kOpaqueT | kErrorT | kUnknownT => None
  end.
Definition zero (v : value) : Prop := exists d, default (kind_of v) = Some d /\ equals v d.

(* an optional, and what the optionals of a list hold, in order *)
Definition is_optional (v : value) : Prop := exists o, v = VOptional o.
Fixpoint present (l : list value) : list value :=
  match l with
  | [] => []
  | VOptional (Some v) :: l' => v :: present l'
  | _ :: l' => present l'
  end.
