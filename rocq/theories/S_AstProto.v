(* What a faithful conversion of syntax trees to messages and back means. *)
From Coq Require Import ZArith String List Bool Sorted.
From Coq Require Import Floats.SpecFloat.
From Verif Require Import Base M_Overflow M_Number M_Ast S_Ast.
From Verif Require Import M_AstProto.
Import ListNotations.
Open Scope list_scope.
Open Scope Z_scope.

(* Something holds of every expression in a tree. *)
Inductive throughout (P : Expr -> Prop) : Expr -> Prop :=
| throughout_expr e : P e -> Forall (throughout P) (children e) -> throughout P e.

(* Every duration is at most 315576000000.999999999 seconds long, and every
   timestamp is in the years 1 to 9999. *)
Definition storable_constant (c : constant) : Prop :=
  match c with
  | CDuration d => exists ns, d = DFin ns /\ Z.abs ns <= 315576000000 * 10 ^ 9 + 999999999
  | CTimestamp t => exists ns, t = TFin ns /\ -62135596800 * 10 ^ 9 <= ns <= 253402300799 * 10 ^ 9 + 999999999
  | _ => True
  end.
Definition storable_times (e : Expr) : Prop :=
  throughout (fun d => match d with Const _ c => storable_constant c | _ => True end) e.
(* Every element of a list is set, and every struct has a name. *)
Definition well_shaped (e : Expr) : Prop :=
  throughout (fun d => match d with
                       | ListE _ elements => Forall (fun x => fst x <> None) elements
                       | StructE _ name _ => name <> ""%string
                       | _ => True
                       end) e.

(* The messages in a message. *)
Definition list_of {A} (o : option A) : list A := match o with Some x => [x] | None => [] end.
Definition submessages (p : ExprPb) : list ExprPb :=
  match p with
  | mkPb _ kind =>
    match kind with
    | KNotSet | KConst _ | KIdent _ => []
    | KSelect operand _ _ => list_of operand
    | KCall target _ args => list_of target ++ args
    | KList elements _ => elements
    | KStruct _ entries =>
        concat (map (fun '(_, key, value, _) => match key with MapKey k => [k] | _ => [] end ++ list_of value) entries)
    | KComprehension _ _ r _ i c s f => list_of r ++ list_of i ++ list_of c ++ list_of s ++ list_of f
    end
  end.
Inductive throughout_message (P : ExprPb -> Prop) : ExprPb -> Prop :=
| throughout_pb p : P p -> Forall (throughout_message P) (submessages p) -> throughout_message P p.
(* A message in its usual form: durations and timestamps are normalised and in
   range, the positions of optional elements are listed once, in order, and the
   fields of a struct have their names set. *)
Definition usual_constant (c : ConstantPb) : Prop :=
  match c with
  | PbDuration s n => Z.abs s <= 315576000000 /\ Z.abs n <= 999999999 /\ 0 <= s * n
  | PbTimestamp s n => -62135596800 <= s <= 253402300799 /\ 0 <= n <= 999999999
  | _ => True
  end.
Definition usual (p : ExprPb) : Prop :=
  throughout_message (fun d =>
    match d with
    | mkPb _ (KConst c) => usual_constant c
    | mkPb _ (KList es positions) =>
        StronglySorted Z.lt positions /\ Forall (fun i => 0 <= i < Z.of_nat (length es)) positions
    | mkPb _ (KStruct name entries) =>
        name <> ""%string -> Forall (fun '(_, key, _, _) => exists f, key = FieldKey f) entries
    | _ => True
    end) p.

(** ** Types *)

Definition members (t : TypeSpec) : list (option TypeSpec) :=
  match t with
  | SList e => [e]
  | SMap k v => [k; v]
  | SFunction r args => r :: map Some args
  | SType o => [o]
  | SAbstract _ ps => map Some ps
  | _ => []
  end.
(* Something holds of every type in a type. *)
Inductive all_types (P : TypeSpec -> Prop) : TypeSpec -> Prop :=
| all_types_of t : P t -> (forall s, In (Some s) (members t) -> all_types P s) -> all_types P t.
(* No type of types is given as that of the unset type, or as that of no type. *)
Definition no_type_of_unset (t : TypeSpec) : Prop := all_types (fun s => s <> SType (Some SUnset)) t.
Definition no_type_of_none (t : TypeSpec) : Prop := all_types (fun s => s <> SType None) t.
(* Enum values that have no name occur in a message. *)
Inductive has_number : TypePb -> Prop :=
| number_primitive n : has_number (TPrimitive (Number n))
| number_wrapper n : has_number (TWrapper (Number n))
| number_well_known n : has_number (TWellKnown (Number n))
| number_list t : has_number t -> has_number (TList t)
| number_key k v : has_number k -> has_number (TMap k v)
| number_value k v : has_number v -> has_number (TMap k v)
| number_result r l : has_number r -> has_number (TFunction r l)
| number_arg r l a : In a l -> has_number a -> has_number (TFunction r l)
| number_type t : has_number t -> has_number (TType t)
| number_parameter n l a : In a l -> has_number a -> has_number (TAbstract n l).

(** ** Equality *)

Definition no_nan (e : Expr) : Prop :=
  throughout (fun d => match d with Const _ (CDouble x) => x <> S754_nan | _ => True end) e.
(* No zero, no second iteration variable, and all parts set that may be. *)
Definition plain (e : Expr) : Prop :=
  throughout (fun d =>
    match d with
    | Const _ (CDouble x) => forall s, x <> S754_zero s
    | Select _ operand _ _ => operand <> None
    | Call _ _ target _ => target <> Some (Unspecified 0)
    | ListE _ elements => Forall (fun x => fst x <> None) elements
    | StructE _ _ fields => Forall (fun '(_, _, value, _) => value <> None) fields
    | MapE _ entries => Forall (fun '(_, key, value, _) => key <> None /\ value <> None) entries
    | Comprehension _ _ v2 _ r i c s f =>
        v2 = ""%string /\ r <> None /\ i <> None /\ c <> None /\ s <> None /\ f <> None
    | _ => True
    end) e.

(** ** Whole syntax trees *)

Definition storable_ast (a : Ast) : Prop :=
  storable_times (root_expr a) /\ Forall (fun m => storable_times (snd m)) (s_macro_calls (source_info a)).
Definition well_shaped_ast (a : Ast) : Prop :=
  well_shaped (root_expr a) /\ Forall (fun m => well_shaped (snd m)) (s_macro_calls (source_info a)).
Definition storable_references (a : Ast) : Prop :=
  Forall (fun r => forall c, r_value (snd r) = Some c -> storable_constant c) (reference_map a).
(* The same source information; a version that is not set is version 0.0. *)
Definition same_source (s t : SourceInfo) : Prop :=
  s_syntax_version s = s_syntax_version t /\ s_location s = s_location t /\ s_line_offsets s = s_line_offsets t /\
  s_positions s = s_positions t /\ s_macro_calls s = s_macro_calls t /\
  Forall2 (fun x y => x_id x = x_id y /\ x_components x = x_components y /\
                      match x_version x with Some v => v | None => (0, 0) end =
                      match x_version y with Some v => v | None => (0, 0) end) (s_extensions s) (s_extensions t).
