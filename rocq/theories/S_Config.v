(* What a configuration accepts. *)
From Coq Require Import String List ZArith Bool.
From Verif Require Import M_Config.
Import ListNotations.
Open Scope list_scope.

(* the type named t is the type of the constant *)
Definition of_type (k : ConstantKind) (t : string) : Prop :=
  match k with
  | KUnset => True | KNull => t = "null" | KBool => t = "bool" | KInt => t = "int" | KUint => t = "uint" | KDouble => t = "double"
  | KBytes => t = "bytes" | KString => t = "string" | KDuration => t = "duration" | KTimestamp => t = "timestamp"
  end%string.
(* a list names a function both as a whole and by an overload *)
Definition doubly (l : list (string * string)) : Prop := exists f o, o <> ""%string /\ In (f, ""%string) l /\ In (f, o) l.
Definition conflicting (s : StandardLibraryConfig) : Prop :=
  (included_macros s <> [] /\ excluded_macros s <> []) \/ (included_functions s <> [] /\ excluded_functions s <> [])
  \/ doubly (included_functions s) \/ doubly (excluded_functions s).
(* an overload is listed by its id, by its signature or with its whole function *)
Definition listed (l : list (string * string)) (f id : string) (signature : option string) : Prop :=
  In (f, id) l \/ In (f, ""%string) l \/ exists x, signature = Some x /\ In (f, x) l.
(* what a call may add to the configuration that earlier calls made *)
Definition accepts (c : Config) (k : call) : Prop :=
  match k with
  | AddExtension name version => forall v, In (mkExtension name v) (extensions c) -> v = version
  | SetStandard s => ~ conflicting s
  | AddVariable v => (forall x, In x (variables c) -> var_name x <> var_name v) /\ of_type (var_value v) (var_type v)
  | AddFunction f => forall o, In o (overload_configs f) -> is_member_function o = true -> parameters o <> 0
  end.
