(* What is registered, and which schedules are allowed. *)
From Coq Require Import String Ascii List ZArith Bool Permutation.
From Verif Require Import M_EnumTable.
Import ListNotations.
Open Scope list_scope.

(* the enumerators a name was last registered with *)
Fixpoint registered (es : list event) (n : string) : option Enumerators :=
  match es with
  | [] => if String.eqb n "google.protobuf.NullValue" then Some [("NULL_VALUE"%string, 0%Z)] else None
  | Reset n' l :: es' => if String.eqb n n' then Some l else registered es' n
  | _ :: es' => registered es' n
  end.
(* history, newest first *)
Definition last_registered (es : list event) : string -> option Enumerators := registered (rev es).
(* the number of an enumerator: the last one with its name *)
Definition number (m : string) (l : Enumerators) : option Z := option_map snd (find (fun e => String.eqb (fst e) m) (rev l)).

Definition dotless (m : string) : Prop := ~ In "."%char (list_ascii_of_string m).
Definition well_named (e : event) : Prop := match e with Reset _ es => Forall (fun m => dotless (fst m)) es | _ => True end.

Definition returned (r : reader) : Prop := match r with Got _ _ => True | _ => False end.
(* registrations do not overlap with each other nor with calls of GetEnumValueTable, while
   these overlap with each other in any way; hash maps are gone through in any order *)
Definition allowed (g : registry) (e : event) : Prop :=
  match e with
  | Reset _ _ => pending g = None /\ Forall returned (readers g)
  | Write => True
  | Call | Peek _ => pending g = None
  | Lock _ order => pending g = None /\ Permutation order (enum_types g)
  end.
Inductive schedule : list event -> registry -> Prop :=
| schedule_new : schedule [] new_registry
| schedule_step es g e : schedule es g -> allowed g e -> well_named e -> schedule (es ++ [e]) (step g e).
