(* Model of runtime/type_registry.cc: the enums of a registry and the table of their values,
   which is made when it is first asked for, by any number of threads.

   Simplifications.  A critical section is one step, as the mutex makes it.  A table is the
   list of its assignments, newest first, with a number for the object itself.  RegisterEnum
   is two steps: the reset under the lock, then the write, which no lock guards.  The write is
   one step: a read of enum_types_ at the same time would be a data race. *)
From Coq Require Import String List ZArith Bool Arith.
Import ListNotations.
Open Scope list_scope.

(* type_registry.h:75-84 Enumerator; only the enumerators of an Enumeration matter *)
Definition Enumerators := list (string * Z).
Definition Table := list (string * Z).
Definition table_find (t : Table) (key : string) : option Z := option_map snd (find (fun e => String.eqb (fst e) key) t).
Definition EnumTypes := list (string * Enumerators).
(* 49-50 enum_types_[enum_name] = ... *)
Definition set_enum (n : string) (es : Enumerators) (types : EnumTypes) : EnumTypes :=
  (n, es) :: filter (fun e => negb (String.eqb (fst e) n)) types.

(* a call of GetEnumValueTable: before it looks, before it locks, and when it has returned *)
Inductive reader := Reading | Wanting | Got (object : nat) (t : Table).
Record registry := mkRegistry {
  enum_types : EnumTypes;
  enum_value_table : option (nat * Table);
  next_object : nat;
  pending : option (string * Enumerators);  (* a RegisterEnum between its two steps *)
  readers : list reader
}.
(* 34-42 the constructor *)
Definition null_value : string * Enumerators := ("google.protobuf.NullValue", [("NULL_VALUE", 0%Z)])%string.
Definition new_registry : registry := mkRegistry [null_value] None 0 None [].

(* 65-77 the table made in the order in which the hash map is gone through *)
Definition build_table (order : EnumTypes) : Table :=
  fold_left (fun t e => fold_left (fun t m => ((fst e ++ "." ++ fst m)%string, snd m) :: t) (snd e) t) order [].

Definition set_reader (i : nat) (r : reader) (l : list reader) : list reader :=
  firstn i l ++ match skipn i l with [] => [] | _ :: l' => r :: l' end.
Inductive event :=
| Reset (n : string) (es : Enumerators)  (* 46-48 the start of RegisterEnum *)
| Write                                  (* 49-50 its end *)
| Call                                   (* a thread calls GetEnumValueTable *)
| Peek (i : nat)                         (* 55-60 *)
| Lock (i : nat) (order : EnumTypes).    (* 62-82 *)
Definition step (g : registry) (e : event) : registry :=
  match e with
  | Reset n es => mkRegistry (enum_types g) None (next_object g) (Some (n, es)) (readers g)
  | Write =>
      match pending g with
      | Some (n, es) => mkRegistry (set_enum n es (enum_types g)) (enum_value_table g) (next_object g) None (readers g)
      | None => g
      end
  | Call => mkRegistry (enum_types g) (enum_value_table g) (next_object g) (pending g) (readers g ++ [Reading])
  | Peek i =>
      match nth_error (readers g) i with
      | Some Reading =>
          let r := match enum_value_table g with Some (o, t) => Got o t | None => Wanting end in
          mkRegistry (enum_types g) (enum_value_table g) (next_object g) (pending g) (set_reader i r (readers g))
      | _ => g
      end
  | Lock i order =>
      match nth_error (readers g) i with
      | Some Wanting =>
          match enum_value_table g with
          | Some (o, t) => mkRegistry (enum_types g) (enum_value_table g) (next_object g) (pending g) (set_reader i (Got o t) (readers g))
          | None =>
              let result := build_table order in
              mkRegistry (enum_types g) (Some (next_object g, result)) (S (next_object g)) (pending g)
                         (set_reader i (Got (next_object g) result) (readers g))
          end
      | _ => g
      end
  end.
Definition run (es : list event) (g : registry) : registry := fold_left step es g.
