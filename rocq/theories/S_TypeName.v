(* The text of a type, as a term of names. *)
From Coq Require Import String Ascii List Bool.
From Verif Require Import M_TypeName.
Import ListNotations.
Open Scope string_scope.
Open Scope list_scope.

(* a name with parameters, which is written  name(p1, p2, ...)  or just  name *)
Inductive term := Term (name : string) (parameters : list term).
Fixpoint written (t : term) : string :=
  match t with
  | Term name [] => name
  | Term name ps => name ++ "(" ++ String.concat ", " (map written ps) ++ ")"
  end%string.

Definition word (n : string) : term := Term n [].
Fixpoint reads (t : Type_) : term :=
  match t with
  | TDyn => word "dyn" | TAny => word "any" | TBool => word "bool" | TBytes => word "bytes" | TDouble => word "double"
  | TInt | TEnum _ => word "int" | TString => word "string" | TUint => word "uint" | TNull => word "null_type"
  | TDuration => word "google.protobuf.Duration" | TTimestamp => word "google.protobuf.Timestamp"
  | TBoolWrapper => Term "wrapper" [word "bool"] | TBytesWrapper => Term "wrapper" [word "bytes"]
  | TDoubleWrapper => Term "wrapper" [word "double"] | TIntWrapper => Term "wrapper" [word "int"]
  | TStringWrapper => Term "wrapper" [word "string"] | TUintWrapper => Term "wrapper" [word "uint"]
  | TList e => Term "list" [reads e]
  | TMap k v => Term "map" [reads k; reads v]
  | TOpaque n ps => Term n (map reads ps)
  | TStruct n | TTypeParam n => word n
  | TType None => word "type" | TType (Some p) => Term "type" [reads p]
  | TUnknown => word "*unknown*"
  | TError | TFunction _ _ => word "*error*"
  end.

(* names that can be told apart: those of messages, of opaque types and of type parameters are
   kept apart by someone, have no brackets nor commas, and are not the names of other types *)
Inductive sort := OfMessage | OfOpaque | OfParam.
Definition builtin_names : list string :=
  ["dyn"; "any"; "bool"; "bytes"; "double"; "int"; "string"; "uint"; "null_type"; "google.protobuf.Duration"; "google.protobuf.Timestamp";
   "wrapper"; "list"; "map"; "type"; "*unknown*"; "*error*"].
Definition bracket (c : ascii) : bool := existsb (Ascii.eqb c) ["("; ")"; ","]%char.
Definition plain (n : string) : Prop := forall c, In c (list_ascii_of_string n) -> bracket c = false.
Definition usable (sort_of : string -> sort) (s : sort) (n : string) : Prop := sort_of n = s /\ plain n /\ ~ In n builtin_names.
(* enums and functions have no text of their own *)
Inductive tidy (sort_of : string -> sort) : Type_ -> Prop :=
| tidy_basic t : In t [TDyn; TAny; TBool; TBoolWrapper; TBytes; TBytesWrapper; TDouble; TDoubleWrapper; TDuration; TInt; TIntWrapper; TNull;
                       TString; TStringWrapper; TTimestamp; TUint; TUintWrapper; TUnknown; TError; TType None] -> tidy sort_of t
| tidy_list e : tidy sort_of e -> tidy sort_of (TList e)
| tidy_map k v : tidy sort_of k -> tidy sort_of v -> tidy sort_of (TMap k v)
| tidy_opaque n ps : usable sort_of OfOpaque n -> Forall (tidy sort_of) ps -> tidy sort_of (TOpaque n ps)
| tidy_struct n : usable sort_of OfMessage n -> tidy sort_of (TStruct n)
| tidy_type p : tidy sort_of p -> tidy sort_of (TType (Some p))
| tidy_param n : usable sort_of OfParam n -> tidy sort_of (TTypeParam n).
