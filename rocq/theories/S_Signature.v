(* Which types have signatures that stand for them (C55, C56). *)
From Coq Require Import ZArith List Bool String Ascii.
From Verif Require Import Base.
From Verif Require Import M_Signature.
Import ListNotations.
Open Scope list_scope.

(* names with a meaning of their own in signatures *)
Definition reserved : list string :=
  ["null"; "bool"; "int"; "uint"; "double"; "string"; "bytes"; "any"; "timestamp"; "duration"; "dyn";
   "bool_wrapper"; "int_wrapper"; "uint_wrapper"; "double_wrapper"; "string_wrapper"; "bytes_wrapper";
   "list"; "map"; "type"; "function";
   "google.protobuf.Any"; "google.protobuf.Timestamp"; "google.protobuf.Duration"; "google.protobuf.Value";
   "google.protobuf.BoolValue"; "google.protobuf.Int64Value"; "google.protobuf.Int32Value";
   "google.protobuf.UInt64Value"; "google.protobuf.UInt32Value"; "google.protobuf.DoubleValue";
   "google.protobuf.FloatValue"; "google.protobuf.StringValue"; "google.protobuf.BytesValue";
   "google.protobuf.ListValue"; "google.protobuf.Struct"]%string.
(* a name for a message or abstract type *)
Definition type_name (n : text) : Prop :=
  n <> [] /\ (forall a b, n <> a ++ ["."; "."]%char ++ b) /\ Forall (fun w => n <> lit w) reserved.

(* every part of a type *)
Fixpoint parts (P : tspec -> Prop) (t : tspec) : Prop :=
  P t /\
  match t with
  | TList e => parts P e
  | TMap k v => parts P k /\ parts P v
  | TFun r args => parts P r /\ (fix go l := match l with [] => True | a :: l' => parts P a /\ go l' end) args
  | TType e => parts P e
  | TAbstract _ l => (fix go l := match l with [] => True | a :: l' => parts P a /\ go l' end) l
  | _ => True
  end.
Definition well_named : tspec -> Prop := parts (fun t =>
  match t with
  | TParam n => n <> []
  | TAbstract n _ | TMessage n => type_name n
  | _ => True
  end).
(* no white space in names *)
Definition spaceless (n : text) : Prop :=
  Forall (fun c => c <> " " /\ c <> "009" /\ c <> "010" /\ c <> "013")%char n.
Definition spaceless_names : tspec -> Prop := parts (fun t =>
  match t with TParam n | TAbstract n _ | TMessage n => spaceless n | _ => True end).

(* A message type is written, and read, as an abstract type without parameters;
   an element, key, value or result type left out as dyn. *)
Definition or_dyn (t : tspec) : tspec := match t with TUnset => TDyn | _ => t end.
Fixpoint canonical (t : tspec) : tspec :=
  match t with
  | TMessage n => TAbstract n []
  | TList e => TList (or_dyn (canonical e))
  | TMap k v => TMap (or_dyn (canonical k)) (or_dyn (canonical v))
  | TFun r args => TFun (or_dyn (canonical r)) (map canonical args)
  | TType e => TType (canonical e)
  | TAbstract n l => TAbstract n (map canonical l)
  | _ => t
  end.
