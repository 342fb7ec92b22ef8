(* What a declaration of a function promises (C95-C98). *)
From Coq Require Import String Ascii List Bool Arith.
From Verif Require Import Base M_Infer S_Infer.
From Verif Require S_Signature.
From Verif Require Import M_Decl.
Import ListNotations.
Open Scope list_scope.

(* ---- assignability ---- *)

(* [accepts to from]: a parameter of type [to] takes an argument of type
   [from].  The parameters of type(...) do not matter. *)
Inductive accepts : ty -> ty -> Prop :=
| acc_dyn t : accepts TDyn t
| acc_null p : accepts (TWrapper p) TNull
| acc_box p : accepts (TWrapper p) (TPrim p)
| acc_same t : accepts t t
| acc_type l m : accepts (TType l) (TType m)
| acc_list a b : accepts a b -> accepts (TList a) (TList b)
| acc_map k v k' v' : accepts k k' -> accepts v v' -> accepts (TMap k v) (TMap k' v')
| acc_opaque n l m : Forall2 accepts l m -> accepts (TOpaque n l) (TOpaque n m)
| acc_function l m : Forall2 accepts l m -> accepts (TFunction l) (TFunction m).

(* two overloads collide: same style of call, and each pair of parameters is
   related by [accepts] in one direction or the other *)
Definition collide (o o' : overload_decl) : Prop :=
  od_member o = od_member o'
  /\ Forall2 (fun a b => accepts a b \/ accepts b a) (od_args o) (od_args o').

(* a call with arguments of these types can go to this overload *)
Definition applicable (o : overload_decl) (receiver : bool) (args : list ty) : Prop :=
  od_member o = receiver /\ Forall2 accepts (od_args o) args.

(* no wrapper types; dyn only where the type has one parameter at each level *)
Fixpoint fixed (t : ty) : Prop :=
  match t with
  | TDyn | TWrapper _ => False
  | TList e => fixed e
  | TMap k v => fixed k /\ fixed v
  | TOpaque _ l | TFunction l => (fix go l := match l with [] => True | a :: l' => fixed a /\ go l' end) l
  | _ => True
  end.
Fixpoint single (t : ty) : Prop :=
  fixed t \/
  match t with
  | TDyn => True
  | TList e => single e
  | TOpaque _ [e] | TFunction [e] => single e
  | _ => False
  end.

(* ---- histories ---- *)

Inductive op := Add (o : overload_decl) | Rename (n : string) | Release.
Definition step (is_message : string -> bool) (f : FunctionDecl) (x : op) : FunctionDecl :=
  match x with
  | Add o => snd (AddOverload is_message f o)
  | Rename n => set_name f n
  | Release => snd (release_overloads f)
  end.
(* declarations a program can get *)
Inductive reachable (is_message : string -> bool) : FunctionDecl -> Prop :=
| reach_new n : reachable is_message (no_overloads n)
| reach_step f x : reachable is_message f -> reachable is_message (step is_message f x).

(* the overload as it is stored: without an id of its own it takes its
   signature *)
Definition stored (o : overload_decl) (signature : string) : overload_decl :=
  if String.eqb (od_id o) "" then set_id o signature else o.

(* ---- types and their specifications ---- *)

Fixpoint all_parts (P : ty -> Prop) (t : ty) : Prop :=
  P t /\
  match t with
  | TList e => all_parts P e
  | TMap k v => all_parts P k /\ all_parts P v
  | TType l | TOpaque _ l | TFunction l =>
      (fix go l := match l with [] => True | a :: l' => all_parts P a /\ go l' end) l
  | _ => True
  end.

(* types of types and function types as the constructors make them *)
Definition constructed : ty -> Prop := all_parts (fun t =>
  match t with TType (_ :: _ :: _) => False | TFunction [] => False | _ => True end).
(* types that have a specification *)
Definition specifiable (is_message : string -> bool) : ty -> Prop := all_parts (fun t =>
  match t with TUnknown => False | TStruct n => is_message n = true | _ => True end).

(* message types that stand for other types *)
Definition replaced_messages : list string :=
  ["google.protobuf.BoolValue"; "google.protobuf.Int32Value"; "google.protobuf.Int64Value";
   "google.protobuf.UInt32Value"; "google.protobuf.UInt64Value"; "google.protobuf.FloatValue";
   "google.protobuf.DoubleValue"; "google.protobuf.BytesValue"; "google.protobuf.StringValue";
   "google.protobuf.Any"; "google.protobuf.Duration"; "google.protobuf.Timestamp";
   "google.protobuf.Value"; "google.protobuf.ListValue"; "google.protobuf.Struct"]%string.
(* what they stand for *)
Definition well_known : list (string * ty) :=
  [("google.protobuf.BoolValue", TWrapper PBool);
   ("google.protobuf.Int32Value", TWrapper PInt); ("google.protobuf.Int64Value", TWrapper PInt);
   ("google.protobuf.UInt32Value", TWrapper PUint); ("google.protobuf.UInt64Value", TWrapper PUint);
   ("google.protobuf.FloatValue", TWrapper PDouble); ("google.protobuf.DoubleValue", TWrapper PDouble);
   ("google.protobuf.BytesValue", TWrapper PBytes); ("google.protobuf.StringValue", TWrapper PString);
   ("google.protobuf.Any", TAny); ("google.protobuf.Duration", TDuration);
   ("google.protobuf.Timestamp", TTimestamp); ("google.protobuf.Value", TDyn);
   ("google.protobuf.ListValue", TList TDyn);
   ("google.protobuf.Struct", TMap (TPrim PString) TDyn)]%string.
(* the pool knows the messages and enums of the type by their names, and has
   none named like its abstract types *)
Definition known (P : pool) : ty -> Prop := all_parts (fun t =>
  match t with
  | TStruct n => FindMessageTypeByName P n = true /\ ~ In n replaced_messages
  | TEnum n => FindMessageTypeByName P n = false /\ FindEnumTypeByName P n = true
               /\ n <> "google.protobuf.NullValue"%string
  | TOpaque n _ => FindMessageTypeByName P n = false /\ FindEnumTypeByName P n = false
  | _ => True
  end).

(* a type of types without a parameter stands for type(dyn) *)
Fixpoint filled (t : ty) : ty :=
  match t with
  | TType [] => TType [TDyn]
  | TType l => TType (map filled l)
  | TList e => TList (filled e)
  | TMap k v => TMap (filled k) (filled v)
  | TOpaque n l => TOpaque n (map filled l)
  | TFunction l => TFunction (map filled l)
  | _ => t
  end.

(* names that the texts of types can hold *)
Definition named : ty -> Prop := all_parts (fun t =>
  match t with
  | TParam n => list_ascii_of_string n <> [] /\ S_Signature.spaceless (list_ascii_of_string n)
  | TStruct n | TEnum n | TOpaque n _ =>
      S_Signature.type_name (list_ascii_of_string n) /\ S_Signature.spaceless (list_ascii_of_string n)
  | _ => True
  end).

(* the type parameters of a type, those of type(...) left out *)
Inductive has_param (n : string) : ty -> Prop :=
| hp_here : has_param n (TParam n)
| hp_list e : has_param n e -> has_param n (TList e)
| hp_key k v : has_param n k -> has_param n (TMap k v)
| hp_value k v : has_param n v -> has_param n (TMap k v)
| hp_opaque m l t : In t l -> has_param n t -> has_param n (TOpaque m l)
| hp_function l t : In t l -> has_param n t -> has_param n (TFunction l).
