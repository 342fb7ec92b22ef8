(* What masks mean, apart from the code that collects them. *)
From Coq Require Import String List.
From Verif Require Import M_TypeMask.
Import ListNotations.

(* the message [name] of the pool has the field [field], whose values are messages of
   type [t] if [t] is Some *)
Definition has_field (p : Pool) (name field : string) (t : option string) : Prop :=
  exists d f, FindMessageTypeByName p name = Some d /\ FindFieldByName d field = Some f /\ f_message f = t.

(* selecting the names of [path] one after the other from a message of type [root] selects
   the field [field] of a message of type [type] on the way *)
Inductive selects (p : Pool) : string -> list string -> string -> string -> Prop :=
| selects_here root n rest : selects p root (n :: rest) root n
| selects_there root n m rest type field :
    has_field p root n (Some m) -> selects p m rest type field ->
    selects p root (n :: rest) type field.

(* every name of [path] can be selected, one after the other *)
Inductive selectable (p : Pool) : string -> list string -> Prop :=
| selectable_last root n t : has_field p root n t -> selectable p root [n]
| selectable_more root n m rest :
    has_field p root n (Some m) -> rest <> [] -> selectable p m rest -> selectable p root (n :: rest).

(* the masks list the field: one of their paths goes through it *)
Definition listed (p : Pool) (masks : list ProtoTypeMask) (type field : string) : Prop :=
  exists m path, In m masks /\ In path (GetFieldPaths m) /\ selects p (GetTypeName m) path type field.
(* the masks say that the type has no visible fields *)
Definition all_hidden (masks : list ProtoTypeMask) (type : string) : Prop :=
  exists m, In m masks /\ GetTypeName m = type /\ GetFieldPaths m = [].
(* the masks restrict the type *)
Definition restricted (p : Pool) (masks : list ProtoTypeMask) (type : string) : Prop :=
  all_hidden masks type \/ exists field, listed p masks type field.

(* protobuf builds no other pools: the message types of fields are in it *)
Definition pool_ok (p : Pool) : Prop :=
  forall d f m, In d p -> In f (d_fields d) -> f_message f = Some m -> exists d', FindMessageTypeByName p m = Some d'.

(* calls of AddContextDeclarationWithProtoTypeMask that were accepted, in order, by a
   builder (or by the configuration of a library), and the configuration they leave *)
Inductive declared (p : Pool) (allow_wkt : bool) : list (string * list string) -> Config -> Prop :=
| declared_none : declared p allow_wkt [] empty_config
| declared_more calls c type paths c' :
    declared p allow_wkt calls c ->
    AddContextDeclarationWithProtoTypeMask p allow_wkt c type paths = (c', Base.Val tt) ->
    declared p allow_wkt (calls ++ [(type, paths)]) c'.
(* a path of one of the calls goes through the field of the type *)
Definition goes_through (p : Pool) (calls : list (string * list string)) (type field : string) : Prop :=
  exists root paths path, In (root, paths) calls /\ In path paths /\ selects p root (StrSplit path) type field.
