(* Model of common/format_type_name.cc: the text of a type.

   Simplifications.  A type is its kind with its name and parameters; the parameters of a type
   of types are at most one, as its constructors make them.  Offsets are unbounded. *)
From Coq Require Import String List Arith Bool.
Import ListNotations.
Open Scope string_scope.
Open Scope list_scope.

(* common/type_kind.h, common/type.h *)
Inductive Type_ :=
| TDyn | TAny | TBool | TBoolWrapper | TBytes | TBytesWrapper | TDouble | TDoubleWrapper | TDuration
| TEnum (name : string) | TInt | TIntWrapper | TList (element : Type_) | TMap (key value : Type_) | TNull
| TOpaque (name : string) (parameters : list Type_) | TString | TStringWrapper | TStruct (name : string) | TTimestamp
| TType (parameter : option Type_) | TTypeParam (name : string) | TUint | TUintWrapper | TUnknown | TError
| TFunction (result : Type_) (args : list Type_).

(* format_type_name.cc:28-31 *)
Record FormatImplRecord := mkRecord { rec_type : Type_; rec_offset : nat }.
(* 37-165 FormatImpl; the top of the stack is the head of the list, push_back puts in front *)
Definition push (t : Type_) (offset : nat) (st : list FormatImplRecord) : list FormatImplRecord := mkRecord t offset :: st.
Definition FormatImpl (cur : Type_) (offset : nat) (st : list FormatImplRecord) (out : string) : list FormatImplRecord * string :=
  match cur with
  | TDyn => (st, out ++ "dyn")
  | TAny => (st, out ++ "any")
  | TBool => (st, out ++ "bool")
  | TBoolWrapper => (st, out ++ "wrapper(bool)")
  | TBytes => (st, out ++ "bytes")
  | TBytesWrapper => (st, out ++ "wrapper(bytes)")
  | TDouble => (st, out ++ "double")
  | TDoubleWrapper => (st, out ++ "wrapper(double)")
  | TDuration => (st, out ++ "google.protobuf.Duration")
  | TEnum _ => (st, out ++ "int")
  | TInt => (st, out ++ "int")
  | TIntWrapper => (st, out ++ "wrapper(int)")
  | TList element =>
      if Nat.eqb offset 0 then (push element 0 (push cur 1 st), out ++ "list(") else (st, out ++ ")")
  | TMap key value =>
      if Nat.eqb offset 0 then (push key 0 (push cur 1 st), out ++ "map(")
      else if Nat.eqb offset 1 then (push value 0 (push cur 2 st), out ++ ", ")
      else (st, out ++ ")")
  | TNull => (st, out ++ "null_type")
  | TOpaque name parameters =>
      if Nat.eqb offset 0 then
        match parameters with
        | [] => (st, out ++ name)
        | p :: _ => (push p 0 (push cur 1 st), (out ++ name) ++ "(")
        end
      else
        match nth_error parameters offset with
        | None => (st, out ++ ")")
        | Some p => (push p 0 (push cur (offset + 1) st), out ++ ", ")
        end
  | TString => (st, out ++ "string")
  | TStringWrapper => (st, out ++ "wrapper(string)")
  | TStruct name => (st, out ++ name)
  | TTimestamp => (st, out ++ "google.protobuf.Timestamp")
  | TType parameter =>
      if Nat.eqb offset 0 then
        match parameter with
        | None => (st, out ++ "type")
        | Some p => (push p 0 (push cur 1 st), (out ++ "type") ++ "(")
        end
      else (st, out ++ ")")
  | TTypeParam name => (st, out ++ name)
  | TUint => (st, out ++ "uint")
  | TUintWrapper => (st, out ++ "wrapper(uint)")
  | TUnknown => (st, out ++ "*unknown*")
  | TError | TFunction _ _ => (st, out ++ "*error*")
  end%string.
(* 168-178 FormatTypeName; None if the loop has not ended within the fuel *)
Fixpoint format_loop (fuel : nat) (st : list FormatImplRecord) (out : string) : option string :=
  match st with
  | [] => Some out
  | r :: st' =>
      match fuel with
      | O => None
      | S fuel' => let '(st2, out2) := FormatImpl (rec_type r) (rec_offset r) st' out in format_loop fuel' st2 out2
      end
  end.
Definition FormatTypeName (fuel : nat) (t : Type_) : option string := format_loop fuel [mkRecord t 0] "".
