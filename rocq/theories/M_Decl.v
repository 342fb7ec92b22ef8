(* Model of the declarations of functions:
     common/type_spec_resolver.cc (conversions between Type and TypeSpec),
     common/signature.cc (signatures of types and overloads, in terms of Type),
     common/decl.cc, common/decl.h (overloads, their collisions, lookup).

   Types are those of M_Infer, specifications of types and their texts those of
   M_Signature.

   Simplifications.  A descriptor is its full name; the hash maps are lists of
   key and index in which the latest entry of a key is the one found; messages
   of errors keep their fixed text.  Copies and moves of overloads are not
   told apart. *)
From Coq Require Import String Ascii List Bool Arith.
From Verif Require Import Base M_Infer.
From Verif Require M_Signature.
Import ListNotations.
Local Open Scope string_scope.
Open Scope list_scope.
Local Open Scope out_scope.

Notation tspec := M_Signature.tspec.
Notation text := M_Signature.text.
Definition invalid (msg : string) : status := mkStatus kInvalidArgument msg.

(* A descriptor pool: which messages and enums it has. *)
Record pool := mkPool { FindMessageTypeByName : string -> bool; FindEnumTypeByName : string -> bool }.

(* common/type.cc:39-74 Type::Message; ListType() is list(dyn) and
   JsonMapType() is map(string, dyn) *)
Definition Message (full_name : string) : ty :=
  if String.eqb full_name "google.protobuf.BoolValue" then TWrapper PBool
  else if String.eqb full_name "google.protobuf.Int32Value" then TWrapper PInt
  else if String.eqb full_name "google.protobuf.Int64Value" then TWrapper PInt
  else if String.eqb full_name "google.protobuf.UInt32Value" then TWrapper PUint
  else if String.eqb full_name "google.protobuf.UInt64Value" then TWrapper PUint
  else if String.eqb full_name "google.protobuf.FloatValue" then TWrapper PDouble
  else if String.eqb full_name "google.protobuf.DoubleValue" then TWrapper PDouble
  else if String.eqb full_name "google.protobuf.BytesValue" then TWrapper PBytes
  else if String.eqb full_name "google.protobuf.StringValue" then TWrapper PString
  else if String.eqb full_name "google.protobuf.Any" then TAny
  else if String.eqb full_name "google.protobuf.Duration" then TDuration
  else if String.eqb full_name "google.protobuf.Timestamp" then TTimestamp
  else if String.eqb full_name "google.protobuf.Value" then TDyn
  else if String.eqb full_name "google.protobuf.ListValue" then TList TDyn
  else if String.eqb full_name "google.protobuf.Struct" then TMap (TPrim PString) TDyn
  else TStruct full_name.
(* common/type.cc:76-83 Type::Enum *)
Definition Enum (full_name : string) : ty :=
  if String.eqb full_name "google.protobuf.NullValue" then TPrim PInt else TEnum full_name.

Definition prim_type (p : M_Signature.prim) : option prim :=
  match p with
  | M_Signature.PUnspecified => None
  | M_Signature.PBool => Some PBool | M_Signature.PInt => Some PInt | M_Signature.PUint => Some PUint
  | M_Signature.PDouble => Some PDouble | M_Signature.PString => Some PString
  | M_Signature.PBytes => Some PBytes
  end.
Definition prim_spec (p : prim) : M_Signature.prim :=
  match p with
  | PBool => M_Signature.PBool | PInt => M_Signature.PInt | PUint => M_Signature.PUint
  | PDouble => M_Signature.PDouble | PString => M_Signature.PString | PBytes => M_Signature.PBytes
  end.

(* type_spec_resolver.cc:35-199 ConvertTypeSpecToType; Type() is dyn
   (common/types/types.h:83-90) *)
Fixpoint ConvertTypeSpecToType (P : pool) (s : tspec) : out ty :=
  match s with
  | M_Signature.TNull => Val TNull
  | M_Signature.TDyn => Val TDyn
  | M_Signature.TPrim p =>
      match prim_type p with
      | Some q => Val (TPrim q) | None => Err (invalid "Unsupported primitive type")
      end
  | M_Signature.TWkt w =>
      match w with
      | M_Signature.WAny => Val TAny
      | M_Signature.WTimestamp => Val TTimestamp
      | M_Signature.WDuration => Val TDuration
      | M_Signature.WUnspecified => Err (invalid "Unsupported well-known type")
      end
  | M_Signature.TWrap p =>
      match prim_type p with
      | Some q => Val (TWrapper q) | None => Err (invalid "Unsupported wrapper type")
      end
  | M_Signature.TList e =>
      t <- (if M_Signature.is_specified e then ConvertTypeSpecToType P e else Val TDyn) ;; Val (TList t)
  | M_Signature.TMap k v =>
      a <- (if M_Signature.is_specified k then ConvertTypeSpecToType P k else Val TDyn) ;;
      b <- (if M_Signature.is_specified v then ConvertTypeSpecToType P v else Val TDyn) ;;
      Val (TMap a b)
  | M_Signature.TFun r args =>
      t <- (if M_Signature.is_specified r then ConvertTypeSpecToType P r else Val TDyn) ;;
      l <- M_Signature.all_out (map (ConvertTypeSpecToType P) args) ;;
      Val (TFunction (t :: l))
  | M_Signature.TParam n => Val (TParam (string_of_list_ascii n))
  | M_Signature.TMessage n =>
      let name := string_of_list_ascii n in
      if FindMessageTypeByName P name then Val (Message name)
      else Err (invalid "not found in descriptor pool")
  | M_Signature.TAbstract n params =>
      let name := string_of_list_ascii n in
      if FindMessageTypeByName P name then
        match params with
        | [] => Val (Message name)
        | _ => Err (invalid "Message type cannot have type parameters")
        end
      else if FindEnumTypeByName P name then
        match params with
        | [] => Val (Enum name)
        | _ => Err (invalid "Enum type cannot have type parameters")
        end
      else
        l <- M_Signature.all_out (map (ConvertTypeSpecToType P) params) ;; Val (TOpaque name l)
  | M_Signature.TType e => t <- ConvertTypeSpecToType P e ;; Val (TType [t])
  | M_Signature.TError => Val TError
  | M_Signature.TUnset => Err (invalid "Unknown TypeSpec kind")
  end.

(* type_spec_resolver.cc:201-299 ConvertTypeToTypeSpec.  [is_message] tells the
   struct types that are message types (Type::IsMessage) from the others; a type
   of types without a parameter has the parameter dyn (type_type.cc:68-73); a
   function type without data has no result to read (function_type.cc:80-83) *)
Fixpoint ConvertTypeToTypeSpec (is_message : string -> bool) (t : ty) : out tspec :=
  match t with
  | TNull => Val M_Signature.TNull
  | TDyn => Val M_Signature.TDyn
  | TPrim p => Val (M_Signature.TPrim (prim_spec p))
  | TAny => Val (M_Signature.TWkt M_Signature.WAny)
  | TTimestamp => Val (M_Signature.TWkt M_Signature.WTimestamp)
  | TDuration => Val (M_Signature.TWkt M_Signature.WDuration)
  | TWrapper p => Val (M_Signature.TWrap (prim_spec p))
  | TList e => s <- ConvertTypeToTypeSpec is_message e ;; Val (M_Signature.TList s)
  | TMap k v =>
      a <- ConvertTypeToTypeSpec is_message k ;;
      b <- ConvertTypeToTypeSpec is_message v ;;
      Val (M_Signature.TMap a b)
  | TFunction [] => UB
  | TFunction (r :: args) =>
      s <- ConvertTypeToTypeSpec is_message r ;;
      l <- M_Signature.all_out (map (ConvertTypeToTypeSpec is_message) args) ;;
      Val (M_Signature.TFun s l)
  | TParam n => Val (M_Signature.TParam (list_ascii_of_string n))
  | TStruct n =>
      if is_message n then Val (M_Signature.TMessage (list_ascii_of_string n))
      else Err (invalid "Unsupported struct type")
  | TOpaque n params =>
      l <- M_Signature.all_out (map (ConvertTypeToTypeSpec is_message) params) ;;
      Val (M_Signature.TAbstract (list_ascii_of_string n) l)
  | TType [] => Val (M_Signature.TType M_Signature.TDyn)
  | TType (e :: _) => s <- ConvertTypeToTypeSpec is_message e ;; Val (M_Signature.TType s)
  | TError => Val M_Signature.TError
  | TEnum n => Val (M_Signature.TAbstract (list_ascii_of_string n) [])
  | TUnknown => Err (invalid "Unsupported Type kind")
  end.

(* signature.cc:209-214 MakeTypeSignature *)
Definition MakeTypeSignature (is_message : string -> bool) (t : ty) : out text :=
  s <- ConvertTypeToTypeSpec is_message t ;; M_Signature.MakeTypeSpecSignature s.
(* signature.cc:634-638 ParseType *)
Definition ParseType (P : pool) (signature : text) : out ty :=
  s <- M_Signature.ParseTypeSpec signature ;; ConvertTypeSpecToType P s.
(* signature.cc:222-232 MakeOverloadSignature *)
Definition MakeOverloadSignature (is_message : string -> bool) (function_name : string) (args : list ty)
    (is_member : bool) : out string :=
  l <- M_Signature.all_out (map (ConvertTypeToTypeSpec is_message) args) ;;
  s <- M_Signature.MakeOverloadSignature (list_ascii_of_string function_name) l is_member ;;
  Val (string_of_list_ascii s).

(* ---- collisions ---- *)

(* decl.cc:38-84 TypeIsAssignable.  The two calls of a wrapper type (null and
   the wrapped type) end at the comparison of kinds: [atom_assignable] is the
   function at a type without parameters that is neither dyn nor a wrapper *)
Definition atom_assignable (to from : ty) : bool :=
  ty_eqb to from
  || (tkind_eqb (kind_of to) (kind_of from) && String.eqb (type_name to) (type_name from)
      && match params from with [] => true | _ => false end).
Fixpoint TypeIsAssignable (to from : ty) {struct to} : bool :=
  let fix pointwise (l m : list ty) : bool :=
    match l, m with
    | [], [] => true
    | x :: l', y :: m' => TypeIsAssignable x y && pointwise l' m'
    | _, _ => false
    end in
  ty_eqb to from
  || match to with
     | TDyn => true
     | TWrapper p => atom_assignable TNull from || atom_assignable (TPrim p) from
     | _ =>
         tkind_eqb (kind_of to) (kind_of from) && String.eqb (type_name to) (type_name from)
         && match to with
            | TList e => pointwise [e] (params from)
            | TMap k v => pointwise [k; v] (params from)
            | TType l | TOpaque _ l | TFunction l => pointwise l (params from)
            | _ => pointwise [] (params from)
            end
     end.

(* decl.cc:90-111 SignaturesOverlap; the arguments are compared pairwise *)
Fixpoint args_overlap (l m : list ty) : bool :=
  match l, m with
  | [], [] => true
  | a :: l', b :: m' => (TypeIsAssignable a b || TypeIsAssignable b a) && args_overlap l' m'
  | _, _ => false
  end.
Definition SignaturesOverlap (lhs rhs : overload_decl) : bool :=
  Bool.eqb (od_member lhs) (od_member rhs)
  && (Nat.eqb (List.length (od_args lhs)) (List.length (od_args rhs)) && args_overlap (od_args lhs) (od_args rhs)).

(* ---- function declarations ---- *)

(* decl.h:271-347 FunctionDecl *)
Record FunctionDecl := mkFunction {
  name : string;
  insertion_order : list overload_decl;
  by_id : list (string * nat);
  by_signature : list (string * nat) }.
(* decl.h:310-313 overloads *)
Definition overloads (f : FunctionDecl) : list overload_decl := insertion_order f.
Definition no_overloads (n : string) : FunctionDecl := mkFunction n [] [] [].

Fixpoint find_index (k : string) (m : list (string * nat)) : option nat :=
  match m with
  | [] => None
  | (x, i) :: m' => if String.eqb k x then Some i else find_index k m'
  end.

(* decl.h:150-154 set_id *)
Definition set_id (o : overload_decl) (id : string) : overload_decl :=
  mkOverload id (od_args o) (od_result o) (od_member o).

Definition kAlreadyExists_overload : status := mkStatus kAlreadyExists "overload exists".

(* decl.cc:113-155 AddOverloadInternal, for a status that is ok *)
Definition AddOverload (is_message : string -> bool) (f : FunctionDecl) (overload : overload_decl)
  : out unit * FunctionDecl :=
  match MakeOverloadSignature is_message (name f) (od_args overload) (od_member overload) with
  | Err e => (Err e, f)
  | UB => (UB, f)
  | Val signature =>
      let mutable_overload :=
        if String.eqb (od_id overload) "" then set_id overload signature else overload in
      match find_index (od_id mutable_overload) (by_id f) with
      | Some _ => (Err kAlreadyExists_overload, f)
      | None =>
          if existsb (SignaturesOverlap mutable_overload) (insertion_order f)
          then (Err (invalid "overload signature collision"), f)
          else
            let index := List.length (insertion_order f) in
            (Val tt,
             mkFunction (name f) (insertion_order f ++ [mutable_overload])
               ((od_id mutable_overload, index) :: by_id f)
               ((signature, index) :: by_signature f))
      end
  end.

(* decl.h:359-370 MakeFunctionDecl: overloads after the first refused one are
   not added, and the status is returned instead of the declaration *)
Fixpoint add_all (is_message : string -> bool) (f : FunctionDecl) (l : list overload_decl) : out FunctionDecl :=
  match l with
  | [] => Val f
  | o :: l' =>
      let '(st, f') := AddOverload is_message f o in
      _ <- st ;; add_all is_message f' l'
  end.
Definition MakeFunctionDecl (is_message : string -> bool) (n : string) (l : list overload_decl)
  : out FunctionDecl := add_all is_message (no_overloads n) l.

(* decl.cc:209-219 FindOverloadById; an index beyond the vector is read out of
   bounds *)
Definition read_overload (f : FunctionDecl) (i : nat) : out (option overload_decl) :=
  match nth_error (insertion_order f) i with Some o => Val (Some o) | None => UB end.
Definition FindOverloadById (f : FunctionDecl) (id : string) : out (option overload_decl) :=
  match find_index id (by_id f) with
  | Some i => read_overload f i
  | None =>
      match find_index id (by_signature f) with
      | Some i => read_overload f i
      | None => Val None
      end
  end.

(* decl.h:284-290 set_name; 318-324 release_overloads *)
Definition set_name (f : FunctionDecl) (n : string) : FunctionDecl :=
  mkFunction n (insertion_order f) (by_id f) (by_signature f).
Definition release_overloads (f : FunctionDecl) : list overload_decl * FunctionDecl :=
  (insertion_order f, mkFunction (name f) [] [] []).

(* decl.cc:157-195 CollectTypeParams and GetTypeParams: the names inserted *)
Fixpoint CollectTypeParams (t : ty) : list string :=
  match t with
  | TList e => CollectTypeParams e
  | TMap k v => CollectTypeParams k ++ CollectTypeParams v
  | TOpaque _ l | TFunction l => flat_map CollectTypeParams l
  | TParam n => [n]
  | _ => []
  end.
Definition GetTypeParams (o : overload_decl) : list string :=
  CollectTypeParams (od_result o) ++ flat_map CollectTypeParams (od_args o).
