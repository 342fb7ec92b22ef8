(* Model of the proto type masks of the type checker: checker/internal/field_path.h,
   checker/internal/proto_type_mask.{h,cc}, checker/internal/proto_type_mask_registry.cc
   and the parts of checker/internal/type_checker_builder_impl.cc and
   checker/internal/type_check_env.{h,cc} that collect masks and look at them.

   Simplifications.  Names are strings of characters.  The descriptor pool is a list of
   messages; a field says the full name of its message type when MessageTypeField::GetType
   is a message type (so not for repeated fields, maps and well known types).  Messages of
   statuses are not modelled beyond which status it is.  Functions, type providers and
   plain variables of a configuration are left out, and so are extensions. *)
From Coq Require Import ZArith String Ascii List Bool.
From Verif Require Import Base.
Import ListNotations.
Open Scope list_scope.
Local Open Scope out_scope.

(** ** Descriptors *)
(* google::protobuf::FieldDescriptor: name, json_name, message type *)
Record Field := mkField { f_name : string; f_json : string; f_message : option string }.
(* google::protobuf::Descriptor: full name, whether cel::IsWellKnownMessageType, fields *)
Record Descriptor := mkDescriptor { d_name : string; d_well_known : bool; d_fields : list Field }.
Definition Pool := list Descriptor.

(* DescriptorPool::FindMessageTypeByName *)
Definition FindMessageTypeByName (p : Pool) (name : string) : option Descriptor :=
  find (fun d => String.eqb (d_name d) name) p.
(* Descriptor::FindFieldByName *)
Definition FindFieldByName (d : Descriptor) (name : string) : option Field :=
  find (fun f => String.eqb (f_name f) name) (d_fields d).

Definition invalid_argument {A} (m : string) : out A := Err (mkStatus kInvalidArgument m).

(* proto_type_mask.cc:36-46 FindMessage *)
Definition FindMessage (p : Pool) (name : string) : out Descriptor :=
  match FindMessageTypeByName p name with
  | Some d => Val d
  | None => invalid_argument "type not found"
  end.
(* proto_type_mask.cc:48-58 FindField *)
Definition FindField (d : Descriptor) (name : string) : out Field :=
  match FindFieldByName d name with
  | Some f => Val f
  | None => invalid_argument "could not select field from type"
  end.
(* proto_type_mask_registry.cc:52-62 GetMessage; the message type of a field is in the pool
   of the field, UB stands for a pool that protobuf would not build *)
Definition GetMessage (p : Pool) (f : Field) : out Descriptor :=
  match f_message f with
  | None => invalid_argument "field is not a message type"
  | Some n => match FindMessageTypeByName p n with Some d => Val d | None => UB end
  end.

(** ** Paths and masks *)
(* field_path.h:30-32: absl::StrSplit(path, '.') *)
Fixpoint StrSplit (s : string) : list string :=
  match s with
  | EmptyString => [EmptyString]
  | String c s' =>
      if Ascii.eqb c "."%char then EmptyString :: StrSplit s'
      else match StrSplit s' with
           | w :: ws => String c w :: ws
           | [] => [String c EmptyString]
           end
  end.
Definition FieldPath := list string.
(* field_path.h:68-77: comparison of the selections *)
Fixpoint path_compare (a b : FieldPath) : comparison :=
  match a, b with
  | [], [] => Eq
  | [], _ => Lt
  | _, [] => Gt
  | x :: a', y :: b' => match String.compare x y with Eq => path_compare a' b' | c => c end
  end.
(* insertion in absl::btree_set<FieldPath> *)
Fixpoint path_insert (x : FieldPath) (s : list FieldPath) : list FieldPath :=
  match s with
  | [] => [x]
  | y :: s' => match path_compare x y with Lt => x :: s | Eq => s | Gt => y :: path_insert x s' end
  end.
(* proto_type_mask.h:44-52 ProtoTypeMask *)
Record ProtoTypeMask := mkMask { GetTypeName : string; GetFieldPaths : list FieldPath }.
Definition newMask (type : string) (field_paths : list string) : ProtoTypeMask :=
  mkMask type (fold_left (fun s p => path_insert (StrSplit p) s) field_paths []).

(* proto_type_mask.cc:60-73 ProtoTypeMask::GetFieldNames; the btree_set of names as a list *)
Definition GetFieldNames (p : Pool) (m : ProtoTypeMask) : out (list string) :=
  d <- FindMessage p (GetTypeName m);;
  (fix go paths acc :=
     match paths with
     | [] => Val acc
     | path :: r =>
         match path with
         | [] => UB
         | n :: _ => f <- FindField d n;; go r (f_name f :: acc)
         end
     end) (GetFieldPaths m) [].

(** ** The registry *)
(* proto_type_mask_registry.cc:47-48 TypeMap *)
Definition TypeMap := list (string * list string).
Fixpoint tm_find (t : TypeMap) (name : string) : option (list string) :=
  match t with
  | [] => None
  | (n, fs) :: t' => if String.eqb n name then Some fs else tm_find t' name
  end.
Fixpoint tm_add (t : TypeMap) (name field : string) : TypeMap :=
  match t with
  | [] => []
  | (n, fs) :: t' => if String.eqb n name then (n, field :: fs) :: t' else (n, fs) :: tm_add t' name field
  end.
(* proto_type_mask_registry.cc:64-82 AddAllHiddenFields *)
Definition AddAllHiddenFields (t : TypeMap) (name : string) : out TypeMap :=
  match tm_find t name with
  | Some fs =>
      match fs with
      | _ :: _ => invalid_argument "all hidden fields after a visible field"
      | [] => Val t
      end
  | None => Val ((name, []) :: t)
  end.
(* proto_type_mask_registry.cc:84-104 AddVisibleField *)
Definition AddVisibleField (t : TypeMap) (name field : string) : out TypeMap :=
  match tm_find t name with
  | Some fs =>
      match fs with
      | [] => invalid_argument "a visible field after all hidden fields"
      | _ :: _ => Val (tm_add t name field)
      end
  | None => Val ((name, [field]) :: t)
  end.
(* proto_type_mask_registry.cc:126-141: the fields of one path *)
Fixpoint add_path (p : Pool) (t : TypeMap) (target : Descriptor) (path : FieldPath) : out TypeMap :=
  match path with
  | [] => Val t
  | n :: rest =>
      f <- FindField target n;;
      t' <- AddVisibleField t (d_name target) n;;
      match rest with
      | [] => Val t'
      | _ :: _ => d <- GetMessage p f;; add_path p t' d rest
      end
  end.
Fixpoint add_paths (p : Pool) (t : TypeMap) (d : Descriptor) (paths : list FieldPath) : out TypeMap :=
  match paths with
  | [] => Val t
  | path :: r => t' <- add_path p t d path;; add_paths p t' d r
  end.
(* proto_type_mask_registry.cc:106-144 ComputeVisibleFieldsMap, 148-158 Create *)
Fixpoint compute (p : Pool) (t : TypeMap) (masks : list ProtoTypeMask) : out TypeMap :=
  match masks with
  | [] => Val t
  | m :: r =>
      d <- FindMessage p (GetTypeName m);;
      t0 <- match GetFieldPaths m with
            | [] => AddAllHiddenFields t (GetTypeName m)
            | _ :: _ => Val t
            end;;
      t' <- add_paths p t0 d (GetFieldPaths m);;
      compute p t' r
  end.
Definition Create (p : Pool) (masks : list ProtoTypeMask) : out TypeMap := compute p [] masks.
(* proto_type_mask_registry.cc:160-168 FieldIsVisible *)
Definition FieldIsVisible (t : TypeMap) (type field : string) : bool :=
  match tm_find t type with
  | Some fs => existsb (String.eqb field) fs
  | None => true
  end.

(** ** The builder *)
(* type_checker_builder_impl.h:131-142 ConfigRecord *)
Record Config := mkConfig {
  c_context_types : list Descriptor;
  c_context_type_fields : list (string * list string);
  c_masks : list ProtoTypeMask }.
Definition empty_config := mkConfig [] [] [].

(* type_checker_builder_impl.cc:466-490 AddContextDeclaration; [allow_wkt] is
   allow_well_known_type_context_declarations *)
Definition AddContextDeclaration (p : Pool) (allow_wkt : bool) (c : Config) (type : string) : Config * out unit :=
  match FindMessageTypeByName p type with
  | None => (c, Err (mkStatus kNotFound "context declaration not found"))
  | Some d =>
      if d_well_known d && negb allow_wkt then (c, invalid_argument "context declaration is not a struct")
      else if existsb (fun d' => String.eqb (d_name d') (d_name d)) (c_context_types c)
      then (c, Err (mkStatus kAlreadyExists "context declaration already exists"))
      else (mkConfig (c_context_types c ++ [d]) (c_context_type_fields c) (c_masks c), Val tt)
  end.
(* type_checker_builder_impl.cc:492-507 AddContextDeclarationWithProtoTypeMask *)
Definition AddContextDeclarationWithProtoTypeMask (p : Pool) (allow_wkt : bool) (c : Config)
    (type : string) (field_paths : list string) : Config * out unit :=
  match field_paths with
  | [] => (c, invalid_argument "field paths cannot be the empty set")
  | _ :: _ =>
      let m := newMask type field_paths in
      let c1 := mkConfig (c_context_types c) (c_context_type_fields c) (c_masks c ++ [m]) in
      let '(c2, r) := AddContextDeclaration p allow_wkt c1 type in
      match r with
      | Val _ =>
          match GetFieldNames p m with
          | Val names =>
              (mkConfig (c_context_types c2)
                 (match tm_find (c_context_type_fields c2) type with
                  | Some _ => c_context_type_fields c2
                  | None => (type, names) :: c_context_type_fields c2
                  end) (c_masks c2), Val tt)
          | Err s => (c2, Err s)
          | UB => (c2, UB)
          end
      | Err s => (c2, Err s)
      | UB => (c2, UB)
      end
  end.

(* the environment of the checker: type_check_env.h, variables and masks *)
Record Env := mkEnv { e_variables : list string; e_registry : option TypeMap }.
(* the name a field has in expressions: type_checker_builder_impl.cc:109-113,
   descriptor_pool_type_introspector.cc:153-171 *)
Definition field_key (use_json : bool) (f : Field) : string := if use_json then f_json f else f_name f.
(* type_checker_builder_impl.cc:92-122, 124-167 AddContextDeclarationVariables *)
Definition shown (use_json : bool) (fields : list (string * list string)) (d : Descriptor) (f : Field) : bool :=
  match tm_find fields (d_name d) with
  | Some ns => existsb (String.eqb (if d_well_known d then f_name f else field_key use_json f)) ns
  | None => true
  end.
Fixpoint add_variables (use_json : bool) (fields : list (string * list string)) (d : Descriptor) (e : Env) (l : list Field) : out Env :=
  match l with
  | [] => Val e
  | f :: r =>
      if shown use_json fields d f then
        let n := field_key use_json f in
        if existsb (String.eqb n) (e_variables e) then Err (mkStatus kAlreadyExists "variable declared multiple times")
        else add_variables use_json fields d (mkEnv (n :: e_variables e) (e_registry e)) r
      else add_variables use_json fields d e r
  end.
Fixpoint add_contexts (use_json : bool) (fields : list (string * list string)) (e : Env) (l : list Descriptor) : out Env :=
  match l with
  | [] => Val e
  | d :: r => e' <- add_variables use_json fields d e (d_fields d);; add_contexts use_json fields e' r
  end.
(* type_checker_builder_impl.cc:298-370 ApplyConfig; type_check_env.h:161-167
   CreateProtoTypeMaskRegistry *)
Definition ApplyConfig (p : Pool) (use_json : bool) (c : Config) (e : Env) : out Env :=
  e1 <- add_contexts use_json (c_context_type_fields c) e (c_context_types c);;
  t <- Create p (c_masks c);;
  Val (mkEnv (e_variables e1) (Some t)).
Fixpoint apply_all (p : Pool) (use_json : bool) (cs : list Config) (e : Env) : out Env :=
  match cs with
  | [] => Val e
  | c :: r => e' <- ApplyConfig p use_json c e;; apply_all p use_json r e'
  end.
(* type_checker_builder_impl.cc:372-420 Build, ConfigureTypeCheckEnv: the configurations of
   the libraries with an identifier in order, that of the others, and that of the builder *)
Definition Build (p : Pool) (use_json : bool) (libraries : list Config) (anonymous default : Config) : out Env :=
  apply_all p use_json (libraries ++ [anonymous; default]) (mkEnv [] None).
(* type_check_env.cc:98-121 LookupStructField, with the descriptor pool as the only provider *)
Definition LookupStructField (p : Pool) (use_json : bool) (e : Env) (type field : string) : option Field :=
  if match e_registry e with Some t => negb (FieldIsVisible t type field) | None => false end then None
  else match FindMessageTypeByName p type with
       | None => None
       | Some d => find (fun f => String.eqb (field_key use_json f) field) (d_fields d)
       end.
