(* Model of env/config.cc and of the subset of the standard library in env/env.cc.

   Simplifications.  A hash set is a list of its elements.  A constant is its kind.  Messages
   of errors are left out.  Signatures of overloads are given, and are none where
   MakeOverloadSignature fails. *)
From Coq Require Import String List ZArith Bool.
From Verif Require Import Base.
Import ListNotations.
Open Scope list_scope.

(* config.h:62-67 ExtensionConfig *)
Record ExtensionConfig := mkExtension { ext_name : string; ext_version : Z }.
(* 76-104 StandardLibraryConfig *)
Record StandardLibraryConfig := mkStandard {
  disable : bool; disable_macros : bool;
  included_macros : list string; excluded_macros : list string;
  included_functions : list (string * string); excluded_functions : list (string * string) }.
(* common/constant.h ConstantKind; KUnset is a constant without value *)
Inductive ConstantKind := KUnset | KNull | KBool | KInt | KUint | KDouble | KBytes | KString | KDuration | KTimestamp.
(* 111-123 VariableConfig, with the name of its type *)
Record VariableConfig := mkVariable { var_name : string; var_type : string; var_value : ConstantKind }.
(* 136-148 *)
Record OverloadConfig := mkOverloadConfig { overload_id : string; is_member_function : bool; parameters : nat }.
Record FunctionConfig := mkFunction { function_name : string; overload_configs : list OverloadConfig }.
Record Config := mkConfig { extensions : list ExtensionConfig; standard : StandardLibraryConfig; variables : list VariableConfig; functions : list FunctionConfig }.
Definition new_config : Config := mkConfig [] (mkStandard false false [] [] [] []) [] [].

(* config.cc:37-52 ConstantKindToTypeName *)
Definition ConstantKindToTypeName (k : ConstantKind) : string :=
  match k with
  | KUnset => "dyn" | KNull => "null" | KBool => "bool" | KInt => "int" | KUint => "uint" | KDouble => "double" | KBytes => "bytes"
  | KString => "string" | KDuration => "duration" | KTimestamp => "timestamp"
  end.
Definition has_value (k : ConstantKind) : bool := match k with KUnset => false | _ => true end.

Definition already : out Config := Err (mkStatus kAlreadyExists "").
Definition invalid : out Config := Err (mkStatus kInvalidArgument "").
(* 55-76 AddExtensionConfig *)
Fixpoint add_extension_loop (l : list ExtensionConfig) (name : string) (version : Z) : option bool :=
  match l with
  | [] => None
  | e :: l' => if String.eqb (ext_name e) name then Some (Z.eqb (ext_version e) version) else add_extension_loop l' name version
  end.
Definition AddExtensionConfig (c : Config) (name : string) (version : Z) : out Config :=
  match add_extension_loop (extensions c) name version with
  | Some true => Val c
  | Some false => already
  | None => Val (mkConfig (extensions c ++ [mkExtension name version]) (standard c) (variables c) (functions c))
  end.
(* 78-123 SetStandardLibraryConfig *)
Definition nonempty {A} (l : list A) : bool := match l with [] => false | _ => true end.
Definition mixed (l : list (string * string)) : bool :=
  let names := map fst (filter (fun f => String.eqb (snd f) "") l) in
  existsb (fun f => existsb (String.eqb (fst f)) names && negb (String.eqb (snd f) "")) l.
Definition SetStandardLibraryConfig (c : Config) (s : StandardLibraryConfig) : out Config :=
  if nonempty (included_macros s) && nonempty (excluded_macros s) then invalid
  else if nonempty (included_functions s) && nonempty (excluded_functions s) then invalid
  else if mixed (included_functions s) then invalid
  else if mixed (excluded_functions s) then invalid
  else Val (mkConfig (extensions c) s (variables c) (functions c)).
(* 125-146 AddVariableConfig *)
Definition AddVariableConfig (c : Config) (v : VariableConfig) : out Config :=
  if existsb (fun x => String.eqb (var_name x) (var_name v)) (variables c) then already
  else if has_value (var_value v) && negb (String.eqb (ConstantKindToTypeName (var_value v)) (var_type v)) then invalid
  else Val (mkConfig (extensions c) (standard c) (variables c ++ [v]) (functions c)).
(* 148-167 AddFunctionConfig *)
Definition AddFunctionConfig (c : Config) (f : FunctionConfig) : out Config :=
  if existsb (fun o => is_member_function o && Nat.eqb (parameters o) 0) (overload_configs f) then invalid
  else Val (mkConfig (extensions c) (standard c) (variables c) (functions c ++ [f])).

(* calls, those that fail leave the config as it is *)
Inductive call := AddExtension (name : string) (version : Z) | SetStandard (s : StandardLibraryConfig) | AddVariable (v : VariableConfig) | AddFunction (f : FunctionConfig).
Definition apply (c : Config) (k : call) : out Config :=
  match k with
  | AddExtension name version => AddExtensionConfig c name version
  | SetStandard s => SetStandardLibraryConfig c s
  | AddVariable v => AddVariableConfig c v
  | AddFunction f => AddFunctionConfig c f
  end.
Definition after_call (c : Config) (k : call) : Config := match apply c k with Val c' => c' | _ => c end.
Definition configured (ks : list call) : Config := fold_left after_call ks new_config.

(* env.cc:43-56 ShouldIncludeMacro *)
Definition contains (l : list string) (x : string) : bool := existsb (String.eqb x) l.
Definition contains_pair (l : list (string * string)) (f o : string) : bool := existsb (fun p => String.eqb (fst p) f && String.eqb (snd p) o) l.
Definition ShouldIncludeMacro (s : StandardLibraryConfig) (macro : string) : bool :=
  if disable_macros s then false
  else if contains (excluded_macros s) macro then false
  else if nonempty (included_macros s) && negb (contains (included_macros s) macro) then false
  else true.
(* 58-100 ShouldIncludeFunction *)
Definition by_signature (l : list (string * string)) (f : string) (signature : option string) : bool :=
  match signature with Some x => contains_pair l f x | None => false end.
Definition ShouldIncludeFunction (s : StandardLibraryConfig) (f id : string) (signature : option string) : bool :=
  if negb (nonempty (excluded_functions s)) && negb (nonempty (included_functions s)) then true
  else if nonempty (excluded_functions s)
          && (contains_pair (excluded_functions s) f id || contains_pair (excluded_functions s) f ""
              || by_signature (excluded_functions s) f signature) then false
  else if nonempty (included_functions s)
       then contains_pair (included_functions s) f id || contains_pair (included_functions s) f "" || by_signature (included_functions s) f signature
  else true.
