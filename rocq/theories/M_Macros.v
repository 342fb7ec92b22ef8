(* Model of the registry of macros: parser/macro.{h,cc} (keys), parser/macro_registry.cc and
   the builder of parsers, parser/parser.cc:1756-1865.

   Simplifications.  The expander of a macro is a number that tells macros apart.  The hash
   map is an association list in which no key occurs twice.  A library is the list of macros
   its configure function adds in turn; configure functions that add libraries or change
   options are left out.  Of the options of a builder two are modelled. *)
From Coq Require Import String Ascii List Bool NArith.
From Verif Require Import Base M_Namespace.
From Verif Require M_Infer.
Import ListNotations.
Open Scope list_scope.
Local Open Scope out_scope.

(* parser/macro.h:44-150 Macro *)
Record Macro := mkMacro {
  function : string; argument_count : N; is_receiver_style : bool; is_variadic : bool; expander : nat }.
Definition bool_text (b : bool) : string := (if b then "true" else "false")%string.
(* macro.cc:430-437 Macro::Key *)
Definition Key (name : string) (argument_count : N) (receiver_style var_arg_style : bool) : string :=
  if var_arg_style then (name ++ ":*:" ++ bool_text receiver_style)%string
  else (name ++ ":" ++ M_Infer.decimal argument_count ++ ":" ++ bool_text receiver_style)%string.
(* macro.h:112 Macro::key *)
Definition key (m : Macro) : string := Key (function m) (argument_count m) (is_receiver_style m) (is_variadic m).
(* macro.cc:439-455 Macro::Make, 381-423: a macro with any number of arguments has the count 0 *)
Definition Make (name : string) (argument_count : N) (expander : nat) (receiver_style var_arg_style : bool) : out Macro :=
  if negb (LexisIsIdentifier name) then Err (mkStatus kInvalidArgument "macro function name is not a valid identifier")
  else Val (mkMacro name argument_count receiver_style var_arg_style expander).
Definition Global name n e := Make name n e false false.
Definition GlobalVarArg name e := Make name 0%N e false true.
Definition Receiver name n e := Make name n e true false.
Definition ReceiverVarArg name e := Make name 0%N e true true.

(* macro_registry.h:52 macros_ *)
Definition Registry := list (string * Macro).
Fixpoint find_key (r : Registry) (k : string) : option Macro :=
  match r with
  | [] => None
  | (k', m) :: r' => if String.eqb k k' then Some m else find_key r' k
  end.
(* absl::flat_hash_map::erase *)
Definition erase (r : Registry) (k : string) : Registry := filter (fun e => negb (String.eqb k (fst e))) r.
(* macro_registry.cc:81-83 RegisterMacroImpl *)
Definition RegisterMacroImpl (r : Registry) (m : Macro) : Registry * bool :=
  match find_key r (key m) with
  | Some _ => (r, false)
  | None => ((key m, m) :: r, true)
  end.
Definition already_exists : status := mkStatus kAlreadyExists "macro already exists".
(* macro_registry.cc:31-37 RegisterMacro *)
Definition RegisterMacro (r : Registry) (m : Macro) : Registry * out unit :=
  let '(r', ok) := RegisterMacroImpl r m in (r', if ok then Val tt else Err already_exists).
(* macro_registry.cc:39-51 RegisterMacros; [done] are the macros before the one at hand *)
Fixpoint register_loop (r : Registry) (done todo : list Macro) : Registry * out unit :=
  match todo with
  | [] => (r, Val tt)
  | m :: todo' =>
      let '(r', ok) := RegisterMacroImpl r m in
      if ok then register_loop r' (done ++ [m]) todo'
      else (fold_left (fun r d => erase r (key d)) done r', Err already_exists)
  end.
Definition RegisterMacros (r : Registry) (macros : list Macro) : Registry * out unit := register_loop r [] macros.
(* absl::StrContains(name, ':') *)
Fixpoint has_colon (s : string) : bool :=
  match s with EmptyString => false | String c s' => Ascii.eqb c ":"%char || has_colon s' end.
(* macro_registry.cc:53-71 FindMacro *)
Definition FindMacro (r : Registry) (name : string) (arg_count : N) (receiver_style : bool) : option Macro :=
  if match name with EmptyString => true | _ => false end || has_colon name then None
  else match find_key r (name ++ ":" ++ M_Infer.decimal arg_count ++ ":" ++ bool_text receiver_style)%string with
       | Some m => Some m
       | None => find_key r (name ++ ":*:" ++ bool_text receiver_style)%string
       end.

(** ** The builder of parsers *)
(* parser.cc:1759-1769 AddMacro *)
Definition AddMacro (macros : list Macro) (m : Macro) : list Macro * out unit :=
  if existsb (fun e => String.eqb (key e) (key m)) macros then (macros, Err already_exists)
  else (macros ++ [m], Val tt).
(* a configure function that adds macros and stops at the first error *)
Fixpoint configure (macros : list Macro) (l : list Macro) : out (list Macro) :=
  match l with
  | [] => Val macros
  | m :: l' => match AddMacro macros m with
               | (macros', Val _) => configure macros' l'
               | (_, Err s) => Err s
               | (_, UB) => UB
               end
  end.
Record Library := mkLibrary { library_id : string; library_macros : list Macro }.
(* ParserLibrarySubset: library_id and should_include_macro *)
Definition Subset := (string * (Macro -> bool))%type.
Definition find_subset (l : list Subset) (id : string) : option (Macro -> bool) :=
  option_map snd (find (fun s => String.eqb (fst s) id) l).
Record Builder := mkBuilder {
  disable_standard_macros : bool; enable_optional_syntax : bool;
  library_ids : list string; libraries : list Library; subsets : list Subset; individual : list Macro }.
(* parser.cc:1757-1759 *)
Definition new_builder (disable_standard enable_optional : bool) : Builder :=
  mkBuilder disable_standard enable_optional [] [] [] [].
Definition AddMacroTo (b : Builder) (m : Macro) : Builder * out unit :=
  let '(l, s) := AddMacro (individual b) m in
  (mkBuilder (disable_standard_macros b) (enable_optional_syntax b) (library_ids b) (libraries b) (subsets b) l, s).
(* parser.cc:1773-1783 AddLibrary *)
Definition AddLibrary (b : Builder) (lib : Library) : Builder * out unit :=
  let add ids := (mkBuilder (disable_standard_macros b) (enable_optional_syntax b) ids (libraries b ++ [lib]) (subsets b) (individual b), Val tt) in
  if String.eqb (library_id lib) "" then add (library_ids b)
  else if existsb (String.eqb (library_id lib)) (library_ids b) then (b, Err (mkStatus kAlreadyExists "parser library already exists"))
  else add (library_ids b ++ [library_id lib]).
(* parser.cc:1785-1798 AddLibrarySubset *)
Definition AddLibrarySubset (b : Builder) (s : Subset) : Builder * out unit :=
  if String.eqb (fst s) "" then (b, Err (mkStatus kInvalidArgument "subset must have a library id"))
  else match find_subset (subsets b) (fst s) with
       | Some _ => (b, Err (mkStatus kAlreadyExists "parser library subset already exists"))
       | None => (mkBuilder (disable_standard_macros b) (enable_optional_syntax b) (library_ids b) (libraries b) (subsets b ++ [s]) (individual b), Val tt)
       end.
Fixpoint register_each (r : Registry) (l : list Macro) : out Registry :=
  match l with
  | [] => Val r
  | m :: l' => let '(r', s) := RegisterMacro r m in _ <- s;; register_each r' l'
  end.
(* parser.cc:1812-1830 *)
Fixpoint build_libraries (subsets : list Subset) (r : Registry) (l : list Library) : out Registry :=
  match l with
  | [] => Val r
  | lib :: l' =>
      macros <- configure [] (library_macros lib);;
      match (if String.eqb (library_id lib) "" then None else find_subset subsets (library_id lib)) with
      | Some include => r' <- register_each r (filter include macros);; build_libraries subsets r' l'
      | None => let '(r', s) := RegisterMacros r macros in _ <- s;; build_libraries subsets r' l'
      end
  end.
(* parser.cc:1802-1850 Build; [AllMacros] are those of macro.cc:425-428 and [optionals] are
   OptMapMacro and OptFlatMapMacro *)
Definition contains_library (b : Builder) (id : string) : bool := existsb (String.eqb id) (library_ids b).
(* parser.cc:1720-1756 ParserImpl *)
Record Parser := mkParser { parser_disable_standard : bool; parser_enable_optional : bool; macro_registry : Registry; parser_library_ids : list string }.
Definition Build (AllMacros optionals : list Macro) (b : Builder) : out Parser :=
  r <- build_libraries (subsets b) [] (libraries b);;
  let standard := negb (disable_standard_macros b) && negb (contains_library b "stdlib") in
  r <- (if standard then let '(r', s) := RegisterMacros r AllMacros in _ <- s;; Val r' else Val r);;
  let optional := enable_optional_syntax b && negb (contains_library b "optional") in
  r <- (if optional then register_each r optionals else Val r);;
  let '(r', s) := RegisterMacros r (individual b) in
  _ <- s;;
  Val (mkParser (disable_standard_macros b) (enable_optional_syntax b) r'
         (library_ids b ++ (if standard then ["stdlib"%string] else []) ++ (if optional then ["optional"%string] else []))).
(* parser.cc:1862-1867 ToBuilder and macro_registry.cc:73-79 ListMacros; the hash map is listed
   in an order nobody knows, [listed] *)
Definition ToBuilder (p : Parser) (listed : list Macro) : Builder :=
  mkBuilder (parser_disable_standard p) (parser_enable_optional p) (parser_library_ids p) [] [] listed.
Definition ListMacros (r : Registry) : list Macro := map snd r.
