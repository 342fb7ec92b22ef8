(* Model of common/container.cc (ExpressionContainer), internal/lexis.cc,
   checker/internal/namespace_generator.cc and the name resolution of
   eval/compiler/resolver.cc.  Strings are byte strings. *)
From Coq Require Import ZArith List Bool String Ascii.
From Verif Require Import Base M_Overflow M_Number M_Attr M_Value M_Logic M_Expr M_Registry.
Import ListNotations.
Local Open Scope string_scope.
Open Scope list_scope.

(* ---- text ---- *)
Definition dot : ascii := "."%char.
(* absl::StrSplit(s, '.'); the empty text has one empty piece *)
Fixpoint split (s : string) : list string :=
  match s with
  | "" => [""]
  | String c s' =>
      if Ascii.eqb c dot then "" :: split s'
      else match split s' with h :: t => String c h :: t | [] => [String c ""] end
  end.
(* absl::StrJoin(l, ".") *)
Definition join (l : list string) : string := String.concat "." l.
(* absl::StartsWith(s, ".") *)
Definition starts_dot (s : string) : bool :=
  match s with String c _ => Ascii.eqb c dot | "" => false end.
(* s.substr(1) *)
Definition tail_of (s : string) : string := match s with String _ s' => s' | "" => "" end.
(* s.find('.') with the text before and after it *)
Fixpoint cut (s : string) : option (string * string) :=
  match s with
  | "" => None
  | String c s' =>
      if Ascii.eqb c dot then Some ("", s')
      else match cut s' with Some (a, b) => Some (String c a, b) | None => None end
  end.
(* s.rfind('.') with the text before and after it *)
Fixpoint rcut (s : string) : option (string * string) :=
  match s with
  | "" => None
  | String c s' =>
      match rcut s' with
      | Some (a, b) => Some (String c a, b)
      | None => if Ascii.eqb c dot then Some ("", s') else None
      end
  end.

(* ---- internal/lexis.cc ---- *)
(* lexis.cc:31-54 *)
Definition reserved_keywords : list string :=
  ["false"; "true"; "null"; "in"; "as"; "break"; "const"; "continue"; "else"; "for"; "function"; "if";
   "import"; "let"; "loop"; "package"; "namespace"; "return"; "var"; "void"; "while"].
(* lexis.cc:58-61 *)
Definition LexisIsReserved (s : string) : bool := existsb (String.eqb s) reserved_keywords.
Definition ascii_between (lo hi c : ascii) : bool :=
  Nat.leb (nat_of_ascii lo) (nat_of_ascii c) && Nat.leb (nat_of_ascii c) (nat_of_ascii hi).
Definition ascii_isalpha (c : ascii) : bool := ascii_between "a" "z" c || ascii_between "A" "Z" c.
Definition ascii_isalnum (c : ascii) : bool := ascii_isalpha c || ascii_between "0" "9" c.
Fixpoint all_chars (f : ascii -> bool) (s : string) : bool :=
  match s with "" => true | String c s' => f c && all_chars f s' end.
(* lexis.cc:63-77 *)
Definition LexisIsIdentifier (s : string) : bool :=
  match s with
  | "" => false
  | String c s' =>
      if negb (ascii_isalpha c) && negb (Ascii.eqb c "_") then false
      else if negb (all_chars (fun c => ascii_isalnum c || Ascii.eqb c "_") s') then false
      else negb (LexisIsReserved s)
  end.

(* ---- common/container.cc ---- *)
(* container.cc:29-40; the loop cuts off one segment per step *)
Fixpoint IsValidQualifiedName_loop (fuel : nat) (name : string) : bool :=
  match fuel with
  | O => false
  | S fuel' =>
      match cut name with
      | Some (seg, rest) => if negb (LexisIsIdentifier seg) then false else IsValidQualifiedName_loop fuel' rest
      | None => LexisIsIdentifier name
      end
  end.
Definition IsValidQualifiedName (name : string) : bool :=
  IsValidQualifiedName_loop (S (String.length name)) name.

(* container_ and aliases_ *)
Record container := mkContainer { ec_name : string; ec_aliases : list (string * string) }.
Definition empty_container : container := mkContainer "" [].
Definition find_alias (l : list (string * string)) (a : string) : option string :=
  option_map snd (List.find (fun x => String.eqb (fst x) a) l).
(* container.cc:157-164 *)
Definition FindAlias (E : container) (a : string) : string :=
  match find_alias (ec_aliases E) a with Some n => n | None => "" end.

Fixpoint starts_with (p s : string) : option string :=
  match p, s with
  | "", _ => Some s
  | String a p', String b s' => if Ascii.eqb a b then starts_with p' s' else None
  | _, _ => None
  end.
(* name == alias || (name.size() > alias.size() && name starts with alias &&
   name[alias.size()] == '.') *)
Definition collides (name alias : string) : bool :=
  String.eqb name alias ||
  match starts_with alias name with Some (String c _) => Ascii.eqb c dot | _ => false end.

Definition invalid_name := mkStatus kInvalidArgument "invalid qualified name".
(* container.cc:66-91; messages without their argument *)
Definition SetContainer (E : container) (name : string) : option status * container :=
  if String.eqb name "" then (None, mkContainer "" (ec_aliases E))
  else if negb (IsValidQualifiedName name) then (Some invalid_name, E)
  else if existsb (fun x => collides name (fst x)) (ec_aliases E)
  then (Some (mkStatus kInvalidArgument "container name collides with alias"), E)
  else (None, mkContainer name (ec_aliases E)).
(* container.cc:114-143 *)
Definition AddAlias (E : container) (alias name : string) : option status * container :=
  if negb (LexisIsIdentifier alias)
  then (Some (mkStatus kInvalidArgument "alias must be non-empty and simple (not qualified)"), E)
  else if negb (IsValidQualifiedName name) then (Some invalid_name, E)
  else match find_alias (ec_aliases E) alias with
  | Some _ => (Some (mkStatus kInvalidArgument "alias collides with existing reference"), E)
  | None =>
      if collides (ec_name E) alias
      then (Some (mkStatus kInvalidArgument "alias collides with container name"), E)
      else (None, mkContainer (ec_name E) ((alias, name) :: ec_aliases E))
  end.
(* absl::StripAsciiWhitespace *)
Definition ascii_isspace (c : ascii) : bool :=
  existsb (Nat.eqb (nat_of_ascii c)) [9; 10; 11; 12; 13; 32]%nat.
Fixpoint strip_left (s : string) : string :=
  match s with String c s' => if ascii_isspace c then strip_left s' else s | "" => "" end.
Fixpoint strip_right (s : string) : string :=
  match s with
  | "" => ""
  | String c s' => match strip_right s' with
                   | "" => if ascii_isspace c then "" else String c ""
                   | t => String c t
                   end
  end.
(* container.cc:93-112 *)
Definition AddAbbreviation (E : container) (abrev : string) : option status * container :=
  let abrev := strip_right (strip_left abrev) in
  if negb (IsValidQualifiedName abrev) then (Some invalid_name, E)
  else match rcut abrev with
  | None | Some ("", _) | Some (_, "") => (Some invalid_name, E)
  | Some (_, alias) => AddAlias E alias abrev
  end.
(* a history of calls; clear() empties both *)
Inductive container_op :=
| OpSetContainer (name : string)
| OpAddAlias (alias name : string)
| OpAddAbbreviation (abrev : string)
| OpClear.
Definition container_step (E : container) (o : container_op) : option status * container :=
  match o with
  | OpSetContainer n => SetContainer E n
  | OpAddAlias a n => AddAlias E a n
  | OpAddAbbreviation a => AddAbbreviation E a
  | OpClear => (None, empty_container)
  end.
Definition container_after (l : list container_op) : container :=
  fold_left (fun E o => snd (container_step E o)) l empty_container.

(* ---- namespace_generator.cc ---- *)
(* 81-105 NamespaceGenerator::Create: candidates_ *)
Definition namespace_prefixes (name : string) : list string :=
  if String.eqb name "" then []
  else rev (snd (fold_left (fun st segment =>
                   let prefix := if String.eqb (fst st) "" then segment else fst st ++ "." ++ segment in
                   (prefix, (snd st ++ [prefix])%list))
                 (split name) ("", [])))%string.

(* The calls of the callback in order, and false when one returned false. *)
Definition visit {A} (cb : A -> bool) (x : A) (rest : list A * bool) : list A * bool :=
  if cb x then (x :: fst rest, snd rest) else ([x], false).
Definition and_then {A} (r k : list A * bool) : list A * bool :=
  if snd r then (fst r ++ fst k, snd k) else r.

(* 141-146 the loop over candidates_ *)
Fixpoint container_loop (cb : string -> bool) (simple_name : string) (prefixes : list string) : list string :=
  match prefixes with
  | [] => [simple_name]
  | p :: prefixes' =>
      let candidate := (p ++ "." ++ simple_name)%string in
      candidate :: if cb candidate then container_loop cb simple_name prefixes' else []
  end.
(* 107-147 GenerateCandidates(simple_name, callback) *)
Definition GenerateCandidates (E : container) (simple_name : string) (cb : string -> bool) : list string :=
  let is_root_relative := starts_dot simple_name in
  let simple_name := if is_root_relative then tail_of simple_name else simple_name in
  let rest :=
    if is_root_relative then [simple_name]
    else container_loop cb simple_name (namespace_prefixes (ec_name E)) in
  match cut simple_name with
  | Some (first_segment, tail) =>
      let alias := FindAlias E first_segment in
      if negb (String.eqb alias "") then [(alias ++ "." ++ tail)%string] else rest
  | None =>
      let alias := FindAlias E simple_name in
      if negb (String.eqb alias "") then [alias] else rest
  end.

(* 37-64 FieldSelectInterpretationCandidatesImpl: the loop *)
Fixpoint field_loop (prefix : string) (names : list string) (prefix_is_alias : bool)
    (cb : string * nat -> bool) (is : list nat) : list (string * nat) * bool :=
  match is with
  | [] => if prefix_is_alias then visit cb (prefix, 0%nat) ([], true) else ([], true)
  | i :: is' =>
      let count := (List.length names - i)%nat in
      let end_idx := (count - (if prefix_is_alias then 0 else 1))%nat in
      let ident := join (firstn count names) in
      let candidate := if starts_dot ident then tail_of ident else ident in
      let candidate := if String.eqb prefix "" then candidate else (prefix ++ "." ++ candidate)%string in
      visit cb (candidate, end_idx) (field_loop prefix names prefix_is_alias cb is')
  end.
Definition FieldSelectCandidates (prefix : string) (names : list string) (prefix_is_alias : bool)
    (cb : string * nat -> bool) : list (string * nat) * bool :=
  field_loop prefix names prefix_is_alias cb (seq 0 (List.length names)).
(* 180-186 the loop over candidates_ *)
Fixpoint qualified_loop (names : list string) (cb : string * nat -> bool) (prefixes : list string)
  : list (string * nat) * bool :=
  match prefixes with
  | [] => FieldSelectCandidates "" names false cb
  | p :: prefixes' => and_then (FieldSelectCandidates p names false cb) (qualified_loop names cb prefixes')
  end.
(* 149-187 GenerateCandidates(partly_qualified_name, callback) *)
Definition GenerateQualified (E : container) (names : list string) (cb : string * nat -> bool)
  : list (string * nat) :=
  match names with
  | [] => []
  | q0 :: qs =>
      let is_root_relative := starts_dot q0 in
      let first_segment := if is_root_relative then tail_of q0 else q0 in
      let alias := FindAlias E first_segment in
      if negb (String.eqb alias "") then fst (FieldSelectCandidates alias qs true cb)
      else if is_root_relative then fst (FieldSelectCandidates "" names false cb)
      else fst (qualified_loop names cb (namespace_prefixes (ec_name E)))
  end.

(* ---- eval/compiler/resolver.cc ---- *)
(* 48-63 MakeNamespaceCandidates *)
Definition MakeNamespaceCandidates (name : string) : list string :=
  snd (fold_left (fun st elem =>
         if String.eqb elem "" then st
         else let prefix := (fst st ++ elem ++ ".")%string in (prefix, prefix :: snd st))
       (split name) ("", [""])).
(* 94-103 GetPrefixesFor: the prefixes and the name without a leading dot *)
Definition GetPrefixesFor (prefixes : list string) (name : string) : list string * string :=
  if starts_dot name then ([""], tail_of name) else (prefixes, name).
(* 77-92 FullyQualifiedNames *)
Definition FullyQualifiedNames (cname name : string) : list string :=
  let (prefixes, n) := GetPrefixesFor (MakeNamespaceCandidates cname) name in
  map (fun p => (p ++ n)%string) prefixes.
(* the first non-empty result *)
Fixpoint first_found (find : string -> list overload) (l : list string) : list overload :=
  match l with
  | [] => []
  | p :: l' => match find p with [] => first_found find l' | fs => fs end
  end.
(* 160-179 FindOverloads by arity *)
Definition ResolveStatic (r : full_registry) (cname name : string) (receiver : bool) (arity : nat) : list overload :=
  let (prefixes, n) := GetPrefixesFor (MakeNamespaceCandidates cname) name in
  first_found (fun p => FindStatic r (p ++ n)%string receiver arity) prefixes.
(* 196-211 FindLazyOverloads by arity: qualified_name is computed and not used *)
Definition ResolveLazy (r : full_registry) (cname name : string) (receiver : bool) (arity : nat) : list overload :=
  let (prefixes, n) := GetPrefixesFor (MakeNamespaceCandidates cname) name in
  first_found (fun p => let qualified_name := (p ++ n)%string in FindLazy r n receiver arity) prefixes.
(* flat_expr_builder.cc:1640-1660 AddResolvedFunctionStep: the overloads of a call,
   lazy ones first *)
Definition ResolveCall (r : full_registry) (cname name : string) (receiver : bool) (arity : nat) : list overload :=
  match ResolveLazy r cname name receiver arity with
  | [] => ResolveStatic r cname name receiver arity
  | fs => fs
  end.
