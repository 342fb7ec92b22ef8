(* Model of common/signature.cc: the text forms of types and of function
   overloads, and their parsers.  Texts are lists of bytes.

   Simplifications.  Error messages keep their fixed text.  Nesting counters
   are unbounded (int in the code, so texts of 2^31 or more '<' are excluded).
   A string_view into the text is the list of its bytes. *)
From Coq Require Import ZArith List Bool String Ascii.
From Verif Require Import Base.
Import ListNotations.
Local Open Scope char_scope.
Open Scope list_scope.
Local Open Scope out_scope.

Definition text := list ascii.
Definition lit (s : string) : text := list_ascii_of_string s.
Fixpoint text_eqb (a b : text) : bool :=
  match a, b with
  | [], [] => true
  | x :: a', y :: b' => Ascii.eqb x y && text_eqb a' b'
  | _, _ => false
  end.

(* common/ast/metadata.h:279-320, 322-460, 557-720 PrimitiveType, WellKnownTypeSpec and
   TypeSpec.  The pointers of ListTypeSpec, MapTypeSpec and FunctionTypeSpec are
   null or hold an unset spec: both are TUnset. *)
Inductive prim := PUnspecified | PBool | PInt | PUint | PDouble | PString | PBytes.
Inductive wkt := WUnspecified | WAny | WTimestamp | WDuration.
Inductive tspec :=
| TUnset
| TError
| TNull
| TDyn
| TPrim (p : prim)
| TWkt (w : wkt)
| TWrap (p : prim)
| TList (e : tspec)
| TMap (k v : tspec)
| TFun (r : tspec) (args : list tspec)
| TType (t : tspec)
| TParam (name : text)
| TAbstract (name : text) (params : list tspec)
| TMessage (name : text).

Definition sig_error (msg : string) : status := mkStatus kInvalidArgument msg.

(* ---- the generator ---- *)

(* signature.cc:42-63 AppendEscaped *)
Definition needs_escape (escape_dot : bool) (c : ascii) : bool :=
  match c with
  | "\" | "(" | ")" | "<" | ">" | """" | "," | "~" => true
  | "." => escape_dot
  | _ => false
  end.
Fixpoint escaped (escape_dot : bool) (s : text) : text :=
  match s with
  | [] => []
  | c :: s' => if needs_escape escape_dot c then "\" :: c :: escaped escape_dot s' else c :: escaped escape_dot s'
  end.

Definition prim_word (p : prim) : option text :=
  match p with
  | PUnspecified => None
  | PBool => Some (lit "bool") | PInt => Some (lit "int") | PUint => Some (lit "uint")
  | PDouble => Some (lit "double") | PString => Some (lit "string") | PBytes => Some (lit "bytes")
  end.
Definition wkt_word (w : wkt) : option text :=
  match w with
  | WUnspecified => None
  | WAny => Some (lit "any") | WTimestamp => Some (lit "timestamp") | WDuration => Some (lit "duration")
  end.
Definition wrapper_word (p : prim) : option text :=
  match p with
  | PUnspecified => None
  | PBool => Some (lit "bool_wrapper") | PInt => Some (lit "int_wrapper") | PUint => Some (lit "uint_wrapper")
  | PDouble => Some (lit "double_wrapper") | PString => Some (lit "string_wrapper")
  | PBytes => Some (lit "bytes_wrapper")
  end.
Definition word (o : option text) (msg : string) : out text :=
  match o with Some w => Val w | None => Err (sig_error msg) end.
Definition is_specified (t : tspec) : bool := match t with TUnset => false | _ => true end.

(* the texts of several types with "," between them *)
Fixpoint separated (l : list text) : text :=
  match l with
  | [] => []
  | [d] => d
  | d :: l' => d ++ "," :: separated l'
  end.
Fixpoint all_out {A} (l : list (out A)) : out (list A) :=
  match l with
  | [] => Val []
  | x :: l' => a <- x ;; m <- all_out l' ;; Val (a :: m)
  end.

(* signature.cc:67-80 AppendTypeSpecList and 82-206 AppendTypeDesc: the text
   appended *)
Fixpoint AppendTypeDesc (t : tspec) : out text :=
  match t with
  | TNull => Val (lit "null")
  | TDyn => Val (lit "dyn")
  | TPrim p => word (prim_word p) "Unsupported primitive type"
  | TWkt w => word (wkt_word w) "Unsupported well-known type"
  | TWrap p => word (wrapper_word p) "Unsupported wrapper type"
  | TList e =>
      d <- (if is_specified e then AppendTypeDesc e else Val (lit "dyn")) ;;
      Val (lit "list<" ++ d ++ [">"])
  | TMap k v =>
      d <- (if is_specified k then AppendTypeDesc k else Val (lit "dyn")) ;;
      d' <- (if is_specified v then AppendTypeDesc v else Val (lit "dyn")) ;;
      Val (lit "map<" ++ d ++ "," :: d' ++ [">"])
  | TFun r args =>
      d <- (if is_specified r then AppendTypeDesc r else Val (lit "dyn")) ;;
      ds <- all_out (map AppendTypeDesc args) ;;
      Val (lit "function<" ++ separated (d :: ds) ++ [">"])
  | TType t => d <- AppendTypeDesc t ;; Val (lit "type<" ++ d ++ [">"])
  | TParam name => Val ("~" :: escaped true name)
  | TAbstract name params =>
      ds <- all_out (map AppendTypeDesc params) ;;
      Val (escaped false name ++
           match ds with [] => [] | _ => "<" :: separated ds ++ [">"] end)
  | TMessage name => Val (escaped false name)
  | TUnset | TError => Err (sig_error "Unsupported type in signature")
  end.
(* signature.cc:216-220 *)
Definition MakeTypeSpecSignature (t : tspec) : out text := AppendTypeDesc t.
(* signature.cc:234-257 MakeOverloadSignature *)
Definition MakeOverloadSignature (fn : text) (args : list tspec) (is_member : bool) : out text :=
  if is_member then
    match args with
    | [] => Err (sig_error "Member function with no receiver")
    | r :: args' =>
        d <- AppendTypeDesc r ;;
        ds <- all_out (map AppendTypeDesc args') ;;
        Val (d ++ "." :: escaped true fn ++ "(" :: separated ds ++ [")"])
    end
  else
    ds <- all_out (map AppendTypeDesc args) ;;
    Val (escaped true fn ++ "(" :: separated ds ++ [")"]).

(* ---- the parser ---- *)

Definition is_space (c : ascii) : bool :=
  match c with " " | "009" | "010" | "013" => true | _ => false end.
(* signature.cc:262-283 StripUnescapedWhitespace *)
Fixpoint strip_loop (esc : bool) (s : text) : text :=
  match s with
  | [] => []
  | c :: s' =>
      if esc then c :: strip_loop false s'
      else if Ascii.eqb c "\" then c :: strip_loop true s'
      else if is_space c then strip_loop false s'
      else c :: strip_loop false s'
  end.
Definition StripUnescapedWhitespace (s : text) : text := strip_loop false s.

(* signature.cc:285-331 ParseBuiltinOrWrapper, a table *)
Definition builtin_table : list (string * tspec) :=
  [("null", TNull); ("bool", TPrim PBool); ("int", TPrim PInt); ("uint", TPrim PUint);
   ("double", TPrim PDouble); ("string", TPrim PString); ("bytes", TPrim PBytes);
   ("any", TWkt WAny); ("google.protobuf.Any", TWkt WAny);
   ("timestamp", TWkt WTimestamp); ("google.protobuf.Timestamp", TWkt WTimestamp);
   ("duration", TWkt WDuration); ("google.protobuf.Duration", TWkt WDuration);
   ("dyn", TDyn); ("google.protobuf.Value", TDyn);
   ("bool_wrapper", TWrap PBool); ("google.protobuf.BoolValue", TWrap PBool);
   ("int_wrapper", TWrap PInt); ("google.protobuf.Int64Value", TWrap PInt);
   ("google.protobuf.Int32Value", TWrap PInt);
   ("uint_wrapper", TWrap PUint); ("google.protobuf.UInt64Value", TWrap PUint);
   ("google.protobuf.UInt32Value", TWrap PUint);
   ("double_wrapper", TWrap PDouble); ("google.protobuf.DoubleValue", TWrap PDouble);
   ("google.protobuf.FloatValue", TWrap PDouble);
   ("string_wrapper", TWrap PString); ("google.protobuf.StringValue", TWrap PString);
   ("bytes_wrapper", TWrap PBytes); ("google.protobuf.BytesValue", TWrap PBytes);
   ("google.protobuf.ListValue", TList TDyn);
   ("google.protobuf.Struct", TMap (TPrim PString) TDyn)]%string.
Fixpoint table_find (n : text) (l : list (string * tspec)) : option tspec :=
  match l with
  | [] => None
  | (w, t) :: l' => if text_eqb n (lit w) then Some t else table_find n l'
  end.
Definition ParseBuiltinOrWrapper (name : text) : option tspec := table_find name builtin_table.

(* signature.cc:333-357 Unescape; the part before the first backslash is copied
   as it is, which the loop does too *)
Fixpoint unescape_loop (esc : bool) (s : text) : text :=
  match s with
  | [] => if esc then ["\"] else []
  | c :: s' =>
      if esc then c :: unescape_loop false s'
      else if Ascii.eqb c "\" then unescape_loop true s'
      else c :: unescape_loop false s'
  end.
Definition Unescape (s : text) : text := unescape_loop false s.

(* signature.cc:365-401 SignatureScanner::FindTopLevelChar from position i; the
   position found *)
Definition mismatched : status := sig_error "mismatched brackets".
Fixpoint find_loop (target : ascii) (find_last : bool) (s : text) (i nesting : nat) (esc : bool)
    (found : option nat) : out (option nat) :=
  match s with
  | [] => match nesting with O => Val found | S _ => Err mismatched end
  | c :: s' =>
      if esc then find_loop target find_last s' (S i) nesting false found
      else if Ascii.eqb c "\" then find_loop target find_last s' (S i) nesting true found
      else
        let found' :=
          if Ascii.eqb c target && Nat.eqb nesting 0
             && (find_last || match found with None => true | Some _ => false end)
          then Some i else found in
        if Ascii.eqb c "<" then find_loop target find_last s' (S i) (S nesting) false found'
        else if Ascii.eqb c ">" then
          match nesting with
          | O => Err mismatched
          | S n => find_loop target find_last s' (S i) n false found'
          end
        else find_loop target find_last s' (S i) nesting false found'
  end.
Definition FindTopLevelChar (s : text) (target : ascii) (find_last : bool) : out (option nat) :=
  find_loop target find_last s 0 0 false None.

(* signature.cc:403-437 SplitTopLevel; [cur] is the piece since start, in
   reverse *)
Fixpoint split_loop (delimiter : ascii) (s : text) (nesting : nat) (esc : bool) (cur : text) : out (list text) :=
  match s with
  | [] => match nesting with O => Val [rev cur] | S _ => Err mismatched end
  | c :: s' =>
      if esc then split_loop delimiter s' nesting false (c :: cur)
      else if Ascii.eqb c "\" then split_loop delimiter s' nesting true (c :: cur)
      else if Ascii.eqb c delimiter && Nat.eqb nesting 0 then
        r <- split_loop delimiter s' nesting false [] ;; Val (rev cur :: r)
      else if Ascii.eqb c "<" then split_loop delimiter s' (S nesting) false (c :: cur)
      else if Ascii.eqb c ">" then
        match nesting with
        | O => Err mismatched
        | S n => split_loop delimiter s' n false (c :: cur)
        end
      else split_loop delimiter s' nesting false (c :: cur)
  end.
(* signature.cc:447-450 *)
Definition SplitTypeList (s : text) : out (list text) := split_loop "," s 0 false [].

Fixpoint contains_dotdot (s : text) : bool :=
  match s with
  | "." :: s' => match s' with "." :: _ => true | _ => contains_dotdot s' end
  | _ :: s' => contains_dotdot s'
  | [] => false
  end.
Definition nth_or_dyn (l : list tspec) (i : nat) : tspec := nth i l TDyn.

(* signature.cc:508-563: from the name and the parameters on *)
Definition make_type (name : text) (params : list tspec) : out tspec :=
  match ParseBuiltinOrWrapper name, params with
  | Some _, _ :: _ => Err (sig_error "Invalid type signature: builtin cannot have type parameters")
  | Some t, [] => Val t
  | None, _ =>
      if text_eqb name (lit "type") then
        if Nat.ltb 1 (List.length params)
        then Err (sig_error "Invalid type signature: type expects at most 1 parameter")
        else Val (TType (nth_or_dyn params 0))
      else if text_eqb name (lit "list") then
        if Nat.ltb 1 (List.length params)
        then Err (sig_error "Invalid type signature: list expects at most 1 parameter")
        else Val (TList (nth_or_dyn params 0))
      else if text_eqb name (lit "map") then
        match params with
        | [] | [_; _] => Val (TMap (nth_or_dyn params 0) (nth_or_dyn params 1))
        | _ => Err (sig_error "Invalid type signature: map expects 0 or 2 parameters")
        end
      else if text_eqb name (lit "function") then
        Val (TFun (nth_or_dyn params 0) (tl params))
      else
        if match name with [] => true | _ => contains_dotdot name end
        then Err (sig_error "Invalid type signature: invalid identifier")
        else Val (TAbstract name params)
  end.

(* signature.cc:452-564 ParseTypeSignature; fuel bounds the recursion depth,
   running out is UB *)
Fixpoint ParseTypeSignature (fuel : nat) (s : text) : out tspec :=
  match fuel with
  | O => UB
  | S fuel' =>
      match s with
      | [] => Err (sig_error "Empty type signature")
      | "~" :: name =>
          match name with
          | [] => Err (sig_error "Invalid type signature: invalid type parameter name")
          | _ =>
              less <- FindTopLevelChar name "<" false ;;
              comma <- FindTopLevelChar name "," false ;;
              match less, comma with
              | None, None => Val (TParam (Unescape name))
              | _, _ => Err (sig_error "Invalid type signature: invalid type parameter name")
              end
          end
      | _ =>
          less <- FindTopLevelChar s "<" false ;;
          match less with
          | None => make_type (Unescape s) []
          | Some i =>
              if negb (Ascii.eqb (last s "000") ">") then
                Err (sig_error "Invalid type signature: missing closing >")
              else
                pieces <- SplitTypeList (firstn (List.length s - i - 2) (skipn (S i) s)) ;;
                params <- all_out (map (ParseTypeSignature fuel') pieces) ;;
                make_type (Unescape (firstn i s)) params
          end
      end
  end.
Definition ParseType (s : text) : out tspec := ParseTypeSignature (S (List.length s)) s.
(* signature.cc:629-632 *)
Definition ParseTypeSpec (s : text) : out tspec := ParseType (StripUnescapedWhitespace s).

(* signature.h ParsedFunctionOverload: the signature's result type is always
   dyn and left out *)
Record parsed_overload := mkParsed { po_name : text; po_member : bool; po_args : list tspec }.
(* signature.cc:571-627 ParseFunctionSignature after its first line *)
Definition parse_stripped (s : text) : out parsed_overload :=
  match s with
  | [] => Err (sig_error "Empty function signature")
  | _ =>
      paren <- FindTopLevelChar s "(" false ;;
      match paren with
      | None => Err (sig_error "Invalid function signature")
      | Some p =>
          if negb (Ascii.eqb (last s "000") ")") then Err (sig_error "Invalid function signature")
          else
            let prefix := firstn p s in
            let args_str := firstn (List.length s - p - 2) (skipn (S p) s) in
            dot <- FindTopLevelChar prefix "." true ;;
            recv <- match dot with
                    | Some d => r <- ParseType (firstn d prefix) ;; Val [r]
                    | None => Val []
                    end ;;
            let name := Unescape match dot with Some d => skipn (S d) prefix | None => prefix end in
            match name with
            | [] => Err (sig_error "Invalid function signature: empty function name")
            | _ =>
                args <- match args_str with
                        | [] => Val []
                        | _ => pieces <- SplitTypeList args_str ;; all_out (map ParseType pieces)
                        end ;;
                Val (mkParsed name match dot with Some _ => true | None => false end (recv ++ args))
            end
      end
  end.
(* signature.cc:568-570 *)
Definition ParseFunctionSignature (signature : text) : out parsed_overload :=
  parse_stripped (StripUnescapedWhitespace signature).
