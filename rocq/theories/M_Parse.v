(* Model of the parser: the grammar rules of parser/internal/Cel.g4 (15-113) and
   the visitor of parser/parser.cc that builds the expression.  ANTLR's choices
   are made explicit: left recursive rules associate to the left, a sign before
   a number belongs to the literal unless another sign precedes it, loops take
   as much as they can.  Ids, positions and macro calls are left out; a text
   with any error gives None.  Not modelled: message construction (Cel.g4:66-67),
   and the limits on size, recursion depth and error recovery. *)
From Coq Require Import ZArith String Ascii List Bool.
From Coq Require Import DecimalString.
From Verif Require Import Base M_Overflow M_Number M_Utf8 M_Strings M_Attr M_Value M_Logic M_Expr M_Macro M_Balancer M_Namespace.
From Verif Require Import M_Lex.
Import ListNotations.
Open Scope list_scope.
Open Scope Z_scope.

(* parser/options.h; [c_atod] is absl::SimpleAtod *)
Record config := mkConfig {
  c_variadic : bool;        (* enable_variadic_logical_operators *)
  c_optional : bool;        (* enable_optional_syntax *)
  c_quoted : bool;          (* enable_quoted_identifiers *)
  c_macros : bool;          (* not disable_standard_macros *)
  c_atod : string -> option double
}.

(* ---- literals ---- *)
Definition hex_text (s : string) : option string :=
  match s with String a (String b r) => if Ascii.eqb a "0" && Ascii.eqb b "x" then Some r else None | _ => None end.
Fixpoint hex_value (acc : Z) (s : string) : Z :=
  match s with
  | String c r => hex_value (16 * acc + HexDigitToInt (Z.of_N (N_of_ascii c))) r
  | EmptyString => acc
  end.
(* absl::SimpleAtoi, SimpleHexAtoi on the digits of a token *)
Definition magnitude (s : string) : option Z :=
  match hex_text s with
  | Some h => Some (hex_value 0 h)
  | None => option_map (fun d => Z.of_N (N.of_uint d)) (NilEmpty.uint_of_string s)
  end.
(* parser.cc:1310-1333 visitInt *)
Definition visitInt (negative : bool) (s : string) : option expr :=
  match magnitude s with
  | Some n =>
      let z := if negative then - n else n in
      if (-2 ^ 63 <=? z) && (z <? 2 ^ 63) then Some (EConst (VInt z)) else None
  | None => None
  end.
Fixpoint drop_last (s : string) : string :=
  match s with
  | String c EmptyString => EmptyString
  | String c r => String c (drop_last r)
  | EmptyString => EmptyString
  end.
(* parser.cc:1335-1358 visitUint *)
Definition visitUint (s : string) : option expr :=
  match magnitude (drop_last s) with
  | Some n => if n <? 2 ^ 64 then Some (EConst (VUint n)) else None
  | None => None
  end.
(* parser.cc:1360-1374 visitDouble *)
Definition visitDouble (c : config) (negative : bool) (s : string) : option expr :=
  option_map (fun d => EConst (VDouble d)) (c_atod c (if negative then String "-" s else s)).
(* parser.cc:1376-1396 visitString, visitBytes *)
Definition visitString (t : list Z) : option expr :=
  match ParseStringLiteral t with Val s => Some (EConst (VString s)) | _ => None end.
Definition visitBytes (t : list Z) : option expr :=
  match ParseBytesLiteral t with Val s => Some (EConst (VBytes s)) | _ => None end.

(* ---- calls and macros ---- *)
(* parser.cc:90 kHiddenAccumulatorVariableName *)
Definition accu_name : string := "@result".
Definition expanded (x : expansion) : option expr := match x with inl e => Some e | inr _ => None end.
(* parser.cc:1450-1478 GlobalCallOrMacroImpl with the macros that Parse registers
   (1870-1882, macro.cc:425-428) *)
Definition global_call (c : config) (fn : string) (args : list expr) : option expr :=
  if c_macros c && String.eqb fn "has" && Nat.eqb (List.length args) 1
  then expanded (ExpandHasMacro args)
  else Some (ECall fn None args).
(* parser.cc:1480-1511 ReceiverCallOrMacroImpl *)
Definition receiver_call (c : config) (fn : string) (target : expr) (args : list expr) : option expr :=
  let n := List.length args in
  let is name k := String.eqb fn name && Nat.eqb n k in
  if c_macros c && is "all"%string 2%nat then expanded (ExpandAllMacro accu_name target args)
  else if c_macros c && is "exists"%string 2%nat then expanded (ExpandExistsMacro accu_name target args)
  else if c_macros c && is "exists_one"%string 2%nat then expanded (ExpandExistsOneMacro accu_name target args)
  else if c_macros c && is "map"%string 2%nat then expanded (ExpandMap2Macro accu_name target args)
  else if c_macros c && is "map"%string 3%nat then expanded (ExpandMap3Macro accu_name target args)
  else if c_macros c && is "filter"%string 2%nat then expanded (ExpandFilterMacro accu_name target args)
  else if c_optional c && is "optMap"%string 2%nat then expanded (ExpandOptMapMacro target args)
  else if c_optional c && is "optFlatMap"%string 2%nat then expanded (ExpandOptFlatMapMacro target args)
  else Some (ECall fn (Some target) args).

(* ---- the rules ---- *)
Definition parser (A : Type) := list token -> option (A * list token).
Definition count_sym (x : token -> bool) : list token -> nat * list token :=
  fix go ts := match ts with
               | t :: r => if x t then let '(n, r') := go r in (S n, r') else (O, ts)
               | [] => (O, [])
               end.
Definition is_bang (t : token) : bool := match t with S_ Bang => true | _ => false end.
Definition is_minus (t : token) : bool := match t with S_ Minus => true | _ => false end.
(* Cel.g4:37 *)
Definition relation_op (t : token) : option string :=
  match t with
  | S_ Less => Some "_<_"%string | S_ LessEq => Some "_<=_"%string | S_ GreaterEq => Some "_>=_"%string
  | S_ Greater => Some "_>_"%string | S_ EqEq => Some "_==_"%string | S_ NotEq => Some "_!=_"%string
  | S_ KwIn => Some "@in"%string
  | _ => None
  end.
(* Cel.g4:42-43 *)
Definition times_op (t : token) : option string :=
  match t with
  | S_ Star => Some "_*_"%string | S_ Slash => Some "_/_"%string | S_ Percent => Some "_%_"%string
  | _ => None
  end.
Definition plus_op (t : token) : option string :=
  match t with S_ Plus => Some "_+_"%string | S_ Minus => Some "_-_"%string | _ => None end.
Definition is_or (t : token) : bool := match t with S_ OrOr => true | _ => false end.
Definition is_and (t : token) : bool := match t with S_ AndAnd => true | _ => false end.

Section Rules.
  Variable c : config.
  (* the rule expr, for the nested expressions *)
  Variable E : parser expr.

  (* Cel.g4:71-73 exprList, and the parenthesis after it *)
  Fixpoint p_args (n : nat) (ts : list token) : option (list expr * list token) :=
    match n with
    | O => None
    | S n' =>
        match E ts with
        | Some (e, S_ Comma :: r) =>
            match p_args n' r with Some (es, r') => Some (e :: es, r') | None => None end
        | Some (e, S_ RParen :: r) => Some ([e], r)
        | _ => None
        end
    end.
  Definition p_call_args : parser (list expr) := fun ts =>
    match ts with S_ RParen :: r => Some ([], r) | _ => p_args (List.length ts) ts end.
  (* Cel.g4:105-107 optExpr: the mark; parser.cc:1223-1228, 1295-1301 *)
  Definition p_mark : parser bool := fun ts =>
    match ts with
    | S_ Question :: r => if c_optional c then Some (true, r) else None
    | _ => Some (false, ts)
    end.
  (* Cel.g4:75-77 listInit, the optional comma and the bracket *)
  Fixpoint p_elems (n : nat) (ts : list token) : option (list (bool * expr) * list token) :=
    match n with
    | O => None
    | S n' =>
        match p_mark ts with
        | Some (o, ts1) =>
            match E ts1 with
            | Some (e, S_ Comma :: S_ RBracket :: r) => Some ([(o, e)], r)
            | Some (e, S_ Comma :: r) =>
                match p_elems n' r with Some (es, r') => Some ((o, e) :: es, r') | None => None end
            | Some (e, S_ RBracket :: r) => Some ([(o, e)], r)
            | _ => None
            end
        | None => None
        end
    end.
  Definition p_list : parser (list (bool * expr)) := fun ts =>
    match ts with
    | S_ RBracket :: r => Some ([], r)
    | S_ Comma :: S_ RBracket :: r => Some ([], r)
    | _ => p_elems (List.length ts) ts
    end.
  (* Cel.g4:89-91 mapInitializerList, the optional comma and the brace *)
  Fixpoint p_entries (n : nat) (ts : list token) : option (list (bool * (expr * expr)) * list token) :=
    match n with
    | O => None
    | S n' =>
        match p_mark ts with
        | Some (o, ts1) =>
            match E ts1 with
            | Some (k, S_ Colon :: ts2) =>
                match E ts2 with
                | Some (v, S_ Comma :: S_ RBrace :: r) => Some ([(o, (k, v))], r)
                | Some (v, S_ Comma :: r) =>
                    match p_entries n' r with Some (es, r') => Some ((o, (k, v)) :: es, r') | None => None end
                | Some (v, S_ RBrace :: r) => Some ([(o, (k, v))], r)
                | _ => None
                end
            | _ => None
            end
        | None => None
        end
    end.
  Definition p_map : parser (list (bool * (expr * expr))) := fun ts =>
    match ts with
    | S_ RBrace :: r => Some ([], r)
    | S_ Comma :: S_ RBrace :: r => Some ([], r)
    | _ => p_entries (List.length ts) ts
    end.

  Definition with_rest (o : option expr) (r : list token) : option (expr * list token) :=
    match o with Some e => Some (e, r) | None => None end.
  (* parser.cc:1158-1178 visitIdent *)
  Definition p_ident (dot : bool) (n : string) (r : list token) : option (expr * list token) :=
    if LexisIsReserved n then None else Some (EIdent (if dot then String "." n else n), r).
  (* parser.cc:1180-1202 visitGlobalCall *)
  Definition p_global_call (dot : bool) (n : string) (r : list token) : option (expr * list token) :=
    if LexisIsReserved n then None
    else match p_call_args r with
         | Some (args, r') => with_rest (global_call c (if dot then String "." n else n) args) r'
         | None => None
         end.
  (* Cel.g4:60-69 primary, 109-118 literal *)
  Definition p_primary : parser expr := fun ts =>
    match ts with
    | S_ Dot :: TId n :: S_ LParen :: r => p_global_call true n r
    | S_ Dot :: TId n :: r => p_ident true n r
    | TId n :: S_ LParen :: r => p_global_call false n r
    | TId n :: r => p_ident false n r
    (* parser.cc:1204-1206 visitNested *)
    | S_ LParen :: r =>
        match E r with Some (e, S_ RParen :: r') => Some (e, r') | _ => None end
    (* parser.cc:1208-1212 visitCreateList *)
    | S_ LBracket :: r => match p_list r with Some (es, r') => Some (EList es, r') | None => None end
    (* parser.cc:1246-1253 visitCreateMap *)
    | S_ LBrace :: r => match p_map r with Some (es, r') => Some (EMap es, r') | None => None end
    | S_ Minus :: TNumInt s :: r => with_rest (visitInt true s) r
    | TNumInt s :: r => with_rest (visitInt false s) r
    | TNumUint s :: r => with_rest (visitUint s) r
    | S_ Minus :: TNumFloat s :: r => with_rest (visitDouble c true s) r
    | TNumFloat s :: r => with_rest (visitDouble c false s) r
    | TString t :: r => with_rest (visitString t) r
    | TBytes t :: r => with_rest (visitBytes t) r
    (* parser.cc:1398-1411 *)
    | TTrue :: r => Some (EConst (VBool true), r)
    | TFalse :: r => Some (EConst (VBool false), r)
    | TNull :: r => Some (EConst VNull, r)
    | _ => None
    end.
  (* parser.cc:1021-1038 NormalizeIdentifier *)
  Definition p_field (ts : list token) : option (string * list token) :=
    match ts with
    | TId n :: r => Some (n, r)
    | TEsc n :: r => if c_quoted c then Some (n, r) else None
    | _ => None
    end.
  (* Cel.g4:53-58 member, what follows the first one *)
  Fixpoint p_suffix (n : nat) (e : expr) (ts : list token) : option (expr * list token) :=
    match n with
    | O => None
    | S n' =>
        match ts with
        (* parser.cc:1040-1064 visitSelect, the optional form *)
        | S_ Dot :: S_ Question :: r =>
            match p_field r with
            | Some (f, r') =>
                if c_optional c
                then p_suffix n' (ECall "_?._" None [e; EConst (VString (codes f))]) r' else None
            | None => None
            end
        (* parser.cc:1066-1078 visitMemberCall *)
        | S_ Dot :: TId f :: S_ LParen :: r =>
            match p_call_args r with
            | Some (args, r') =>
                match receiver_call c f e args with Some e' => p_suffix n' e' r' | None => None end
            | None => None
            end
        | S_ Dot :: r =>
            match p_field r with
            | Some (f, r') => p_suffix n' (ESelect e f false) r'
            | None => None
            end
        (* parser.cc:1080-1091 visitIndex *)
        | S_ LBracket :: S_ Question :: r =>
            match E r with
            | Some (i, S_ RBracket :: r') =>
                if c_optional c then p_suffix n' (ECall "_[?_]" None [e; i]) r' else None
            | _ => None
            end
        | S_ LBracket :: r =>
            match E r with
            | Some (i, S_ RBracket :: r') => p_suffix n' (ECall "_[_]" None [e; i]) r'
            | _ => None
            end
        | _ => Some (e, ts)
        end
    end.
  Definition p_member : parser expr := fun ts =>
    match p_primary ts with Some (e, r) => p_suffix (S (List.length r)) e r | None => None end.
  (* parser.cc:1001-1019 visitLogicalNot, visitNegate *)
  Definition p_operators (fn : string) (x : token -> bool) : parser expr := fun ts =>
    let '(k, r) := count_sym x ts in
    match p_member r with
    | Some (e, r') => Some (if Nat.even k then e else ECall fn None [e], r')
    | None => None
    end.
  (* Cel.g4:46-50 unary *)
  Definition p_unary : parser expr := fun ts =>
    match ts with
    | S_ Bang :: _ => p_operators "!_" is_bang ts
    | S_ Minus :: TNumInt _ :: _ => p_member ts
    | S_ Minus :: TNumFloat _ :: _ => p_member ts
    | S_ Minus :: _ => p_operators "-_" is_minus ts
    | _ => p_member ts
    end.
  (* the left recursive binary rules: an operand, then operators and operands *)
  Section Chain.
    Variable op_of : token -> option string.
    Variable next : parser expr.
    Fixpoint p_rest (n : nat) (l : expr) (ts : list token) : option (expr * list token) :=
      match n with
      | O => None
      | S n' =>
          match ts with
          | t :: r =>
              match op_of t with
              | Some fn =>
                  match next r with
                  | Some (e, r') => p_rest n' (ECall fn None [l; e]) r'
                  | None => None
                  end
              | None => Some (l, ts)
              end
          | [] => Some (l, ts)
          end
      end.
    Definition p_left : parser expr := fun ts =>
      match next ts with Some (e, r) => p_rest (S (List.length r)) e r | None => None end.
  End Chain.
  (* Cel.g4:40-44 calc; parser.cc:976-994 visitCalc *)
  Definition p_times : parser expr := p_left times_op p_unary.
  Definition p_plus : parser expr := p_left plus_op p_times.
  (* Cel.g4:35-38 relation; parser.cc:956-974 visitRelation *)
  Definition p_relation : parser expr := p_left relation_op p_plus.
  (* Cel.g4:27-33 conditionalOr, conditionalAnd; parser.cc:914-954: the operands
     are given to the balancer (M_Balancer) *)
  Section Logical.
    Variable is_op : token -> bool.
    Variable next : parser expr.
    Fixpoint p_more (n : nat) (l : list expr) (ts : list token) : option (list expr * list token) :=
      match n with
      | O => None
      | S n' =>
          match ts with
          | t :: r =>
              if is_op t
              then match next r with Some (e, r') => p_more n' (l ++ [e]) r' | None => None end
              else Some (l, ts)
          | [] => Some (l, ts)
          end
      end.
    Definition p_operands (l : list expr) : parser (list expr) := fun ts =>
      match next ts with Some (e, r) => p_more (S (List.length ts)) (l ++ [e]) r | None => None end.
  End Logical.
  Definition balanced (fn : string) (l : list expr) : option expr :=
    match l with
    | [] => None
    | first :: rest =>
        match balance_chain (c_variadic c) fn first (map (fun e => (0, e)) rest) with
        | Val t => Some (erase t)
        | _ => None
        end
    end.
  Definition p_logical (fn : string) (is_op : token -> bool) (next : parser expr) : parser expr := fun ts =>
    match p_operands is_op next [] ts with Some (l, r) => with_rest (balanced fn l) r | None => None end.
  Definition p_and : parser expr := p_logical "_&&_" is_and p_relation.
  Definition p_or : parser expr := p_logical "_||_" is_or p_and.
  (* Cel.g4:23-25 expr; parser.cc:898-912 visitExpr *)
  Definition p_conditional : parser expr := fun ts =>
    match p_or ts with
    | Some (e, S_ Question :: r) =>
        match p_or r with
        | Some (e1, S_ Colon :: r1) =>
            match E r1 with
            | Some (e2, r2) => Some (ECall "_?_:_" None [e; e1; e2], r2)
            | None => None
            end
        | _ => None
        end
    | x => x
    end.
End Rules.

(* fuel: the depth of nesting *)
Fixpoint p_expr (c : config) (fuel : nat) : parser expr :=
  match fuel with
  | O => fun _ => None
  | S n => p_conditional c (p_expr c n)
  end.
(* Cel.g4:19-21 start *)
Definition parse_tokens (c : config) (ts : list token) : option expr :=
  match p_expr c (S (List.length ts)) ts with Some (e, []) => Some e | _ => None end.
(* parser.cc:1870-1894 Parse *)
Definition Parse (c : config) (text : list Z) : option expr :=
  match lex text with Some ts => parse_tokens c ts | None => None end.
