(* Model of tools/cel_unparser.cc, without source info (Unparse(expr, nullptr)),
   and of the operator tables of common/operators.cc.  The output is a list of
   bytes.  [six_digits] is what absl::StrAppend prints for a double; message
   construction is not modelled (M_Expr). *)
From Coq Require Import ZArith String Ascii List Bool.
From Coq Require Import DecimalString.
From Verif Require Import Base M_Overflow M_Number M_Utf8 M_Strings M_Attr M_Value M_Logic M_Expr.
From Verif Require Import M_Lex.
Import ListNotations.
Open Scope list_scope.
Open Scope Z_scope.
Local Open Scope out_scope.

(* operators.cc:34-38 *)
Definition LookupUnaryOperator (fn : string) : option string :=
  if String.eqb fn "-_" then Some "-"%string else if String.eqb fn "!_" then Some "!"%string else None.
(* operators.cc:40-59 *)
Definition binary_operators : list (string * string) :=
  [("_||_", "||"); ("_&&_", "&&"); ("_<=_", "<="); ("_<_", "<"); ("_>=_", ">="); ("_>_", ">");
   ("_==_", "=="); ("_!=_", "!="); ("_in_", "in"); ("@in", "in"); ("_+_", "+"); ("_-_", "-");
   ("_*_", "*"); ("_/_", "/"); ("_%_", "%")]%string.
Fixpoint assoc {A} (l : list (string * A)) (k : string) : option A :=
  match l with
  | (k', v) :: l' => if String.eqb k k' then Some v else assoc l' k
  | [] => None
  end.
Definition LookupBinaryOperator (fn : string) : option string := assoc binary_operators fn.
(* operators.cc:106-137 *)
Definition precedences : list (string * Z) :=
  [("_?_:_", 8); ("_||_", 7); ("_&&_", 6); ("_==_", 5); ("_>_", 5); ("_>=_", 5); ("@in", 5);
   ("_<_", 5); ("_<=_", 5); ("_!=_", 5); ("_in_", 5); ("_+_", 4); ("_-_", 4); ("_/_", 3); ("_%_", 3);
   ("_*_", 3); ("!_", 2); ("-_", 2); ("_[_]", 1)]%string.
(* operators.cc:172-179 *)
Definition LookupPrecedence (fn : string) : Z := match assoc precedences fn with Some p => p | None => 0 end.
(* operators.cc:211-226 *)
Definition IsOperatorSamePrecedence (op : string) (e : expr) : bool :=
  match e with ECall fn _ _ => LookupPrecedence op =? LookupPrecedence fn | _ => false end.
Definition IsOperatorLowerPrecedence (op : string) (e : expr) : bool :=
  match e with ECall fn _ _ => LookupPrecedence op <? LookupPrecedence fn | _ => false end.
(* operators.cc:228-230 *)
Definition IsOperatorLeftRecursive (op : string) : bool :=
  negb (String.eqb op "_&&_") && negb (String.eqb op "_||_").

(* cel_unparser.cc:559-562 *)
Definition IsComplexOperator (e : expr) : bool :=
  match e with ECall _ _ args => Nat.leb 2 (List.length args) | _ => false end.
(* cel_unparser.cc:548-557 *)
Definition IsComplexOperatorWithRespectTo (e : expr) (op : string) : bool :=
  match e with
  | ECall _ _ args => if Nat.ltb (List.length args) 2 then false else IsOperatorLowerPrecedence op e
  | _ => false
  end.
(* cel_unparser.cc:568-574 *)
Definition IsBinaryOrTernaryOperator (e : expr) : bool :=
  if negb (IsComplexOperator e) then false
  else match e with
       | ECall fn _ _ => match LookupBinaryOperator fn with Some _ => true | None => false end
                         || IsOperatorSamePrecedence "_?_:_" e
       | _ => false
       end.
(* cel_unparser.cc:576-578 *)
Definition IsLogicalOperator (op : string) : bool := String.eqb op "_&&_" || String.eqb op "_||_".

Definition unexpected : out (list Z) := Err (mkStatus kInvalidArgument "Unexpected"%string).
(* absl::StrAppend of an integer *)
Definition decimal_text (n : Z) : list Z :=
  (if n <? 0 then [45] else []) ++ codes (NilEmpty.string_of_uint (N.to_uint (Z.to_N (Z.abs n)))).
(* cel_unparser.cc:64-79 *)
Definition simple_identifier (s : string) : bool :=
  match codes s with c :: r => id_start c && forallb id_char r | [] => false end.
Definition FormatField (s : string) : list Z :=
  if String.eqb s "in" || negb (simple_identifier s) then [96] ++ codes s ++ [96] else codes s.
(* cel_unparser.cc:490-500 VisitMaybeNested *)
Definition nest (nested : bool) (o : out (list Z)) : out (list Z) :=
  t <- o ;; Val (if nested then [40] ++ t ++ [41] else t).
(* the loops over arguments, elements and operands *)
Definition join_out {A} (sep : list Z) (f : A -> out (list Z)) : list A -> out (list Z) :=
  fix go l :=
    match l with
    | [] => Val []
    | a :: l' =>
        t <- f a ;;
        match l' with
        | [] => Val t
        | _ => r <- go l' ;; Val (t ++ sep ++ r)
        end
    end.
Definition comma_space : list Z := [44; 32].
Definition mark (o : bool) : list Z := if o then [63] else [].
(* the call_expr() of an expression; the default one has no function and arguments *)
Definition call_function (e : expr) : string := match e with ECall fn _ _ => fn | _ => ""%string end.
Definition is_call (e : expr) : bool := match e with ECall _ _ _ => true | _ => false end.

Section Unparser.
  Variable six_digits : double -> list Z.

  (* cel_unparser.cc:183-212 VisitConst *)
  Definition VisitConst (v : value) : out (list Z) :=
    match v with
    | VString s => Val (FormatDoubleQuotedStringLiteral s)
    | VInt n => Val (decimal_text n)
    | VUint n => Val (decimal_text n ++ [117])
    | VBool b => Val (codes (if b then "true" else "false"))
    | VDouble d => Val (six_digits d)
    | VNull => Val (codes "null")
    | VBytes s => Val (FormatDoubleQuotedBytesLiteral s)
    | _ => unexpected
    end.

  (* cel_unparser.cc:156-181 Visit *)
  Fixpoint Visit (e : expr) : out (list Z) :=
    match e with
    | EConst v => VisitConst v
    (* 214-217 VisitIdent *)
    | EIdent name => Val (codes name)
    (* 219-233 VisitSelect *)
    | ESelect operand field test_only =>
        t <- nest (negb test_only && IsBinaryOrTernaryOperator operand) (Visit operand) ;;
        Val ((if test_only then codes "has(" else []) ++ t ++ [46] ++ FormatField field
             ++ (if test_only then [41] else []))
    (* 250-293 VisitCall *)
    | ECall fn target args =>
        match LookupUnaryOperator fn with
        (* 428-437 VisitUnary *)
        | Some op =>
            match args with
            | [a] => t <- nest (IsComplexOperator a) (Visit a) ;; Val (codes op ++ t)
            | _ => unexpected
            end
        | None =>
        match LookupBinaryOperator fn with
        (* 439-488 VisitBinary *)
        | Some op =>
            let sep := [32] ++ codes op ++ [32] in
            if Nat.ltb (List.length args) 2 then unexpected
            else if IsLogicalOperator fn then
              join_out sep (fun a => nest (IsComplexOperatorWithRespectTo a fn) (Visit a)) args
            else
              match args with
              | [l; r] =>
                  let rhs_paren := IsComplexOperatorWithRespectTo r fn in
                  let rhs_paren := if negb rhs_paren && IsOperatorLeftRecursive fn
                                   then IsOperatorSamePrecedence fn r else rhs_paren in
                  tl <- nest (IsComplexOperatorWithRespectTo l fn) (Visit l) ;;
                  tr <- nest rhs_paren (Visit r) ;;
                  Val (tl ++ sep ++ tr)
              | _ => unexpected
              end
        | None =>
        if String.eqb fn "_[_]" || String.eqb fn "_[?_]" then
          (* 502-528 VisitIndex, VisitOptIndex *)
          match args with
          | [a; i] =>
              ta <- nest (IsBinaryOrTernaryOperator a) (Visit a) ;;
              ti <- Visit i ;;
              Val (ta ++ [91] ++ mark (String.eqb fn "_[?_]") ++ ti ++ [93])
          | _ => unexpected
          end
        else if String.eqb fn "_?._" then
          (* 235-248 VisitOptSelect *)
          match args with
          | [a; EConst (VString f)] =>
              ta <- nest (IsBinaryOrTernaryOperator a) (Visit a) ;;
              Val (ta ++ [46; 63] ++ FormatField (of_codes f))
          | _ => unexpected
          end
        else if String.eqb fn "_?_:_" then
          (* 530-546 VisitTernary *)
          match args with
          | [x; y; z] =>
              let part a := nest (IsOperatorSamePrecedence "_?_:_" a || IsComplexOperator a) (Visit a) in
              tx <- part x ;; ty <- part y ;; tz <- part z ;;
              Val (tx ++ [32; 63; 32] ++ ty ++ [32; 58; 32] ++ tz)
          | _ => unexpected
          end
        else
          tt <- match target with
                | Some t => r <- nest (IsBinaryOrTernaryOperator t) (Visit t) ;; Val (r ++ [46])
                | None => Val []
                end ;;
          ta <- join_out comma_space Visit args ;;
          Val (tt ++ codes fn ++ [40] ++ ta ++ [41])
        end
        end
    (* 295-311 VisitCreateList *)
    | EList elems =>
        t <- join_out comma_space (fun p => match p with (o, a) => r <- Visit a ;; Val (mark o ++ r) end) elems ;;
        Val ([91] ++ t ++ [93])
    (* 313-345 VisitCreateStruct, without a message name *)
    | EMap ents =>
        t <- join_out comma_space
               (fun p => match p with (o, (k, v)) =>
                  tk <- Visit k ;; tv <- Visit v ;; Val (mark o ++ tk ++ [58; 32] ++ tv) end) ents ;;
        Val ([123] ++ t ++ [125])
    (* 347-364 VisitComprehension *)
    | EComp x _ _ range _ _ step result =>
        tr <- nest (IsComplexOperator range) (Visit range) ;;
        let head name := tr ++ [46] ++ codes name ++ [40] ++ codes x ++ comma_space in
        if String.eqb (call_function step) "_&&_" then
          (* 366-376 VisitAllMacro *)
          match step with
          | ECall _ _ [_; p] => tp <- Visit p ;; Val (head "all"%string ++ tp ++ [41])
          | _ => unexpected
          end
        else if String.eqb (call_function step) "_||_" then
          (* 378-388 VisitExistsMacro *)
          match step with
          | ECall _ _ [_; p] => tp <- Visit p ;; Val (head "exists"%string ++ tp ++ [41])
          | _ => unexpected
          end
        else if is_call result then
          (* 390-400 VisitExistsOneMacro *)
          match step with
          | ECall _ _ [p; _; _] => tp <- Visit p ;; Val (head "exists_one"%string ++ tp ++ [41])
          | _ => unexpected
          end
        else if String.eqb (call_function step) "_?_:_" then
          (* 402-426 VisitMapMacro, with a filter *)
          match step with
          | ECall _ _ [p; ECall _ _ [_; EList [(_, f)]]; _] =>
              tp <- Visit p ;; tf <- Visit f ;;
              Val (head "map"%string ++ tp ++ comma_space ++ tf ++ [41])
          | _ => unexpected
          end
        else
          match step with
          | ECall _ _ [_; EList [(_, f)]] => tf <- Visit f ;; Val (head "map"%string ++ tf ++ [41])
          | _ => unexpected
          end
    end.

  (* absl::StripAsciiWhitespace *)
  Definition ascii_space (c : Z) : bool := between 9 13 c || (c =? 32).
  Definition strip (t : list Z) : list Z :=
    rev (snd (span ascii_space (rev (snd (span ascii_space t))))).
  (* cel_unparser.cc:100-104 DoUnparse, 581-586 Unparse *)
  Definition Unparse (e : expr) : out (list Z) := t <- Visit e ;; Val (strip t).
End Unparser.
