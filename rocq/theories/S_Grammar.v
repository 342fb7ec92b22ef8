(* The grammar of the language, as derivations: which token sequences are an
   expression, and which expression.  From parser/internal/Cel.g4:19-118. *)
From Coq Require Import ZArith String Ascii List Bool.
From Verif Require Import Base M_Overflow M_Number M_Attr M_Value M_Logic M_Expr M_Macro M_Namespace.
From Verif Require Import M_Lex M_Parse.
Import ListNotations.
Open Scope list_scope.

(* binary operators by the level they bind at; each level groups to the left *)
Definition relation_sign (t : token) (fn : string) : Prop :=
  In (t, fn) [(S_ Less, "_<_"); (S_ LessEq, "_<=_"); (S_ GreaterEq, "_>=_"); (S_ Greater, "_>_");
              (S_ EqEq, "_==_"); (S_ NotEq, "_!=_"); (S_ KwIn, "@in")]%string.
Definition plus_sign (t : token) (fn : string) : Prop := In (t, fn) [(S_ Plus, "_+_"); (S_ Minus, "_-_")]%string.
Definition times_sign (t : token) (fn : string) : Prop :=
  In (t, fn) [(S_ Star, "_*_"); (S_ Slash, "_/_"); (S_ Percent, "_%_")]%string.
(* n operators, of which pairs cancel *)
Definition repeated (n : nat) (fn : string) (e : expr) : expr := if Nat.even n then e else ECall fn None [e].
(* one sign before a number is part of the number; all signs in a row belong together *)
Definition takes_signs (n : nat) (ts : list token) : Prop :=
  match ts with
  | S_ Minus :: _ => False
  | TNumInt _ :: _ | TNumFloat _ :: _ => n <> 1%nat
  | _ => True
  end.

Section Grammar.
  Variable c : config.
  (* the literals: the value of the token has to exist *)
  Definition literal (ts : list token) (e : expr) : Prop :=
    match ts with
    | [TNumInt s] => visitInt false s = Some e
    | [S_ Minus; TNumInt s] => visitInt true s = Some e
    | [TNumUint s] => visitUint s = Some e
    | [TNumFloat s] => visitDouble c false s = Some e
    | [S_ Minus; TNumFloat s] => visitDouble c true s = Some e
    | [TString t] => visitString t = Some e
    | [TBytes t] => visitBytes t = Some e
    | [TTrue] => e = EConst (VBool true)
    | [TFalse] => e = EConst (VBool false)
    | [TNull] => e = EConst VNull
    | _ => False
    end.
  (* a field: an identifier, or between back quotes where that is enabled *)
  Definition field (t : token) (f : string) : Prop := t = TId f \/ (t = TEsc f /\ c_quoted c = true).
  Definition optional_mark (o : bool) (ts : list token) : Prop :=
    (o = false /\ ts = []) \/ (o = true /\ ts = [S_ Question] /\ c_optional c = true).
  Definition dotted (dot : bool) (s : string) : string := if dot then String "." s else s.
  Definition dot_ts (dot : bool) : list token := if dot then [S_ Dot] else [].

  Inductive g_expr : list token -> expr -> Prop :=
  | G_or ts e : g_or ts e -> g_expr ts e
  | G_cond tx x ty y tz z : g_or tx x -> g_or ty y -> g_expr tz z ->
      g_expr (tx ++ S_ Question :: ty ++ S_ Colon :: tz) (ECall "_?_:_" None [x; y; z])
  (* operands between || ; the calls are balanced (C33) *)
  with g_or : list token -> expr -> Prop :=
  | G_ors ts l e : g_ors ts l -> balanced c "_||_" l = Some e -> g_or ts e
  with g_ors : list token -> list expr -> Prop :=
  | G_or1 ts x : g_and ts x -> g_ors ts [x]
  | G_or2 ts x us l : g_and ts x -> g_ors us l -> g_ors (ts ++ S_ OrOr :: us) (x :: l)
  with g_and : list token -> expr -> Prop :=
  | G_ands ts l e : g_ands ts l -> balanced c "_&&_" l = Some e -> g_and ts e
  with g_ands : list token -> list expr -> Prop :=
  | G_and1 ts x : g_rel ts x -> g_ands ts [x]
  | G_and2 ts x us l : g_rel ts x -> g_ands us l -> g_ands (ts ++ S_ AndAnd :: us) (x :: l)
  with g_rel : list token -> expr -> Prop :=
  | G_rel1 ts x : g_plus ts x -> g_rel ts x
  | G_rel2 ts x t fn us y : g_rel ts x -> relation_sign t fn -> g_plus us y -> g_rel (ts ++ t :: us) (ECall fn None [x; y])
  with g_plus : list token -> expr -> Prop :=
  | G_plus1 ts x : g_times ts x -> g_plus ts x
  | G_plus2 ts x t fn us y : g_plus ts x -> plus_sign t fn -> g_times us y -> g_plus (ts ++ t :: us) (ECall fn None [x; y])
  with g_times : list token -> expr -> Prop :=
  | G_times1 ts x : g_unary ts x -> g_times ts x
  | G_times2 ts x t fn us y : g_times ts x -> times_sign t fn -> g_unary us y -> g_times (ts ++ t :: us) (ECall fn None [x; y])
  with g_unary : list token -> expr -> Prop :=
  | G_member ts x : g_member ts x -> g_unary ts x
  | G_not n ts x : g_member ts x -> g_unary (repeat (S_ Bang) (S n) ++ ts) (repeated (S n) "!_" x)
  | G_neg n ts x : g_member ts x -> takes_signs (S n) ts -> g_unary (repeat (S_ Minus) (S n) ++ ts) (repeated (S n) "-_" x)
  with g_member : list token -> expr -> Prop :=
  | G_primary ts x : g_primary ts x -> g_member ts x
  | G_select ts x t f : g_member ts x -> field t f -> g_member (ts ++ [S_ Dot; t]) (ESelect x f false)
  | G_opt_select ts x t f : g_member ts x -> field t f -> c_optional c = true ->
      g_member (ts ++ [S_ Dot; S_ Question; t]) (ECall "_?._" None [x; EConst (VString (codes f))])
  | G_method ts x fn us args e : g_member ts x -> g_args us args -> receiver_call c fn x args = Some e ->
      g_member (ts ++ S_ Dot :: TId fn :: S_ LParen :: us ++ [S_ RParen]) e
  | G_index ts x us i : g_member ts x -> g_expr us i ->
      g_member (ts ++ S_ LBracket :: us ++ [S_ RBracket]) (ECall "_[_]" None [x; i])
  | G_opt_index ts x us i : g_member ts x -> g_expr us i -> c_optional c = true ->
      g_member (ts ++ S_ LBracket :: S_ Question :: us ++ [S_ RBracket]) (ECall "_[?_]" None [x; i])
  with g_primary : list token -> expr -> Prop :=
  | G_literal ts e : literal ts e -> g_primary ts e
  | G_ident dot s : LexisIsReserved s = false -> g_primary (dot_ts dot ++ [TId s]) (EIdent (dotted dot s))
  | G_call dot s us args e : LexisIsReserved s = false -> g_args us args -> global_call c (dotted dot s) args = Some e ->
      g_primary (dot_ts dot ++ TId s :: S_ LParen :: us ++ [S_ RParen]) e
  | G_paren ts e : g_expr ts e -> g_primary (S_ LParen :: ts ++ [S_ RParen]) e
  | G_list ts l comma : g_elems ts l -> comma = [] \/ comma = [S_ Comma] ->
      g_primary (S_ LBracket :: ts ++ comma ++ [S_ RBracket]) (EList l)
  | G_map ts l comma : g_entries ts l -> comma = [] \/ comma = [S_ Comma] ->
      g_primary (S_ LBrace :: ts ++ comma ++ [S_ RBrace]) (EMap l)
  with g_args : list token -> list expr -> Prop :=
  | G_args0 : g_args [] []
  | G_args1 ts x : g_expr ts x -> g_args ts [x]
  | G_args2 ts x us l : g_expr ts x -> g_args us l -> l <> [] -> g_args (ts ++ S_ Comma :: us) (x :: l)
  with g_elems : list token -> list (bool * expr) -> Prop :=
  | G_elems0 : g_elems [] []
  | G_elems1 m o ts x : optional_mark o m -> g_expr ts x -> g_elems (m ++ ts) [(o, x)]
  | G_elems2 m o ts x us l : optional_mark o m -> g_expr ts x -> g_elems us l -> l <> [] ->
      g_elems ((m ++ ts) ++ S_ Comma :: us) ((o, x) :: l)
  with g_entries : list token -> list (bool * (expr * expr)) -> Prop :=
  | G_entries0 : g_entries [] []
  | G_entries1 m o tk k tv v : optional_mark o m -> g_expr tk k -> g_expr tv v ->
      g_entries (m ++ tk ++ S_ Colon :: tv) [(o, (k, v))]
  | G_entries2 m o tk k tv v us l : optional_mark o m -> g_expr tk k -> g_expr tv v -> g_entries us l -> l <> [] ->
      g_entries ((m ++ tk ++ S_ Colon :: tv) ++ S_ Comma :: us) ((o, (k, v)) :: l).

  Scheme g_expr_m := Minimality for g_expr Sort Prop
  with g_or_m := Minimality for g_or Sort Prop
  with g_ors_m := Minimality for g_ors Sort Prop
  with g_and_m := Minimality for g_and Sort Prop
  with g_ands_m := Minimality for g_ands Sort Prop
  with g_rel_m := Minimality for g_rel Sort Prop
  with g_plus_m := Minimality for g_plus Sort Prop
  with g_times_m := Minimality for g_times Sort Prop
  with g_unary_m := Minimality for g_unary Sort Prop
  with g_member_m := Minimality for g_member Sort Prop
  with g_primary_m := Minimality for g_primary Sort Prop
  with g_args_m := Minimality for g_args Sort Prop
  with g_elems_m := Minimality for g_elems Sort Prop
  with g_entries_m := Minimality for g_entries Sort Prop.
End Grammar.
