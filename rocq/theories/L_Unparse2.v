(* Lemmas for the round trip of the unparser: names, constants, operators. *)
From Coq Require Import ZArith String Ascii List Bool Lia ZifyBool DecimalString.
From Verif Require Import Base M_Overflow M_Number M_Utf8 S_Utf8 L_Utf8 M_Strings L_Strings M_Attr M_Value M_Logic M_Expr
  M_Macro M_Balancer M_Namespace P_Str.
From Verif Require Import M_Lex M_Parse M_Unparse S_Unparse L_Lex L_LexStr L_Parse L_Unparse1.
Import ListNotations.
Open Scope list_scope.
Open Scope Z_scope.

Definition lexb (t : list Z) (ts : list token) : Prop :=
  forall rest ts', follows rest -> Lexes rest ts' -> Lexes (t ++ rest) (ts ++ ts').
Definition ends (t : list Z) : Prop :=
  match t with a :: _ => ascii_space a = false /\ a <> 61 | [] => False end /\ ascii_space (last t 0) = false.

(* ---- names ---- *)
Lemma code_alpha a : ascii_isalpha a = is_alpha (Z.of_N (N_of_ascii a)).
Proof. destruct a as [[] [] [] [] [] [] [] []]; reflexivity. Qed.
Lemma code_alnum a : (ascii_isalnum a || Ascii.eqb a "_") = id_char (Z.of_N (N_of_ascii a)).
Proof. destruct a as [[] [] [] [] [] [] [] []]; reflexivity. Qed.
Lemma code_under a : Ascii.eqb a "_" = (Z.of_N (N_of_ascii a) =? 95).
Proof. destruct a as [[] [] [] [] [] [] [] []]; reflexivity. Qed.
Lemma code_chars s : all_chars (fun c => ascii_isalnum c || Ascii.eqb c "_") s = forallb id_char (codes s).
Proof. induction s as [|a s IH]; [reflexivity|]. cbn [all_chars]. rewrite codes_cons. cbn [forallb]. now rewrite code_alnum, IH. Qed.
Lemma identifier_word s : LexisIsIdentifier s = true -> is_word s = true /\ LexisIsReserved s = false.
Proof.
  unfold LexisIsIdentifier. destruct s as [|a s]; [discriminate|]. rewrite code_alpha, code_under, code_chars.
  unfold is_word. rewrite codes_cons. unfold id_start.
  destruct (is_alpha (Z.of_N (N_of_ascii a)) || (Z.of_N (N_of_ascii a) =? 95)) eqn:E.
  - replace (negb _ && negb _) with false by (rewrite <- negb_orb, E; reflexivity).
    destruct (forallb id_char (codes s)); cbn [negb]; [|discriminate].
    intros H. apply negb_true_iff in H. now split.
  - replace (negb _ && negb _) with true by (rewrite <- negb_orb, E; reflexivity). discriminate.
Qed.
Lemma word_id s : keyword s = false -> word s = TId s.
Proof.
  unfold keyword, word. cbn [existsb]. rewrite !orb_false_iff. intros (A & B & C & D & _). now rewrite A, B, C, D.
Qed.
Lemma reserved_keyword s : LexisIsReserved s = false -> keyword s = false.
Proof.
  unfold LexisIsReserved, reserved_keywords, keyword. cbn [existsb]. rewrite !orb_false_iff. intuition.
Qed.
Lemma word_codes s : is_word s = true -> is_word_codes (codes s) = true.
Proof. intros H. exact H. Qed.
Lemma word_head s : is_word s = true -> exists d w, codes s = d :: w /\ id_start d = true /\ forallb id_char w = true.
Proof.
  unfold is_word. destruct (codes s) as [|d w]; [discriminate|]. intros H. apply andb_true_iff in H. eauto.
Qed.
Lemma id_char_not_space d : id_char d = true -> ascii_space d = false.
Proof. unfold id_char, is_alpha, is_digit, ascii_space, between. lia. Qed.
Lemma last_in (l : list Z) d : l <> [] -> In (last l d) l.
Proof. induction l as [|a l IH]; [easy|]. intros _. destruct l as [|b l]; [now left|]. right. apply IH. discriminate. Qed.
Lemma last_app_ne (a b : list Z) d : b <> [] -> last (a ++ b) d = last b d.
Proof.
  intros N. induction a as [|x a IH]; [reflexivity|]. cbn [app]. rewrite <- IH.
  destruct (a ++ b) eqn:E; [apply app_eq_nil in E; destruct E; easy|reflexivity].
Qed.
Lemma word_ends s : is_word s = true -> ends (codes s).
Proof.
  intros W. destruct (word_head s W) as [d [w [E [D C]]]]. unfold ends. rewrite E.
  pose proof (id_start_char d D) as Dc. destruct (id_start_facts d D) as [_ [_ [_ N]]].
  split; [split; [now apply id_char_not_space|exact N]|]. apply id_char_not_space.
  assert (F : forallb id_char (d :: w) = true) by (cbn [forallb]; now rewrite Dc, C).
  rewrite forallb_forall in F. apply F, last_in. discriminate.
Qed.
Lemma lx_id s r ts : is_word s = true -> keyword s = false -> follows r -> Lexes r ts -> Lexes (codes s ++ r) (TId s :: ts).
Proof. intros W K F L. rewrite <- (word_id s K). now apply lx_word. Qed.
Lemma word_no_digit s r : is_word s = true -> match codes s ++ r with d :: _ => is_digit d = false | [] => True end.
Proof. intros W. destruct (word_head s W) as [d [w [-> [D _]]]]. cbn [app]. now destruct (id_start_facts d D) as [_ [_ [H _]]]. Qed.

(* names that are no operators *)
Definition plain (fn : string) : Prop := (is_word fn = true /\ fn <> "_in_"%string) \/ exists n, fn = String "." n.
Lemma name_plain fn : name_ok fn -> fn <> "_in_"%string -> plain fn.
Proof. intros [H|[n [-> _]]] N; [left|right; eauto]. split; [apply identifier_word, H|exact N]. Qed.
Ltac plain_off H := match type of H with plain ?f =>
  match goal with |- context [String.eqb f ?k] =>
    destruct (String.eqb_spec f k) as [->|_]; [exfalso; destruct H as [[H ?]|[? H]]; first [discriminate|congruence]|] end end.
Lemma plain_tables fn : plain fn ->
  LookupUnaryOperator fn = None /\ LookupBinaryOperator fn = None /\ LookupPrecedence fn = 0 /\
  (String.eqb fn "_[_]" || String.eqb fn "_[?_]") = false /\ String.eqb fn "_?._" = false /\ String.eqb fn "_?_:_" = false /\
  logical fn = false.
Proof.
  intros H. unfold LookupUnaryOperator, LookupBinaryOperator, LookupPrecedence, logical. cbn [assoc binary_operators precedences].
  repeat plain_off H. cbn [orb]. repeat match goal with |- _ /\ _ => split end; reflexivity.
Qed.

(* ---- fields ---- *)
Lemma field_lex c f : field_ok c f -> exists ft, field_ts c f ft /\ ends (FormatField f) /\
  (forall r, match FormatField f ++ r with d :: _ => is_digit d = false | [] => True end) /\ lexb (FormatField f) [ft].
Proof.
  intros [[W K]|[Q [N [Ne C]]]].
  - exists (TId f). split; [now left|].
    assert (E : FormatField f = codes f).
    { unfold FormatField. change (simple_identifier f) with (is_word f). rewrite W. cbn [negb]. rewrite orb_false_r.
      unfold keyword in K. cbn [existsb] in K. rewrite !orb_false_iff in K. destruct K as [K _]. now rewrite K. }
    rewrite E. split; [now apply word_ends|]. split; [intros r; now apply word_no_digit|].
    intros rest ts' F L. cbn [app]. now apply lx_id.
  - exists (TEsc f). split; [right; auto|].
    assert (E : FormatField f = [96] ++ codes f ++ [96]).
    { unfold FormatField. change (simple_identifier f) with (is_word f). destruct N as [-> | ->]; [|reflexivity].
      now rewrite orb_true_r. }
    rewrite E. split; [|split].
    + split; [easy|]. rewrite app_assoc, last_app_ne by discriminate. reflexivity.
    + intros r. reflexivity.
    + intros rest ts' F L. rewrite <- !app_assoc. cbn [app]. apply lx_esc; [|exact C|exact L].
      destruct f; [easy|]. rewrite codes_cons. discriminate.
Qed.

(* ---- constants ---- *)
Lemma digits_hex s : forallb is_digit (codes s) = true -> hex_text s = None.
Proof.
  destruct s as [|a [|b s]]; try reflexivity. rewrite !codes_cons. cbn [forallb hex_text]. intros H.
  destruct (Ascii.eqb_spec b "x") as [->|_]; [|now rewrite andb_false_r].
  change (is_digit (Z.of_N (N_of_ascii "x"))) with false in H. cbn [andb] in H. rewrite andb_false_r in H. discriminate.
Qed.
Lemma magnitude_digits n : 0 <= n -> magnitude (digits_of n) = Some n.
Proof. intros H. unfold magnitude. rewrite digits_hex by apply codes_digits. now apply digits_value. Qed.
Lemma drop_last_app s : drop_last (s ++ "u") = s.
Proof.
  induction s as [|a s IH]; [reflexivity|]. cbn [append drop_last]. destruct (s ++ "u")%string eqn:E; [destruct s; discriminate|].
  now rewrite IH.
Qed.
Lemma digits_ends n : ends (codes (digits_of n)).
Proof.
  pose proof (digits_nonempty n) as N. pose proof (codes_digits (N.to_uint (Z.to_N n))) as D. fold (digits_of n) in D.
  assert (X : forall d, is_digit d = true -> ascii_space d = false /\ d <> 61) by (unfold is_digit, ascii_space, between; lia).
  rewrite forallb_forall in D. unfold ends. split.
  - destruct (codes (digits_of n)) as [|d w]; [easy|]. apply X, D. now left.
  - apply X, D, last_in, N.
Qed.
Section Const.
  Variable c : config.
  Variable sd : double -> list Z.
  Lemma const_good v : const_ok v -> exists t ts, VisitConst sd v = Val t /\ lexb t ts /\ ends t /\ start_ok ts /\
    primary_ok c (EConst v) ts /\ (leading_number (EConst v) = false -> neg_start ts).
  Proof.
    intros H. destruct v; try contradiction H; cbn [VisitConst const_ok] in *.
    - exists (codes "null"), [TNull]. repeat match goal with |- _ /\ _ => split end; try reflexivity; try easy.
      intros rest ts' F L. change ([TNull] ++ ts') with (word "null" :: ts'). now apply lx_word.
    - exists (codes (if b then "true" else "false")), [if b then TTrue else TFalse].
      unfold ends, primary_ok in *; repeat match goal with |- _ /\ _ => split end; try reflexivity; try (destruct b; easy).
      intros rest ts' F L. destruct b.
      + change ([TTrue] ++ ts') with (word "true" :: ts'). now apply lx_word.
      + change ([TFalse] ++ ts') with (word "false" :: ts'). now apply lx_word.
    - unfold decimal_text. change (NilEmpty.string_of_uint (N.to_uint (Z.to_N (Z.abs i)))) with (digits_of (Z.abs i)).
      exists ((if i <? 0 then [45] else []) ++ codes (digits_of (Z.abs i))),
        ((if i <? 0 then [S_ Minus] else []) ++ [TNumInt (digits_of (Z.abs i))]).
      assert (V : visitInt (i <? 0) (digits_of (Z.abs i)) = Some (EConst (VInt i))).
      { unfold visitInt. rewrite magnitude_digits by lia. destruct (Z.ltb_spec i 0).
        - replace (- Z.abs i) with i by lia. replace ((_ <=? _) && (_ <? _)) with true by lia. reflexivity.
        - replace (Z.abs i) with i by lia. replace ((_ <=? _) && (_ <? _)) with true by lia. reflexivity. }
      pose proof (digits_ends (Z.abs i)) as De.
      unfold ends, primary_ok in *; repeat match goal with |- _ /\ _ => split end; try reflexivity; try easy.
      + intros rest ts' F L. destruct (i <? 0); cbn [app]; [apply lx_minus|]; now apply lx_int.
      + destruct (i <? 0); cbn [app]; [easy|]. apply De.
      + rewrite last_app_ne by apply digits_nonempty. apply De.
      + now destruct (i <? 0).
      + now destruct (i <? 0).
      + intros n rest L St. destruct (i <? 0); cbn [app p_primary]; rewrite V; reflexivity.
    - unfold decimal_text. replace (u <? 0) with false by lia. replace (Z.abs u) with u by lia. cbn [app].
      change (NilEmpty.string_of_uint (N.to_uint (Z.to_N u))) with (digits_of u).
      exists (codes (digits_of u) ++ [117]), [TNumUint (digits_of u ++ "u")].
      pose proof (digits_ends u) as De.
      unfold ends, primary_ok in *; repeat match goal with |- _ /\ _ => split end; try reflexivity; try easy.
      + intros rest ts' F L. rewrite <- app_assoc. cbn [app]. now apply lx_uint.
      + destruct De as [De _]. now destruct (codes (digits_of u)).
      + now rewrite last_app_ne by discriminate.
      + intros n rest L St. cbn [app p_primary]. unfold visitUint. rewrite drop_last_app, magnitude_digits by lia.
        replace (u <? 2 ^ 64) with true by lia. reflexivity.
    - exists (FormatDoubleQuotedStringLiteral s), [TString (FormatDoubleQuotedStringLiteral s)].
      unfold ends, primary_ok in *; repeat match goal with |- _ /\ _ => split end; try reflexivity; try easy.
      + intros rest ts' F L. cbn [app]. apply lx_string; [apply wf_bytes|..]; assumption.
      + unfold FormatDoubleQuotedStringLiteral. now rewrite app_assoc, last_app_ne by discriminate.
      + intros n rest L St. cbn [app p_primary]. unfold visitString.
        destruct (C11_string_literal_round_trip s H) as [_ [_ ->]]. reflexivity.
    - exists (FormatDoubleQuotedBytesLiteral s), [TBytes (FormatDoubleQuotedBytesLiteral s)].
      unfold ends, primary_ok in *; repeat match goal with |- _ /\ _ => split end; try reflexivity; try easy.
      + intros rest ts' F L. cbn [app]. now apply lx_bytes.
      + unfold FormatDoubleQuotedBytesLiteral. now rewrite app_assoc, last_app_ne by discriminate.
      + intros n rest L St. cbn [app p_primary]. unfold visitBytes.
        destruct (C12_bytes_literal_round_trip s H) as [_ [_ ->]]. reflexivity.
  Qed.
End Const.

(* ---- operators ---- *)
Lemma binary_tables fn : In fn binary_names -> exists op x,
  LookupUnaryOperator fn = None /\ LookupBinaryOperator fn = Some op /\ IsLogicalOperator fn = false /\
  IsOperatorLeftRecursive fn = true /\
  (forall rest ts, Lexes rest ts -> Lexes (([32] ++ codes op ++ [32]) ++ rest) (S_ x :: ts)) /\
  ((LookupPrecedence fn = 5 /\ relation_op (S_ x) = Some fn) \/
   (LookupPrecedence fn = 4 /\ plus_op (S_ x) = Some fn) \/
   (LookupPrecedence fn = 3 /\ times_op (S_ x) = Some fn)).
Proof.
  assert (K : forall w x rest ts, lex1 (w ++ 32 :: rest) = Some (Some (S_ x), 32 :: rest) -> w <> [] -> Lexes rest ts ->
    Lexes (([32] ++ w ++ [32]) ++ rest) (S_ x :: ts)).
  { intros w x rest ts H N L. cbn [app]. apply lx_space. rewrite <- app_assoc. cbn [app].
    refine (Lx_step _ (Some _) _ _ H _ (lx_space _ _ L)). rewrite app_length. destruct w; [easy|]. cbn. lia. }
  intros H. cbn [In binary_names] in H.
  repeat (destruct H as [<-|H];
    [do 2 eexists; repeat match goal with |- _ /\ _ => split end; try reflexivity;
     [intros rest ts L; apply K; [reflexivity|discriminate|exact L]
     |first [left; split; reflexivity|right; left; split; reflexivity|right; right; split; reflexivity]]|]).
  destruct H.
Qed.
Lemma logical_tables fn : logical fn = true -> exists op x,
  LookupUnaryOperator fn = None /\ LookupBinaryOperator fn = Some op /\ IsLogicalOperator fn = true /\
  (forall rest ts, Lexes rest ts -> Lexes (([32] ++ codes op ++ [32]) ++ rest) (S_ x :: ts)) /\
  ((fn = "_&&_"%string /\ x = AndAnd) \/ (fn = "_||_"%string /\ x = OrOr)).
Proof.
  intros H. destruct (logical_cases fn H) as [-> | ->].
  - exists "&&"%string, AndAnd. repeat match goal with |- _ /\ _ => split end; try reflexivity; [|left; split; reflexivity].
    intros rest ts L. cbn [app codes map list_ascii_of_string]. apply lx_space.
    refine (Lx_step _ (Some (S_ AndAnd)) (32 :: rest) _ _ _ (lx_space _ _ L)); [reflexivity|cbn; lia].
  - exists "||"%string, OrOr. repeat match goal with |- _ /\ _ => split end; try reflexivity; [|right; split; reflexivity].
    intros rest ts L. cbn [app codes map list_ascii_of_string]. apply lx_space.
    refine (Lx_step _ (Some (S_ OrOr)) (32 :: rest) _ _ _ (lx_space _ _ L)); [reflexivity|cbn; lia].
Qed.
Lemma name_prec fn : name_ok fn -> fn <> "_in_"%string -> LookupPrecedence fn = 0.
Proof. intros H N. now destruct (plain_tables fn (name_plain fn H N)) as (_ & _ & -> & _). Qed.
Lemma word_prec fn : is_word fn = true -> fn <> "_in_"%string -> LookupPrecedence fn = 0.
Proof. intros H N. destruct (plain_tables fn) as (_ & _ & -> & _); [left; auto|reflexivity]. Qed.
Lemma binary_complex fn l r : In fn binary_names -> IsBinaryOrTernaryOperator (ECall fn None [l; r]) = true.
Proof.
  intros H. destruct (binary_tables fn H) as (op & x & _ & E & _). unfold IsBinaryOrTernaryOperator. cbn [IsComplexOperator List.length Nat.leb negb]. now rewrite E.
Qed.
(* operands that need no parentheses as the target of a selection *)
Lemma base_level c e : printable c e -> unary e = false -> IsBinaryOrTernaryOperator e = false -> lv e <= 1.
Proof.
  intros P U B. destruct P; cbn [lv] in *; try lia; try discriminate; try (apply Z.leb_le; reflexivity).
  - rewrite binary_complex in B by assumption. discriminate.
  - exfalso. destruct (logical_tables fn H) as (op & x & _ & E & _). unfold IsBinaryOrTernaryOperator, IsComplexOperator in B.
    rewrite E in B. destruct (Nat.leb_spec 2 (List.length args)); [discriminate|lia].
  - rewrite name_prec by assumption. lia.
  - rewrite word_prec by assumption. lia.
Qed.
Lemma simple_level c e : printable c e -> unary e = false -> IsComplexOperator e = false -> lv e <= 1.
Proof.
  intros P U B. apply (base_level c e P U). unfold IsBinaryOrTernaryOperator. now rewrite B.
Qed.
Lemma simple_level2 c e : printable c e -> IsComplexOperator e = false -> lv e <= 2.
Proof.
  intros P B. destruct (unary e) eqn:U; [|pose proof (simple_level c e P U B); lia].
  destruct P; cbn [lv unary] in *; try lia; try discriminate; try (apply Z.leb_le; reflexivity).
  - exfalso. destruct (logical_cases fn H) as [-> | ->]; discriminate.
  - rewrite name_prec by assumption. lia.
  - rewrite word_prec by assumption. lia.
Qed.
Lemma operator_level c e : printable c e -> operator_call e = false -> lv e <= 1.
Proof.
  intros P O. destruct P; cbn [lv operator_call] in *; try lia; try discriminate; try (apply Z.leb_le; reflexivity).
  - exfalso. unfold binary_names in H. cbn [In] in H. repeat (destruct H as [<-|H]; [discriminate|]). destruct H.
  - exfalso. destruct (logical_cases fn H) as [-> | ->]; discriminate.
  - rewrite name_prec by assumption. lia.
  - rewrite word_prec by assumption. lia.
Qed.
Lemma wrt_level c e fn : printable c e -> 3 <= LookupPrecedence fn ->
  IsComplexOperatorWithRespectTo e fn = false -> lv e <= LookupPrecedence fn.
Proof.
  intros P L W. destruct (IsComplexOperator e) eqn:C; [|pose proof (simple_level2 c e P C); lia].
  unfold IsComplexOperatorWithRespectTo, IsComplexOperator in *. destruct e as [| | |g t args| | |]; try discriminate.
  destruct (Nat.leb_spec 2 (List.length args)); [|discriminate]. destruct (Nat.ltb_spec (List.length args) 2); [lia|].
  cbn in *. lia.
Qed.
Lemma rhs_level c e fn : printable c e -> 3 <= LookupPrecedence fn -> IsOperatorLeftRecursive fn = true ->
  (if negb (IsComplexOperatorWithRespectTo e fn) && IsOperatorLeftRecursive fn
   then IsOperatorSamePrecedence fn e else IsComplexOperatorWithRespectTo e fn) = false ->
  lv e <= LookupPrecedence fn - 1.
Proof.
  intros P L Lr H. destruct (IsComplexOperatorWithRespectTo e fn) eqn:W; cbn [negb andb] in H; [discriminate|].
  rewrite Lr in H. pose proof (wrt_level c e fn P L W) as X.
  destruct e as [| | |g t args| | |]; cbn [lv] in *; try lia. cbn [IsOperatorSamePrecedence] in H. lia.
Qed.
Lemma wrt_other e fn : IsComplexOperatorWithRespectTo e fn = true -> lv e <> LookupPrecedence fn.
Proof.
  unfold IsComplexOperatorWithRespectTo. destruct e as [| | |g t args| | |]; try discriminate.
  destruct (Nat.ltb _ _); [discriminate|]. cbn. lia.
Qed.
