(* The lexer on printed string and bytes literals. *)
From Coq Require Import ZArith String Ascii List Bool Lia ZifyBool.
From Verif Require Import Base M_Utf8 S_Utf8 L_Utf8 M_Strings L_Strings.
From Verif Require Import M_Lex L_Lex.
Import ListNotations.
Open Scope list_scope.
Open Scope Z_scope.

Notation sc n := (scan n 34 false false).
Definition unit_ (w : list Z) : Prop :=
  w <> [] /\ hd 0 w <> 34 /\
  forall n r, sc (S n) (w ++ r) = cons_fst w (sc n r).
Lemma unit_char a : a <> 34 -> a <> 92 -> a <> 10 -> a <> 13 -> unit_ [a].
Proof.
  intros A B C D. split; [easy|]. split.
  - exact A.
  - intros n r. cbn [app scan andb negb]. replace (a =? 34) with false by lia. replace (a =? 10) with false by lia.
    replace (a =? 13) with false by lia. replace (a =? 92) with false by lia. reflexivity.
Qed.
Lemma unit_letter a : esc_letter a = true -> unit_ [92; a].
Proof.
  intros A. split; [easy|]. split; [discriminate|].
  intros n r. cbn [app scan andb negb orb]. change (92 =? 34) with false. change (92 =? 10) with false.
  change (92 =? 13) with false. change (92 =? 92) with true. cbn [orb]. cbv iota.
  unfold esc_length. rewrite A. reflexivity.
Qed.
Lemma hex_digit x : 0 <= x < 16 -> is_hex (kHexTable x) = true.
Proof.
  intros H. assert (X : In x [0;1;2;3;4;5;6;7;8;9;10;11;12;13;14;15]) by (cbn [In]; lia).
  cbn [In] in X. repeat (destruct X as [<-|X]; [reflexivity|]). destruct X.
Qed.
Lemma unit_hex a : byte a -> unit_ [92; 120; kHexTable (a / 16); kHexTable (a mod 16)].
Proof.
  intros A. unfold byte in A. split; [easy|]. split; [discriminate|].
  intros n r. cbn [app scan andb negb orb]. change (92 =? 34) with false. change (92 =? 10) with false.
  change (92 =? 13) with false. change (92 =? 92) with true. cbn [orb]. cbv iota.
  unfold esc_length. change (esc_letter 120) with false. change (between 48 51 120) with false.
  change ((120 =? 120) || (120 =? 88)) with true. cbv iota. cbn [List.length Nat.leb firstn forallb andb].
  rewrite hex_digit by (split; [apply Z.div_pos; lia|apply Z.div_lt_upper_bound; lia]).
  rewrite hex_digit by (apply Z.mod_pos_bound; lia). reflexivity.
Qed.
Lemma units_scan l : Forall unit_ l -> forall n r, (List.length (concat l) < n)%nat ->
  sc n (concat l ++ 34 :: r) = Some (concat l ++ [34], r).
Proof.
  induction 1 as [|w l Hw _ IH]; intros n r Hn.
  - cbn [concat app]. destruct n; [lia|]. reflexivity.
  - cbn [concat] in *. rewrite app_length in Hn. destruct Hw as [N [_ S]]. destruct n as [|n]; [lia|].
    rewrite <- app_assoc, S. rewrite IH; [cbn [cons_fst]; now rewrite app_assoc|].
    destruct w; [easy|]. cbn in Hn. lia.
Qed.
Lemma escape_char_unit all last a : byte a -> unit_ (fst (escape_char all 34 last a)).
Proof.
  intros A. unfold escape_char, ch_lf, ch_cr, ch_bslash, ch_squote, ch_dquote, ch_bquote.
  destruct (a =? 10) eqn:E1; [apply (unit_letter 110); reflexivity|].
  destruct (a =? 13) eqn:E2; [apply (unit_letter 114); reflexivity|].
  destruct (a =? 9) eqn:E3; [apply (unit_letter 116); reflexivity|].
  destruct (a =? 92) eqn:E4; [apply (unit_letter 92); reflexivity|].
  destruct (a =? 34) eqn:E5.
  { replace a with 34 by lia. apply (unit_letter 34). reflexivity. }
  rewrite orb_false_r. change (34 =? 0) with false. cbn [orb].
  destruct ((a =? 39) || (a =? 96)) eqn:E6.
  { apply unit_char; lia. }
  destruct (_ && _).
  - apply (unit_hex a A).
  - apply unit_char; lia.
Qed.
Lemma esc_loop_units all : forall s last, bytes s -> exists l, Forall unit_ l /\ esc_loop all 34 last s = concat l.
Proof.
  induction s as [|a s IH]; intros last B.
  - exists []. split; [constructor|reflexivity].
  - apply Forall_cons_iff in B. destruct B as [Ha B]. cbn [esc_loop].
    pose proof (escape_char_unit all last a Ha) as U. destruct (escape_char all 34 last a) as [w hex].
    destruct (IH hex B) as [l [F E]]. exists (w :: l). split; [now constructor|]. cbn [concat]. now rewrite E.
Qed.
Lemma escape_byte_unit a : byte a -> unit_ (escape_byte false 34 a).
Proof.
  intros A. unfold escape_byte, ch_bslash, ch_squote, ch_dquote, ch_bquote. cbn [orb].
  destruct (ascii_isprint a) eqn:P; cbn [negb].
  - destruct (a =? 92) eqn:E4; [apply (unit_letter 92); reflexivity|].
    change (34 =? 0) with false. cbn [orb]. destruct (a =? 34) eqn:E5.
    + replace a with 34 by lia. apply (unit_letter 34). reflexivity.
    + unfold ascii_isprint in P. destruct (_ || _); apply unit_char; lia.
  - apply (unit_hex a A).
Qed.
Lemma EscapeBytes_units s : bytes s -> exists l, Forall unit_ l /\ EscapeBytes s false 34 = concat l.
Proof.
  intros B. exists (map (escape_byte false 34) s). split.
  - induction B; cbn [map]; constructor; [now apply escape_byte_unit|assumption].
  - apply flat_map_concat_map.
Qed.
Lemma scan_string_units l r : Forall unit_ l -> follows r ->
  scan_string false (34 :: concat l ++ 34 :: r) = Some (34 :: concat l ++ [34], r).
Proof.
  intros F Hr. unfold scan_string. change ((34 =? 34) || (34 =? 39)) with true. cbv iota.
  assert (X : starts_with (34 :: concat l ++ 34 :: r) [34; 34; 34] = false).
  { pose proof (follows_not_quote r Hr) as Q. cbn [starts_with]. change (34 =? 34) with true. cbn [andb].
    destruct F as [|w l [N [H _]] F].
    - cbn [concat app starts_with]. change (34 =? 34) with true. cbn [andb]. destruct r as [|c r]; [reflexivity|]. cbn [starts_with].
      cbn [starts_quote] in Q. replace (34 =? c) with false by lia. reflexivity.
    - cbn [concat]. destruct w as [|a w]; [easy|]. cbn [hd app starts_with] in *. replace (34 =? a) with false by lia. reflexivity. }
  rewrite X, units_scan; [reflexivity|exact F|]. cbn [List.length]. rewrite app_length. cbn [List.length]. lia.
Qed.
Lemma lx_string s r ts : bytes s -> follows r ->
  Lexes r ts -> Lexes (FormatDoubleQuotedStringLiteral s ++ r) (TString (FormatDoubleQuotedStringLiteral s) :: ts).
Proof.
  intros B Hr H. refine (Lx_step _ (Some _) _ _ _ _ H).
  - unfold FormatDoubleQuotedStringLiteral, EscapeInternal, ch_dquote.
    destruct (esc_loop_units true s false B) as [l [F E]]. rewrite E. cbn [app].
    rewrite <- app_assoc. cbn [app]. pose proof (scan_string_units l r F Hr) as X.
    unfold lex1. change (is_space 34) with false. change (34 =? 47) with false. change (id_start 34) with false.
    change (is_digit 34) with false. change (34 =? 46) with false. cbn [andb].
    change (starts_quote (34 :: concat l ++ 34 :: r)) with true. cbv iota. rewrite X. reflexivity.
  - unfold FormatDoubleQuotedStringLiteral. rewrite !app_length. cbn. lia.
Qed.
Lemma lx_bytes s r ts : bytes s -> follows r ->
  Lexes r ts -> Lexes (FormatDoubleQuotedBytesLiteral s ++ r) (TBytes (FormatDoubleQuotedBytesLiteral s) :: ts).
Proof.
  intros B Hr H. refine (Lx_step _ (Some _) _ _ _ _ H).
  - unfold FormatDoubleQuotedBytesLiteral, ch_dquote.
    destruct (EscapeBytes_units s B) as [l [F E]]. rewrite E. cbn [app].
    rewrite <- app_assoc. cbn [app]. pose proof (scan_string_units l r F Hr) as X.
    unfold lex1. change (is_space 98) with false. change (98 =? 47) with false. change (id_start 98) with true.
    cbn [andb]. cbv iota. unfold lex_word. cbn [span]. change (id_char 98) with true. change (id_char 34) with false.
    cbv iota beta. change (starts_quote (34 :: concat l ++ 34 :: r)) with true. cbv iota. cbn [map].
    change (98 <? 97) with false. cbv iota. rewrite X. reflexivity.
  - unfold FormatDoubleQuotedBytesLiteral. rewrite !app_length. cbn. lia.
Qed.
