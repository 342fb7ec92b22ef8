(* Lemmas about the lexer on printed texts. *)
From Coq Require Import ZArith String Ascii List Bool Lia ZifyBool.
From Coq Require Import DecimalString DecimalN DecimalFacts.
From Verif Require Import Base M_Utf8 M_Strings M_Namespace.
From Verif Require Import M_Lex.
Import ListNotations.
Open Scope list_scope.
Open Scope Z_scope.

Lemma of_codes_codes s : of_codes (codes s) = s.
Proof.
  unfold of_codes, codes. rewrite map_map.
  rewrite (map_ext _ (fun c => c)).
  - rewrite map_id. apply string_of_list_ascii_of_string.
  - intros a. rewrite N2Z.id. apply ascii_N_embedding.
Qed.
Lemma codes_app s t : codes (s ++ t) = codes s ++ codes t.
Proof.
  unfold codes. rewrite <- map_app. f_equal. induction s as [|a s IH]; cbn; [reflexivity|]. now rewrite IH.
Qed.
Lemma codes_length s : List.length (codes s) = String.length s.
Proof. unfold codes. rewrite map_length. induction s as [|a s IH]; cbn; congruence. Qed.
Lemma codes_cons a s : codes (String a s) = Z.of_N (N_of_ascii a) :: codes s.
Proof. reflexivity. Qed.

Inductive Lexes : list Z -> list token -> Prop :=
| Lx_nil : Lexes [] []
| Lx_step s o r ts : lex1 s = Some (o, r) -> (List.length r < List.length s)%nat -> Lexes r ts ->
    Lexes s (add_token o ts).
Lemma Lexes_loop s ts : Lexes s ts -> forall n, (List.length s <= n)%nat -> lex_loop n s = Some ts.
Proof.
  induction 1 as [|s o r ts H L _ IH]; intros n Hn; [now destruct n|].
  destruct s as [|a s]; [discriminate|]. destruct n as [|n]; [cbn in Hn; lia|].
  cbn [lex_loop]. rewrite H, (IH n) by (cbn in *; lia). reflexivity.
Qed.
Lemma Lexes_lex s ts : Lexes s ts -> lex s = Some ts.
Proof. intros H. apply (Lexes_loop _ _ H). lia. Qed.

(* Texts that may follow an expression. *)
Definition follows (r : list Z) : Prop :=
  match r with
  | [] => True
  | c :: r' => In c [41; 93; 125; 44; 32; 58; 91; 40] \/
               (c = 46 /\ match r' with d :: _ => is_digit d = false | [] => True end)
  end.
Lemma follows_in c r : In c [41; 93; 125; 44; 32; 58; 91; 40] -> follows (c :: r).
Proof. now left. Qed.

(* ---- single characters ---- *)
Ltac one := intros H; refine (Lx_step _ (Some _) _ _ _ _ H); [reflexivity|cbn; lia].
Lemma lx_space r ts : Lexes r ts -> Lexes (32 :: r) ts.
Proof. intros H. refine (Lx_step _ None _ _ _ _ H); [reflexivity|cbn; lia]. Qed.
Lemma lx_lparen r ts : Lexes r ts -> Lexes (40 :: r) (S_ LParen :: ts). Proof. one. Qed.
Lemma lx_rparen r ts : Lexes r ts -> Lexes (41 :: r) (S_ RParen :: ts). Proof. one. Qed.
Lemma lx_lbracket r ts : Lexes r ts -> Lexes (91 :: r) (S_ LBracket :: ts). Proof. one. Qed.
Lemma lx_rbracket r ts : Lexes r ts -> Lexes (93 :: r) (S_ RBracket :: ts). Proof. one. Qed.
Lemma lx_lbrace r ts : Lexes r ts -> Lexes (123 :: r) (S_ LBrace :: ts). Proof. one. Qed.
Lemma lx_rbrace r ts : Lexes r ts -> Lexes (125 :: r) (S_ RBrace :: ts). Proof. one. Qed.
Lemma lx_comma r ts : Lexes r ts -> Lexes (44 :: r) (S_ Comma :: ts). Proof. one. Qed.
Lemma lx_colon r ts : Lexes r ts -> Lexes (58 :: r) (S_ Colon :: ts). Proof. one. Qed.
Lemma lx_question r ts : Lexes r ts -> Lexes (63 :: r) (S_ Question :: ts). Proof. one. Qed.
Lemma lx_minus r ts : Lexes r ts -> Lexes (45 :: r) (S_ Minus :: ts). Proof. one. Qed.
Lemma lx_bang a r ts : a <> 61 -> Lexes (a :: r) ts -> Lexes (33 :: a :: r) (S_ Bang :: ts).
Proof.
  intros Ha H. refine (Lx_step _ (Some _) _ _ _ _ H); [|cbn; lia].
  unfold lex1. cbn [is_space Z.eqb Pos.eqb orb andb id_start is_alpha between Z.leb Z.compare Pos.compare Pos.compare_cont is_digit starts_quote].
  cbn. destruct (Z.eqb_spec a 61); [easy|reflexivity].
Qed.
Lemma lx_dot r ts : match r with d :: _ => is_digit d = false | [] => True end ->
  Lexes r ts -> Lexes (46 :: r) (S_ Dot :: ts).
Proof.
  intros Hd H. refine (Lx_step _ (Some _) _ _ _ _ H); [|cbn; lia].
  destruct r as [|d r]; [reflexivity|]. unfold lex1.
  change (is_space 46) with false. change (46 =? 47) with false. change (id_start 46) with false.
  change (is_digit 46) with false. change (46 =? 46) with true. cbn [andb]. rewrite Hd. reflexivity.
Qed.

(* ---- spans ---- *)
Lemma span_app f w r : forallb f w = true -> match r with c :: _ => f c = false | [] => True end ->
  span f (w ++ r) = (w, r).
Proof.
  intros Hw Hr. induction w as [|a w IH]; cbn [app span].
  - destruct r as [|c r]; [reflexivity|]. cbn [span]. now rewrite Hr.
  - cbn [forallb] in Hw. apply andb_true_iff in Hw. destruct Hw as [Ha Hw]. now rewrite Ha, (IH Hw).
Qed.
Lemma follows_not_id r : follows r -> match r with c :: _ => id_char c = false | [] => True end.
Proof.
  destruct r as [|c r]; [easy|]. cbn [follows]. intros [H|[-> _]]; [|reflexivity].
  cbn [In] in H. repeat (destruct H as [<-|H]; [reflexivity|]). destruct H.
Qed.
Lemma follows_not_quote r : follows r -> starts_quote r = false.
Proof.
  destruct r as [|c r]; [easy|]. cbn [follows starts_quote]. intros [H|[-> _]]; [|reflexivity].
  cbn [In] in H. repeat (destruct H as [<-|H]; [reflexivity|]). destruct H.
Qed.

(* ---- words ---- *)
Definition is_word_codes (l : list Z) : bool := match l with d :: r => id_start d && forallb id_char r | [] => false end.
Lemma id_start_char d : id_start d = true -> id_char d = true.
Proof. unfold id_start, id_char. destruct (is_alpha d), (d =? 95), (is_digit d); cbn; congruence. Qed.
Lemma id_start_facts d : id_start d = true ->
  is_space d = false /\ (d =? 47) = false /\ is_digit d = false /\ d <> 61.
Proof.
  unfold id_start, is_alpha, is_space, is_digit, between. lia.
Qed.
Lemma lx_word s r ts : is_word_codes (codes s) = true -> follows r ->
  Lexes r ts -> Lexes (codes s ++ r) (word s :: ts).
Proof.
  intros Hw Hf H. refine (Lx_step _ (Some _) _ _ _ _ H).
  - pose proof (of_codes_codes s) as Hs. destruct (codes s) as [|d w] eqn:E; [discriminate|].
    cbn [is_word_codes] in Hw. apply andb_true_iff in Hw. destruct Hw as [Hd Hw].
    destruct (id_start_facts d Hd) as [A [B _]]. cbn [app lex1]. rewrite A, B, Hd. cbn [andb].
    unfold lex_word. change (d :: w ++ r) with ((d :: w) ++ r). rewrite span_app.
    + rewrite (follows_not_quote r Hf). now rewrite Hs.
    + cbn [forallb]. now rewrite (id_start_char d Hd), Hw.
    + apply follows_not_id, Hf.
  - rewrite app_length. destruct (codes s); [discriminate|]. cbn. lia.
Qed.
(* between back quotes *)
Lemma lx_esc s r ts : codes s <> [] -> forallb esc_char (codes s) = true ->
  Lexes r ts -> Lexes (96 :: codes s ++ 96 :: r) (TEsc s :: ts).
Proof.
  intros Hn He H. refine (Lx_step _ (Some _) _ _ _ _ H).
  - unfold lex1. change (is_space 96) with false. change (96 =? 47) with false. change (id_start 96) with false.
    change (is_digit 96) with false. change (96 =? 46) with false. cbn [andb starts_quote].
    change ((96 =? 34) || (96 =? 39)) with false. change (96 =? 96) with true. cbn [andb]. cbv iota beta.
    rewrite (span_app esc_char (codes s) (96 :: r) He eq_refl).
    pose proof (of_codes_codes s) as Hs. destruct (codes s) as [|d w]; [easy|]. now rewrite Hs.
  - cbn. rewrite app_length. cbn. lia.
Qed.

(* ---- numbers ---- *)
Lemma codes_digits d : forallb is_digit (codes (NilEmpty.string_of_uint d)) = true.
Proof. induction d; cbn [NilEmpty.string_of_uint]; rewrite ?codes_cons; cbn [forallb]; rewrite ?IHd; reflexivity. Qed.
Definition digits_of (n : Z) : string := NilEmpty.string_of_uint (N.to_uint (Z.to_N n)).
Lemma digits_nonempty n : codes (digits_of n) <> [].
Proof.
  unfold digits_of. intros H.
  assert (E : N.to_uint (Z.to_N n) = Decimal.Nil).
  { destruct (N.to_uint (Z.to_N n)); [reflexivity|..]; discriminate. }
  pose proof (DecimalN.Unsigned.of_to (Z.to_N n)) as A. pose proof (DecimalN.Unsigned.to_of (N.to_uint (Z.to_N n))) as B.
  rewrite A in B. rewrite E in B. cbn in B. discriminate.
Qed.
Lemma digits_value n : 0 <= n ->
  option_map (fun d => Z.of_N (N.of_uint d)) (NilEmpty.uint_of_string (digits_of n)) = Some n.
Proof.
  intros Hn. unfold digits_of. rewrite NilEmpty.usu. cbn [option_map]. rewrite DecimalN.Unsigned.of_to.
  now rewrite Z2N.id.
Qed.
Definition int_follow (r : list Z) : Prop := follows r.
Lemma lex_number_digits w r : w <> [] -> forallb is_digit w = true -> follows r ->
  lex_number (w ++ r) = (TNumInt (of_codes w), r) /\ lex_number (w ++ 117 :: r) = (TNumUint (of_codes (w ++ [117])), r).
Proof.
  intros Hn Hw Hf.
  assert (X : forall r', match r' with c :: _ => (c =? 120) = false /\ is_digit c = false | [] => True end ->
     lex_number (w ++ r') =
      match r' with
      | c :: r'' =>
          match (if c =? 46 then span is_digit r'' else ([], r'')) with
          | ((_ :: _) as f, r2) =>
              let '(x, r3) := opt_exponent r2 in (TNumFloat (of_codes (w ++ 46 :: f ++ x)), r3)
          | ([], _) =>
              match scan_exponent r' with
              | Some (x, r3) => (TNumFloat (of_codes (w ++ x)), r3)
              | None =>
                  if (c =? 117) || (c =? 85) then (TNumUint (of_codes (w ++ [c])), r'')
                  else (TNumInt (of_codes w), r')
              end
          end
      | [] => (TNumInt (of_codes w), r')
      end).
  { intros r' Hr'.
    assert (S : span is_digit (w ++ r') = (w, r')).
    { apply span_app; [exact Hw|]. destruct r' as [|c r']; [easy|]. apply Hr'. }
    assert (N : match w ++ r' with 48 :: 120 :: _ :: _ => False | _ => True end).
    { destruct w as [|a w]; [easy|]. cbn [forallb] in Hw. apply andb_true_iff in Hw. destruct Hw as [Ha Hw].
      destruct w as [|b w].
      - destruct r' as [|c r']; cbn [app].
        + destruct a as [|p|p]; try exact I; repeat (destruct p as [p|p|]; try exact I).
        + destruct (Z.eqb_spec c 120) as [->|Nc]; [now destruct Hr'|].
          destruct a as [|p|p]; try exact I; repeat (destruct p as [p|p|]; try exact I).
          destruct c as [|p|p]; try exact I; repeat (destruct p as [p|p|]; try exact I).
          exfalso. now apply Nc.
      - cbn [app forallb] in *. apply andb_true_iff in Hw. destruct Hw as [Hb _].
        destruct (Z.eqb_spec b 120) as [->|Nc]; [discriminate|].
        destruct a as [|p|p]; try exact I; repeat (destruct p as [p|p|]; try exact I).
        destruct b as [|p|p]; try exact I; repeat (destruct p as [p|p|]; try exact I).
        exfalso. now apply Nc. }
    unfold lex_number. rewrite S.
    destruct (w ++ r') as [|a [|b [|h t]]] eqn:E; try reflexivity;
    try (destruct a as [|p|p]; try reflexivity; repeat (destruct p as [p|p|]; try reflexivity);
         destruct b as [|p|p]; try reflexivity; repeat (destruct p as [p|p|]; try reflexivity)).
    destruct N. }
  split.
  - rewrite X.
    + destruct r as [|c r]; [reflexivity|]. cbn [follows] in Hf. destruct Hf as [Hc|[-> Hd]].
      * cbn [In] in Hc. repeat (destruct Hc as [<-|Hc]; [reflexivity|]). destruct Hc.
      * change (46 =? 46) with true. cbv iota. destruct r as [|d r]; [reflexivity|].
        cbn [span]. rewrite Hd. reflexivity.
    + destruct r as [|c r]; [easy|]. cbn [follows] in Hf. destruct Hf as [Hc|[-> Hd]]; [|easy].
      cbn [In] in Hc. repeat (destruct Hc as [<-|Hc]; [easy|]). destruct Hc.
  - rewrite X by easy. destruct r as [|c r]; reflexivity.
Qed.
Lemma digit_facts d : is_digit d = true -> is_space d = false /\ (d =? 47) = false /\ id_start d = false /\ d <> 61.
Proof. unfold is_digit, is_space, id_start, is_alpha, between. lia. Qed.
Lemma lx_int n r ts : follows r -> Lexes r ts -> Lexes (codes (digits_of n) ++ r) (TNumInt (digits_of n) :: ts).
Proof.
  intros Hf H. refine (Lx_step _ (Some _) _ _ _ _ H).
  - destruct (lex_number_digits _ r (digits_nonempty n) (codes_digits _) Hf) as [E _].
    rewrite of_codes_codes in E. pose proof (digits_nonempty n) as N. pose proof (codes_digits (N.to_uint (Z.to_N n))) as D.
    fold (digits_of n) in D. destruct (codes (digits_of n)) as [|d w]; [easy|].
    cbn [forallb] in D. apply andb_true_iff in D. destruct D as [D _]. destruct (digit_facts d D) as [A [B [C _]]].
    cbn [app lex1] in *. rewrite A, B, C, D, E. reflexivity.
  - rewrite app_length. pose proof (digits_nonempty n). destruct (codes (digits_of n)); [easy|]. cbn. lia.
Qed.
Lemma lx_uint n r ts : follows r -> Lexes r ts ->
  Lexes (codes (digits_of n) ++ 117 :: r) (TNumUint (digits_of n ++ "u") :: ts).
Proof.
  intros Hf H. refine (Lx_step _ (Some _) _ _ _ _ H).
  - destruct (lex_number_digits _ r (digits_nonempty n) (codes_digits _) Hf) as [_ E].
    assert (X : of_codes (codes (digits_of n) ++ [117]) = (digits_of n ++ "u")%string).
    { rewrite <- (of_codes_codes (digits_of n ++ "u")), codes_app. reflexivity. }
    rewrite X in E. pose proof (digits_nonempty n) as N. pose proof (codes_digits (N.to_uint (Z.to_N n))) as D.
    fold (digits_of n) in D. destruct (codes (digits_of n)) as [|d w]; [easy|].
    cbn [forallb] in D. apply andb_true_iff in D. destruct D as [D _]. destruct (digit_facts d D) as [A [B [C _]]].
    cbn [app lex1] in *. rewrite A, B, C, D, E. reflexivity.
  - rewrite app_length. cbn. lia.
Qed.
