(* Model of the lexer of parser/internal/Cel.g4 (the lexer rules, lines 117-207).
   A text is a list of bytes; the bytes of a multi-byte character occur within
   string literals and comments only, where the rules treat them alike.  At each
   point the longest match wins, and between equally long ones the first rule. *)
From Coq Require Import ZArith String Ascii List Bool.
From Verif Require Import Base M_Utf8 M_Strings.
Import ListNotations.
Open Scope list_scope.
Open Scope Z_scope.

(* Cel.g4:117-144 *)
Inductive sym :=
| EqEq | NotEq | KwIn | Less | LessEq | GreaterEq | Greater | AndAnd | OrOr
| LBracket | RBracket | LBrace | RBrace | LParen | RParen | Dot | Comma | Minus
| Bang | Question | Colon | Plus | Star | Slash | Percent.
(* Number tokens and names carry their text, escaped identifiers what is
   between the back quotes, strings and bytes the whole literal. *)
Inductive token :=
| S_ (s : sym) | TTrue | TFalse | TNull
| TId (s : string) | TEsc (s : string)
| TNumInt (s : string) | TNumUint (s : string) | TNumFloat (s : string)
| TString (text : list Z) | TBytes (text : list Z).

Definition codes (s : string) : list Z := map (fun c => Z.of_N (N_of_ascii c)) (list_ascii_of_string s).
Definition of_codes (l : list Z) : string := string_of_list_ascii (map (fun c => ascii_of_N (Z.to_N c)) l).

Definition between (lo hi c : Z) : bool := (lo <=? c) && (c <=? hi).
(* Cel.g4:147-150 LETTER, DIGIT, HEXDIGIT *)
Definition is_alpha (c : Z) : bool := between 65 90 c || between 97 122 c.
Definition is_digit (c : Z) : bool := between 48 57 c.
Definition is_hex (c : Z) : bool := ascii_isxdigit c.
(* Cel.g4:206 IDENTIFIER *)
Definition id_start (c : Z) : bool := is_alpha c || (c =? 95).
Definition id_char (c : Z) : bool := is_alpha c || is_digit c || (c =? 95).
(* Cel.g4:207 ESC_IDENTIFIER *)
Definition esc_char (c : Z) : bool :=
  is_alpha c || is_digit c || (c =? 95) || (c =? 46) || (c =? 45) || (c =? 47) || (c =? 32).
(* Cel.g4:177 WHITESPACE *)
Definition is_space (c : Z) : bool := (c =? 9) || (c =? 32) || (c =? 13) || (c =? 10) || (c =? 12).

Fixpoint span (f : Z -> bool) (s : list Z) : list Z * list Z :=
  match s with
  | c :: r => if f c then let '(a, b) := span f r in (c :: a, b) else ([], s)
  | [] => ([], [])
  end.
Definition cons_fst (w : list Z) (o : option (list Z * list Z)) : option (list Z * list Z) :=
  match o with Some (a, b) => Some (w ++ a, b) | None => None end.

(* Cel.g4:160-162 ESC_CHAR_SEQ: abfnrtv, quotes, backslash, question mark *)
Definition esc_letter (c : Z) : bool :=
  existsb (Z.eqb c) [97; 98; 102; 110; 114; 116; 118; 34; 39; 92; 63; 96].
(* Cel.g4:153-175 ESC_SEQ after the backslash: how many characters it takes *)
Definition esc_length (s : list Z) : option nat :=
  match s with
  | c :: r =>
      if esc_letter c then Some 1%nat
      else if between 48 51 c then
        match r with
        | d :: e :: _ => if IsOctalDigit d && IsOctalDigit e then Some 3%nat else None
        | _ => None
        end
      else if (c =? 120) || (c =? 88) then
        if Nat.leb 2 (length r) && forallb is_hex (firstn 2 r) then Some 3%nat else None
      else if c =? 117 then
        if Nat.leb 4 (length r) && forallb is_hex (firstn 4 r) then Some 5%nat else None
      else if c =? 85 then
        if Nat.leb 8 (length r) && forallb is_hex (firstn 8 r) then Some 9%nat else None
      else None
  | [] => None
  end.
(* Cel.g4:195-202: the part of a literal after its opening quotes, closing
   quotes included; fuel bounds the length.  One quote [q] (multi false) or three. *)
Fixpoint scan (fuel : nat) (q : Z) (multi raw : bool) (s : list Z) : option (list Z * list Z) :=
  match fuel with
  | O => None
  | S n =>
      match s with
      | [] => None
      | c :: r =>
          if multi && starts_with s [q; q; q] then Some (firstn 3 s, skipn 3 s)
          else if negb multi && (c =? q) then Some ([c], r)
          else if negb multi && ((c =? 10) || (c =? 13)) then None
          else if negb raw && (c =? 92) then
            match esc_length r with
            | Some k => cons_fst (firstn (S k) s) (scan n q multi raw (skipn (S k) s))
            | None => None
            end
          else cons_fst [c] (scan n q multi raw r)
      end
  end.
(* a literal that starts with a quote: three quotes if they are closed *)
Definition scan_string (raw : bool) (s : list Z) : option (list Z * list Z) :=
  match s with
  | q :: r =>
      if (q =? 34) || (q =? 39) then
        match (if starts_with s [q; q; q]
               then cons_fst [q; q; q] (scan (length s) q true raw (skipn 3 s)) else None) with
        | Some x => Some x
        | None => cons_fst [q] (scan (length s) q false raw r)
        end
      else None
  | [] => None
  end.

(* Cel.g4:150 EXPONENT *)
Definition scan_exponent (s : list Z) : option (list Z * list Z) :=
  match s with
  | c :: r =>
      if (c =? 101) || (c =? 69) then
        match r with
        | d :: r' =>
            if (d =? 43) || (d =? 45) then
              match span is_digit r' with
              | ([], _) => None
              | (w, r2) => Some (c :: d :: w, r2)
              end
            else match span is_digit r with
                 | ([], _) => None
                 | (w, r2) => Some (c :: w, r2)
                 end
        | [] => None
        end
      else None
  | [] => None
  end.
Definition opt_exponent (s : list Z) : list Z * list Z :=
  match scan_exponent s with Some x => x | None => ([], s) end.
(* Cel.g4:180-193 NUM_FLOAT, NUM_INT, NUM_UINT on a text that starts with a digit *)
Definition lex_number (s : list Z) : token * list Z :=
  match s with
  | 48 :: 120 :: ((h :: _) as r) =>
      if is_hex h then
        let '(w, r') := span is_hex r in
        match r' with
        | u :: r2 => if (u =? 117) || (u =? 85) then (TNumUint (of_codes (48 :: 120 :: w ++ [u])), r2)
                     else (TNumInt (of_codes (48 :: 120 :: w)), r')
        | [] => (TNumInt (of_codes (48 :: 120 :: w)), r')
        end
      else (TNumInt (of_codes [48]), 120 :: r)
  | _ =>
      let '(w, r) := span is_digit s in
      match r with
      | c :: r' =>
          match (if c =? 46 then span is_digit r' else ([], r')) with
          | ((_ :: _) as f, r2) =>
              let '(x, r3) := opt_exponent r2 in (TNumFloat (of_codes (w ++ 46 :: f ++ x)), r3)
          | ([], _) =>
              match scan_exponent r with
              | Some (x, r3) => (TNumFloat (of_codes (w ++ x)), r3)
              | None =>
                  if (c =? 117) || (c =? 85) then (TNumUint (of_codes (w ++ [c])), r')
                  else (TNumInt (of_codes w), r)
              end
          end
      | [] => (TNumInt (of_codes w), r)
      end
  end.
(* Cel.g4:119, 142-144 the keywords come before IDENTIFIER *)
Definition word (s : string) : token :=
  if String.eqb s "in" then S_ KwIn else if String.eqb s "true" then TTrue
  else if String.eqb s "false" then TFalse else if String.eqb s "null" then TNull else TId s.
Definition starts_quote (s : list Z) : bool :=
  match s with c :: _ => (c =? 34) || (c =? 39) | [] => false end.
(* Cel.g4:151 RAW, 204 BYTES: what the letters before a quote make of it *)
Definition lex_word (s : list Z) : token * list Z :=
  let '(w, r) := span id_char s in
  let plain := (word (of_codes w), r) in
  if starts_quote r then
    let bytes_ raw := match scan_string raw r with Some (t, r') => (TBytes (w ++ t), r') | None => plain end in
    match map (fun c => if c <? 97 then c + 32 else c) w with
    | [114] => match scan_string true r with Some (t, r') => (TString (w ++ t), r') | None => plain end
    | [98] => bytes_ false
    | [98; 114] => bytes_ true
    | _ => plain
    end
  else plain.
(* Cel.g4:117-141 *)
Definition lex_symbol (s : list Z) : option (sym * list Z) :=
  match s with
  | c :: r =>
      let two d x y := match r with c2 :: r' => if c2 =? d then Some (x, r') else y | [] => y end in
      if c =? 61 then two 61 EqEq None
      else if c =? 33 then two 61 NotEq (Some (Bang, r))
      else if c =? 60 then two 61 LessEq (Some (Less, r))
      else if c =? 62 then two 61 GreaterEq (Some (Greater, r))
      else if c =? 38 then two 38 AndAnd None
      else if c =? 124 then two 124 OrOr None
      else if c =? 91 then Some (LBracket, r)
      else if c =? 93 then Some (RBracket, r)
      else if c =? 123 then Some (LBrace, r)
      else if c =? 125 then Some (RBrace, r)
      else if c =? 40 then Some (LParen, r)
      else if c =? 41 then Some (RParen, r)
      else if c =? 46 then Some (Dot, r)
      else if c =? 44 then Some (Comma, r)
      else if c =? 45 then Some (Minus, r)
      else if c =? 63 then Some (Question, r)
      else if c =? 58 then Some (Colon, r)
      else if c =? 43 then Some (Plus, r)
      else if c =? 42 then Some (Star, r)
      else if c =? 47 then Some (Slash, r)
      else if c =? 37 then Some (Percent, r)
      else None
  | [] => None
  end.
(* the next token (None for white space and comments, which are hidden) *)
Definition lex1 (s : list Z) : option (option token * list Z) :=
  match s with
  | [] => None
  | c :: r =>
      if is_space c then Some (None, r)
      else if (c =? 47) && starts_with r [47] then Some (None, snd (span (fun x => negb (x =? 10)) s))
      else if id_start c then let '(t, r') := lex_word s in Some (Some t, r')
      else if is_digit c then let '(t, r') := lex_number s in Some (Some t, r')
      else if (c =? 46) && match r with d :: _ => is_digit d | [] => false end then
        let '(w, r1) := span is_digit r in
        let '(x, r2) := opt_exponent r1 in Some (Some (TNumFloat (of_codes (46 :: w ++ x))), r2)
      else if starts_quote s then
        match scan_string false s with Some (t, r') => Some (Some (TString t), r') | None => None end
      else if c =? 96 then
        match span esc_char r with
        | ((_ :: _) as w, 96 :: r') => Some (Some (TEsc (of_codes w)), r')
        | _ => None
        end
      else match lex_symbol s with Some (x, r') => Some (Some (S_ x), r') | None => None end
  end.
Definition add_token (o : option token) (l : list token) : list token :=
  match o with Some t => t :: l | None => l end.
Fixpoint lex_loop (fuel : nat) (s : list Z) : option (list token) :=
  match s, fuel with
  | [], _ => Some []
  | _, O => None
  | _, S n =>
      match lex1 s with
      | Some (o, r) => match lex_loop n r with Some l => Some (add_token o l) | None => None end
      | None => None
      end
  end.
Definition lex (s : list Z) : option (list token) := lex_loop (length s) s.
