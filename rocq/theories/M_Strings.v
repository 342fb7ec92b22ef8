(* Model of internal/strings.cc: escaping, unescaping and parsing of string and
   bytes literals.  Characters are bytes, 0..255, as in M_Utf8.  Error messages
   are not modelled: every failure is [bad]. *)
From Coq Require Import ZArith String List Bool.
From Verif Require Import Base M_Utf8.
Import ListNotations.
Open Scope Z_scope.
Local Open Scope out_scope.

Definition bad {A} : out A := Err (mkStatus kInvalidArgument ""%string).

(* Characters by name. *)
Definition ch_bslash := 92.   (* \ *)
Definition ch_dquote := 34.   (* double quote *)
Definition ch_squote := 39.   (* single quote *)
Definition ch_bquote := 96.   (* back quote *)
Definition ch_cr := 13.
Definition ch_lf := 10.

(* absl::ascii_isprint, absl::ascii_isxdigit *)
Definition ascii_isprint (c : Z) : bool := (32 <=? c) && (c <=? 126).
Definition ascii_isxdigit (c : Z) : bool :=
  ((48 <=? c) && (c <=? 57)) || ((65 <=? c) && (c <=? 70)) || ((97 <=? c) && (c <=? 102)).

(* strings.cc:35 *)
Definition kHexTable (n : Z) : Z :=
  nth (Z.to_nat n) [48; 49; 50; 51; 52; 53; 54; 55; 56; 57; 97; 98; 99; 100; 101; 102] 0.
(* strings.cc:37-42; char arithmetic does not overflow on hex digits *)
Definition HexDigitToInt (x : Z) : Z :=
  let x := if x >? 57 then x + 9 else x in Z.land x 15.
(* strings.cc:44 *)
Definition IsOctalDigit (x : Z) : bool := (x >=? 48) && (x <=? 55).

Fixpoint starts_with (s p : list Z) : bool :=
  match p, s with
  | [], _ => true
  | a :: p', b :: s' => (a =? b) && starts_with s' p'
  | _ :: _, [] => false
  end.

(* strings.cc:61-76, the loop; the state is the text from p on and is_closed;
   None is the early `return false`. *)
Fixpoint closing_loop (closing_str s : list Z) (is_closed : bool) : option bool :=
  if Nat.ltb (length s) (length closing_str) then Some is_closed else
  match s with
  | [] => Some is_closed
  | c :: t =>
    if negb (c =? ch_bslash) then
      let is_closing := starts_with s closing_str in
      if is_closing && Nat.ltb (length closing_str) (length s) then None
      else closing_loop closing_str t (is_closing && Nat.eqb (length closing_str) (length s))
    else match t with [] => Some is_closed | _ :: t' => closing_loop closing_str t' is_closed end
  end.
(* strings.cc:53-86 *)
Definition CheckForClosingString (source closing_str : list Z) : bool :=
  match closing_str with
  | [] => true
  | _ => match closing_loop closing_str source false with Some true => true | _ => false end
  end.

(* The digit loops of strings.cc:237-253, 283-297: n digits in the given base. *)
Fixpoint read_octal (n : nat) (ch : Z) (s : list Z) : out (Z * list Z) :=
  match n with
  | O => Val (ch, s)
  | S n' => match s with
            | [] => UB
            | c :: t => if IsOctalDigit c then read_octal n' (ch * 8 + c - 48) t else bad
            end
  end.
Fixpoint read_hex (n : nat) (limit : option Z) (ch : Z) (s : list Z) : out (Z * list Z) :=
  match n with
  | O => Val (ch, s)
  | S n' => match s with
            | [] => UB
            | c :: t =>
              if ascii_isxdigit c then
                let ch' := Z.shiftl ch 4 + HexDigitToInt c in
                match limit with
                | Some l => if ch' >? l then bad else read_hex n' limit ch' t
                | None => read_hex n' limit ch' t
                end
              else bad
            end
  end.

(* The escape switch, strings.cc:171-431: given the text after the backslash,
   the bytes written to dest and the remaining text. *)
Definition unescape_one (is_bytes_literal : bool) (s : list Z) : out (list Z * list Z) :=
  match s with
  | [] => UB
  | c :: t =>
    if c =? 97 then Val ([7], t)            (* \a *)
    else if c =? 98 then Val ([8], t)       (* \b *)
    else if c =? 102 then Val ([12], t)     (* \f *)
    else if c =? 110 then Val ([10], t)     (* \n *)
    else if c =? 114 then Val ([13], t)     (* \r *)
    else if c =? 116 then Val ([9], t)      (* \t *)
    else if c =? 118 then Val ([11], t)     (* \v *)
    else if c =? ch_bslash then Val ([ch_bslash], t)
    else if c =? 63 then Val ([63], t)      (* \? *)
    else if c =? ch_squote then Val ([ch_squote], t)
    else if c =? ch_dquote then Val ([ch_dquote], t)
    else if c =? ch_bquote then Val ([ch_bquote], t)
    else if (c =? 48) || (c =? 49) || (c =? 50) || (c =? 51) then
      (* octal, strings.cc:212-261 *)
      if Nat.leb (length s) 2 then bad else
      r <- read_octal 3 0 s ;;
      let '(ch, rest) := r in
      Val (if is_bytes_literal then [to_uint8 ch] else Utf8Encode ch, rest)
    else if (c =? 120) || (c =? 88) then
      (* \x \X, strings.cc:262-305 *)
      if Nat.leb (length s) 2 then bad else
      r <- read_hex 2 None 0 t ;;
      let '(ch, rest) := r in
      Val (if is_bytes_literal then [to_uint8 ch] else Utf8Encode ch, rest)
    else if c =? 117 then
      (* \u, strings.cc:306-356 *)
      if is_bytes_literal then bad else
      if Nat.leb (length s) 4 then bad else
      r <- read_hex 4 None 0 t ;;
      let '(cp, rest) := r in
      if UnicodeIsValid cp then Val (Utf8Encode cp, rest) else bad
    else if c =? 85 then
      (* \U, strings.cc:357-415 *)
      if is_bytes_literal then bad else
      if Nat.leb (length s) 8 then bad else
      r <- read_hex 8 (Some 1114111) 0 t ;;
      let '(cp, rest) := r in
      if UnicodeIsValid cp then Val (Utf8Encode cp, rest) else bad
    else bad  (* \r, \n and every other character, strings.cc:416-431 *)
  end.

(* The main loop, strings.cc:139-436; the result is what is appended to dest. *)
Fixpoint unescape_loop (fuel : nat) (is_raw_literal is_bytes_literal : bool) (s : list Z)
  : out (list Z) :=
  match fuel with
  | O => UB
  | S fuel' =>
    match s with
    | [] => Val []
    | c :: t =>
      if negb (c =? ch_bslash) then
        if negb (c =? ch_cr) then
          d <- unescape_loop fuel' is_raw_literal is_bytes_literal t ;; Val (c :: d)
        else
          let t' := match t with c' :: t'' => if c' =? ch_lf then t'' else t | [] => t end in
          d <- unescape_loop fuel' is_raw_literal is_bytes_literal t' ;; Val (ch_lf :: d)
      else
        match t with
        | [] => bad
        | c' :: t' =>
          if is_raw_literal then
            d <- unescape_loop fuel' is_raw_literal is_bytes_literal t' ;; Val (c :: c' :: d)
          else
            r <- unescape_one is_bytes_literal t ;;
            let '(w, rest) := r in
            d <- unescape_loop fuel' is_raw_literal is_bytes_literal rest ;; Val (w ++ d)
        end
    end
  end.

(* strings.cc:110-441 *)
Definition UnescapeInternal (source closing_str : list Z) (is_raw_literal is_bytes_literal : bool)
  : out (list Z) :=
  if negb (CheckForClosingString source closing_str) then bad else
  match source with
  | [] => Val []
  | _ =>
    let source := firstn (length source - length closing_str) source in
    v <- (if is_bytes_literal then Val true else Utf8IsValid source) ;;
    if negb v then bad else
    unescape_loop (S (length source)) is_raw_literal is_bytes_literal source
  end.

(* strings.cc:444-500; [esc_loop] is the loop, its argument last_hex_escape. *)
Definition escape_char (escape_all_bytes : bool) (escape_quote_char : Z) (last_hex_escape : bool) (c : Z)
  : list Z * bool :=
  if c =? ch_lf then ([ch_bslash; 110], false)
  else if c =? ch_cr then ([ch_bslash; 114], false)
  else if c =? 9 then ([ch_bslash; 116], false)
  else if c =? ch_bslash then ([ch_bslash; ch_bslash], false)
  else if (c =? ch_squote) || (c =? ch_dquote) || (c =? ch_bquote) then
    ((if (escape_quote_char =? 0) || (c =? escape_quote_char) then [ch_bslash; c] else [c]), false)
  else if (negb escape_all_bytes || (c <? 128)) &&
          (negb (ascii_isprint c) || (last_hex_escape && ascii_isxdigit c))
  then ([ch_bslash; 120; kHexTable (c / 16); kHexTable (c mod 16)], true)
  else ([c], false).
Fixpoint esc_loop (escape_all_bytes : bool) (escape_quote_char : Z) (last_hex_escape : bool) (s : list Z)
  : list Z :=
  match s with
  | [] => []
  | c :: t =>
    let '(w, hex) := escape_char escape_all_bytes escape_quote_char last_hex_escape c in
    w ++ esc_loop escape_all_bytes escape_quote_char hex t
  end.
Definition EscapeInternal (src : list Z) (escape_all_bytes : bool) (escape_quote_char : Z) : list Z :=
  esc_loop escape_all_bytes escape_quote_char false src.

(* strings.cc:502-530 *)
Definition ends_with (s p : list Z) : bool := starts_with (rev s) (rev p).
Definition last_char (s : list Z) : Z := last s 0.
Definition is_quote (c : Z) : bool := (c =? ch_squote) || (c =? ch_dquote).
Definition MayBeTripleQuotedString (s : list Z) : bool :=
  Nat.leb 6 (length s) &&
  ((starts_with s [ch_dquote; ch_dquote; ch_dquote] && ends_with s [ch_dquote; ch_dquote; ch_dquote])
   || (starts_with s [ch_squote; ch_squote; ch_squote] && ends_with s [ch_squote; ch_squote; ch_squote])).
Definition MayBeStringLiteral (s : list Z) : bool :=
  Nat.leb 2 (length s) && (nth 0 s 0 =? last_char s) && is_quote (nth 0 s 0).
(* absl::StartsWithIgnoreCase(str, "b"), with c the lower case letter *)
Definition is_letter (c : Z) (x : Z) : bool := (x =? c) || (x =? c - 32).
Definition MayBeBytesLiteral (s : list Z) : bool :=
  Nat.leb 3 (length s) && is_letter 98 (nth 0 s 0) && (nth 1 s 0 =? last_char s) && is_quote (nth 1 s 0).
Definition MayBeRawStringLiteral (s : list Z) : bool :=
  Nat.leb 3 (length s) && is_letter 114 (nth 0 s 0) && (nth 1 s 0 =? last_char s) && is_quote (nth 1 s 0).
Definition MayBeRawBytesLiteral (s : list Z) : bool :=
  Nat.leb 4 (length s) &&
  ((is_letter 114 (nth 0 s 0) && is_letter 98 (nth 1 s 0)) ||
   (is_letter 98 (nth 0 s 0) && is_letter 114 (nth 1 s 0))) &&
  (nth 2 s 0 =? last_char s) && is_quote (nth 2 s 0).

(* strings.cc:532-554 *)
Definition UnescapeString (s : list Z) : out (list Z) := UnescapeInternal s [] false false.
Definition UnescapeBytes (s : list Z) : out (list Z) := UnescapeInternal s [] false true.
Definition EscapeString (s : list Z) : list Z := EscapeInternal s true 0.

(* strings.cc:556-589; absl::BytesToHexString gives lower case digits *)
Definition escape_byte (escape_all_bytes : bool) (escape_quote_char : Z) (c : Z) : list Z :=
  if escape_all_bytes || negb (ascii_isprint c)
  then [ch_bslash; 120; kHexTable (c / 16); kHexTable (c mod 16)]
  else if c =? ch_bslash then [ch_bslash; ch_bslash]
  else if (c =? ch_squote) || (c =? ch_dquote) || (c =? ch_bquote) then
    (if (escape_quote_char =? 0) || (c =? escape_quote_char) then [ch_bslash] else []) ++ [c]
  else [c].
Definition EscapeBytes (s : list Z) (escape_all_bytes : bool) (escape_quote_char : Z) : list Z :=
  flat_map (escape_byte escape_all_bytes escape_quote_char) s.

(* The common tail of the two literal parsers: strings.cc:605-616 and 634-648. *)
Definition parse_quoted (copy_str : list Z) (raw is_bytes : bool) : out (list Z) :=
  let quotes_length := if MayBeTripleQuotedString copy_str then 3%nat else 1%nat in
  let quotes := firstn quotes_length copy_str in
  UnescapeInternal (skipn quotes_length copy_str) quotes raw is_bytes.
(* strings.cc:591-617 *)
Definition ParseStringLiteral (s : list Z) : out (list Z) :=
  let is_string_literal := MayBeStringLiteral s in
  let is_raw_string_literal := MayBeRawStringLiteral s in
  if negb is_string_literal && negb is_raw_string_literal then bad else
  parse_quoted (if is_raw_string_literal then skipn 1 s else s) is_raw_string_literal false.
(* strings.cc:619-649 *)
Definition ParseBytesLiteral (s : list Z) : out (list Z) :=
  let is_bytes_literal := MayBeBytesLiteral s in
  let is_raw_bytes_literal := MayBeRawBytesLiteral s in
  if negb is_bytes_literal && negb is_raw_bytes_literal then bad else
  parse_quoted (if is_raw_bytes_literal then skipn 2 s else skipn 1 s) is_raw_bytes_literal true.

(* strings.cc:651-684 *)
Definition has_char (c : Z) (s : list Z) : bool := existsb (Z.eqb c) s.
Definition choose_quote (s : list Z) : Z :=
  if has_char ch_dquote s && negb (has_char ch_squote s) then ch_squote else ch_dquote.
Definition FormatStringLiteral (s : list Z) : list Z :=
  let quote := choose_quote s in [quote] ++ EscapeInternal s true quote ++ [quote].
Definition FormatSingleQuotedStringLiteral (s : list Z) : list Z :=
  [ch_squote] ++ EscapeInternal s true ch_squote ++ [ch_squote].
Definition FormatDoubleQuotedStringLiteral (s : list Z) : list Z :=
  [ch_dquote] ++ EscapeInternal s true ch_dquote ++ [ch_dquote].
Definition FormatBytesLiteral (s : list Z) : list Z :=
  let quote := choose_quote s in [98] ++ [quote] ++ EscapeBytes s false quote ++ [quote].
Definition FormatSingleQuotedBytesLiteral (s : list Z) : list Z :=
  [98; ch_squote] ++ EscapeBytes s false ch_squote ++ [ch_squote].
Definition FormatDoubleQuotedBytesLiteral (s : list Z) : list Z :=
  [98; ch_dquote] ++ EscapeBytes s false ch_dquote ++ [ch_dquote].
