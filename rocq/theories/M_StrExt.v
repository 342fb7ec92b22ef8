(* Model of the string functions of the strings extension:
   common/values/string_value.cc:180-1516, common/internal/byte_string.cc:302-398
   and the wrappers of extensions/strings.cc:60-176.

   A StringValue holds a ByteString of one of three kinds: small and medium ones
   are contiguous (an absl::string_view), large ones are an absl::Cord, here the
   list of its chunks.  absl::string_view and absl::Cord operations that only
   depend on the bytes (size, ==, StartsWith, EndsWith, find, Contains, substr,
   Subcord) are modelled on the bytes.  Results are the bytes of the string;
   which kind the result is, arenas and reference counts are not modelled.

   A result of type cel::Value that is an ErrorValue is an [Err].  Counters of
   type size_t and int64_t that count bytes or code points of a string do not
   wrap; parameters of type int64_t are integers in Z.  Loops take a fuel
   argument; running out of it is UB. *)
From Coq Require Import ZArith String List Bool.
From Verif Require Import Base M_Utf8 M_Strings.
Import ListNotations.
Local Open Scope string_scope.
Open Scope list_scope.
Open Scope Z_scope.
Local Open Scope out_scope.

(* common/internal/byte_string.h: ByteStringKind and ByteString *)
Inductive text := Flat (s : list Z) | Large (chunks : list (list Z)).
Definition content (t : text) : list Z :=
  match t with Flat s => s | Large chunks => concat chunks end.
(* ByteString::size *)
Definition size (t : text) : nat := length (content t).

Definition invalid (msg : string) : status := mkStatus kInvalidArgument msg.

(* string_view::substr / Cord::Subcord / ByteString::Substring between two byte
   positions; ByteString::Substring checks them (byte_string.cc:378-379). *)
Definition slice (s : list Z) (pos npos : nat) : out (list Z) :=
  if Nat.leb pos npos && Nat.leb npos (length s) then Val (firstn (npos - pos) (skipn pos s)) else UB.

(** ** Reading a text code point by code point: the contiguous form with
    Utf8Decode(string_view) and remove_prefix, the Cord form with
    Utf8Decode(CharIterator) and RemovePrefix or Cord::Advance. *)
Definition flat_drop (n : nat) (s : list Z) : out (list Z) :=
  if Nat.leb n (length s) then Val (skipn n s) else UB.
Definition cord_drop (n : nat) (it : list (list Z)) : out (list (list Z)) :=
  if Nat.leb n (length (concat it)) then Val (cord_advance it n) else UB.

(* The loops below appear in the code once for string_view and once for Cord
   with the same text; they are written once, over the reader. *)
Section Reader.
  Context {V : Type}.
  Variable bytes_of : V -> list Z.
  Variable decode : V -> out (Z * nat).
  Variable drop : nat -> V -> out V.

  (* string_value.cc:236-250, 252-266, 272-286, 288-302 *)
  Fixpoint IndexOf_loop (fuel : nat) (string : list Z) (code_points : Z) (lhs : V) : out (option Z) :=
    match fuel with
    | O => UB
    | S fuel' =>
      if Nat.ltb (length (bytes_of lhs)) (length string) then Val None else
      if starts_with (bytes_of lhs) string then Val (Some code_points) else
      if Nat.eqb (length (bytes_of lhs)) (length string) then Val None else
      d <- decode lhs ;;
      lhs' <- drop (snd d) lhs ;;
      IndexOf_loop fuel' string (code_points + 1) lhs'
    end.

  (* string_value.cc:322-336, 338-352, 362-376, 378-392 *)
  Fixpoint IndexOf_from_loop (fuel : nat) (string : list Z) (pos code_points : Z) (lhs : V)
    : out (option Z) :=
    match fuel with
    | O => UB
    | S fuel' =>
      if Nat.ltb (length (bytes_of lhs)) (length string) then Val None else
      if (code_points >=? pos) && starts_with (bytes_of lhs) string then Val (Some code_points) else
      if Nat.eqb (length (bytes_of lhs)) (length string) then Val None else
      d <- decode lhs ;;
      lhs' <- drop (snd d) lhs ;;
      IndexOf_from_loop fuel' string pos (code_points + 1) lhs'
    end.

  (* string_value.cc:409-426, 427-444, 450-467, 468-485 *)
  Fixpoint LastIndexOf_loop (fuel : nat) (string : list Z) (last_index code_points : Z) (lhs : V)
    : out (option Z) :=
    match fuel with
    | O => UB
    | S fuel' =>
      let finish last_index := Val (if last_index <? 0 then None else Some last_index) in
      if Nat.ltb (length (bytes_of lhs)) (length string) then finish last_index else
      let last_index := if starts_with (bytes_of lhs) string then code_points else last_index in
      if Nat.eqb (length (bytes_of lhs)) (length string) then finish last_index else
      d <- decode lhs ;;
      lhs' <- drop (snd d) lhs ;;
      LastIndexOf_loop fuel' string last_index (code_points + 1) lhs'
    end.

  (* string_value.cc:505-522, 523-540, 549-566, 567-584 *)
  Fixpoint LastIndexOf_from_loop (fuel : nat) (string : list Z) (pos last_index code_points : Z) (lhs : V)
    : out (option Z) :=
    match fuel with
    | O => UB
    | S fuel' =>
      let finish last_index := Val (if last_index <? 0 then None else Some last_index) in
      if Nat.ltb (length (bytes_of lhs)) (length string) then finish last_index else
      let last_index := if starts_with (bytes_of lhs) string then code_points else last_index in
      if (code_points >=? pos) || Nat.eqb (length (bytes_of lhs)) (length string) then finish last_index else
      d <- decode lhs ;;
      lhs' <- drop (snd d) lhs ;;
      LastIndexOf_from_loop fuel' string pos last_index (code_points + 1) lhs'
    end.

  (* string_value.cc:600-619 and 621-643, the loop of SubstringImpl(start): the
     result tells whether the position was found inside the loop or after it. *)
  Fixpoint Substring_loop (fuel : nat) (start size_code_points : Z) (size_code_units : nat) (string : V)
    : out (option (bool * nat)) :=
    match fuel with
    | O => UB
    | S fuel' =>
      match bytes_of string with
      | [] => Val (if size_code_points =? start then Some (false, size_code_units) else None)
      | _ =>
        d <- decode string ;;
        if size_code_points =? start then Val (Some (true, size_code_units)) else
        string' <- drop (snd d) string ;;
        Substring_loop fuel' start (size_code_points + 1) (size_code_units + snd d) string'
      end
    end.

  (* string_value.cc:705-730 and 732-759, the loop of SubstringImpl(start, end);
     start_code_units is uninitialised at first. *)
  Fixpoint Substring_range_loop (fuel : nat) (start end_ size_code_points : Z) (size_code_units : nat)
      (start_code_units : option nat) (string : V) : out (option (nat * nat)) :=
    match fuel with
    | O => UB
    | S fuel' =>
      match bytes_of string with
      | [] => Val (if (size_code_points =? start) && (start =? end_)
                   then Some (size_code_units, size_code_units) else None)
      | _ =>
        let start_code_units :=
          if size_code_points =? start then Some size_code_units else start_code_units in
        if size_code_points =? end_ then
          match start_code_units with Some b => Val (Some (b, size_code_units)) | None => UB end
        else
        d <- decode string ;;
        string' <- drop (snd d) string ;;
        Substring_range_loop fuel' start end_ (size_code_points + 1) (size_code_units + snd d)
          start_code_units string'
      end
    end.

  (* string_value.cc:1462-1486 and 1487-1514 *)
  Fixpoint CharAt_loop (fuel : nat) (pos : Z) (rep : V) : out (list Z) :=
    match fuel with
    | O => UB
    | S fuel' =>
      match bytes_of rep with
      | [] => if pos =? 0 then Val [] else
              Err (invalid "<string>.charAt(<pos>): <pos> is greater than <string>.size()")
      | _ =>
        d <- decode rep ;;
        if pos =? 0 then Val (Utf8Encode (fst d)) else
        rep' <- drop (snd d) rep ;;
        CharAt_loop fuel' (pos - 1) rep'
      end
    end.

  (* The loop of Quote, string_value.cc:1136-1148 and 1149-1163, with
     AppendQuoteCodePoint 1097-1130. *)
  Definition AppendQuoteCodePoint (code_point : Z) : list Z :=
    if code_point =? 7 then [92; 97]
    else if code_point =? 8 then [92; 98]
    else if code_point =? 12 then [92; 102]
    else if code_point =? 10 then [92; 110]
    else if code_point =? 13 then [92; 114]
    else if code_point =? 9 then [92; 116]
    else if code_point =? 11 then [92; 118]
    else if code_point =? 92 then [92; 92]
    else if code_point =? 34 then [92; 34]
    else Utf8Encode code_point.
  Fixpoint Quote_loop (fuel : nat) (result : list Z) (rep : V) : out (list Z) :=
    match fuel with
    | O => UB
    | S fuel' =>
      match bytes_of rep with
      | [] => Val result
      | _ =>
        d <- decode rep ;;
        rep' <- drop (snd d) rep ;;
        Quote_loop fuel' (result ++ AppendQuoteCodePoint (fst d)) rep'
      end
    end.

  (* The loop of Reverse for a Cord, string_value.cc:1191-1201 *)
  Fixpoint collect_loop (fuel : nat) (code_points : list Z) (rep : V) : out (list Z) :=
    match fuel with
    | O => UB
    | S fuel' =>
      match bytes_of rep with
      | [] => Val code_points
      | _ =>
        d <- decode rep ;;
        rep' <- drop (snd d) rep ;;
        collect_loop fuel' (code_points ++ [fst d]) rep'
      end
    end.

  (* IsUnicodeWhitespace, string_value.cc:975-984 *)
  Definition IsUnicodeWhitespace (c : Z) : bool :=
    if c <=? 32 then (c =? 32) || ((c >=? 9) && (c <=? 13))
    else if c >? 12288 then false
    else if (c =? 133) || (c =? 160) || (c =? 5760) then true
    else if (c >=? 8192) && (c <=? 8202) then true
    else (c =? 8232) || (c =? 8233) || (c =? 8239) || (c =? 8287) || (c =? 12288).
  (* The first loop of TrimImpl, string_value.cc:987-1003 and 1020-1042 *)
  Fixpoint left_trim_loop (fuel left_trim_bytes : nat) (rep : V) : out nat :=
    match fuel with
    | O => UB
    | S fuel' =>
      match bytes_of rep with
      | [] => Val left_trim_bytes
      | _ =>
        d <- decode rep ;;
        if negb (IsUnicodeWhitespace (fst d)) then Val left_trim_bytes else
        rep' <- drop (snd d) rep ;;
        left_trim_loop fuel' (left_trim_bytes + snd d)%nat rep'
      end
    end.
  (* The second loop of TrimImpl, string_value.cc:1004-1016 and 1043-1059 *)
  Fixpoint right_trim_loop (fuel last_non_ws_end_bytes current_pos_bytes : nat) (rep : V) : out nat :=
    match fuel with
    | O => UB
    | S fuel' =>
      match bytes_of rep with
      | [] => Val last_non_ws_end_bytes
      | _ =>
        d <- decode rep ;;
        let last := if negb (IsUnicodeWhitespace (fst d)) then (current_pos_bytes + snd d)%nat
                    else last_non_ws_end_bytes in
        rep' <- drop (snd d) rep ;;
        right_trim_loop fuel' last (current_pos_bytes + snd d)%nat rep'
      end
    end.

  (* Split by the empty delimiter, string_value.cc:1315-1322 and 1323-1331: one
     element per code point while the limit allows.  The code reads at
     substr(pos) or Subcord(pos, len - pos) each time; here the rest is kept. *)
  Fixpoint Split_chars_loop (fuel : nat) (splits : list (nat * nat)) (pos : nat) (limit : Z) (rest : V)
    : out (list (nat * nat) * nat * Z) :=
    match fuel with
    | O => UB
    | S fuel' =>
      match bytes_of rest with
      | [] => Val (splits, pos, limit)
      | _ =>
        if limit >? 1 then
          d <- decode rest ;;
          rest' <- drop (snd d) rest ;;
          Split_chars_loop fuel' (splits ++ [(pos, pos + snd d)%nat]) (pos + snd d)%nat (limit - 1) rest'
        else Val (splits, pos, limit)
      end
    end.
  (* Replace of the empty needle, string_value.cc:1406-1414 and 1415-1424 *)
  Fixpoint Replace_chars_loop (fuel : nat) (whole replacement res_str : list Z) (pos : nat) (limit : Z)
      (rest : V) : out (list Z * nat * Z) :=
    match fuel with
    | O => UB
    | S fuel' =>
      match bytes_of rest with
      | [] => Val (res_str, pos, limit)
      | _ =>
        if limit >? 0 then
          d <- decode rest ;;
          piece <- slice whole pos (pos + snd d)%nat ;;
          rest' <- drop (snd d) rest ;;
          Replace_chars_loop fuel' whole replacement (res_str ++ replacement ++ piece)
            (pos + snd d)%nat (limit - 1) rest'
        else Val (res_str, pos, limit)
      end
    end.
End Reader.

(* Fuel for a loop that consumes at least one byte each time. *)
Definition fuel_of (t : text) : nat := S (size t).

(* Visit: run a loop on whichever form the text has. *)
Definition visit {A} (f : forall V, (V -> list Z) -> (V -> out (Z * nat)) -> (nat -> V -> out V) -> V -> out A)
    (t : text) : out A :=
  match t with
  | Flat s => f (list Z) (fun s => s) Utf8Decode flat_drop s
  | Large chunks => f (list (list Z)) (@concat Z) Utf8Decode_cord cord_drop chunks
  end.

(** ** Searching *)

(* byte_string.cc:269-300 and string_value.cc:180-202; at byte level *)
Definition StartsWith (t string : text) : bool := starts_with (content t) (content string).
Definition EndsWith (t string : text) : bool := ends_with (content t) (content string).

(* string_view::find and Cord::Find: the first position at which the needle is,
   searching from [k], the position of [s] *)
Fixpoint find_at (k : nat) (s needle : list Z) : option nat :=
  if starts_with s needle then Some k else
  match s with [] => None | _ :: s' => find_at (S k) s' needle end.
Definition sv_find (s needle : list Z) (pos : nat) : option nat :=
  if Nat.ltb (length s) pos then None else find_at pos (skipn pos s) needle.
(* string_value.cc:204-231: absl::StrContains and Cord::Contains *)
Definition Contains (t string : text) : bool :=
  match sv_find (content t) (content string) 0 with Some _ => true | None => false end.

(* string_value.cc:233-313 *)
Definition IndexOf (t string : text) : out (option Z) :=
  visit (fun V b d r => IndexOf_loop b d r (fuel_of t) (content string) 0) t.
(* string_value.cc:315-404 *)
Definition IndexOf_from (t string : text) (pos : Z) : out (option Z) :=
  let pos := if pos <? 0 then 0 else pos in
  visit (fun V b d r => IndexOf_from_loop b d r (fuel_of t) (content string) pos 0) t.
(* string_value.cc:406-496 *)
Definition LastIndexOf (t string : text) : out (option Z) :=
  visit (fun V b d r => LastIndexOf_loop b d r (fuel_of t) (content string) (-1) 0) t.
(* string_value.cc:499-596 *)
Definition LastIndexOf_from (t string : text) (pos : Z) : out (option Z) :=
  if pos <? 0 then Val None else
  visit (fun V b d r => LastIndexOf_from_loop b d r (fuel_of t) (content string) pos (-1) 0) t.

Section Wrappers.
  (* std::string::capacity of the Cord reader's buffer, see M_Utf8 *)
  Variable cap : list Z -> nat.
  (* string_value.cc:141-145 *)
  Definition Size (t : text) : out Z :=
    match t with
    | Flat s => Utf8CodePointCount s
    | Large chunks => Utf8CodePointCount_cord cap (concat chunks)
    end.
  Definition value_or (o : option Z) : Z := match o with Some i => i | None => -1 end.
  (* the message is StrCat of the text and the position; the position is left out *)
  Definition out_of_range : status := invalid "index out of range: ".
  (* strings.cc:114-116 *)
  Definition IndexOf2 (haystack needle : text) : out Z :=
    o <- IndexOf haystack needle ;; Val (value_or o).
  (* strings.cc:118-125: int64_t > size_t compares as unsigned *)
  Definition IndexOf3 (haystack needle : text) (pos : Z) : out Z :=
    n <- Size haystack ;;
    if c_uint64 pos >? n then Err out_of_range else
    o <- IndexOf_from haystack needle pos ;; Val (value_or o).
  (* strings.cc:127-129 *)
  Definition LastIndexOf2 (haystack needle : text) : out Z :=
    o <- LastIndexOf haystack needle ;; Val (value_or o).
  (* strings.cc:131-138 *)
  Definition LastIndexOf3 (haystack needle : text) (pos : Z) : out Z :=
    n <- Size haystack ;;
    if (pos <? 0) || (c_uint64 pos >? n) then Err out_of_range else
    o <- LastIndexOf_from haystack needle pos ;; Val (value_or o).
End Wrappers.

(** ** Substring and CharAt *)

Definition kStartTooBig :=
  invalid "<string>.substring(<start>): <start> is greater than <string>.size()".
Definition kRangeTooBig :=
  invalid "<string>.substring(<start>, <end>): <start> or <end> is greater than <string>.size()".
(* string_value.cc:647-701 with SubstringImpl 600-619 and 621-643.  For a Cord
   the answer is Subcord(size_code_units, max) when the position is met inside
   the loop and the Cord itself when it is met after it. *)
Definition Substring (t : text) (start : Z) : out (list Z) :=
  if start <? 0 then Err (invalid "<string>.substring(<start>): <start> is less than 0") else
  if start >? Z.of_nat (size t) then Err kRangeTooBig else
  if start =? 0 then Val (content t) else
  o <- visit (fun V b d r => Substring_loop b d r (fuel_of t) start 0 O) t ;;
  match o with
  | None => Err kStartTooBig
  | Some (inside, index) =>
    match t with
    | Flat s => slice s index (length s)
    | Large chunks =>
      if inside then slice (concat chunks) index (length (concat chunks)) else Val (concat chunks)
    end
  end.
(* string_value.cc:763-820 with SubstringImpl 705-730 and 732-759 *)
Definition Substring_range (t : text) (start end_ : Z) : out (list Z) :=
  if start <? 0 then Err (invalid "<string>.substring(<start>, <end>): <start> is less than 0") else
  if end_ <? start then Err (invalid "<string>.substring(<start>, <end>): <end> is less than <start>") else
  if (start >? Z.of_nat (size t)) || (end_ >? Z.of_nat (size t)) then Err kRangeTooBig else
  o <- visit (fun V b d r => Substring_range_loop b d r (fuel_of t) start end_ 0 O None) t ;;
  match o with
  | None => Err kRangeTooBig
  | Some (b, e) => slice (content t) b e
  end.
(* string_value.cc:1456-1516 *)
Definition CharAt (t : text) (pos : Z) : out (list Z) :=
  if pos <? 0 then Err (invalid "<string>.charAt(<pos>): <pos> is less than 0") else
  visit (fun V b d r => CharAt_loop b d r (fuel_of t) pos) t.

(** ** Case, white space, quoting and reversal *)

(* absl::ascii_isupper, ascii_islower, ascii_tolower, ascii_toupper *)
Definition ascii_isupper (c : Z) : bool := (65 <=? c) && (c <=? 90).
Definition ascii_islower (c : Z) : bool := (97 <=? c) && (c <=? 122).
Definition ascii_tolower (c : Z) : Z := if ascii_isupper c then c + 32 else c.
Definition ascii_toupper (c : Z) : Z := if ascii_islower c then c - 32 else c.
(* the search loops 829-834 and 850-856: the position of the first hit *)
Fixpoint first_hit (p : Z -> bool) (pos : nat) (s : list Z) : option nat :=
  match s with
  | [] => None
  | c :: s' => if p c then Some pos else first_hit p (S pos) s'
  end.
(* LowerAsciiImpl and UpperAsciiImpl: string_value.cc:824-842 and 899-917 on a
   string_view, 844-870 and 919-945 on a Cord *)
Definition convert_case (hit : Z -> bool) (conv : Z -> Z) (t : text) : out (list Z) :=
  match t with
  | Flat s =>
    match s with
    | [] => Val s
    | _ => match first_hit hit O s with None => Val s | Some _ => Val (map conv s) end
    end
  | Large chunks =>
    let s := concat chunks in
    match s with
    | [] => Val s
    | _ =>
      match first_hit hit O s with
      | None => Val s
      | Some pos =>
        a <- slice s O pos ;;
        rest <- slice s pos (length s) ;;
        Val (a ++ map conv rest)
      end
    end
  end.
(* string_value.cc:874-895 and 949-970 *)
Definition LowerAscii : text -> out (list Z) := convert_case ascii_isupper ascii_tolower.
Definition UpperAscii : text -> out (list Z) := convert_case ascii_islower ascii_toupper.

(* TrimImpl on a string_view, string_value.cc:986-1017, and Trim 1064-1093 *)
Definition Trim_flat (s : list Z) : out (list Z) :=
  left <- left_trim_loop (fun s => s) Utf8Decode flat_drop (S (length s)) O s ;;
  if Nat.eqb left (length s) then slice s left (length s) else
  last <- right_trim_loop (fun s => s) Utf8Decode flat_drop (S (length s)) O O s ;;
  slice s left (length s - (length s - last)).
(* TrimImpl on a Cord, string_value.cc:1019-1060 *)
Definition Trim_cord (chunks : list (list Z)) : out (list Z) :=
  left <- left_trim_loop (@concat Z) Utf8Decode_cord cord_drop (S (length (concat chunks))) O chunks ;;
  if Nat.eqb left (length (concat chunks)) then Val [] else
  ltrimmed <- cord_drop left chunks ;;
  last <- right_trim_loop (@concat Z) Utf8Decode_cord cord_drop (S (length (concat ltrimmed))) O O ltrimmed ;;
  slice (concat ltrimmed) O last.
(* string_value.cc:1064-1093 *)
Definition Trim (t : text) : out (list Z) :=
  match t with Flat s => Trim_flat s | Large chunks => Trim_cord chunks end.

(* string_value.cc:1134-1164 *)
Definition Quote (t : text) : out (list Z) :=
  r <- visit (fun V b d rd => Quote_loop b d rd (fuel_of t) [34]) t ;; Val (r ++ [34]).

(* string_value.cc:1176-1184: the bytes before ptr are kept last first; the
   inner loop 1180-1182 backs up to the start of the code point. *)
Fixpoint back_up (last_first : list Z) : list Z * list Z :=
  match last_first with
  | [] => ([], [])
  | b :: before =>
    match before with
    | [] => ([b], [])
    | _ => if Z.land b 192 =? 128 then let '(taken, rest) := back_up before in (taken ++ [b], rest)
           else ([b], before)
    end
  end.
Fixpoint reverse_loop (fuel : nat) (reversed last_first : list Z) : out (list Z) :=
  match fuel with
  | O => UB
  | S fuel' =>
    match last_first with
    | [] => Val reversed
    | _ => let '(char, before) := back_up last_first in reverse_loop fuel' (reversed ++ char) before
    end
  end.
(* string_value.cc:1166-1208 *)
Definition Reverse (t : text) : out (list Z) :=
  match t with
  | Flat s => reverse_loop (S (length s)) [] (rev s)
  | Large chunks =>
    match concat chunks with
    | [] => Val []
    | _ =>
      code_points <- collect_loop (@concat Z) Utf8Decode_cord cord_drop (fuel_of t) [] chunks ;;
      Val (flat_map Utf8Encode (rev code_points))
    end
  end.

(** ** Join, Split, Replace *)

(* string_value.cc:1221-1271: an element that is not a string is None *)
Definition join_error : status :=
  mkStatus kUnknown "No matching overloads found : join".
Fixpoint Join_loop (separator joined : list Z) (l : list (option text)) : out (list Z) :=
  match l with
  | [] => Val joined
  | Some t :: l' => Join_loop separator (joined ++ separator ++ content t) l'
  | None :: _ => Err join_error
  end.
Definition Join (separator : text) (l : list (option text)) : out (list Z) :=
  match l with
  | [] => Val []
  | Some t :: l' => Join_loop (content separator) (content t) l'
  | None :: _ => Err join_error
  end.
(* strings.cc:60-74 *)
Definition Join2 (l : list (option text)) (separator : text) : out (list Z) := Join separator l.
Definition Join1 (l : list (option text)) : out (list Z) := Join (Flat []) l.

(* The linear scan for a needle in several chunks, byte_string.cc:342-361 *)
Fixpoint Find_fragmented (fuel : nat) (lhs first_chunk rest_of_needle : list Z) (current_pos : nat)
  : out (option nat) :=
  match fuel with
  | O => UB
  | S fuel' =>
    match sv_find lhs first_chunk current_pos with
    | None => Val None
    | Some found_pos =>
      let needle_size := (length first_chunk + length rest_of_needle)%nat in
      if Nat.ltb (length lhs - needle_size) found_pos then Val None else
      if starts_with (skipn (found_pos + length first_chunk) lhs) rest_of_needle
      then Val (Some found_pos)
      else Find_fragmented fuel' lhs first_chunk rest_of_needle (S found_pos)
    end
  end.
(* byte_string.cc:302-375 *)
Definition Find (t needle : text) (pos : nat) : out (option nat) :=
  if Nat.ltb (size t) pos then UB else
  match t with
  | Large _ =>
    (* Subcord and Cord::Find; a hit at char_end() counts as none *)
    match sv_find (skipn pos (content t)) (content needle) O with
    | Some i => if Nat.eqb i (length (skipn pos (content t))) then Val None else Val (Some (pos + i)%nat)
    | None => Val None
    end
  | Flat lhs =>
    match needle with
    | Flat n => Val (sv_find lhs n pos)
    | Large [] => Val (sv_find lhs [] pos)
    | Large [chunk] => Val (sv_find lhs chunk pos)
    | Large (first_chunk :: rest) =>
      let needle_size := length (content needle) in
      if Nat.ltb (length lhs) (pos + needle_size) then Val None else
      if Nat.eqb needle_size 0 then Val (Some pos) else
      Find_fragmented (S (length lhs)) lhs first_chunk (concat rest) pos
    end
  end.

(* Split by a non-empty delimiter, string_value.cc:1334-1343 *)
Fixpoint Split_loop (fuel : nat) (t delimiter : text) (splits : list (nat * nat)) (pos : nat) (limit : Z)
  : out (list (nat * nat) * nat * Z) :=
  match fuel with
  | O => UB
  | S fuel' =>
    if Nat.ltb pos (size t) && (limit >? 1) then
      o <- Find t delimiter pos ;;
      match o with
      | None => Val (splits, pos, limit)
      | Some next =>
        Split_loop fuel' t delimiter (splits ++ [(pos, next)]) (next + size delimiter)%nat (limit - 1)
      end
    else Val (splits, pos, limit)
  end.
Fixpoint slices (s : list Z) (l : list (nat * nat)) : out (list (list Z)) :=
  match l with
  | [] => Val []
  | (b, e) :: l' => x <- slice s b e ;; r <- slices s l' ;; Val (x :: r)
  end.
(* string_value.cc:1294-1358 *)
Definition Split (t delimiter : text) (limit : Z) : out (list (list Z)) :=
  if limit =? 0 then Val [] else
  let limit := if limit <? 0 then int64_max else limit in
  r <- (if Nat.eqb (size delimiter) 0
        then visit (fun V b d rd => Split_chars_loop b d rd (fuel_of t) [] O limit) t
        else Split_loop (fuel_of t) t delimiter [] O limit) ;;
  let '(splits, pos, _) := r in
  let splits :=
    if Nat.eqb (length splits) 0 || negb (Nat.eqb (size delimiter) 0) || Nat.ltb pos (size t)
    then splits ++ [(pos, size t)] else splits in
  slices (content t) splits.
(* strings.cc:76-90, string_value.cc:1281-1285 *)
Definition Split3 (t delimiter : text) (limit : Z) : out (list (list Z)) := Split t delimiter limit.
Definition Split2 (t delimiter : text) : out (list (list Z)) := Split t delimiter (-1).

(* Replace of a non-empty needle, string_value.cc:1430-1442 *)
Fixpoint Replace_loop (fuel : nat) (t needle : text) (replacement res_str : list Z) (pos : nat) (limit : Z)
  : out (list Z * nat) :=
  match fuel with
  | O => UB
  | S fuel' =>
    if Nat.ltb pos (size t) && (limit >? 0) then
      o <- Find t needle pos ;;
      match o with
      | None => Val (res_str, pos)
      | Some next =>
        piece <- slice (content t) pos next ;;
        Replace_loop fuel' t needle replacement (res_str ++ piece ++ replacement)
          (next + size needle)%nat (limit - 1)
      end
    else Val (res_str, pos)
  end.
(* string_value.cc:1383-1454 *)
Definition Replace (t needle replacement : text) (limit : Z) : out (list Z) :=
  if limit =? 0 then Val (content t) else
  let limit := if limit <? 0 then int64_max else limit in
  r <- (if Nat.eqb (size needle) 0 then
          x <- visit (fun V b d rd => Replace_chars_loop b d rd (fuel_of t) (content t)
                                        (content replacement) [] O limit) t ;;
          let '(res_str, pos, limit) := x in
          Val (if limit >? 0 then res_str ++ content replacement else res_str, pos)
        else Replace_loop (fuel_of t) t needle (content replacement) [] O limit) ;;
  let '(res_str, pos) := r in
  if Nat.ltb pos (size t) then
    tail <- slice (content t) pos (size t) ;; Val (res_str ++ tail)
  else Val res_str.
(* strings.cc:92-108 *)
Definition Replace2 (t old_sub new_sub : text) (limit : Z) : out (list Z) := Replace t old_sub new_sub limit.
Definition Replace1 (t old_sub new_sub : text) : out (list Z) := Replace t old_sub new_sub (-1).
