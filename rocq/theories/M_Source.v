(* Model of common/source.cc: source text, line offsets, positions and
   locations.  Only the flat (string_view) constructor is modelled; the Cord one
   differs only in how bytes are fetched (see Utf8Decode_cord). *)
From Coq Require Import ZArith String List Bool.
From Verif Require Import Base M_Utf8 M_Strings.
Import ListNotations.
Open Scope Z_scope.
Local Open Scope out_scope.

(* SourcePosition is int32_t: signed overflow is undefined. *)
Definition c_int32 (z : Z) : out Z := if in_int32 z then Val z else UB.

(* The four concrete classes, source.cc:183-252. *)
Inductive source_kind := Ascii | Latin1 | BasicPlane | SupplementalPlane.
Record source := mkSource { src_kind : source_kind; src_text : list Z; src_line_offsets : list Z }.

(* casts *)
Definition to_char16 (z : Z) : Z := z mod 65536.
(* static_cast<char32_t>(char) on a platform with signed char *)
Definition char_to_char32 (b : Z) : Z := if b <? 128 then b else 4294967040 + b.

(* the end of each loop: line_offsets.push_back(offset + 1) *)
Definition finish (k : source_kind) (data : list Z) (offset : Z) (lines : list Z) : out source :=
  lo <- c_int32 (offset + 1) ;; Val (mkSource k data (lines ++ [lo])).
(* `if (code_point == '\n') line_offsets.push_back(offset + 1);` *)
Definition note_newline (code_point offset : Z) (lines : list Z) : out (list Z) :=
  if code_point =? 10 then lo <- c_int32 (offset + 1) ;; Val (lines ++ [lo]) else Val lines.

(* source.cc:454-473 *)
Fixpoint supplemental_loop (fuel : nat) (it : list Z) (offset : Z) (lines data32 : list Z) : out source :=
  match fuel with O => UB | S fuel' =>
  match it with
  | [] => finish SupplementalPlane data32 offset lines
  | _ =>
    d <- Utf8Decode it ;;
    let '(code_point, code_units) := d in
    if (code_point =? kUnicodeReplacementCharacter) && Nat.eqb code_units 1 then bad else
    lines' <- note_newline code_point offset lines ;;
    offset' <- c_int32 (offset + 1) ;;
    supplemental_loop fuel' (skipn code_units it) offset' lines' (data32 ++ [code_point])
  end end.

(* source.cc:421-453 *)
Fixpoint basic_loop (fuel : nat) (it : list Z) (offset : Z) (lines data16 : list Z) : out source :=
  match fuel with O => UB | S fuel' =>
  match it with
  | [] => finish BasicPlane data16 offset lines
  | _ =>
    d <- Utf8Decode it ;;
    let '(code_point, code_units) := d in
    if (code_point =? kUnicodeReplacementCharacter) && Nat.eqb code_units 1 then bad else
    lines' <- note_newline code_point offset lines ;;
    offset' <- c_int32 (offset + 1) ;;
    if code_point <=? 65535 then
      basic_loop fuel' (skipn code_units it) offset' lines' (data16 ++ [to_char16 code_point])
    else
      supplemental_loop fuel' (skipn code_units it) offset' lines' (data16 ++ [code_point])
  end end.

(* source.cc:376-420 *)
Fixpoint latin1_loop (fuel : nat) (it : list Z) (offset : Z) (lines data8 : list Z) : out source :=
  match fuel with O => UB | S fuel' =>
  match it with
  | [] => finish Latin1 data8 offset lines
  | _ =>
    d <- Utf8Decode it ;;
    let '(code_point, code_units) := d in
    if (code_point =? kUnicodeReplacementCharacter) && Nat.eqb code_units 1 then bad else
    lines' <- note_newline code_point offset lines ;;
    offset' <- c_int32 (offset + 1) ;;
    if code_point <=? 255 then
      latin1_loop fuel' (skipn code_units it) offset' lines' (data8 ++ [to_uint8 code_point])
    else if code_point <=? 65535 then
      basic_loop fuel' (skipn code_units it) offset' lines' (data8 ++ [to_char16 code_point])
    else
      supplemental_loop fuel' (skipn code_units it) offset' lines' (data8 ++ [code_point])
  end end.

(* source.cc:326-375; index is the number of bytes consumed *)
Fixpoint ascii_loop (fuel : nat) (text it : list Z) (index : nat) (offset : Z) (lines : list Z) : out source :=
  match fuel with O => UB | S fuel' =>
  match it with
  | [] => finish Ascii text offset lines
  | _ =>
    d <- Utf8Decode it ;;
    let '(code_point, code_units) := d in
    if (code_point =? kUnicodeReplacementCharacter) && Nat.eqb code_units 1 then bad else
    lines' <- note_newline code_point offset lines ;;
    offset' <- c_int32 (offset + 1) ;;
    if code_point <=? 127 then
      ascii_loop fuel' text (skipn code_units it) (index + code_units) offset' lines'
    else if code_point <=? 255 then
      latin1_loop fuel' (skipn code_units it) offset' lines'
        (firstn index text ++ [to_uint8 code_point])
    else if code_point <=? 65535 then
      basic_loop fuel' (skipn code_units it) offset' lines'
        (map to_uint8 (firstn index text) ++ [to_char16 code_point])
    else
      supplemental_loop fuel' (skipn code_units it) offset' lines'
        (map char_to_char32 (firstn index text) ++ [code_point])
  end end.

(* source.cc:309-474, NewSource(string_view) *)
Definition NewSource (text : list Z) : out source :=
  if Z.of_nat (length text) >? int32_max then bad else
  ascii_loop (S (length text)) text text 0 0 [].

(* source.cc:45-57 and 69-93: size() and at() of the content view *)
Definition content_size (s : source) : Z := Z.of_nat (length (src_text s)).
Definition content_at (s : source) (p : Z) : out Z :=
  if p <? 0 then UB else
  match nth_error (src_text s) (Z.to_nat p) with Some c => Val c | None => UB end.

(* source.cc:95-145, ToString: ASCII text is copied, other text is encoded *)
Definition content_to_string (s : source) (b e : Z) : out (list Z) :=
  if (0 <=? b) && (b <=? e) && (e <=? content_size s) then
    let view := firstn (Z.to_nat (e - b)) (skipn (Z.to_nat b) (src_text s)) in
    Val (match src_kind s with Ascii => view | _ => flat_map Utf8Encode view end)
  else UB.

(* source.cc:556-568 *)
Definition FindLinePosition (s : source) (line : Z) : option Z :=
  if line <? 1 then None else
  if line =? 1 then Some 0 else
  if line <=? Z.of_nat (length (src_line_offsets s))
  then Some (nth (Z.to_nat (line - 2)) (src_line_offsets s) 0) else None.

(* source.cc:570-588 *)
Fixpoint count_lines (position line : Z) (offsets : list Z) : Z :=
  match offsets with
  | [] => line
  | o :: rest => if o >? position then line else count_lines position (line + 1) rest
  end.
Definition FindLine (s : source) (position : Z) : option (Z * Z) :=
  if position <? 0 then None else
  let line := count_lines position 1 (src_line_offsets s) in
  if line =? 1 then Some (line, 0)
  else Some (line, nth (Z.to_nat (line - 2)) (src_line_offsets s) 0).

(* source.cc:480-500 *)
Definition GetLocation (s : source) (position : Z) : option (Z * Z) :=
  match FindLine s position with
  | Some (line, start) => Some (line, position - start)
  | None => None
  end.
Definition GetPosition (s : source) (line column : Z) : option Z :=
  if (line <? 1) || (column <? 0) then None else
  match FindLinePosition s line with
  | Some p => Some (p + column)
  | None => None
  end.

(* source.cc:502-513 *)
Definition Snippet (s : source) (line : Z) : out (option (list Z)) :=
  match FindLinePosition s line with
  | None => Val None
  | Some start =>
    if content_size s =? 0 then Val None else
    match FindLinePosition s (line + 1) with
    | Some e => t <- content_to_string s start (e - 1) ;; Val (Some t)
    | None => t <- content_to_string s start (content_size s) ;; Val (Some t)
    end
  end.
