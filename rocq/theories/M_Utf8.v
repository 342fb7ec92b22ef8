(* Model of internal/utf8.cc and internal/unicode.h.

   Bytes (uint8_t) are integers in [0,255]; strings are lists of bytes;
   code points (char32_t) are integers in [0, 2^32).  size_t values that are
   lengths of strings are natural numbers.  The loops of the C++ code take a
   fuel argument; running out of fuel is UB, which every theorem excludes. *)
From Coq Require Import ZArith List Bool.
From Verif Require Import Base.
Import ListNotations.
Open Scope Z_scope.
Local Open Scope out_scope.

(* internal/unicode.h:20 *)
Definition kUnicodeReplacementCharacter : Z := 65533.
(* internal/unicode.h:22-24 *)
Definition UnicodeIsValid (code_point : Z) : bool :=
  (code_point <? 55296) || ((code_point >? 57343) && (code_point <=? 1114111)).

(* utf8.cc:40-63 *)
Definition kUtf8RuneSelf : Z := 128.
Definition kUtf8Max : nat := 4.
Definition kLow : Z := 128.
Definition kHigh : Z := 191.
Definition kMaskX : Z := 63.
Definition kMask2 : Z := 31.
Definition kMask3 : Z := 15.
Definition kMask4 : Z := 7.
Definition kTX : Z := 128.
Definition kT2 : Z := 192.
Definition kT3 : Z := 224.
Definition kT4 : Z := 240.
Definition kXX : Z := 241.
Definition kAS : Z := 240.
Definition kS1 : Z := 2.
Definition kS2 : Z := 19.
Definition kS3 : Z := 3.
Definition kS4 : Z := 35.
Definition kS5 : Z := 52.
Definition kS6 : Z := 4.
Definition kS7 : Z := 68.

(* utf8.cc:67-86, the 256-entry table row by row. *)
Definition leading_table : list Z :=
  repeat kAS 128 ++ repeat kXX 64 ++
  [kXX; kXX] ++ repeat kS1 14 ++ repeat kS1 16 ++
  [kS2; kS3; kS3; kS3; kS3; kS3; kS3; kS3; kS3; kS3; kS3; kS3; kS3; kS4; kS3; kS3] ++
  [kS5; kS6; kS6; kS6; kS7] ++ repeat kXX 11.
Definition kLeading (b : Z) : Z := nth (Z.to_nat b) leading_table kXX.

(* utf8.cc:90-95 *)
Definition accept_table : list (Z * Z) :=
  [(kLow, kHigh); (160, kHigh); (kLow, 159); (144, kHigh); (kLow, 143)]
  ++ repeat (0, 0) 11.
Definition kAccept (i : Z) : Z * Z := nth (Z.to_nat i) accept_table (0, 0).

(* `static_cast<size_t>(leading & 7) - 1`, utf8.cc:218 and others. *)
Definition leading_size (leading : Z) : nat := Z.to_nat (Z.land leading 7 - 1).
(* `kAccept[leading >> 4]`, utf8.cc:223 and others. *)
Definition leading_accept (leading : Z) : Z * Z := kAccept (Z.shiftr leading 4).

(* str[i] of a string_view: reading past the end is undefined. *)
Definition at_ (s : list Z) (i : nat) : out Z :=
  match nth_error s i with Some b => Val b | None => UB end.

(* The three loops are templates over a reader: utf8.cc:206-314. *)
Section Impl.
  Context {R : Type}.
  Variable Remaining : R -> nat.
  Variable Peek : nat -> R -> out (list Z * R).
  Variable Read : R -> out (Z * R).
  Variable Advance : nat -> R -> out R.

  (* utf8.cc:206-238 *)
  Fixpoint Utf8IsValidImpl (fuel : nat) (r : R) : out bool :=
    match fuel with
    | O => UB
    | S fuel' =>
      if Nat.eqb (Remaining r) 0 then Val true else
      br <- Read r ;;
      let '(b, r1) := br in
      if b <? kUtf8RuneSelf then Utf8IsValidImpl fuel' r1 else
      let leading := kLeading b in
      if leading =? kXX then Val false else
      let size := leading_size leading in
      if Nat.ltb (Remaining r1) size then Val false else
      pr <- Peek size r1 ;;
      let '(segment, r2) := pr in
      let accept := leading_accept leading in
      s0 <- at_ segment 0 ;;
      if (s0 <? fst accept) || (s0 >? snd accept) then Val false else
      if Nat.eqb size 1 then r3 <- Advance size r2 ;; Utf8IsValidImpl fuel' r3 else
      s1 <- at_ segment 1 ;;
      if (s1 <? kLow) || (s1 >? kHigh) then Val false else
      if Nat.eqb size 2 then r3 <- Advance size r2 ;; Utf8IsValidImpl fuel' r3 else
      s2 <- at_ segment 2 ;;
      if (s2 <? kLow) || (s2 >? kHigh) then Val false else
      r3 <- Advance size r2 ;; Utf8IsValidImpl fuel' r3
    end.

  (* utf8.cc:240-274 *)
  Fixpoint Utf8CodePointCountImpl (fuel : nat) (count : Z) (r : R) : out Z :=
    match fuel with
    | O => UB
    | S fuel' =>
      if Nat.eqb (Remaining r) 0 then Val count else
      let count := count + 1 in
      br <- Read r ;;
      let '(b, r1) := br in
      if b <? kUtf8RuneSelf then Utf8CodePointCountImpl fuel' count r1 else
      let leading := kLeading b in
      if leading =? kXX then Utf8CodePointCountImpl fuel' count r1 else
      let size := leading_size leading in
      if Nat.ltb (Remaining r1) size then Utf8CodePointCountImpl fuel' count r1 else
      pr <- Peek size r1 ;;
      let '(segment, r2) := pr in
      let accept := leading_accept leading in
      let advance n := r3 <- Advance n r2 ;; Utf8CodePointCountImpl fuel' count r3 in
      s0 <- at_ segment 0 ;;
      if (s0 <? fst accept) || (s0 >? snd accept) then advance O else
      if Nat.eqb size 1 then advance size else
      s1 <- at_ segment 1 ;;
      if (s1 <? kLow) || (s1 >? kHigh) then advance O else
      if Nat.eqb size 2 then advance size else
      s2 <- at_ segment 2 ;;
      if (s2 <? kLow) || (s2 >? kHigh) then advance O else
      advance size
    end.

  (* utf8.cc:276-314 *)
  Fixpoint Utf8ValidateImpl (fuel : nat) (count : Z) (r : R) : out (Z * bool) :=
    match fuel with
    | O => UB
    | S fuel' =>
      if Nat.eqb (Remaining r) 0 then Val (count, true) else
      br <- Read r ;;
      let '(b, r1) := br in
      if b <? kUtf8RuneSelf then Utf8ValidateImpl fuel' (count + 1) r1 else
      let leading := kLeading b in
      if leading =? kXX then Val (count, false) else
      let size := leading_size leading in
      if Nat.ltb (Remaining r1) size then Val (count, false) else
      pr <- Peek size r1 ;;
      let '(segment, r2) := pr in
      let accept := leading_accept leading in
      s0 <- at_ segment 0 ;;
      if (s0 <? fst accept) || (s0 >? snd accept) then Val (count, false) else
      if Nat.eqb size 1 then r3 <- Advance size r2 ;; Utf8ValidateImpl fuel' (count + 1) r3 else
      s1 <- at_ segment 1 ;;
      if (s1 <? kLow) || (s1 >? kHigh) then Val (count, false) else
      if Nat.eqb size 2 then r3 <- Advance size r2 ;; Utf8ValidateImpl fuel' (count + 1) r3 else
      s2 <- at_ segment 2 ;;
      if (s2 <? kLow) || (s2 >? kHigh) then Val (count, false) else
      r3 <- Advance size r2 ;; Utf8ValidateImpl fuel' (count + 1) r3
    end.
End Impl.

(* class StringReader, utf8.cc:97-126; the state is the remaining input. *)
Definition sr_Remaining (s : list Z) : nat := length s.
Definition sr_Peek (n : nat) (s : list Z) : out (list Z * list Z) :=
  if Nat.leb n (length s) then Val (firstn n s, s) else UB.
Definition sr_Read (s : list Z) : out (Z * list Z) :=
  match s with [] => UB | b :: s' => Val (b, s') end.
Definition sr_Advance (n : nat) (s : list Z) : out (list Z) :=
  if Nat.leb n (length s) then Val (skipn n s) else UB.

(* class CordReader, utf8.cc:128-204.  The Cord input_ is modelled by its
   flattened bytes (Subcord, RemovePrefix and CopyCordToString do not depend on
   the chunking).  [cap] stands for std::string::capacity() of buffer_, of which
   only capacity >= size matters; it decides whether existing data is shifted to
   the front.  absl::CopyCordToString(src, dst) replaces the contents of dst;
   Cord::Subcord clamps; Cord::RemovePrefix aborts when asked for more than the
   Cord holds (modelled as UB). *)
Record cord_reader := mkCR {
  cr_input : list Z; cr_size : nat; cr_buffer : list Z; cr_index : nat }.
Section Cord.
  Variable cap : list Z -> nat.
  (* string_view(buffer_.data() + index_, n): the bytes that may be read through
     it are those of the string and its terminating NUL; reading any other is UB,
     see [at_]. *)
  Definition cr_view (buf : list Z) (index n : nat) : list Z :=
    firstn n (skipn index (buf ++ [0])).
  Definition cord_RemovePrefix (n : nat) (s : list Z) : out (list Z) :=
    if Nat.leb n (length s) then Val (skipn n s) else UB.
  Definition cr_Remaining (r : cord_reader) : nat := cr_size r.
  (* utf8.cc:137-163 *)
  Definition cr_Peek (n : nat) (r : cord_reader) : out (list Z * cord_reader) :=
    if negb (Nat.leb n (cr_size r)) then UB else
    if Nat.eqb n 0 then Val ([], r) else
    if Nat.leb n (length (cr_buffer r) - cr_index r) then
      Val (cr_view (cr_buffer r) (cr_index r) n, r)
    else
      let '(buf, idx) :=
        if Nat.leb n (cap (cr_buffer r))
           && Nat.ltb (cap (cr_buffer r) - length (cr_buffer r)) n
           && negb (Nat.eqb (cr_index r) 0)
        then (skipn (cr_index r) (cr_buffer r), O)
        else (cr_buffer r, cr_index r) in
      let to_copy := (n - (length buf - idx))%nat in
      let buf' := firstn to_copy (cr_input r) in
      input' <- cord_RemovePrefix to_copy (cr_input r) ;;
      Val (cr_view buf' idx n, mkCR input' (cr_size r) buf' idx).
  (* utf8.cc:171-190 *)
  Definition cr_Advance (n : nat) (r : cord_reader) : out cord_reader :=
    if negb (Nat.leb n (cr_size r)) then UB else
    if Nat.eqb n 0 then Val r else
    if Nat.ltb (cr_index r) (length (cr_buffer r)) then
      let count := Nat.min n (length (cr_buffer r) - cr_index r) in
      let index := (cr_index r + count)%nat in
      let n' := (n - count)%nat in
      let size := (cr_size r - count)%nat in
      if Nat.ltb index (length (cr_buffer r)) then
        Val (mkCR (cr_input r) size (cr_buffer r) index)
      else input' <- cord_RemovePrefix n' (cr_input r) ;; Val (mkCR input' (size - n') [] O)
    else input' <- cord_RemovePrefix n (cr_input r) ;;
         Val (mkCR input' (cr_size r - n) (cr_buffer r) (cr_index r)).
  (* utf8.cc:165-169 *)
  Definition cr_Read (r : cord_reader) : out (Z * cord_reader) :=
    pr <- cr_Peek 1 r ;;
    let '(v, r1) := pr in
    b <- at_ v 0 ;;
    r2 <- cr_Advance 1 r1 ;;
    Val (b, r2).
  (* utf8.cc:130-131 *)
  Definition cr_new (s : list Z) : cord_reader := mkCR s (length s) [] O.
End Cord.

(* utf8.cc:318-355: the ABSL_ASSERT cross-checks are not modelled. *)
Definition Utf8IsValid (s : list Z) : out bool :=
  Utf8IsValidImpl sr_Remaining sr_Peek sr_Read sr_Advance (S (length s)) s.
Definition Utf8IsValid_cord cap (s : list Z) : out bool :=
  Utf8IsValidImpl cr_Remaining (cr_Peek cap) (cr_Read cap) cr_Advance (S (length s)) (cr_new s).
Definition Utf8CodePointCount (s : list Z) : out Z :=
  Utf8CodePointCountImpl sr_Remaining sr_Peek sr_Read sr_Advance (S (length s)) 0 s.
Definition Utf8CodePointCount_cord cap (s : list Z) : out Z :=
  Utf8CodePointCountImpl cr_Remaining (cr_Peek cap) (cr_Read cap) cr_Advance (S (length s)) 0 (cr_new s).
Definition Utf8Validate (s : list Z) : out (Z * bool) :=
  Utf8ValidateImpl sr_Remaining sr_Peek sr_Read sr_Advance (S (length s)) 0 s.
Definition Utf8Validate_cord cap (s : list Z) : out (Z * bool) :=
  Utf8ValidateImpl cr_Remaining (cr_Peek cap) (cr_Read cap) cr_Advance (S (length s)) 0 (cr_new s).

(* utf8.cc:359-407: result is (code point, code units); str is the text after b. *)
Definition Utf8DecodeImpl (b leading : Z) (size : nat) (str : list Z) : out (Z * nat) :=
  let accept := leading_accept leading in
  b1 <- at_ str 0 ;;
  if (b1 <? fst accept) || (b1 >? snd accept) then Val (kUnicodeReplacementCharacter, 1%nat) else
  if Nat.leb size 1 then
    Val (Z.lor (Z.shiftl (Z.land b kMask2) 6) (Z.land b1 kMaskX), 2%nat)
  else
  b2 <- at_ str 1 ;;
  if (b2 <? kLow) || (b2 >? kHigh) then Val (kUnicodeReplacementCharacter, 1%nat) else
  if Nat.leb size 2 then
    Val (Z.lor (Z.lor (Z.shiftl (Z.land b kMask3) 12) (Z.shiftl (Z.land b1 kMaskX) 6))
               (Z.land b2 kMaskX), 3%nat)
  else
  b3 <- at_ str 2 ;;
  if (b3 <? kLow) || (b3 >? kHigh) then Val (kUnicodeReplacementCharacter, 1%nat) else
  Val (Z.lor (Z.lor (Z.lor (Z.shiftl (Z.land b kMask4) 18) (Z.shiftl (Z.land b1 kMaskX) 12))
                    (Z.shiftl (Z.land b2 kMaskX) 6)) (Z.land b3 kMaskX), 4%nat).

(* utf8.cc:411-436; front() of an empty string is undefined. *)
Definition Utf8Decode (str : list Z) : out (Z * nat) :=
  match str with
  | [] => UB
  | b :: str' =>
    if b <? kUtf8RuneSelf then Val (b, 1%nat) else
    let leading := kLeading b in
    if leading =? kXX then Val (kUnicodeReplacementCharacter, 1%nat) else
    let size := leading_size leading in
    if Nat.ltb (length str') size then Val (kUnicodeReplacementCharacter, 1%nat) else
    Utf8DecodeImpl b leading size str'
  end.

(* utf8.cc:438-481, decoding through a Cord iterator: the iterator is the list
   of remaining chunks, the first being ChunkRemaining(it). *)
Definition chunk_remaining (it : list (list Z)) : list Z :=
  match it with [] => [] | c :: _ => c end.
(* absl::Cord::Advance: chunks of a Cord are never empty, so the iterator moves
   to the next chunk when the current one is used up. *)
Fixpoint cord_advance (it : list (list Z)) (n : nat) : list (list Z) :=
  match it with
  | [] => []
  | c :: it' => if Nat.ltb n (length c) then skipn n c :: it' else cord_advance it' (n - length c)
  end.
(* the copy loop utf8.cc:465-477; None is the early return of U+FFFD *)
Fixpoint cord_collect (fuel size : nat) (buffer : list Z) (current : list (list Z))
  : out (option (list Z)) :=
  if Nat.ltb (length buffer) size then
    match fuel with
    | O => UB
    | S fuel' =>
      let str := chunk_remaining current in
      match str with
      | [] => Val None
      | _ =>
        let to_copy := Nat.min (3 - length buffer) (length str) in
        cord_collect fuel' size (buffer ++ firstn to_copy str) (cord_advance current to_copy)
      end
    end
  else Val (Some buffer).
Definition Utf8Decode_cord (it : list (list Z)) : out (Z * nat) :=
  match chunk_remaining it with
  | [] => UB
  | b :: str' =>
    if b <? kUtf8RuneSelf then Val (b, 1%nat) else
    let leading := kLeading b in
    if leading =? kXX then Val (kUnicodeReplacementCharacter, 1%nat) else
    let size := leading_size leading in
    if Nat.leb size (length str') then Utf8DecodeImpl b leading size str' else
    o <- cord_collect 4 size [] (cord_advance it 1) ;;
    match o with
    | None => Val (kUnicodeReplacementCharacter, 1%nat)
    | Some buffer => Utf8DecodeImpl b leading size buffer
    end
  end.

(* static_cast<uint8_t> *)
Definition to_uint8 (z : Z) : Z := z mod 256.

(* utf8.cc:483-525: the bytes appended for a code point; the returned length is
   the length of that list. *)
Definition Utf8Encode (code_point : Z) : list Z :=
  let code_point :=
    if UnicodeIsValid code_point then code_point else kUnicodeReplacementCharacter in
  if code_point <=? 127 then [to_uint8 code_point]
  else if code_point <=? 2047 then
    [Z.lor kT2 (to_uint8 (Z.shiftr code_point 6));
     Z.lor kTX (Z.land (to_uint8 code_point) kMaskX)]
  else if code_point <=? 65535 then
    [Z.lor kT3 (to_uint8 (Z.shiftr code_point 12));
     Z.lor kTX (Z.land (to_uint8 (Z.shiftr code_point 6)) kMaskX);
     Z.lor kTX (Z.land (to_uint8 code_point) kMaskX)]
  else
    [Z.lor kT4 (to_uint8 (Z.shiftr code_point 18));
     Z.lor kTX (Z.land (to_uint8 (Z.shiftr code_point 12)) kMaskX);
     Z.lor kTX (Z.land (to_uint8 (Z.shiftr code_point 6)) kMaskX);
     Z.lor kTX (Z.land (to_uint8 code_point) kMaskX)].
