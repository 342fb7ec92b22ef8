(* Model of the regular expression extension, extensions/regex_ext.cc.

   Simplifications.  Texts are lists of bytes.  RE2 is outside the repository: a compiled
   pattern is the number of its capturing groups and a function that looks for the leftmost
   match in a text at or after a position; RE2::CheckRewriteString, RE2::Rewrite and
   RE2::GlobalReplace are readings of re2.cc, the last one advancing over one byte instead
   of one code point after an empty match it skips.  A string view is its text and, for a
   match, its place in the text that was searched.  The optional value of extract is an
   option.  Loops take fuel; the outcome is None when it runs out. *)
From Coq Require Import ZArith String List Bool.
From Verif Require Import Base M_Overflow.
Import ListNotations.
Local Open Scope string_scope.
Open Scope list_scope.
Open Scope Z_scope.
Local Open Scope out_scope.

(** ** RE2 *)
Definition text := list Z.
(* a piece of a text: where it starts and how long it is *)
Record Piece := mkPiece { at_ : nat; len : nat }.
(* the match (submatch 0) and the capturing groups; None is a group that did not take part,
   whose string view is empty *)
Record Match := mkMatch { whole : Piece; captures : list (option Piece) }.
(* re2::RE2: NumberOfCapturingGroups, and Match(text, start, text.size(), UNANCHORED) *)
Record RE2 := mkRE2 { NumberOfCapturingGroups : nat; Search : text -> nat -> option Match }.
Definition view (t : text) (p : Piece) : text := firstn (len p) (skipn (at_ p) t).
(* submatches[n] as a text *)
Definition submatch (t : text) (m : Match) (n : nat) : text :=
  match n with
  | O => view t (whole m)
  | S k => match nth k (captures m) None with Some p => view t p | None => [] end
  end.

Definition BACKSLASH := 92.
Definition digit (c : Z) : option nat := if (48 <=? c) && (c <=? 57) then Some (Z.to_nat (c - 48)) else None.
(* RE2::CheckRewriteString: [max_token] is the largest group named so far *)
Fixpoint check_rewrite (groups : nat) (max_token : nat) (s : text) : bool :=
  match s with
  | [] => Nat.leb max_token groups
  | c :: s' =>
      if c =? BACKSLASH then
        match s' with
        | [] => false
        | d :: s'' =>
            if d =? BACKSLASH then check_rewrite groups max_token s''
            else match digit d with
                 | Some n => check_rewrite groups (Nat.max max_token n) s''
                 | None => false
                 end
        end
      else check_rewrite groups max_token s'
  end.
Definition CheckRewriteString (re : RE2) (s : text) : bool := check_rewrite (NumberOfCapturingGroups re) 0 s.
(* RE2::Rewrite: what is appended, None if it returns false; [n] is veclen *)
Fixpoint Rewrite (sub : nat -> text) (n : nat) (s : text) : option text :=
  match s with
  | [] => Some []
  | c :: s' =>
      if c =? BACKSLASH then
        match s' with
        | [] => None
        | d :: s'' =>
            match digit d with
            | Some k => if Nat.leb n k then None
                        else match Rewrite sub n s'' with Some r => Some (sub k ++ r) | None => None end
            | None => if d =? BACKSLASH then match Rewrite sub n s'' with Some r => Some (BACKSLASH :: r) | None => None end
                      else None
            end
        end
      else match Rewrite sub n s' with Some r => Some (c :: r) | None => None end
  end.
(* RE2::GlobalReplace: [p] is where the rest starts, [lastend] where the last match ended *)
Fixpoint global_replace (fuel : nat) (re : RE2) (rewrite t : text) (p : nat) (lastend : option nat) (count : nat) (out_ : text)
    : option text :=
  match fuel with
  | O => None
  | S fuel =>
      let finish := Some (match count with O => t | S _ => out_ ++ skipn p t end) in
      if Nat.ltb (length t) p then finish else
      match Search re t p with
      | None => finish
      | Some m =>
          let s := at_ (whole m) in
          let out1 := out_ ++ firstn (s - p) (skipn p t) in
          if match lastend with Some e => Nat.eqb e s | None => false end && Nat.eqb (len (whole m)) 0 then
            global_replace fuel re rewrite t (S p) lastend count (out1 ++ firstn 1 (skipn p t))
          else
            let w := match Rewrite (submatch t m) (S (NumberOfCapturingGroups re)) rewrite with Some r => r | None => [] end in
            let e := (s + len (whole m))%nat in
            global_replace fuel re rewrite t e (Some e) (S count) (out1 ++ w)
      end
  end.
Definition GlobalReplace (re : RE2) (rewrite t : text) : option text :=
  global_replace (2 * length t + 3) re rewrite t 0 None 0 [].

Section Extension.
  (* RE2::RE2 and cel::internal::CheckRE2 (internal/re2_options.h:31-61): the pattern, or why
     it is refused *)
  Variable compile : text -> out RE2.

  Definition invalid {A} (m : string) : out A := Err (mkStatus kInvalidArgument m).

  (* regex_ext.cc:57-88 Extract *)
  Definition Extract (target regex : text) : out (option text) :=
    re <- compile regex;;
    if Nat.ltb 1 (NumberOfCapturingGroups re) then invalid "regular expression has more than one capturing group"
    else match Search re target 0 with
         | Some m => Val (Some (submatch target m (if Nat.eqb (NumberOfCapturingGroups re) 1 then 1 else 0)))
         | None => Val None
         end.

  (* regex_ext.cc:113-144: the loop of ExtractAll; [t] is temp_target *)
  Fixpoint extract_loop (fuel : nat) (re : RE2) (t : text) : option (list text) :=
    match fuel with
    | O => None
    | S fuel =>
        match Search re t 0 with
        | None => Some []
        | Some m =>
            let group_count := NumberOfCapturingGroups re in
            let full_match := whole m in
            let desired := submatch t m (if Nat.eqb group_count 1 then 1 else 0) in
            if Nat.eqb (len full_match) 0 then
              match t with [] => Some [] | _ :: t' => extract_loop fuel re t' end
            else
              let rest := skipn (at_ full_match + len full_match) t in
              if Nat.eqb group_count 1 && match desired with [] => true | _ => false end then extract_loop fuel re rest
              else match extract_loop fuel re rest with Some r => Some (desired :: r) | None => None end
        end
    end.
  (* regex_ext.cc:90-147 ExtractAll *)
  Definition ExtractAll (fuel : nat) (target regex : text) : option (out (list text)) :=
    match compile regex with
    | Err s => Some (Err s)
    | UB => Some UB
    | Val re =>
        if Nat.ltb 1 (NumberOfCapturingGroups re) then Some (invalid "regular expression has more than one capturing group")
        else option_map Val (extract_loop fuel re target)
    end.

  (* regex_ext.cc:149-177 ReplaceAll *)
  Definition ReplaceAll (target regex replacement : text) : option (out text) :=
    match compile regex with
    | Err s => Some (Err s)
    | UB => Some UB
    | Val re =>
        if negb (CheckRewriteString re replacement) then Some (invalid "invalid replacement string")
        else option_map Val (GlobalReplace re replacement target)
    end.

  (* regex_ext.cc:217-237: the loop of ReplaceN; replaced_count is an int *)
  Fixpoint replace_loop (fuel : nat) (re : RE2) (replacement : text) (count : Z) (t out_ : text) (replaced_count : Z)
      : option (out text) :=
    match fuel with
    | O => None
    | S fuel =>
        if negb (replaced_count <? count) then Some (Val (out_ ++ t)) else
        match Search re t 0 with
        | None => Some (Val (out_ ++ t))
        | Some m =>
            let full_match := whole m in
            let nmatch := S (Nat.min 9 (NumberOfCapturingGroups re)) in
            match Rewrite (submatch t m) nmatch replacement with
            | None => Some (Err (mkStatus kInternal "rewrite failed unexpectedly"))
            | Some w =>
                if 2147483647 <=? replaced_count then Some UB
                else replace_loop fuel re replacement count (skipn (at_ full_match + len full_match) t)
                       (out_ ++ firstn (at_ full_match) t ++ w) (replaced_count + 1)
            end
        end
    end.
  (* regex_ext.cc:179-242 ReplaceN *)
  Definition ReplaceN (fuel : nat) (target regex replacement : text) (count : Z) : option (out text) :=
    if count =? 0 then Some (Val target)
    else if count <? 0 then ReplaceAll target regex replacement
    else match compile regex with
         | Err s => Some (Err s)
         | UB => Some UB
         | Val re =>
             if negb (CheckRewriteString re replacement) then Some (invalid "invalid replacement string")
             else replace_loop fuel re replacement count target [] 0
         end.
End Extension.
