(* What the functions of the regular expression extension are meant to compute. *)
From Coq Require Import ZArith List.
From Verif Require Import M_RegexExt.
Import ListNotations.
Open Scope nat_scope.

(* what is known of every compiled pattern: a match lies in the text, at or after the
   position, and there is one piece of the text per capturing group *)
Definition piece_in (t : text) (p : Piece) : Prop := at_ p + len p <= length t.
Definition search_ok (re : RE2) : Prop :=
  forall t p m, Search re t p = Some m ->
    p <= at_ (whole m) /\ piece_in t (whole m) /\ length (captures m) = NumberOfCapturingGroups re /\
    forall c, In (Some c) (captures m) ->
      at_ (whole m) <= at_ c /\ at_ c + len c <= at_ (whole m) + len (whole m).
(* the pattern does not look at what is before the position: no anchors, no \b *)
Definition shift (n : nat) (p : Piece) : Piece := mkPiece (n + at_ p) (len p).
Definition shift_match (n : nat) (m : Match) : Match :=
  mkMatch (shift n (whole m)) (map (option_map (shift n)) (captures m)).
Definition context_free (re : RE2) : Prop :=
  forall t p, p <= length t -> Search re t p = option_map (shift_match p) (Search re (skipn p t) 0).
(* the pattern does not match the empty text *)
Definition never_empty (re : RE2) : Prop :=
  forall t p m, Search re t p = Some m -> len (whole m) <> 0.

Definition end_ (m : Match) : nat := at_ (whole m) + len (whole m).
(* the matches in the text at or after the position that do not overlap and are not empty,
   from left to right *)
Inductive matches (re : RE2) (t : text) : nat -> list Match -> Prop :=
| matches_none p : Search re t p = None -> matches re t p []
| matches_one p m ms : Search re t p = Some m -> len (whole m) <> 0 ->
    matches re t (end_ m) ms -> matches re t p (m :: ms)
| matches_skip p m ms : Search re t p = Some m -> len (whole m) = 0 -> p < length t ->
    matches re t (S p) ms -> matches re t p ms
| matches_end p m : Search re t p = Some m -> len (whole m) = 0 -> length t <= p -> matches re t p [].

(* the text from the position on with every one of the matches replaced *)
Fixpoint replaced (w : Match -> text) (t : text) (p : nat) (ms : list Match) : text :=
  match ms with
  | [] => skipn p t
  | m :: ms' => firstn (at_ (whole m) - p) (skipn p t) ++ w m ++ replaced w t (end_ m) ms'
  end.

(* the texts are pieces of [t] that are not empty, from left to right, without overlapping *)
Inductive pieces_of : list text -> text -> Prop :=
| pieces_none t : pieces_of [] t
| pieces_one gap x l rest : x <> [] -> pieces_of l rest -> pieces_of (x :: l) (gap ++ x ++ rest).

(* replacement strings: characters other than the backslash, \\ and \0 to \9 *)
Inductive token := Char (c : Z) | Escaped | Group (n : nat).
Inductive spells : list token -> text -> Prop :=
| spells_nil : spells [] []
| spells_char c l s : c <> 92%Z -> spells l s -> spells (Char c :: l) (c :: s)
| spells_escaped l s : spells l s -> spells (Escaped :: l) (92%Z :: 92%Z :: s)
| spells_group n l s : n <= 9 -> spells l s -> spells (Group n :: l) (92%Z :: (48 + Z.of_nat n)%Z :: s).
Definition groups_in (n : nat) (l : list token) : Prop := forall k, In (Group k) l -> k <= n.
(* what a replacement string stands for, given the texts of the match and its groups *)
Definition meaning (sub : nat -> text) (l : list token) : text :=
  flat_map (fun k => match k with Char c => [c] | Escaped => [92%Z] | Group n => sub n end) l.
