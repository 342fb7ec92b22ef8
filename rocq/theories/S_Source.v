(* Specification of positions, lines and columns in a text given as a list of
   code points; independent of the model. *)
From Coq Require Import ZArith List.
Import ListNotations.
Open Scope Z_scope.

Definition newline := 10.
(* number of newlines in a text *)
Definition newlines (cps : list Z) : Z := Z.of_nat (count_occ Z.eq_dec cps newline).
(* number of code points after the last newline of a text *)
Fixpoint since_newline (rev_cps : list Z) : Z :=
  match rev_cps with
  | [] => 0
  | c :: t => if c =? newline then 0 else 1 + since_newline t
  end.
(* the 1-based line and 0-based column of position p in the text *)
Definition line_of (cps : list Z) (p : nat) : Z := 1 + newlines (firstn p cps).
Definition column_of (cps : list Z) (p : nat) : Z := since_newline (rev (firstn p cps)).

(* the lines of a text, without their newlines *)
Fixpoint lines_of (cps : list Z) : list (list Z) :=
  match cps with
  | [] => [[]]
  | c :: t => if c =? newline then [] :: lines_of t
              else match lines_of t with l :: ls => (c :: l) :: ls | [] => [[c]] end
  end.
