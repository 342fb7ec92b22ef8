(* Specification of the string functions on texts, that is lists of code points.
   Only [holds] refers to the model. *)
From Coq Require Import ZArith List Bool.
From Verif Require Import S_Utf8.
From Verif Require Import M_StrExt.
Import ListNotations.
Open Scope Z_scope.

(* The string value [t] holds the text [s]: its bytes are the UTF-8 encoding of
   [s], however a Cord is cut into (nonempty) chunks. *)
Definition holds (t : text) (s : list Z) : Prop :=
  spells (content t) s /\
  match t with Flat _ => True | Large chunks => Forall (fun c => c <> []) chunks end.

(* [n] is found in [h] with its first character at index [k]. *)
Definition occurs (n h : list Z) (k : Z) : Prop :=
  exists before after, h = before ++ n ++ after /\ Z.of_nat (length before) = k.

(* [r] is the first index at or after [p] at which [n] is found, or -1. *)
Definition first_from (n h : list Z) (p r : Z) : Prop :=
  (p <= r /\ occurs n h r /\ forall j, p <= j < r -> ~ occurs n h j) \/
  (r = -1 /\ forall j, p <= j -> ~ occurs n h j).
(* [r] is the last index up to [p] at which [n] is found, or -1. *)
Definition last_upto (n h : list Z) (p r : Z) : Prop :=
  (r <= p /\ occurs n h r /\ forall j, r < j <= p -> ~ occurs n h j) \/
  (r = -1 /\ forall j, j <= p -> ~ occurs n h j).

(* The characters from index [a] up to but excluding index [b]. *)
Definition between (a b : Z) (s t : list Z) : Prop :=
  exists before after, s = before ++ t ++ after /\
    Z.of_nat (length before) = a /\ Z.of_nat (length before + length t) = b.

(* ASCII case. *)
Definition lower (c : Z) : Z := if (65 <=? c) && (c <=? 90) then c + 32 else c.
Definition upper (c : Z) : Z := if (97 <=? c) && (c <=? 122) then c - 32 else c.

(* The characters with the Unicode property White_Space. *)
Definition white_space : list Z :=
  [9; 10; 11; 12; 13; 32; 133; 160; 5760; 8192; 8193; 8194; 8195; 8196; 8197; 8198; 8199;
   8200; 8201; 8202; 8232; 8233; 8239; 8287; 12288].
Definition white (c : Z) : Prop := In c white_space.
(* [t] is [s] without the white space at both ends. *)
Definition trimmed (s t : list Z) : Prop :=
  exists l r, s = l ++ t ++ r /\ Forall white l /\ Forall white r /\
    (forall c u, t = c :: u -> ~ white c) /\ (forall c u, t = u ++ [c] -> ~ white c).

(* The pieces with the separator between each two of them. *)
Fixpoint joined (sep : list Z) (pieces : list (list Z)) : list Z :=
  match pieces with
  | [] => []
  | p :: rest => match rest with [] => p | _ => p ++ sep ++ joined sep rest end
  end.

(* How many pieces there may be: at most that many, or any number. *)
Definition within (limit : option Z) (n : nat) : Prop :=
  match limit with Some k => Z.of_nat n <= k | None => True end.

(* The pieces of [s] around the separator, which is not empty: put together with
   the separator they give [s]; each but the last ends at the first occurrence of
   the separator; the last one has no occurrence unless the limit is reached. *)
Definition pieces_of (sep : list Z) (limit : option Z) (s : list Z) (ps : list (list Z)) : Prop :=
  joined sep ps = s /\ within limit (length ps) /\
  exists front last, ps = front ++ [last] /\
    Forall (fun p => forall k, occurs sep (p ++ sep) k -> k = Z.of_nat (length p)) front /\
    (limit = Some (Z.of_nat (length ps)) \/ forall k, ~ occurs sep last k).
(* The characters of [s], the last piece being the rest when the limit is reached;
   the empty text is one empty piece. *)
Definition chars_of (limit : option Z) (s : list Z) (ps : list (list Z)) : Prop :=
  (s = [] /\ ps = [[]]) \/
  (s <> [] /\ joined [] ps = s /\ within limit (length ps) /\
   exists front last, ps = front ++ [last] /\ last <> [] /\
    Forall (fun p => length p = 1%nat) front /\
    (limit = Some (Z.of_nat (length ps)) \/ length last = 1%nat)).
Definition split_of (sep : list Z) (limit : option Z) (s : list Z) (ps : list (list Z)) : Prop :=
  match sep with [] => chars_of limit s ps | _ => pieces_of sep limit s ps end.

(* [new] before each of the first [n] characters and, if [n] exceeds the number of
   characters, at the end. *)
Fixpoint interleaved (new : list Z) (n : nat) (s : list Z) : list Z :=
  match n with
  | O => s
  | S n' => match s with [] => new | c :: s' => new ++ c :: interleaved new n' s' end
  end.
(* The first occurrences of [old] replaced, at most [limit] of them. *)
Definition replaced (old new : list Z) (limit : option Z) (s t : list Z) : Prop :=
  match old with
  | [] => t = interleaved new (match limit with Some k => Z.to_nat k | None => S (length s) end) s
  | _ => exists ps, pieces_of old (match limit with Some k => Some (k + 1) | None => None end) s ps /\
           t = joined new ps
  end.

(* A limit argument: negative is unlimited. *)
Definition limit_of (n : Z) : option Z := if n <? 0 then None else Some n.
