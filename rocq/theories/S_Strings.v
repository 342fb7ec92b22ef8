(* The escape sequences of CEL string and bytes literals, after the "String and
   Bytes Values" section of the CEL language definition; independent of the
   model. *)
From Coq Require Import ZArith List.
From Verif Require Import S_Utf8.
Import ListNotations.
Open Scope Z_scope.

(* letter after the backslash, resulting character *)
Definition simple_escapes : list (Z * Z) :=
  [(97, 7); (98, 8); (102, 12); (110, 10); (114, 13); (116, 9); (118, 11);
   (92, 92); (63, 63); (39, 39); (34, 34); (96, 96)].

(* the value of a hexadecimal digit *)
Inductive hex_digit : Z -> Z -> Prop :=
| hex_09 c v : 0 <= v <= 9 -> c = 48 + v -> hex_digit c v
| hex_AF c v : 10 <= v <= 15 -> c = 55 + v -> hex_digit c v
| hex_af c v : 10 <= v <= 15 -> c = 87 + v -> hex_digit c v.
(* a big-endian sequence of hexadecimal digits *)
Inductive hex_number : list Z -> Z -> Prop :=
| hexn_nil : hex_number [] 0
| hexn_snoc ds n c v : hex_number ds n -> hex_digit c v -> hex_number (ds ++ [c]) (16 * n + v).

(* what an escape that names the number v contributes: in a string the character
   with that code point, in a bytes literal the byte *)
Definition contributes (is_bytes : bool) (v : Z) : list Z := if is_bytes then [v] else utf8 v.

(* [unescapes is_bytes s d]: the text s between the quotes denotes d *)
Inductive unescapes (is_bytes : bool) : list Z -> list Z -> Prop :=
| un_nil : unescapes is_bytes [] []
| un_plain c s d : c <> 92 -> c <> 13 -> unescapes is_bytes s d -> unescapes is_bytes (c :: s) (c :: d)
| un_crlf s d : unescapes is_bytes s d -> unescapes is_bytes (13 :: 10 :: s) (10 :: d)
| un_cr s d : (forall s', s <> 10 :: s') -> unescapes is_bytes s d -> unescapes is_bytes (13 :: s) (10 :: d)
| un_simple c v s d : In (c, v) simple_escapes -> unescapes is_bytes s d ->
    unescapes is_bytes (92 :: c :: s) (v :: d)
| un_octal a b c v s d : 48 <= a <= 51 -> 48 <= b <= 55 -> 48 <= c <= 55 -> 
    v = 64 * (a - 48) + 8 * (b - 48) + (c - 48) -> unescapes is_bytes s d ->
    unescapes is_bytes (92 :: a :: b :: c :: s) (contributes is_bytes v ++ d)
| un_hex x h v s d : x = 120 \/ x = 88 -> length h = 2%nat -> hex_number h v -> unescapes is_bytes s d ->
    unescapes is_bytes (92 :: x :: h ++ s) (contributes is_bytes v ++ d)
| un_u h v s d : is_bytes = false -> length h = 4%nat -> hex_number h v -> scalar v ->
    unescapes is_bytes s d -> unescapes is_bytes (92 :: 117 :: h ++ s) (utf8 v ++ d)
| un_U h v s d : is_bytes = false -> length h = 8%nat -> hex_number h v -> scalar v ->
    unescapes is_bytes s d -> unescapes is_bytes (92 :: 85 :: h ++ s) (utf8 v ++ d).

(* raw literals: only line ends are normalised *)
Inductive raw_text : list Z -> list Z -> Prop :=
| raw_nil : raw_text [] []
| raw_plain c s d : c <> 92 -> c <> 13 -> raw_text s d -> raw_text (c :: s) (c :: d)
| raw_crlf s d : raw_text s d -> raw_text (13 :: 10 :: s) (10 :: d)
| raw_cr s d : (forall s', s <> 10 :: s') -> raw_text s d -> raw_text (13 :: s) (10 :: d)
| raw_pair c s d : raw_text s d -> raw_text (92 :: c :: s) (92 :: c :: d).

(* a text in which every occurrence of the quote character is escaped *)
Inductive quote_free (q : Z) : list Z -> Prop :=
| qf_nil : quote_free q []
| qf_plain c s : c <> 92 -> c <> q -> quote_free q s -> quote_free q (c :: s)
| qf_escape c s : quote_free q s -> quote_free q (92 :: c :: s).
