(* Specification of UTF-8, after RFC 3629, independent of the model. *)
From Coq Require Import ZArith List.
Import ListNotations.
Open Scope Z_scope.

Definition byte (b : Z) : Prop := 0 <= b <= 255.
Definition bytes (s : list Z) : Prop := Forall byte s.

(* Unicode scalar values: code points other than surrogates. *)
Definition scalar (c : Z) : Prop := 0 <= c <= 1114111 /\ ~ (55296 <= c <= 57343).

(* RFC 3629, section 3: the encoding of a scalar value. *)
Definition utf8 (c : Z) : list Z :=
  if c <? 128 then [c]
  else if c <? 2048 then [192 + c / 64; 128 + c mod 64]
  else if c <? 65536 then [224 + c / 4096; 128 + c / 64 mod 64; 128 + c mod 64]
  else [240 + c / 262144; 128 + c / 4096 mod 64; 128 + c / 64 mod 64; 128 + c mod 64].

(* The encoding of a text. *)
Definition encode (cps : list Z) : list Z := flat_map utf8 cps.

(* [s] is well formed and spells the text [cps]. *)
Definition spells (s : list Z) (cps : list Z) : Prop := Forall scalar cps /\ s = encode cps.
Definition well_formed (s : list Z) : Prop := exists cps, spells s cps.

(* No scalar value's encoding is a prefix of [s]. *)
Definition no_char_at_front (s : list Z) : Prop := forall c t, scalar c -> s <> utf8 c ++ t.

(* Counting code points, each byte that starts no character counting as one. *)
Inductive counts : list Z -> Z -> Prop :=
| counts_nil : counts [] 0
| counts_char c s n : scalar c -> counts s n -> counts (utf8 c ++ s) (n + 1)
| counts_bad b s n : no_char_at_front (b :: s) -> counts s n -> counts (b :: s) (n + 1).
