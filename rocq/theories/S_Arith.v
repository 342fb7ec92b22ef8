(* Independent specification of exact-or-error integer arithmetic. *)
From Coq Require Import ZArith.
From Verif Require Import Base.
Open Scope Z_scope.

(* r is the exact result z when z fits the type, and an error otherwise. *)
Definition exact_or_error (fits : Z -> bool) (z : Z) (r : out Z) : Prop :=
  if fits z then r = Val z else exists s, r = Err s.

(* q and r are quotient and remainder of x by y, truncating toward zero. *)
Definition trunc_div (x y q r : Z) : Prop :=
  x = q * y + r /\ Z.abs r < Z.abs y /\ (r = 0 \/ Z.sgn r = Z.sgn x).
