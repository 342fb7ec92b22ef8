(* Independent specification of the math extension. *)
From Coq Require Import ZArith List Bool.
From Verif Require Import Base M_Overflow M_Number M_Attr M_Value S_Num S_Value.
Import ListNotations.
Open Scope list_scope.
Open Scope Z_scope.

(* v is a number that fits its type *)
Definition numeric (v : value) : Prop := exists n, number_of v = Some n /\ number_ok n.
Definition nan_value (v : value) : Prop := exists n, number_of v = Some n /\ math_nan n.
(* a > b and a >= b in the language (C03, C04) *)
Definition greater (a b : value) : Prop :=
  exists x y, number_of a = Some x /\ number_of b = Some y /\ num_gt x y = true.
Definition at_least (a b : value) : Prop :=
  exists x y, number_of a = Some x /\ number_of b = Some y /\ num_ge x y = true.
(* a > b between the mathematical values *)
Definition greater_math (a b : value) : Prop :=
  exists x y, number_of a = Some x /\ number_of b = Some y /\ math_gt x y.
Definition comparable_exactly (a b : value) : Prop :=
  exists x y, number_of a = Some x /\ number_of b = Some y /\ exactly_comparable x y.

(* z is the 64-bit two's complement integer whose bits are f of the operands'
   bits; Z.testbit reads the (infinite) two's complement representation. *)
Definition bitwise (f : bool -> bool -> bool) (l r z : Z) : Prop :=
  forall i, 0 <= i -> Z.testbit z i = f (Z.testbit l i) (Z.testbit r i).
Definition bitwise_below (n : Z) (f : bool -> bool -> bool) (l r z : Z) : Prop :=
  forall i, 0 <= i < n -> Z.testbit z i = f (Z.testbit l i) (Z.testbit r i).
