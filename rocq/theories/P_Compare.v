(* C113: the order of legacy values in sets. *)
From Coq Require Import ZArith QArith String List Bool Lia Permutation Sorted SpecFloat.
From Verif Require Import Base M_Overflow M_Number M_Attr M_Value M_Ext S_Num L_Value.
From Verif Require Import M_Compare S_Compare L_Compare L_Compare2.
Import ListNotations.
Open Scope list_scope.
Open Scope Z_scope.

(* The functions answer whether the one value is before, in the place of, or after the
   other. *)
Theorem C113_order : forall h a b, cel_ok h a -> cel_ok h b ->
  (CelValueLessThan a b = true <-> less a b) /\ (CelValueEqual a b = true <-> same a b) /\
  (CelValueGreaterThan a b = true <-> less b a).
Proof.
  intros h a b A B. destruct (compare_says h a b A B) as [L E]. destruct (compare_says h b a B A) as [G _]. pose proof (compare_opp h a b A B) as O.
  unfold CelValueLessThan, CelValueEqual, CelValueGreaterThan. rewrite <- L, <- E, <- G, O. destruct (CelValueCompare a b); cbn; repeat split; congruence.
Qed.
Print Assumptions C113_order.
(* Exactly one of the three holds. *)
Theorem C113_total : forall h a b, cel_ok h a -> cel_ok h b ->
  (less a b \/ same a b \/ less b a) /\ ~ (less a b /\ same a b) /\ ~ (less a b /\ less b a) /\ ~ (same a b /\ less b a).
Proof.
  intros h a b A B. destruct (C113_order h a b A B) as (L & E & G). rewrite <- L, <- E, <- G.
  unfold CelValueLessThan, CelValueEqual, CelValueGreaterThan. destruct (CelValueCompare a b); intuition congruence.
Qed.
Print Assumptions C113_total.
(* The order is a strict weak order, as std::set needs, if there is no NaN and no two
   errors say the same ... *)
Theorem C113_transitive_partial : forall h a b c, errors_differ h -> cel_ok h a -> cel_ok h b -> cel_ok h c ->
  (CelValueLessThan a b = true -> CelValueLessThan b c = true -> CelValueLessThan a c = true) /\
  (CelValueEqual a b = true -> CelValueEqual b c = true -> CelValueEqual a c = true) /\
  (CelValueEqual a b = true -> CelValueLessThan a c = CelValueLessThan b c) /\
  CelValueLessThan a a = false.
Proof.
  intros h a b c D A B C. pose proof (compare_trans h a D b c A B C) as T. unfold CelValueLessThan, CelValueEqual.
  pose proof (compare_opp h a a A A) as O. destruct (CelValueCompare a b), (CelValueCompare b c); cbn in T; try rewrite T;
    destruct (CelValueCompare a a); try discriminate O; repeat split; congruence.
Qed.
Print Assumptions C113_transitive_partial.
Example C113_used :
  let h := fun p => if p =? 7 then Some (mkStatus kNotFound "x") else None in
  let a := CMap [(KInt 2, CList [CDouble (double_of_Z 1)]); (KBool true, CError 7 (mkStatus kNotFound "x"))] in
  let b := CMap [(KBool true, CError 7 (mkStatus kNotFound "x")); (KInt 2, CList [CDouble (double_of_Z 2)])] in
  errors_differ h /\ cel_ok h a /\ cel_ok h b /\ CelValueLessThan a b = true /\ CelValueEqual a b = false.
Proof.
  cbn. split.
  - intros p q s. cbn. destruct (Z.eqb_spec p 7), (Z.eqb_spec q 7); congruence.
  - repeat split; try discriminate; repeat constructor; cbn; intuition discriminate.
Qed.
(* ... with a NaN it is not: it is in the place of every double ... *)
Theorem C113_nan_refuted : exists a b c, CelValueEqual a b = true /\ CelValueEqual b c = true /\ CelValueLessThan a c = true.
Proof. exists (CDouble (double_of_Z 1)), (CDouble S754_nan), (CDouble (double_of_Z 2)). repeat split. Qed.
Print Assumptions C113_nan_refuted.
(* ... nor with two errors that say the same, between which a third one lies. *)
Theorem C113_errors_refuted : exists h a b c, cel_ok h a /\ cel_ok h b /\ cel_ok h c /\
  CelValueLessThan a b = true /\ CelValueLessThan b c = true /\ CelValueEqual a c = true.
Proof.
  exists (fun p => if p =? 2 then Some (mkStatus kNotFound "y") else Some (mkStatus kNotFound "x")).
  exists (CError 1 (mkStatus kNotFound "x")), (CError 2 (mkStatus kNotFound "y")), (CError 3 (mkStatus kNotFound "x")). repeat split.
Qed.
Print Assumptions C113_errors_refuted.
