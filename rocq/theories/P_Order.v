(* C04, continued: the order of numbers of mixed kinds. *)
From Coq Require Import ZArith Bool.
From Verif Require Import Base M_Number S_Num L_Order P_Num.
Open Scope Z_scope.

(* < is a strict order on all numbers, of whatever kinds, although an integer
   and a double are compared through a rounding. *)
Theorem C04_less_than_transitive : forall a b c,
  number_ok a -> number_ok b -> number_ok c ->
  (num_lt a b = true -> num_lt b c = true -> num_lt a c = true) /\
  (num_gt a b = true -> num_gt b c = true -> num_gt a c = true).
Proof.
  intros a b c A B C. split; [|now apply num_gt_trans].
  assert (G : forall x y, number_ok x -> number_ok y -> num_lt x y = num_gt y x).
  { intros x y X Y. now destruct (C04_comparison_operators_consistent x y X Y). }
  rewrite !G by auto. intros X Y. now apply num_gt_trans with b.
Qed.
Print Assumptions C04_less_than_transitive.
Example C04_less_than_transitive_ex :
  num_lt (NInt (2 ^ 53 - 1)) (NDouble (double_of_Z (2 ^ 53))) = true /\
  num_lt (NDouble (double_of_Z (2 ^ 53))) (NUint (2 ^ 53 + 4)) = true /\
  number_ok (NDouble (double_of_Z (2 ^ 53))).
Proof. vm_compute. auto. Qed.
