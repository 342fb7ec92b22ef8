(* Property theorems C37: the sets extension. *)
From Coq Require Import ZArith QArith List Bool Lia ZifyBool String Permutation.
From Verif Require Import Base M_Overflow M_Number M_Attr M_Value S_Num S_Value L_Value P_Val M_Ext S_Ext.
Import ListNotations.
Local Open Scope string_scope.
Open Scope list_scope.
Open Scope Z_scope.

Ltac by_in := match goal with
  | I : In ?x ?l |- value_ok ?x => apply (everywhere_list_in _ l); assumption
  | I : In ?x ?l |- no_uint_keys ?x => apply (everywhere_list_in _ l); assumption
  | I : In ?x ?l |- nan_free ?x => apply (everywhere_list_in _ l); assumption
  end.
Lemma contains_iff l x : value_ok (VList l) -> value_ok x ->
  (ListContains l x = true <-> exists y, In y l /\ same y x).
Proof.
  intros Hl Hx. unfold ListContains. rewrite existsb_exists.
  split; intros (y & I & E); exists y; split; auto; apply ValueEqual_spec; auto; by_in.
Qed.
Lemma same_sym a b : value_ok a -> value_ok b -> same a b -> same b a.
Proof.
  intros Ha Hb H. apply ValueEqual_spec; auto. rewrite ValueEqual_sym; auto.
  now apply ValueEqual_spec.
Qed.
Lemma contains_loop l s : forall m, sets_contains_loop l s m = match s with [] => m | _ => negb (forallb (ListContains l) s) end.
Proof.
  induction s as [|e s IH]; intros m; [reflexivity|]. cbn [sets_contains_loop forallb].
  rewrite negb_involutive. destruct (ListContains l e) eqn:E; [|reflexivity].
  cbn [negb andb]. rewrite IH. destruct s; reflexivity.
Qed.
Lemma SetsContains_eq l s : SetsContains l s = VBool (forallb (ListContains l) s).
Proof. unfold SetsContains. rewrite contains_loop. destruct s; [reflexivity|]. now rewrite negb_involutive. Qed.
Lemma intersects_loop s l : forall f, sets_intersects_loop s l f = match l with [] => f | _ => existsb (ListContains s) l end.
Proof.
  induction l as [|e l IH]; intros f; [reflexivity|]. cbn [sets_intersects_loop existsb].
  destruct (ListContains s e) eqn:E; [reflexivity|]. cbn [negb orb]. rewrite IH. destruct l; reflexivity.
Qed.
Lemma SetsIntersects_eq l s : SetsIntersects l s = VBool (existsb (ListContains s) l).
Proof. unfold SetsIntersects. rewrite intersects_loop. destruct l; reflexivity. Qed.

(* The three functions always answer with a bool. *)
Theorem C37_contains : forall a b, value_ok (VList a) -> value_ok (VList b) ->
  exists r, SetsContains a b = VBool r /\
    (r = true <-> forall x, In x b -> exists y, In y a /\ same y x).
Proof.
  intros a b Ha Hb. rewrite SetsContains_eq. eexists. split; [reflexivity|].
  rewrite forallb_forall. split; intros H x I; apply contains_iff; auto; by_in.
Qed.
Print Assumptions C37_contains.
Theorem C37_intersects : forall a b, value_ok (VList a) -> value_ok (VList b) ->
  exists r, SetsIntersects a b = VBool r /\
    (r = true <-> exists x y, In x a /\ In y b /\ same x y).
Proof.
  intros a b Ha Hb. rewrite SetsIntersects_eq. eexists. split; [reflexivity|].
  rewrite existsb_exists. split.
  - intros (x & I & E). apply contains_iff in E; auto; try by_in.
    destruct E as (y & J & E). exists x, y. repeat split; auto. apply same_sym; auto; by_in.
  - intros (x & y & I & J & E). exists x. split; auto. apply contains_iff; auto.
    + by_in.
    + exists y. split; auto. apply same_sym; auto; by_in.
Qed.
Print Assumptions C37_intersects.
Theorem C37_intersects_symmetric : forall a b, value_ok (VList a) -> value_ok (VList b) ->
  SetsIntersects a b = SetsIntersects b a.
Proof.
  intros a b Ha Hb. destruct (C37_intersects a b Ha Hb) as (r & -> & E), (C37_intersects b a Hb Ha) as (r' & -> & E').
  f_equal. apply Bool.eq_iff_eq_true. rewrite E, E'.
  split; intros (x & y & I & J & S); exists y, x; repeat split; auto; apply same_sym; auto; by_in.
Qed.
Print Assumptions C37_intersects_symmetric.
Theorem C37_equivalent : forall a b, value_ok (VList a) -> value_ok (VList b) ->
  exists r, SetsEquivalent a b = VBool r /\
    (r = true <-> (forall x, In x b -> exists y, In y a /\ same y x) /\
                  (forall x, In x a -> exists y, In y b /\ same y x)).
Proof.
  intros a b Ha Hb. unfold SetsEquivalent.
  destruct (C37_contains a b Ha Hb) as (r & -> & E), (C37_contains b a Hb Ha) as (r' & -> & E').
  destruct r; eexists; (split; [reflexivity|]); rewrite <- E, <- E'; intuition congruence.
Qed.
Print Assumptions C37_equivalent.

(* equality is transitive between the elements of the lists *)
Definition transitive_on (l : list value) : Prop :=
  forall x y z, In x l -> In y l -> In z l -> same x y -> same y z -> same x z.
Theorem C37_equivalence : forall a b c,
  value_ok (VList a) -> value_ok (VList b) -> value_ok (VList c) ->
  (nan_free (VList a) -> SetsEquivalent a a = VBool true) /\
  SetsEquivalent a b = SetsEquivalent b a /\
  (transitive_on (a ++ b ++ c) -> SetsEquivalent a b = VBool true -> SetsEquivalent b c = VBool true ->
   SetsEquivalent a c = VBool true).
Proof.
  intros a b c Ha Hb Hc. repeat split.
  - intros N. destruct (C37_equivalent a a Ha Ha) as (r & -> & E). f_equal. apply E.
    assert (R : forall x, In x a -> exists y, In y a /\ same y x).
    { intros x I. exists x. split; auto. apply ValueEqual_spec; try by_in.
      apply ValueEqual_refl; by_in. }
    auto.
  - destruct (C37_equivalent a b Ha Hb) as (r & -> & E), (C37_equivalent b a Hb Ha) as (r' & -> & E').
    f_equal. apply Bool.eq_iff_eq_true. rewrite E, E'. tauto.
  - intros T. destruct (C37_equivalent a b Ha Hb) as (r1 & -> & E1), (C37_equivalent b c Hb Hc) as (r2 & -> & E2),
      (C37_equivalent a c Ha Hc) as (r3 & -> & E3).
    intros [= ->] [= ->]. f_equal. apply E3.
    destruct (proj1 E1 eq_refl) as [A1 A2], (proj1 E2 eq_refl) as [B1 B2].
    split; intros x I.
    + destruct (B1 x I) as (y & J & S). destruct (A1 y J) as (z & K & S'). exists z. split; auto.
      apply T with y; auto; rewrite !in_app_iff; auto.
    + destruct (A2 x I) as (y & J & S). destruct (B2 y J) as (z & K & S'). exists z. split; auto.
      apply T with y; auto; rewrite !in_app_iff; auto.
Qed.
Print Assumptions C37_equivalence.

(* With the equality of the == operator instead, for values that nowhere
   contain a map with a uint key (missing: those maps, see C44). *)
Theorem C37_contains_operator_partial : forall a b, value_ok (VList a) -> value_ok (VList b) ->
  no_uint_keys (VList a) -> no_uint_keys (VList b) ->
  exists r, SetsContains a b = VBool r /\
    (r = true <-> forall x, In x b -> exists y, In y a /\ EvaluateEquality false y x = Val (VBool true)).
Proof.
  intros a b Ha Hb Ua Ub. destruct (C37_contains a b Ha Hb) as (r & E & S). exists r. split; auto.
  rewrite S. clear E S.
  assert (P : forall x y, In x b -> In y a -> (same y x <-> EvaluateEquality false y x = Val (VBool true))).
  { intros x y I J. assert (Oy : value_ok y) by by_in.
    assert (Ox : value_ok x) by by_in.
    assert (Uy : no_uint_keys y) by by_in.
    assert (Ux : no_uint_keys x) by by_in.
    unfold same. rewrite <- ValueEqual_spec by auto.
    unfold EvaluateEquality. replace (is_error y) with false by (destruct y; auto; destruct Oy as [[] _]).
    replace (is_error x) with false by (destruct x; auto; destruct Ox as [[] _]).
    split.
    - intros V. pose proof (ValueEqual_heq y x Oy Ox V) as H. unfold heq in H. unfold ValueEqualImpl. rewrite H. reflexivity.
    - intros V. apply heq_ValueEqual; auto. unfold heq. unfold ValueEqualImpl in V.
      destruct (EqualImpl true y x) as [[[]|]| |]; cbn in V; congruence || auto. }
  split; intros H x I; destruct (H x I) as (y & J & K); exists y; split; auto; apply (P x y I J); auto.
Qed.
Print Assumptions C37_contains_operator_partial.
(* sets.contains([{1: 2}], [{1u: 2}]) is false although {1: 2} == {1u: 2} *)
Theorem C37_contains_operator_refuted : exists a b, value_ok (VList [a]) /\ value_ok (VList [b]) /\
  EvaluateEquality false a b = Val (VBool true) /\ SetsContains [a] [b] = VBool false.
Proof.
  exists (VMap [(KInt 1, VInt 2)]), (VMap [(KUint 1, VInt 2)]).
  split; [ok_value|]. split; [ok_value|]. split; vm_compute; reflexivity.
Qed.
Print Assumptions C37_contains_operator_refuted.
(* Without transitivity equivalence fails: int 2^53, its double, int 2^53+1. *)
Theorem C37_equivalence_refuted : exists a b c,
  value_ok (VList a) /\ value_ok (VList b) /\ value_ok (VList c) /\
  SetsEquivalent a b = VBool true /\ SetsEquivalent b c = VBool true /\ SetsEquivalent a c = VBool false.
Proof.
  exists [VInt (2 ^ 53)], [VDouble (double_of_Z (2 ^ 53))], [VInt (2 ^ 53 + 1)].
  repeat split; vm_compute; reflexivity.
Qed.
Print Assumptions C37_equivalence_refuted.

Example C37_example :
  value_ok (VList [sample_value; VInt 1; VInt 1]) /\ value_ok (VList [VUint 1; sample_value]) /\
  SetsEquivalent [sample_value; VInt 1; VInt 1] [VUint 1; sample_value] = VBool true /\
  SetsContains [VInt 1] [VUint 1; sample_value] = VBool false /\
  SetsIntersects [VInt 2; VInt 1] [VDouble (double_of_Z 1)] = VBool true.
Proof. split; [ok_value|]. split; [ok_value|]. repeat split; vm_compute; reflexivity. Qed.
