From Coq Require Import ZArith Bool Lia ZifyBool.
From Verif Require Import Base M_Overflow S_Arith.
From Coq Require Import String.
Open Scope string_scope.
Open Scope Z_scope.
Ltac Zify.zify_post_hook ::= Z.div_mod_to_equations.

Ltac pows :=
  change (2 ^ 64) with 18446744073709551616 in *;
  change (2 ^ 63) with 9223372036854775808 in *;
  change (2 ^ 32) with 4294967296 in *;
  change (2 ^ 31) with 2147483648 in *;
  change (2 ^ 53) with 9007199254740992 in *.
Ltac unr := unfold in_int64, in_uint64, int64_min, int64_max, uint64_max,
  in_int32, in_uint32, int32_min, int32_max, uint32_max in *; pows.

Lemma in_int64_iff z : in_int64 z = true <-> - 2 ^ 63 <= z <= 2 ^ 63 - 1.
Proof. unr. lia. Qed.
Lemma in_uint64_iff z : in_uint64 z = true <-> 0 <= z <= 2 ^ 64 - 1.
Proof. unr. lia. Qed.

Ltac brk := repeat match goal with
  | |- context [if ?b then _ else _] => destruct b eqn:?; cbn [obind]
  end.

Lemma add_int_ok bi x y : in_int64 x = true -> in_int64 y = true ->
  exact_or_error in_int64 (x + y) (CheckedAddInt bi x y).
Proof.
  intros Hx Hy. unfold exact_or_error, CheckedAddInt.
  destruct bi.
  - unfold builtin_overflow_i64, overflow_int. destruct (in_int64 (x + y)); eauto.
  - destruct (0 <? y) eqn:E; unfold c_int64.
    + replace (in_int64 (int64_max - y)) with true by (unr; lia). cbn [obind].
      unfold CheckRange. destruct (x <=? int64_max - y) eqn:E2; cbn [obind].
      * replace (in_int64 (x + y)) with true by (unr; lia). reflexivity.
      * replace (in_int64 (x + y)) with false by (unr; lia). eauto.
    + replace (in_int64 (int64_min - y)) with true by (unr; lia). cbn [obind].
      unfold CheckRange. destruct (int64_min - y <=? x) eqn:E2; cbn [obind].
      * replace (in_int64 (x + y)) with true by (unr; lia). reflexivity.
      * replace (in_int64 (x + y)) with false by (unr; lia). eauto.
Qed.

Lemma sub_int_ok bi x y : in_int64 x = true -> in_int64 y = true ->
  exact_or_error in_int64 (x - y) (CheckedSubInt bi x y).
Proof.
  intros Hx Hy. unfold exact_or_error, CheckedSubInt.
  destruct bi.
  - unfold builtin_overflow_i64, overflow_int. destruct (in_int64 (x - y)); eauto.
  - destruct (y <? 0) eqn:E; unfold c_int64.
    + replace (in_int64 (int64_max + y)) with true by (unr; lia). cbn [obind].
      unfold CheckRange. destruct (x <=? int64_max + y) eqn:E2; cbn [obind].
      * replace (in_int64 (x - y)) with true by (unr; lia). reflexivity.
      * replace (in_int64 (x - y)) with false by (unr; lia). eauto.
    + replace (in_int64 (int64_min + y)) with true by (unr; lia). cbn [obind].
      unfold CheckRange. destruct (int64_min + y <=? x) eqn:E2; cbn [obind].
      * replace (in_int64 (x - y)) with true by (unr; lia). reflexivity.
      * replace (in_int64 (x - y)) with false by (unr; lia). eauto.
Qed.

Lemma neg_int_ok bi x : in_int64 x = true ->
  exact_or_error in_int64 (- x) (CheckedNegInt bi x).
Proof.
  intros Hx. unfold exact_or_error, CheckedNegInt.
  destruct bi.
  - unfold builtin_overflow_i64, overflow_int.
    replace (x * -1) with (- x) by lia.
    destruct (in_int64 (- x)); eauto.
  - unfold CheckRange, c_int64. destruct (x =? int64_min) eqn:E; cbn [obind negb].
    + replace (in_int64 (-x)) with false by (unr; lia). eauto.
    + replace (in_int64 (-x)) with true by (unr; lia). reflexivity.
Qed.

Lemma quot_pos_lt a b x : 0 <= a -> 0 < b -> (Z.quot a b <? x) = (a <? x * b).
Proof.
  intros Ha Hb. rewrite Z.quot_div_nonneg by lia.
  pose proof (Z.div_mod a b ltac:(lia)). pose proof (Z.mod_pos_bound a b Hb).
  apply eq_true_iff_eq. rewrite !Z.ltb_lt. nia.
Qed.

Ltac Zify.zify_post_hook ::= idtac.
Lemma mul_would_overflow_ok x y : in_int64 x = true -> in_int64 y = true ->
  mul_would_overflow x y = Val (negb (in_int64 (x * y))).
Proof.
  intros Hx Hy.
  apply in_int64_iff in Hx, Hy. pows.
  assert (Hgoal : forall b : bool, (b = true <-> ~ (- 9223372036854775808 <= x * y <= 9223372036854775807)) ->
     Val b = Val (negb (in_int64 (x * y)))).
  { intros b Hb. f_equal. apply eq_true_iff_eq. rewrite Hb, negb_true_iff.
    rewrite <- not_true_iff_false, in_int64_iff. pows. lia. }
  unfold mul_would_overflow, or_else, and_then. cbn [obind].
  destruct ((x =? -1) && (y =? int64_min)) eqn:E1.
  { apply Hgoal. assert (x = -1 /\ y = int64_min) as [-> ->] by lia. unr. lia. }
  destruct ((y =? -1) && (x =? int64_min)) eqn:E2.
  { apply Hgoal. assert (y = -1 /\ x = int64_min) as [-> ->] by lia. unr. lia. }
  destruct ((0 <? x) && (0 <? y)) eqn:E3.
  { unfold c_div64. replace (y =? 0) with false by lia.
    assert (H: in_int64 (Z.quot int64_max y) = true).
    { apply in_int64_iff. pows. change int64_max with 9223372036854775807.
      rewrite Z.quot_div_nonneg by lia.
      pose proof (Z.div_le_upper_bound 9223372036854775807 y 9223372036854775807 ltac:(lia) ltac:(lia)).
      pose proof (Z.div_pos 9223372036854775807 y ltac:(lia) ltac:(lia)).
      lia. }
    unfold c_int64 at 1. rewrite H. cbn [obind].
    rewrite quot_pos_lt by (unfold int64_max; pows; lia).
    assert (0 < x * y) by nia.
    destruct (int64_max <? x * y) eqn:E.
    - apply Hgoal. unr. lia.
    - replace ((x <? 0) && (y <? 0)) with false by lia.
      replace ((0 <? x) && (y <? 0)) with false by lia.
      replace ((x <? 0) && (0 <? y)) with false by lia. cbn [obind].
      apply Hgoal. unr. lia. }
  cbn [obind].
  destruct ((x <? 0) && (y <? 0)) eqn:E4.
  { unfold c_div64. replace (y =? 0) with false by lia.
    assert (Hq : Z.quot int64_max y = - (int64_max / - y)).
    { rewrite <- (Z.opp_involutive y) at 1. rewrite Z.quot_opp_r by lia.
      rewrite Z.quot_div_nonneg; unfold int64_max; pows; lia. }
    pose proof (Z.div_le_upper_bound 9223372036854775807 (-y) 9223372036854775807 ltac:(lia) ltac:(lia)).
    pose proof (Z.div_pos 9223372036854775807 (-y) ltac:(lia) ltac:(lia)).
    assert (H1 : in_int64 (Z.quot int64_max y) = true).
    { apply in_int64_iff. rewrite Hq. change int64_max with 9223372036854775807. pows. lia. }
    unfold c_int64 at 1. rewrite H1. cbn [obind].
    assert (Hlt : (x <? Z.quot int64_max y) = (int64_max <? x * y)).
    { rewrite Hq. replace (x * y) with (-x * -y) by lia.
      rewrite <- quot_pos_lt by (unfold int64_max; pows; lia).
      rewrite Z.quot_div_nonneg by (unfold int64_max; pows; lia). lia. }
    rewrite Hlt. assert (0 < x * y) by nia.
    destruct (int64_max <? x * y) eqn:E.
    - apply Hgoal. unr. lia.
    - replace ((0 <? x) && (y <? 0)) with false by lia.
      replace ((x <? 0) && (0 <? y)) with false by lia. cbn [obind].
      apply Hgoal. unr. lia. }
  cbn [obind].
  assert (Hminq : forall a, 0 < a -> Z.quot int64_min a = - (9223372036854775808 / a)).
  { intros a Ha. change int64_min with (Z.opp 9223372036854775808).
    rewrite Z.quot_opp_l by lia. rewrite Z.quot_div_nonneg by lia. reflexivity. }
  assert (Hminr : forall a, 0 < a -> in_int64 (Z.quot int64_min a) = true).
  { intros a Ha. rewrite Hminq by lia. apply in_int64_iff. pows.
    pose proof (Z.div_le_upper_bound 9223372036854775808 a 9223372036854775808 ltac:(lia) ltac:(lia)).
    pose proof (Z.div_pos 9223372036854775808 a ltac:(lia) ltac:(lia)). lia. }
  assert (Hminlt : forall a b, 0 < a -> (b <? Z.quot int64_min a) = (b * a <? int64_min)).
  { intros a b Ha. rewrite Hminq by lia. change int64_min with (Z.opp 9223372036854775808).
    pose proof (quot_pos_lt 9223372036854775808 a (-b) ltac:(lia) Ha) as H.
    rewrite Z.quot_div_nonneg in H by lia. lia. }
  destruct ((0 <? x) && (y <? 0)) eqn:E5.
  { unfold c_div64. replace (x =? 0) with false by lia.
    unfold c_int64 at 1. rewrite Hminr by lia. cbn [obind].
    rewrite Hminlt by lia. assert (x * y < 0) by nia.
    destruct (y * x <? int64_min) eqn:E.
    - apply Hgoal. unr. lia.
    - replace ((x <? 0) && (0 <? y)) with false by lia. cbn [obind].
      apply Hgoal. unr. lia. }
  cbn [obind].
  destruct ((x <? 0) && (0 <? y)) eqn:E6.
  { unfold c_div64. replace (y =? 0) with false by lia.
    unfold c_int64 at 1. rewrite Hminr by lia. cbn [obind].
    rewrite Hminlt by lia. assert (x * y < 0) by nia.
    apply Hgoal. unr. lia. }
  cbn [obind]. apply Hgoal. assert (x = 0 \/ y = 0) as [-> | ->] by lia; lia.
Qed.

Lemma mul_int_ok bi x y : in_int64 x = true -> in_int64 y = true ->
  exact_or_error in_int64 (x * y) (CheckedMulInt bi x y).
Proof.
  intros Hx Hy. unfold exact_or_error, CheckedMulInt.
  destruct bi.
  { unfold builtin_overflow_i64, overflow_int. destruct (in_int64 (x * y)); eauto. }
  rewrite mul_would_overflow_ok by auto. cbn [obind].
  unfold CheckRange, c_int64.
  destruct (in_int64 (x * y)) eqn:E; cbn; rewrite ?E; eauto.
Qed.

Lemma quot_in_int64 x y : in_int64 x = true -> in_int64 y = true -> y <> 0 ->
  in_int64 (Z.quot x y) = negb ((x =? int64_min) && (y =? -1)).
Proof.
  intros Hx Hy Hy0. apply in_int64_iff in Hx, Hy. pows.
  destruct ((x =? int64_min) && (y =? -1)) eqn:E.
  { assert (x = int64_min /\ y = -1) as [-> ->] by lia. reflexivity. }
  cbn. apply in_int64_iff. pows.
  assert (Z.abs (Z.quot x y) <= Z.abs x).
  { rewrite <- Z.quot_abs by lia.
    rewrite Z.quot_div_nonneg by lia.
    apply Z.div_le_upper_bound; nia. }
  destruct (Z.eq_dec (Z.quot x y) 9223372036854775808); [|lia].
  assert (x = int64_min) by (unfold int64_min; pows; lia). subst x.
  assert (Z.abs y = 1).
  { pose proof (Z.quot_rem' int64_min y). pose proof (Z.rem_bound_abs int64_min y Hy0).
    rewrite e in H0. unfold int64_min in *; pows. nia. }
  assert (y = 1 \/ y = -1) as [-> | ->] by lia; vm_compute in e, E; discriminate.
Qed.

Lemma div_int_ok x y : in_int64 x = true -> in_int64 y = true -> y <> 0 ->
  exact_or_error in_int64 (Z.quot x y) (CheckedDivInt x y).
Proof.
  intros Hx Hy Hy0. unfold exact_or_error, CheckedDivInt.
  rewrite quot_in_int64 by auto.
  unfold CheckRange, CheckArgument.
  replace (negb (x =? int64_min) || negb (y =? -1)) with (negb ((x =? int64_min) && (y =? -1))) by lia.
  destruct ((x =? int64_min) && (y =? -1)) eqn:E; cbn [negb obind]; eauto.
  replace (y =? 0) with false by lia. cbn [negb obind].
  unfold c_div64, c_int64. rewrite quot_in_int64, E by auto.
  replace (y =? 0) with false by lia. reflexivity.
Qed.
Lemma div_int_zero x : in_int64 x = true -> exists s, CheckedDivInt x 0 = Err s.
Proof.
  intros. unfold CheckedDivInt, CheckRange. replace (0 =? -1) with false by lia.
  rewrite orb_true_r. cbn. eauto.
Qed.
Lemma mod_int_zero x : in_int64 x = true -> exists s, CheckedModInt x 0 = Err s.
Proof.
  intros. unfold CheckedModInt, CheckRange. replace (0 =? -1) with false by lia.
  rewrite orb_true_r. cbn. eauto.
Qed.
Lemma mod_int_ok x y : in_int64 x = true -> in_int64 y = true -> y <> 0 ->
  if (x =? int64_min) && (y =? -1) then exists s, CheckedModInt x y = Err s
  else CheckedModInt x y = Val (Z.rem x y).
Proof.
  intros Hx Hy Hy0. unfold CheckedModInt.
  unfold CheckRange, CheckArgument.
  replace (negb (x =? int64_min) || negb (y =? -1)) with (negb ((x =? int64_min) && (y =? -1))) by lia.
  destruct ((x =? int64_min) && (y =? -1)) eqn:E; cbn [negb obind]; eauto.
  replace (y =? 0) with false by lia. cbn [negb obind].
  unfold c_rem64. rewrite E.
  replace (y =? 0) with false by lia. reflexivity.
Qed.

Lemma add_uint_ok bi x y : in_uint64 x = true -> in_uint64 y = true ->
  exact_or_error in_uint64 (x + y) (CheckedAddUint bi x y).
Proof.
  intros Hx Hy. unfold exact_or_error, CheckedAddUint. apply in_uint64_iff in Hx, Hy.
  destruct bi.
  { unfold builtin_overflow_u64, overflow_uint. destruct (in_uint64 (x + y)); eauto. }
  unfold CheckRange, c_uint64.
  rewrite (Z.mod_small (uint64_max - y)) by (unr; lia).
  destruct (x <=? uint64_max - y) eqn:E; cbn [obind].
  - replace (in_uint64 (x + y)) with true by (unr; lia).
    rewrite Z.mod_small by (unr; lia). reflexivity.
  - replace (in_uint64 (x + y)) with false by (unr; lia). eauto.
Qed.
Lemma sub_uint_ok bi x y : in_uint64 x = true -> in_uint64 y = true ->
  exact_or_error in_uint64 (x - y) (CheckedSubUint bi x y).
Proof.
  intros Hx Hy. unfold exact_or_error, CheckedSubUint. apply in_uint64_iff in Hx, Hy.
  destruct bi.
  { unfold builtin_overflow_u64, overflow_uint. destruct (in_uint64 (x - y)); eauto. }
  unfold CheckRange, c_uint64.
  destruct (y <=? x) eqn:E; cbn [obind].
  - replace (in_uint64 (x - y)) with true by (unr; lia).
    rewrite Z.mod_small by (unr; lia). reflexivity.
  - replace (in_uint64 (x - y)) with false by (unr; lia). eauto.
Qed.
Lemma mul_uint_ok bi x y : in_uint64 x = true -> in_uint64 y = true ->
  exact_or_error in_uint64 (x * y) (CheckedMulUint bi x y).
Proof.
  intros Hx Hy. unfold exact_or_error, CheckedMulUint. apply in_uint64_iff in Hx, Hy.
  destruct bi.
  { unfold builtin_overflow_u64, overflow_uint. destruct (in_uint64 (x * y)); eauto. }
  unfold or_else, CheckRange, c_uint64. cbn [obind].
  destruct (y =? 0) eqn:E; cbn [obind].
  { assert (y = 0) as -> by lia. rewrite Z.mul_0_r. reflexivity. }
  unfold c_udiv64. rewrite E. cbn [obind].
  assert ((x <=? uint64_max / y) = (x * y <=? uint64_max)) as ->.
  { apply eq_true_iff_eq. rewrite !Z.leb_le. unr.
    pose proof (Z.div_mod (18446744073709551616 - 1) y ltac:(lia)).
    pose proof (Z.mod_pos_bound (18446744073709551616 - 1) y ltac:(lia)). nia. }
  assert (0 <= x * y) by nia.
  destruct (x * y <=? uint64_max) eqn:E2; cbn [obind].
  - replace (in_uint64 (x * y)) with true by (unr; lia).
    rewrite Z.mod_small by (unr; lia). reflexivity.
  - replace (in_uint64 (x * y)) with false by (unr; lia). eauto.
Qed.
Lemma div_uint_ok x y : in_uint64 x = true -> in_uint64 y = true ->
  if y =? 0 then exists s, CheckedDivUint x y = Err s
  else CheckedDivUint x y = Val (x / y) /\ in_uint64 (x / y) = true.
Proof.
  intros Hx Hy. unfold CheckedDivUint, CheckArgument, c_udiv64. apply in_uint64_iff in Hx, Hy.
  destruct (y =? 0) eqn:E; cbn [negb obind]; eauto. rewrite ?E. split; auto.
  apply in_uint64_iff. split; [apply Z.div_pos; lia|].
  apply Z.div_le_upper_bound; [lia|]. nia.
Qed.
Lemma mod_uint_ok x y : in_uint64 x = true -> in_uint64 y = true ->
  if y =? 0 then exists s, CheckedModUint x y = Err s
  else CheckedModUint x y = Val (x mod y) /\ in_uint64 (x mod y) = true.
Proof.
  intros Hx Hy. unfold CheckedModUint, CheckArgument, c_urem64. apply in_uint64_iff in Hx, Hy.
  destruct (y =? 0) eqn:E; cbn [negb obind]; eauto. rewrite ?E. split; auto.
  apply in_uint64_iff. pose proof (Z.mod_pos_bound x y ltac:(lia)). lia.
Qed.
