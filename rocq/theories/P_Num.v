(* Property theorems C01-C08: numbers, conversions and time. *)
From Coq Require Import ZArith QArith Bool Lia ZifyBool String.
From Verif Require Import Base M_Overflow M_Number S_Num S_Arith S_Time
  L_Overflow L_Float L_Round L_Number L_Conv L_Time.
Open Scope string_scope.
Open Scope Z_scope.

(* ------------------------------------------------------------------ C01 *)
(* bi selects the compiler-builtin or the portable variant of the code: both
   satisfy the claim. *)
Theorem C01_int_arithmetic_exact_or_error : forall bi x y,
  in_int64 x = true -> in_int64 y = true ->
  exact_or_error in_int64 (x + y) (CheckedAddInt bi x y) /\
  exact_or_error in_int64 (x - y) (CheckedSubInt bi x y) /\
  exact_or_error in_int64 (x * y) (CheckedMulInt bi x y) /\
  exact_or_error in_int64 (- x) (CheckedNegInt bi x).
Proof. intros; auto using add_int_ok, sub_int_ok, mul_int_ok, neg_int_ok. Qed.
Print Assumptions C01_int_arithmetic_exact_or_error.

Theorem C01_uint_arithmetic_exact_or_error : forall bi x y,
  in_uint64 x = true -> in_uint64 y = true ->
  exact_or_error in_uint64 (x + y) (CheckedAddUint bi x y) /\
  exact_or_error in_uint64 (x - y) (CheckedSubUint bi x y) /\
  exact_or_error in_uint64 (x * y) (CheckedMulUint bi x y).
Proof. intros; auto using add_uint_ok, sub_uint_ok, mul_uint_ok. Qed.
Print Assumptions C01_uint_arithmetic_exact_or_error.

Lemma trunc_div_exists x y : y <> 0 -> trunc_div x y (Z.quot x y) (Z.rem x y).
Proof.
  intros Hy. split; [pose proof (Z.quot_rem' x y); lia|].
  split; [now apply Z.rem_bound_abs|].
  destruct (Z.eq_dec (Z.rem x y) 0); [auto|right].
  apply Z.rem_sign_nz; auto.
Qed.
Lemma trunc_div_unique x y q r q' r' : y <> 0 ->
  trunc_div x y q r -> trunc_div x y q' r' -> q = q' /\ r = r'.
Proof.
  intros Hy (A1 & A2 & A3) (B1 & B2 & B3).
  assert (E : (q - q') * y = r' - r) by lia.
  assert (Z.abs (r' - r) < Z.abs y).
  { destruct A3 as [->|A3], B3 as [->|B3]; try lia. }
  assert (Z.abs (q - q') * Z.abs y < Z.abs y) by (rewrite <- Z.abs_mul, E; auto).
  assert (q - q' = 0) by nia. split; [lia|]. nia.
Qed.

(* Division and remainder: with q, r the truncated quotient and remainder,
   int / and % return q and r; the only error besides a zero divisor is
   INT64_MIN by -1 (whose quotient is not representable). *)
Theorem C01_int_div_mod : forall x y, in_int64 x = true -> in_int64 y = true ->
  (y = 0 -> (exists s, CheckedDivInt x y = Err s) /\ (exists s, CheckedModInt x y = Err s)) /\
  (forall q r, y <> 0 -> trunc_div x y q r ->
     exact_or_error in_int64 q (CheckedDivInt x y) /\
     (in_int64 q = true -> CheckedModInt x y = Val r /\ in_int64 r = true) /\
     (in_int64 q = false -> x = int64_min /\ y = -1 /\ exists s, CheckedModInt x y = Err s)).
Proof.
  intros x y Hx Hy. split.
  - intros ->. split; [now apply div_int_zero|now apply mod_int_zero].
  - intros q r Hy0 T. destruct (trunc_div_unique x y q r _ _ Hy0 T (trunc_div_exists x y Hy0)) as [-> ->].
    split; [now apply div_int_ok|].
    pose proof (mod_int_ok x y Hx Hy Hy0) as M. rewrite quot_in_int64 by auto.
    destruct ((x =? int64_min) && (y =? -1)) eqn:E; cbn [negb]; split; try discriminate.
    + intros _. apply andb_true_iff in E as [E1 E2].
      apply Z.eqb_eq in E1, E2. auto.
    + intros _. split; auto. apply in_int64_iff. apply in_int64_iff in Hx, Hy.
      pose proof (Z.rem_bound_abs x y Hy0). lia.
Qed.
Print Assumptions C01_int_div_mod.

Theorem C01_uint_div_mod : forall x y, in_uint64 x = true -> in_uint64 y = true ->
  (y = 0 -> (exists s, CheckedDivUint x y = Err s) /\ (exists s, CheckedModUint x y = Err s)) /\
  (forall q r, y <> 0 -> trunc_div x y q r ->
     CheckedDivUint x y = Val q /\ in_uint64 q = true /\
     CheckedModUint x y = Val r /\ in_uint64 r = true).
Proof.
  intros x y Hx Hy. pose proof (div_uint_ok x y Hx Hy) as D. pose proof (mod_uint_ok x y Hx Hy) as M.
  split.
  - intros ->. auto.
  - intros q r Hy0 T. destruct (trunc_div_unique x y q r _ _ Hy0 T (trunc_div_exists x y Hy0)) as [-> ->].
    replace (y =? 0) with false in * by lia. apply in_uint64_iff in Hx, Hy.
    rewrite Z.quot_div_nonneg, Z.rem_mod_nonneg by lia. tauto.
Qed.
Print Assumptions C01_uint_div_mod.

(* The one place where % fails although the remainder (0) is representable. *)
Theorem C01_mod_min_by_minus_one_is_error :
  exists x y r, in_int64 x = true /\ in_int64 y = true /\ trunc_div x y (- x) r /\
    in_int64 r = true /\ exists s, CheckedModInt x y = Err s.
Proof.
  exists int64_min, (-1), 0. repeat split; try reflexivity; [left; reflexivity|eexists; reflexivity].
Qed.
Print Assumptions C01_mod_min_by_minus_one_is_error.

Example C01_example : CheckedMulInt false 4611686018427387904 (-2) = Val int64_min /\
  (exists s, CheckedMulInt false 4611686018427387904 2 = Err s) /\
  in_int64 4611686018427387904 = true /\ trunc_div (-7) 2 (-3) (-1).
Proof. repeat split; try reflexivity. eexists; reflexivity. right; reflexivity. Qed.

(* ------------------------------------------------------------------ C02 *)
Theorem C02_int_division_law : forall bi x y, in_int64 x = true -> in_int64 y = true ->
  (forall q r, CheckedDivInt x y = Val q -> CheckedModInt x y = Val r ->
     Z.abs r < Z.abs y /\
     exists p, CheckedMulInt bi q y = Val p /\ CheckedAddInt bi p r = Val x) /\
  ((exists s, CheckedDivInt x y = Err s) <-> (exists s, CheckedModInt x y = Err s)).
Proof.
  intros bi x y Hx Hy. destruct (Z.eq_dec y 0) as [->|Hy0].
  { destruct (div_int_zero x Hx) as [s1 E1], (mod_int_zero x Hx) as [s2 E2].
    rewrite E1, E2. split; [discriminate|]. split; eauto. }
  pose proof (div_int_ok x y Hx Hy Hy0) as D. unfold exact_or_error in D.
  rewrite quot_in_int64 in D by auto.
  pose proof (mod_int_ok x y Hx Hy Hy0) as M.
  destruct ((x =? int64_min) && (y =? -1)) eqn:E; cbn in D.
  { destruct D as [s1 ->], M as [s2 ->]. split; [discriminate|]. split; eauto. }
  rewrite D, M. split; [|split; intros [s X]; discriminate].
  intros q r [= <-] [= <-].
  split; [now apply Z.rem_bound_abs|].
  pose proof (Z.quot_rem' x y) as QR. pose proof (Z.rem_bound_abs x y Hy0) as RB.
  assert (RS : Z.rem x y = 0 \/ Z.sgn (Z.rem x y) = Z.sgn x)
    by (destruct (Z.eq_dec (Z.rem x y) 0); [auto|right; now apply Z.rem_sign_nz]).
  assert (I : in_int64 (Z.quot x y * y) = true).
  { apply in_int64_iff. apply in_int64_iff in Hx, Hy. lia. }
  assert (Iq : in_int64 (Z.quot x y) = true) by (rewrite quot_in_int64, E by auto; reflexivity).
  assert (Ir : in_int64 (Z.rem x y) = true).
  { apply in_int64_iff. apply in_int64_iff in Hx, Hy. lia. }
  pose proof (mul_int_ok bi _ _ Iq Hy) as A. unfold exact_or_error in A. rewrite I in A.
  exists (Z.quot x y * y). split; auto.
  pose proof (add_int_ok bi _ _ I Ir) as B. unfold exact_or_error in B.
  replace (Z.quot x y * y + Z.rem x y) with x in B by lia. now rewrite Hx in B.
Qed.
Print Assumptions C02_int_division_law.

Theorem C02_uint_division_law : forall bi x y, in_uint64 x = true -> in_uint64 y = true ->
  (forall q r, CheckedDivUint x y = Val q -> CheckedModUint x y = Val r ->
     0 <= r < y /\
     exists p, CheckedMulUint bi q y = Val p /\ CheckedAddUint bi p r = Val x) /\
  ((exists s, CheckedDivUint x y = Err s) <-> (exists s, CheckedModUint x y = Err s)).
Proof.
  intros bi x y Hx Hy.
  pose proof (div_uint_ok x y Hx Hy) as D. pose proof (mod_uint_ok x y Hx Hy) as M.
  destruct (y =? 0) eqn:E.
  { destruct D as [s1 ->], M as [s2 ->]. split; [discriminate|]. split; eauto. }
  destruct D as [D Iq], M as [M Ir]. rewrite D, M. split; [|split; intros [s X]; discriminate].
  intros q r [= <-] [= <-]. apply in_uint64_iff in Hx as Hx', Hy as Hy'.
  pose proof (Z.mod_pos_bound x y ltac:(lia)) as MB. split; [lia|].
  pose proof (Z.div_mod x y ltac:(lia)) as DM.
  assert (I : in_uint64 (x / y * y) = true).
  { apply in_uint64_iff. apply in_uint64_iff in Iq. nia. }
  pose proof (mul_uint_ok bi _ _ Iq Hy) as A. unfold exact_or_error in A. rewrite I in A.
  exists (x / y * y). split; auto.
  pose proof (add_uint_ok bi _ _ I Ir) as B. unfold exact_or_error in B.
  replace (x / y * y + x mod y) with x in B by lia. now rewrite Hx in B.
Qed.
Print Assumptions C02_uint_division_law.

Example C02_example : CheckedDivInt (-7) 2 = Val (-3) /\ CheckedModInt (-7) 2 = Val (-1).
Proof. split; reflexivity. Qed.

(* ------------------------------------------------------------------ C03 *)
Lemma num_ops_cmp a b :
  (num_lt a b = true <-> cmp_of (NumCompare a b) = Some Lt) /\
  (num_gt a b = true <-> cmp_of (NumCompare a b) = Some Gt) /\
  (num_eq a b = true <-> cmp_of (NumCompare a b) = Some Eq) /\
  (num_le a b = true <-> cmp_of (NumCompare a b) = Some Lt \/ cmp_of (NumCompare a b) = Some Eq) /\
  (num_ge a b = true <-> cmp_of (NumCompare a b) = Some Gt \/ cmp_of (NumCompare a b) = Some Eq) /\
  (num_ne a b = true <-> cmp_of (NumCompare a b) <> Some Eq).
Proof.
  unfold num_lt, num_gt, num_eq, num_le, num_ge, num_ne.
  destruct (NumCompare a b); cbn; intuition congruence.
Qed.

(* Where the comparison is exact.  The restriction exactly_comparable (two
   doubles, two integers, or |integer| <= 2^53 against a double) is what makes
   this partial. *)
Theorem C03_comparison_matches_order_partial : forall a b,
  number_ok a -> number_ok b -> exactly_comparable a b ->
  (num_lt a b = true <-> math_lt a b) /\
  (num_gt a b = true <-> math_gt a b) /\
  (num_eq a b = true <-> math_eq a b) /\
  (num_le a b = true <-> math_lt a b \/ math_eq a b) /\
  (num_ge a b = true <-> math_gt a b \/ math_eq a b) /\
  (num_ne a b = true <-> ~ math_eq a b).
Proof.
  intros a b Ha Hb E. pose proof (an_exact _ _ _ (NumCompare_answer a b Ha Hb) E) as X.
  unfold math_lt, math_gt, math_eq. rewrite <- X. apply num_ops_cmp.
Qed.
Print Assumptions C03_comparison_matches_order_partial.

(* For all numbers without exception: a strict answer is never wrong, the
   order is never reversed, NaN compares false, and a wrong "equal" can only
   be reported for finite numbers at most 1024 apart. *)
Theorem C03_comparison_never_reversed : forall a b,
  number_ok a -> number_ok b ->
  (num_lt a b = true -> math_lt a b) /\
  (num_gt a b = true -> math_gt a b) /\
  (num_eq a b = true -> math_eq a b \/ within 1024 a b) /\
  (math_lt a b -> num_le a b = true /\ num_gt a b = false) /\
  (math_gt a b -> num_ge a b = true /\ num_lt a b = false) /\
  (math_eq a b -> num_eq a b = true) /\
  (math_nan a \/ math_nan b ->
     num_lt a b = false /\ num_gt a b = false /\ num_le a b = false /\
     num_ge a b = false /\ num_eq a b = false /\ num_ne a b = true).
Proof.
  intros a b Ha Hb. destruct (NumCompare_answer a b Ha Hb) as [_ A2 A3 A4 A5].
  rewrite <- math_cmp_none, <- A2.
  unfold num_lt, num_gt, num_eq, num_le, num_ge, num_ne, math_lt, math_gt, math_eq in *.
  destruct (NumCompare a b); cbn in *.
  - specialize (A3 eq_refl). rewrite A3. repeat split; try discriminate; auto.
  - repeat split; try discriminate; auto.
  - specialize (A4 eq_refl). rewrite A4. repeat split; try discriminate; auto.
  - rewrite (proj1 A2 eq_refl). repeat split; try discriminate; auto.
Qed.
Print Assumptions C03_comparison_never_reversed.

Theorem C03_comparison_matches_order_refuted : exists a b,
  number_ok a /\ number_ok b /\ num_eq a b = true /\ num_lt a b = false /\ math_lt a b.
Proof.
  exists (NDouble (double_of_Z (2 ^ 53))), (NInt (2 ^ 53 + 1)).
  repeat split; vm_compute; reflexivity.
Qed.
Print Assumptions C03_comparison_matches_order_refuted.

Example C03_example :
  let d := ddiv (double_of_Z 1) (double_of_Z 3) in
  number_ok (NDouble d) /\ exactly_comparable (NDouble d) (NInt (- 2 ^ 53)) /\
  num_gt (NDouble d) (NInt (- 2 ^ 53)) = true /\ num_lt (NDouble d) (NUint 1) = true.
Proof.
  repeat split; try (vm_compute; reflexivity). right. split; [exact I|]. vm_compute. discriminate.
Qed.

(* ------------------------------------------------------------------ C04 *)
Theorem C04_comparison_operators_consistent : forall a b,
  number_ok a -> number_ok b ->
  num_lt a b = num_gt b a /\ num_le a b = num_ge b a /\ num_eq a b = num_eq b a /\
  num_ne a b = negb (num_eq a b) /\
  num_le a b = (num_lt a b || num_eq a b)%bool /\
  num_ge a b = (num_gt a b || num_eq a b)%bool /\
  (~ math_nan a -> ~ math_nan b ->
     (num_lt a b = true /\ num_eq a b = false /\ num_gt a b = false) \/
     (num_lt a b = false /\ num_eq a b = true /\ num_gt a b = false) \/
     (num_lt a b = false /\ num_eq a b = false /\ num_gt a b = true)) /\
  (math_nan a \/ math_nan b ->
     num_lt a b = false /\ num_le a b = false /\ num_eq a b = false /\
     num_ge a b = false /\ num_gt a b = false).
Proof.
  intros a b Ha Hb.
  assert (I : NumCompare b a = Invert (NumCompare a b)).
  { assert (CZ : forall x y, CompareZ y x = Invert (CompareZ x y)).
    { intros x y. unfold CompareZ. destruct (Z.compare_spec x y);
        destruct (y <? x) eqn:E1, (x <? y) eqn:E2, (x =? y) eqn:E3, (y =? x) eqn:E4; try reflexivity; lia. }
    assert (II : forall r, Invert (Invert r) = r) by (destruct r; reflexivity).
    destruct a, b; cbn [NumCompare]; rewrite ?II; auto.
    assert (C : forall r r', cmp_of r = cmp_of r' -> r = r') by (destruct r, r'; cbn; congruence).
    apply C. rewrite Invert_ok, !DoubleCompare_ok by auto. apply spec_compare_antisym. }
  pose proof (proj1 (math_cmp_none a b)) as MN.
  pose proof (proj2 (math_cmp_none a b)) as MN'.
  pose proof (an_nan _ _ _ (NumCompare_answer a b Ha Hb)) as AN.
  unfold num_lt, num_le, num_gt, num_ge, num_eq, num_ne. rewrite I.
  destruct (NumCompare a b); cbn in *; repeat split; auto;
    try (intros X; apply MN' in X; apply AN in X; discriminate).
  all: try (intros N1 N2; exfalso; destruct AN as [AN _]; destruct (MN (AN eq_refl)); auto; fail).
  all: match goal with X : _ \/ _ |- _ => apply MN' in X; apply AN in X; discriminate end.
Qed.
Print Assumptions C04_comparison_operators_consistent.
Example C04_example : number_ok (NDouble S754_nan) /\ math_nan (NDouble S754_nan) /\
  number_ok (NUint (2 ^ 64 - 1)) /\ ~ math_nan (NUint (2 ^ 64 - 1)).
Proof. repeat split; try reflexivity. discriminate. Qed.

(* ------------------------------------------------------------------ C05 *)
Theorem C05_numeric_equality_reflexive_symmetric : forall a b,
  number_ok a -> number_ok b ->
  (~ math_nan a -> num_eq a a = true) /\ num_eq a b = num_eq b a.
Proof.
  intros a b Ha Hb. split.
  - intros N. apply (proj2 (proj2 (proj2 (proj2 (proj2 (C03_comparison_never_reversed a a Ha Ha)))))).
    unfold math_eq, math_cmp, math_nan in *. destruct (number_value a); [|congruence].
    cbn. now rewrite ext_compare_refl.
  - apply (C04_comparison_operators_consistent a b Ha Hb).
Qed.
Print Assumptions C05_numeric_equality_reflexive_symmetric.

Lemma math_eq_trans a b c : math_eq a b -> math_eq b c -> math_eq a c.
Proof.
  unfold math_eq, math_cmp. destruct (number_value a) as [x|], (number_value b) as [y|], (number_value c) as [z|]; cbn; try discriminate.
  intros [= H1] [= H2]. f_equal. destruct x, y, z; cbn in *; try discriminate; auto.
  apply Qeq_alt in H1, H2. apply Qeq_alt. now rewrite H1, H2.
Qed.

(* Missing for the full claim: integers beyond 2^53 mixed with doubles. *)
Theorem C05_numeric_equality_transitive_partial : forall a b c,
  number_ok a -> number_ok b -> number_ok c ->
  exactly_comparable a b -> exactly_comparable b c -> exactly_comparable a c ->
  num_eq a b = true -> num_eq b c = true -> num_eq a c = true.
Proof.
  intros a b c Ha Hb Hc E1 E2 E3 H1 H2.
  apply (C03_comparison_matches_order_partial a c); auto.
  apply math_eq_trans with b.
  - now apply (C03_comparison_matches_order_partial a b).
  - now apply (C03_comparison_matches_order_partial b c).
Qed.
Print Assumptions C05_numeric_equality_transitive_partial.

Theorem C05_numeric_equality_transitive_refuted : exists a b c,
  number_ok a /\ number_ok b /\ number_ok c /\
  num_eq a b = true /\ num_eq b c = true /\ num_eq a c = false.
Proof.
  exists (NInt (2 ^ 53)), (NDouble (double_of_Z (2 ^ 53))), (NInt (2 ^ 53 + 1)).
  repeat split; vm_compute; reflexivity.
Qed.
Print Assumptions C05_numeric_equality_transitive_refuted.
Example C05_example :
  let a := NInt 5 in let b := NDouble (double_of_Z 5) in let c := NUint 5 in
  exactly_comparable a b /\ exactly_comparable b c /\ exactly_comparable a c /\
  num_eq a b = true /\ num_eq b c = true.
Proof. cbn -[Z.pow]. repeat split; try reflexivity; try (left; reflexivity); right; split; try exact I; vm_compute; discriminate. Qed.

(* ------------------------------------------------------------------ C06 *)
(* int(double): truncation inside the open interval (-2^63, 2^63), error
   otherwise; never an undefined cast. *)
Theorem C06_double_to_int : forall v, valid_double v = true ->
  (forall q, double_value v = Some (Fin q) ->
     (inject_Z (- 2 ^ 63) < q)%Q -> (q < inject_Z (2 ^ 63))%Q ->
     exists z, CheckedDoubleToInt64 v = Val z /\ is_trunc q z /\ in_int64 z = true) /\
  ((forall q, double_value v = Some (Fin q) ->
      ~ ((inject_Z (- 2 ^ 63) < q)%Q /\ (q < inject_Z (2 ^ 63))%Q)) ->
   exists s, CheckedDoubleToInt64 v = Err s).
Proof. exact DoubleToInt64_ok. Qed.
Print Assumptions C06_double_to_int.

Theorem C06_double_to_uint : forall v, valid_double v = true ->
  (forall q, double_value v = Some (Fin q) -> (0 <= q)%Q -> (q < inject_Z (2 ^ 64))%Q ->
     exists z, CheckedDoubleToUint64 v = Val z /\ is_trunc q z /\ in_uint64 z = true) /\
  ((forall q, double_value v = Some (Fin q) -> ~ ((0 <= q)%Q /\ (q < inject_Z (2 ^ 64))%Q)) ->
   exists s, CheckedDoubleToUint64 v = Err s).
Proof. exact DoubleToUint64_ok. Qed.
Print Assumptions C06_double_to_uint.

Theorem C06_int_uint_conversions : forall z,
  (in_int64 z = true -> exact_or_error in_uint64 z (CheckedInt64ToUint64 z)) /\
  (in_uint64 z = true -> exact_or_error in_int64 z (CheckedUint64ToInt64 z)) /\
  (in_int64 z = true -> exact_or_error in_int32 z (CheckedInt64ToInt32 z)) /\
  (in_uint64 z = true -> exact_or_error in_uint32 z (CheckedUint64ToUint32 z)).
Proof.
  intros z. unfold exact_or_error, CheckedInt64ToUint64, CheckedUint64ToInt64,
    CheckedInt64ToInt32, CheckedUint64ToUint32, CheckRange, c_uint64.
  repeat split; intros H.
  - apply in_int64_iff in H. destruct (0 <=? z) eqn:E; cbn [obind].
    + replace (in_uint64 z) with true by (unr; lia). rewrite Z.mod_small by (unr; lia). reflexivity.
    + replace (in_uint64 z) with false by (unr; lia). eauto.
  - apply in_uint64_iff in H. destruct (z <=? int64_max) eqn:E; cbn [obind].
    + replace (in_int64 z) with true by (unr; lia). reflexivity.
    + replace (in_int64 z) with false by (unr; lia). eauto.
  - fold (in_int32 z). destruct (in_int32 z); cbn [obind]; eauto.
  - apply in_uint64_iff in H. destruct (z <=? uint32_max) eqn:E; cbn [obind].
    + replace (in_uint32 z) with true by (unr; lia). reflexivity.
    + replace (in_uint32 z) with false by (unr; lia). eauto.
Qed.
Print Assumptions C06_int_uint_conversions.

Theorem C06_int_uint_round_trip : forall z w,
  (in_int64 z = true -> CheckedInt64ToUint64 z = Val w -> CheckedUint64ToInt64 w = Val z) /\
  (in_uint64 z = true -> CheckedUint64ToInt64 z = Val w -> CheckedInt64ToUint64 w = Val z).
Proof.
  intros z w. destruct (C06_int_uint_conversions z) as (A & B & _).
  destruct (C06_int_uint_conversions w) as (C & D & _). unfold exact_or_error in *.
  split; intros H E.
  - specialize (A H). destruct (in_uint64 z) eqn:U.
    + assert (w = z) as -> by congruence. specialize (D U). now rewrite H in D.
    + destruct A as [s A]. congruence.
  - specialize (B H). destruct (in_int64 z) eqn:U.
    + assert (w = z) as -> by congruence. specialize (C U). now rewrite H in C.
    + destruct B as [s B]. congruence.
Qed.
Print Assumptions C06_int_uint_round_trip.

Example C06_example :
  CheckedDoubleToInt64 (ddiv (double_of_Z (-7)) (double_of_Z 2)) = Val (-3) /\
  CheckedDoubleToUint64 (double_of_Z (2 ^ 64 - 2048)) = Val (2 ^ 64 - 2048) /\
  (exists s, CheckedDoubleToInt64 (double_of_Z (2 ^ 63)) = Err s) /\
  CheckedInt64ToUint64 17 = Val 17.
Proof. repeat split; try (vm_compute; reflexivity). eexists. vm_compute. reflexivity. Qed.

(* ------------------------------------------------------------------ C07 *)
Theorem C07_lossless_to_int : forall n, number_ok n ->
  (exists b, LosslessConvertibleToInt n = Val b /\
     (b = true <-> exists z, denotes_int n z /\ in_int64 z = true)) /\
  (forall z, denotes_int n z -> in_int64 z = true -> AsInt n = Val z).
Proof. exact Lossless_int_ok. Qed.
Print Assumptions C07_lossless_to_int.
Theorem C07_lossless_to_uint : forall n, number_ok n ->
  (exists b, LosslessConvertibleToUint n = Val b /\
     (b = true <-> exists z, denotes_int n z /\ in_uint64 z = true)) /\
  (forall z, denotes_int n z -> in_uint64 z = true -> AsUint n = Val z).
Proof. exact Lossless_uint_ok. Qed.
Print Assumptions C07_lossless_to_uint.
Example C07_example :
  LosslessConvertibleToInt (NDouble (double_of_Z (2 ^ 63 - 1024))) = Val true /\
  LosslessConvertibleToInt (NDouble (double_of_Z (2 ^ 63))) = Val false /\
  LosslessConvertibleToUint (NDouble (double_of_Z (2 ^ 63))) = Val true.
Proof. repeat split; vm_compute; reflexivity. Qed.

(* ------------------------------------------------------------------ C08 *)
(* With overflow errors enabled. *)
Theorem C08_timestamp_plus_duration : forall t d, ts_range t -> dur_range d ->
  (ts_range (t + d) -> ts_add_dur true (TFin t) (DFin d) = Val (TFin (t + d))) /\
  (~ ts_range (t + d) -> exists s, ts_add_dur true (TFin t) (DFin d) = Err s).
Proof. exact add_time_ok. Qed.
Print Assumptions C08_timestamp_plus_duration.

(* Exact only for durations that fit 64-bit nanoseconds (missing: larger ones,
   see the refutation). *)
Theorem C08_duration_arithmetic_partial : forall x y, dur_small x -> dur_small y ->
  (dur_small (x + y) -> dur_add_dur true (DFin x) (DFin y) = Val (DFin (x + y))) /\
  (~ dur_small (x + y) -> exists s, dur_add_dur true (DFin x) (DFin y) = Err s) /\
  (dur_small (x - y) -> dur_sub_dur true (DFin x) (DFin y) = Val (DFin (x - y))) /\
  (~ dur_small (x - y) -> exists s, dur_sub_dur true (DFin x) (DFin y) = Err s).
Proof.
  intros x y Hx Hy. destruct (add_dur_ok x y Hx Hy), (sub_dur_ok x y Hx Hy). auto.
Qed.
Print Assumptions C08_duration_arithmetic_partial.

Theorem C08_timestamp_minus_duration_partial : forall t d, ts_range t -> dur_small d ->
  (ts_range (t - d) /\ dur_small (- d) ->
     ts_sub_dur true (TFin t) (DFin d) = Val (TFin (t - d))) /\
  (~ (ts_range (t - d) /\ dur_small (- d)) ->
     exists s, ts_sub_dur true (TFin t) (DFin d) = Err s).
Proof. exact sub_time_dur_ok. Qed.
Print Assumptions C08_timestamp_minus_duration_partial.

Theorem C08_timestamp_difference_partial : forall t1 t2, ts_range t1 -> ts_range t2 ->
  (- 2 ^ 63 + 10 ^ 9 <= t1 - t2 <= 2 ^ 63 - 1 - 10 ^ 9 ->
     ts_sub_ts true (TFin t1) (TFin t2) = Val (DFin (t1 - t2))) /\
  (~ dur_small (t1 - t2) -> exists s, ts_sub_ts true (TFin t1) (TFin t2) = Err s) /\
  ((exists s, ts_sub_ts true (TFin t1) (TFin t2) = Err s) \/
     ts_sub_ts true (TFin t1) (TFin t2) = Val (DFin (t1 - t2))).
Proof. exact sub_time_ok. Qed.
Print Assumptions C08_timestamp_difference_partial.

Theorem C08_add_then_subtract_partial : forall t d t' t'', ts_range t -> dur_small d ->
  ts_add_dur true (TFin t) (DFin d) = Val t' -> ts_sub_dur true t' (DFin d) = Val t'' ->
  t'' = TFin t /\ exists n, t' = TFin n /\ ts_range n.
Proof.
  intros t d t' t'' Ht Hd H1 H2.
  destruct (C08_timestamp_plus_duration t d Ht (small_range d Hd)) as [A B].
  assert (R : ts_range (t + d) \/ ~ ts_range (t + d)) by (unfold ts_range; lia).
  destruct R as [R|R]; [|destruct (B R) as [s E]; congruence].
  rewrite (A R) in H1. injection H1 as <-.
  destruct (C08_timestamp_minus_duration_partial (t + d) d R Hd) as [C D].
  assert (S : (ts_range (t + d - d) /\ dur_small (- d)) \/ ~ (ts_range (t + d - d) /\ dur_small (- d)))
    by (unfold ts_range, dur_small; lia).
  destruct S as [S|S]; [|destruct (D S) as [s E]; congruence].
  rewrite (C S) in H2. injection H2 as <-. split; [f_equal; lia|eauto].
Qed.
Print Assumptions C08_add_then_subtract_partial.

(* Supported durations of more than 2^63 ns are silently clamped: 10^10 s - 1 s
   is computed as 2^63-1 ns - 1 s, and t - d shifts by 292 years. *)
Theorem C08_duration_arithmetic_refuted : exists x y z, dur_range x /\ dur_range y /\
  dur_range (x - y) /\ dur_sub_dur true (DFin x) (DFin y) = Val (DFin z) /\ z <> x - y.
Proof.
  exists (10 ^ 19), (10 ^ 9), (int64_max - 10 ^ 9).
  unfold dur_range, dur_bound. repeat split; try (vm_compute; congruence).
Qed.
Print Assumptions C08_duration_arithmetic_refuted.
Theorem C08_timestamp_minus_duration_refuted : exists t d t', ts_range t /\ dur_range d /\
  ts_range (t - d) /\ ts_sub_dur true (TFin t) (DFin d) = Val (TFin t') /\ t' <> t - d.
Proof.
  exists (253402300799 * 10 ^ 9), (10 ^ 19), (253402300799 * 10 ^ 9 - int64_max).
  unfold dur_range, dur_bound, ts_range, ts_min, ts_max. repeat split; try (vm_compute; congruence).
Qed.
Print Assumptions C08_timestamp_minus_duration_refuted.
(* With overflow errors disabled (the default) results are exact but may leave
   the supported range. *)
Theorem C08_unchecked_exact : forall t t2 d d2,
  ts_range t -> ts_range t2 -> dur_range d -> dur_range d2 ->
  ts_add_dur false (TFin t) (DFin d) = Val (TFin (t + d)) /\
  ts_sub_dur false (TFin t) (DFin d) = Val (TFin (t - d)) /\
  ts_sub_ts false (TFin t) (TFin t2) = Val (DFin (t - t2)) /\
  dur_add_dur false (DFin d) (DFin d2) = Val (DFin (d + d2)) /\
  dur_sub_dur false (DFin d) (DFin d2) = Val (DFin (d - d2)).
Proof.
  intros t t2 d d2 Ht Ht2 Hd Hd2.
  unfold ts_add_dur, ts_sub_dur, ts_sub_ts, dur_add_dur, dur_sub_dur, absl_neg_dur,
    absl_add_time, absl_sub_time, absl_add_dur, absl_time, absl_duration.
  assert (B : forall n, -10 ^ 21 <= n <= 10 ^ 21 -> in_int64 (n / nanos_per_sec) = true).
  { intros n Hn. apply in_int64_iff. unfold nanos_per_sec.
    assert (-10 ^ 12 <= n / 1000000000) by (apply Z.div_le_lower_bound; lia).
    assert (n / 1000000000 <= 10 ^ 12) by (apply Z.div_le_upper_bound; lia). lia. }
  unfold ts_range, ts_min, ts_max, dur_range, dur_bound in *.
  rewrite (B (- d)), (B (- d2)) by lia. rewrite !B by lia. repeat split; reflexivity.
Qed.
Print Assumptions C08_unchecked_exact.
(* getHours() etc. of a duration: truncated division, milliseconds modulo 1000 *)
Theorem C08_duration_accessors : forall d s r, dur_range d -> trunc_div d (10 ^ 9) s r ->
  dur_seconds (DFin d) = s /\ dur_minutes (DFin d) = Z.quot s 60 /\
  dur_hours (DFin d) = Z.quot s 3600 /\ dur_milliseconds (DFin d) = Z.quot r (10 ^ 6).
Proof.
  intros d s r Hd T.
  destruct (trunc_div_unique d (10 ^ 9) s r _ _ ltac:(lia) T (trunc_div_exists d (10 ^ 9) ltac:(lia))) as [-> ->].
  unfold dur_seconds, dur_minutes, dur_hours, dur_milliseconds, nanos_per_sec.
  change (10 ^ 9) with 1000000000. change (10 ^ 6) with 1000000.
  split; [reflexivity|].
  split; [rewrite Z.quot_quot, (Z.mul_comm 60) by lia; reflexivity|].
  split; [rewrite Z.quot_quot, (Z.mul_comm 3600) by lia; reflexivity|].
  replace (Z.max int64_min (Z.min int64_max (Z.quot d 1000000))) with (Z.quot d 1000000).
  2:{ assert (Z.abs (Z.quot d 1000000) <= 10 ^ 16).
      { rewrite <- Z.quot_abs by lia. rewrite Z.quot_div_nonneg by lia.
        apply Z.div_le_upper_bound; [lia|]. unfold dur_range, dur_bound in Hd. lia. }
      unfold int64_min, int64_max. lia. }
  pose proof (Z.quot_rem' d 1000000000) as Q1.
  pose proof (Z.quot_rem' d 1000000) as Q2. pose proof (Z.quot_rem' (Z.quot d 1000000) 1000) as Q3.
  rewrite Z.quot_quot in Q3 by lia. change (1000000 * 1000) with 1000000000 in Q3.
  set (h := Z.quot d 1000000000) in *. set (m := Z.quot d 1000000) in *.
  assert (E : Z.rem d 1000000000 = Z.rem m 1000 * 1000000 + Z.rem d 1000000) by lia.
  rewrite E. 
  assert (D : 0 <= d \/ d < 0) by lia. destruct D as [D|D].
  - assert (0 <= m) by (apply Z.quot_pos; lia).
    pose proof (Z.rem_bound_pos d 1000000 D ltac:(lia)).
    pose proof (Z.rem_bound_pos m 1000 ltac:(lia) ltac:(lia)).
    rewrite Z.quot_div_nonneg by lia. rewrite Z.div_add_l by lia. rewrite Z.div_small by lia. lia.
  - assert (m <= 0). { unfold m. rewrite <- (Z.opp_involutive d), Z.quot_opp_l by lia.
      assert (0 <= Z.quot (- d) 1000000) by (apply Z.quot_pos; lia). lia. }
    assert (R1' : -1000000 < Z.rem d 1000000 <= 0).
    { rewrite <- (Z.opp_involutive d), Z.rem_opp_l by lia.
      pose proof (Z.rem_bound_pos (- d) 1000000 ltac:(lia) ltac:(lia)). lia. }
    assert (R2' : -1000 < Z.rem m 1000 <= 0).
    { rewrite <- (Z.opp_involutive m), Z.rem_opp_l by lia.
      pose proof (Z.rem_bound_pos (- m) 1000 ltac:(lia) ltac:(lia)). lia. }
    set (b := Z.rem d 1000000) in *. set (a := Z.rem m 1000) in *.
    replace (a * 1000000 + b) with (- ((- a) * 1000000 + (- b))) by lia.
    rewrite Z.quot_opp_l by lia. rewrite Z.quot_div_nonneg by lia.
    rewrite Z.div_add_l by lia. rewrite Z.div_small by lia. lia.
Qed.
Print Assumptions C08_duration_accessors.
Example C08_accessors_example : trunc_div (-3661500000000) (10 ^ 9) (-3661) (-500000000) /\
  dur_minutes (DFin (-3661500000000)) = -61 /\ dur_milliseconds (DFin (-3661500000000)) = -500.
Proof. repeat split; try reflexivity; right; reflexivity. Qed.

Theorem C08_unchecked_range_refuted : exists t d n, ts_range t /\ dur_range d /\
  ts_add_dur false (TFin t) (DFin d) = Val (TFin n) /\ ~ ts_range n.
Proof.
  exists (253402300799 * 10 ^ 9), (10 ^ 9), (253402300800 * 10 ^ 9).
  unfold dur_range, dur_bound, ts_range, ts_min, ts_max. repeat split; try (vm_compute; congruence).
  intros [_ H]. vm_compute in H. congruence.
Qed.
Print Assumptions C08_unchecked_range_refuted.
Example C08_example : ts_range 0 /\ dur_small (-1500000000) /\
  ts_add_dur true (TFin 0) (DFin (-1500000000)) = Val (TFin (-1500000000)) /\
  ts_sub_ts true (TFin 7) (TFin (-1500000000)) = Val (DFin 1500000007).
Proof. unfold ts_range, dur_small. repeat split; vm_compute; congruence. Qed.
