(* Lemmas about the order of numbers of mixed kinds: conversion to double is
   monotone, and the strict comparison is transitive. *)
From Coq Require Import ZArith QArith Qabs Lia Bool ZifyBool.
From Verif Require Import Base M_Overflow M_Number S_Num L_Overflow L_Float L_Round L_Number.
Open Scope Z_scope.

Lemma rounded_unique z d r r' : rounded z d r -> rounded z d r' -> r = r'.
Proof.
  intros R R'. destruct (rd_val _ _ _ R) as (x & Hx & Ex). destruct (rd_val _ _ _ R') as (x' & Hx' & Ex').
  rewrite Hx in Hx'. injection Hx' as <-. rewrite Ex in Ex'. now apply inject_Z_injective.
Qed.

Lemma dyadic_pow n : 0 <= n <= 64 -> exists d v, valid_double d = true /\
  double_value d = Some (Fin v) /\ (v == inject_Z (2 ^ n))%Q.
Proof.
  intros H. pose proof (pow2_rounded n H) as R. destruct (rd_val _ _ _ R) as (v & E & Q).
  exists (double_of_Z (2 ^ n)), v. split; [apply R|auto].
Qed.

Lemma near_mono K q1 q2 p1 p2 : 0 < K -> 2 * Z.abs (q1 * K - p1) <= K ->
  2 * Z.abs (q2 * K - p2) <= K -> p1 < p2 -> q1 * K <= q2 * K.
Proof.
  intros HK A B L. apply Z.mul_le_mono_nonneg_r; [lia|]. apply Z.nlt_ge. intro C.
  pose proof (Z.mul_le_mono_nonneg_r (q2 + 1) q1 K ltac:(lia) ltac:(lia)) as D.
  rewrite Z.mul_add_distr_r in D. lia.
Qed.

Lemma round_pos_mono p1 p2 r1 r2 : Zpos p1 <= Zpos p2 -> Zpos p2 <= 2 ^ 64 ->
  rounded (Zpos p1) (double_of_Z (Zpos p1)) r1 -> rounded (Zpos p2) (double_of_Z (Zpos p2)) r2 ->
  r1 <= r2.
Proof.
  intros L H R1 R2. destruct (Z.eq_dec (Zpos p1) (Zpos p2)) as [E|NE].
  { rewrite E in R1. rewrite (rounded_unique _ _ _ _ R1 R2). lia. }
  pose proof (digs_le p1 64 ltac:(lia) ltac:(lia)) as Hd1.
  pose proof (digs_le p2 64 ltac:(lia) H) as Hd2.
  pose proof (digits2_pos_bounds p1) as B1. fold (digs p1) in B1.
  pose proof (digits2_pos_bounds p2) as B2. fold (digs p2) in B2.
  destruct (Z.eq_dec (digs p1) (digs p2)) as [D|D].
  - destruct (double_of_pos false p1 ltac:(lia)) as (q1 & m1 & e1 & A1 & A2 & A3 & A4 & A5 & A6).
    destruct (double_of_pos false p2 ltac:(lia)) as (q2 & m2 & e2 & C1 & C2 & C3 & C4 & C5 & C6).
    assert (X1 : r1 = q1 * 2 ^ excess p1).
    { destruct (rd_val _ _ _ R1) as (x & Hx & Ex). unfold double_of_Z, binary_normalize in Hx. rewrite A1 in Hx.
      cbn [double_value] in Hx. injection Hx as <-. rewrite A3 in Ex. symmetry. now apply inject_Z_injective. }
    assert (X2 : r2 = q2 * 2 ^ excess p2).
    { destruct (rd_val _ _ _ R2) as (x & Hx & Ex). unfold double_of_Z, binary_normalize in Hx. rewrite C1 in Hx.
      cbn [double_value] in Hx. injection Hx as <-. rewrite C3 in Ex. symmetry. now apply inject_Z_injective. }
    assert (EE : excess p1 = excess p2) by (unfold excess; lia). rewrite EE in *.
    set (K := 2 ^ excess p2) in *. subst r1 r2. 
    assert (0 < K) by (apply pow2_pos; unfold excess; lia). eapply near_mono; eauto. lia.
  - assert (DL : digs p1 < digs p2).
    { apply Z.nle_gt. intro C. assert (2 ^ digs p2 <= 2 ^ (digs p1 - 1)) by (apply Z.pow_le_mono_r; lia). lia. }
    assert (P0 : 0 < digs p1) by (unfold digs; lia).
    assert (PL : 2 ^ digs p1 <= Zpos p2).
    { apply Z.le_trans with (2 ^ (digs p2 - 1)); [apply Z.pow_le_mono_r|]; lia. }
    destruct (dyadic_pow (digs p1) ltac:(lia)) as (d & v & V1 & V2 & V3).
    pose proof (rd_lo _ _ _ R1 d v V1 V2) as L1. pose proof (rd_hi _ _ _ R2 d v V1 V2) as L2.
    rewrite V3 in L1, L2. rewrite <- !Zle_Qle in L1, L2. specialize (L1 ltac:(lia)). specialize (L2 PL). lia.
Qed.

Lemma round_mono z1 z2 r1 r2 : z1 <= z2 -> Z.abs z1 <= 2 ^ 64 -> Z.abs z2 <= 2 ^ 64 ->
  rounded z1 (double_of_Z z1) r1 -> rounded z2 (double_of_Z z2) r2 -> r1 <= r2.
Proof.
  intros L H1 H2 R1 R2.
  assert (S : forall z r, Z.abs z <= 2 ^ 64 -> rounded z (double_of_Z z) r -> (z <= 0 -> r <= 0) /\ (0 <= z -> 0 <= r)).
  { intros z r _ R. pose proof (rd_lo _ _ _ R dzero 0%Q eq_refl eq_refl) as A.
    pose proof (rd_hi _ _ _ R dzero 0%Q eq_refl eq_refl) as B.
    change 0%Q with (inject_Z 0) in A, B. rewrite <- !Zle_Qle in A, B. auto. }
  destruct (S _ _ H1 R1) as [S1 S1'], (S _ _ H2 R2) as [S2 S2'].
  destruct z1 as [|p1|p1], z2 as [|p2|p2]; try lia.
  - eapply round_pos_mono; eauto.
  - assert (F : forall p r, rounded (Zneg p) (double_of_Z (Zneg p)) r -> rounded (Zpos p) (double_of_Z (Zpos p)) (- r)).
    { intros p r R. apply rounded_opp in R. change (- Zneg p) with (Zpos p) in R.
      now rewrite double_of_Z_neg, dneg_involutive in R. }
    pose proof (round_pos_mono p2 p1 _ _ ltac:(lia) ltac:(lia) (F _ _ R2) (F _ _ R1)). lia.
Qed.

(* The value a number is compared by when the other one is of the other
   representation: itself for a double, its rounding for an integer. *)
Definition rval (n : number) : option ext :=
  match n with
  | NDouble d => double_value d
  | NUint z | NInt z => double_value (double_of_Z z)
  end.

Lemma int_abs_ok n z : number_ok n -> n = NUint z \/ n = NInt z -> Z.abs z <= 2 ^ 64.
Proof.
  intros H [->| ->]; cbn in H; [apply in_uint64_iff in H|apply in_int64_iff in H];
  change (2^64) with 18446744073709551616; unfold uint64_max, int64_min, int64_max in *; lia.
Qed.

(* DoubleCompare against the rounding, whatever the clamps say *)
Lemma DoubleCompareInt_rval v z : valid_double v = true -> in_int64 z = true ->
  cmp_of (DoubleCompareInt v z) = spec_compare (double_value v) (double_value (double_of_Z z)).
Proof.
  intros Hv Hz. apply in_int64_iff in Hz. unfold DoubleCompareInt.
  assert (A : Z.abs z <= 2 ^ 64) by (change (2^64) with 18446744073709551616; unfold int64_min, int64_max in *; lia).
  destruct (rounded_any z A) as (r & R). destruct (rd_val _ _ _ R) as (x & Hx & Ex).
  destruct (d_gt v kDoubleToIntMax) eqn:E1.
  { rewrite kIntMax_eq in E1.
    pose proof (pow2_rounded 63 ltac:(lia)) as P.
    eapply d_gt_const in E1; [| |exact P|]; auto. rewrite Hx. symmetry. eapply spec_trans_gt; [exact E1|].
    rewrite Ex, <- Zle_Qle. eapply (round_mono z (2 ^ 63)); eauto; [|reflexivity || (vm_compute; discriminate)].
    change (2^63) with 9223372036854775808. unfold int64_max in *. lia. }
  destruct (d_lt v kDoubleToIntMin) eqn:E2.
  { rewrite kIntMin_eq in E2.
    eapply d_lt_const in E2; [| |exact rounded_imin|]; auto. rewrite Hx. symmetry. eapply spec_trans_lt; [exact E2|].
    rewrite Ex, <- Zle_Qle. eapply (round_mono (- 2 ^ 63) z); eauto using rounded_imin; [|vm_compute; discriminate].
    change (2^63) with 9223372036854775808. unfold int64_min in *. lia. }
  apply DoubleCompare_ok; auto. apply R.
Qed.
Lemma DoubleCompareUint_rval v z : valid_double v = true -> in_uint64 z = true ->
  cmp_of (DoubleCompareUint v z) = spec_compare (double_value v) (double_value (double_of_Z z)).
Proof.
  intros Hv Hz. apply in_uint64_iff in Hz. unfold DoubleCompareUint.
  assert (A : Z.abs z <= 2 ^ 64) by (change (2^64) with 18446744073709551616; unfold uint64_max in *; lia).
  destruct (rounded_any z A) as (r & R). destruct (rd_val _ _ _ R) as (x & Hx & Ex).
  destruct (d_gt v kDoubleToUintMax) eqn:E1.
  { rewrite kUintMax_eq in E1.
    pose proof (pow2_rounded 64 ltac:(lia)) as P.
    eapply d_gt_const in E1; [| |exact P|]; auto. rewrite Hx. symmetry. eapply spec_trans_gt; [exact E1|].
    rewrite Ex, <- Zle_Qle. eapply (round_mono z (2 ^ 64)); eauto; [|vm_compute; discriminate].
    change (2^64) with 18446744073709551616. unfold uint64_max in *. lia. }
  destruct (d_lt v dzero) eqn:E2.
  { change dzero with (double_of_Z 0) in E2.
    eapply d_lt_const in E2; [| |exact rounded_0|]; auto. rewrite Hx. symmetry. eapply spec_trans_lt; [exact E2|].
    rewrite Ex, <- Zle_Qle. eapply (round_mono 0 z); eauto using rounded_0; [lia|vm_compute; discriminate]. }
  apply DoubleCompare_ok; auto. apply R.
Qed.

Lemma mixed_compare a b : number_ok a -> number_ok b -> is_double a <> is_double b ->
  cmp_of (NumCompare a b) = spec_compare (rval a) (rval b).
Proof.
  intros Ha Hb M. destruct a as [x|x|x], b as [y|y|y]; cbn [is_double] in M; try congruence;
    cbn [NumCompare rval number_ok] in *; rewrite ?Invert_ok;
    rewrite ?DoubleCompareUint_rval, ?DoubleCompareInt_rval by auto; auto;
    symmetry; apply spec_compare_antisym.
Qed.

Lemma rval_mono a b : number_ok a -> number_ok b -> is_double a = is_double b ->
  math_gt a b -> exists x y, rval a = Some x /\ rval b = Some y /\ ext_compare x y <> Lt.
Proof.
  intros Ha Hb M G. unfold math_gt, math_cmp in G.
  destruct (is_double a) eqn:Da.
  - destruct a as [x| |]; try discriminate. destruct b as [y| |]; try discriminate.
    cbn [number_value rval] in *. destruct (double_value x) as [vx|], (double_value y) as [vy|]; try discriminate.
    exists vx, vy. cbn in G. split; auto. split; auto. congruence.
  - assert (exists z, (a = NUint z \/ a = NInt z) /\ number_value a = Some (Fin (inject_Z z)) /\ rval a = double_value (double_of_Z z)) as (z & Z1 & Z2 & Z3).
    { destruct a; try discriminate; eexists; cbn; auto. }
    assert (exists w, (b = NUint w \/ b = NInt w) /\ number_value b = Some (Fin (inject_Z w)) /\ rval b = double_value (double_of_Z w)) as (w & W1 & W2 & W3).
    { destruct b; try discriminate; eexists; cbn; auto. }
    rewrite Z2, W2 in G. cbn in G. injection G as G. rewrite Qcompare_inject in G. apply Z.compare_gt_iff in G.
    pose proof (int_abs_ok _ _ Ha Z1) as A1. pose proof (int_abs_ok _ _ Hb W1) as A2.
    destruct (rounded_any z A1) as (r1 & R1). destruct (rounded_any w A2) as (r2 & R2).
    destruct (rd_val _ _ _ R1) as (x & Hx & Ex). destruct (rd_val _ _ _ R2) as (y & Hy & Ey).
    exists (Fin x), (Fin y). rewrite Z3, W3. split; auto. split; auto. cbn. rewrite Ex, Ey, Qcompare_inject.
    pose proof (round_mono w z r2 r1 ltac:(lia) A2 A1 R2 R1). apply Z.compare_ge_iff. exact H.
Qed.

Lemma num_gt_cmp a b : num_gt a b = true <-> cmp_of (NumCompare a b) = Some Gt.
Proof. unfold num_gt. destruct (NumCompare a b); cbn; split; congruence. Qed.
Lemma num_lt_cmp a b : num_lt a b = true <-> cmp_of (NumCompare a b) = Some Lt.
Proof. unfold num_lt. destruct (NumCompare a b); cbn; split; congruence. Qed.

Lemma ext_gt_trans x y z : ext_compare x y <> Lt -> ext_compare y z <> Lt ->
  (ext_compare x y = Gt \/ ext_compare y z = Gt) -> ext_compare x z = Gt.
Proof.
  destruct x as [|x|], y as [|y|], z as [|z|]; cbn; try congruence; try (intros; destruct H1; congruence).
  rewrite <- !Qlt_alt, <- !Qgt_alt. intros A B C.
  apply Qnot_lt_le in A, B.
  destruct C as [C|C]; [eapply Qle_lt_trans|eapply Qlt_le_trans]; eauto.
Qed.

(* The strict order is transitive although numbers of different
   representations compare through a rounding. *)
Lemma num_gt_trans a b c : number_ok a -> number_ok b -> number_ok c ->
  num_gt a b = true -> num_gt b c = true -> num_gt a c = true.
Proof.
  intros Ha Hb Hc G1 G2.
  assert (M : forall x y, number_ok x -> number_ok y -> num_gt x y = true -> math_gt x y).
  { intros x y Hx Hy G. apply num_gt_cmp in G. pose proof (NumCompare_answer x y Hx Hy) as A.
    destruct A as [_ _ _ A _]. apply A. exact G. }
  pose proof (M _ _ Ha Hb G1) as M1. pose proof (M _ _ Hb Hc G2) as M2.
  assert (W : forall x y, number_ok x -> number_ok y -> num_gt x y = true ->
     exists p q, rval x = Some p /\ rval y = Some q /\ ext_compare p q <> Lt /\
       (is_double x <> is_double y -> ext_compare p q = Gt)).
  { intros x y Hx Hy G. destruct (bool_dec (is_double x) (is_double y)) as [E|NE].
    - destruct (rval_mono x y Hx Hy E (M _ _ Hx Hy G)) as (p & q & A & B & C). exists p, q. repeat split; auto; congruence.
    - apply num_gt_cmp in G. rewrite mixed_compare in G by auto.
      destruct (rval x) as [p|], (rval y) as [q|]; try discriminate. exists p, q.
      cbn in G. injection G as G. rewrite G. repeat split; congruence. }
  destruct (bool_dec (is_double a) (is_double c)) as [E|NE].
  - (* both integers or both doubles: the comparison is exact *)
    apply num_gt_cmp. destruct (NumCompare_answer a c Ha Hc) as [X _ _ _ _].
    rewrite X by (now left).
    unfold math_gt, math_cmp in *. destruct (number_value a), (number_value b), (number_value c); try discriminate.
    cbn in *. injection M1 as M1. injection M2 as M2. f_equal. eapply ext_gt_trans; [| |left; eauto]; congruence.
  - destruct (W a b Ha Hb G1) as (p & q & P1 & P2 & P3 & P4).
    destruct (W b c Hb Hc G2) as (q' & r & Q1 & Q2 & Q3 & Q4).
    rewrite P2 in Q1. injection Q1 as <-.
    apply num_gt_cmp. rewrite mixed_compare by auto. rewrite P1, Q2. cbn. f_equal.
    apply ext_gt_trans with q; auto.
    destruct (bool_dec (is_double a) (is_double b)) as [E'|NE']; [right; apply Q4; congruence|left; auto].
Qed.
