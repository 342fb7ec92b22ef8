(* Conversions between number types. *)
From Coq Require Import ZArith QArith Bool Lia ZifyBool.
From Verif Require Import Base M_Overflow M_Number S_Num S_Arith L_Overflow L_Float L_Round L_Number.
Open Scope Z_scope.

Lemma dyadic_nonneg m e : 0 <= m -> (0 <= dyadic m e)%Q.
Proof.
  intros. unfold dyadic. destruct (0 <=? e) eqn:E.
  - change 0%Q with (inject_Z 0). rewrite <- Zle_Qle.
    apply Z.mul_nonneg_nonneg; auto. apply Z.lt_le_incl, pow2_pos. lia.
  - unfold Qle; cbn. lia.
Qed.

Lemma trunc_pos m e : let a := if 0 <=? e then Zpos m * 2 ^ e else Zpos m / 2 ^ (- e) in
  (inject_Z a <= dyadic (Zpos m) e /\ dyadic (Zpos m) e < inject_Z (a + 1))%Q /\ 0 <= a.
Proof.
  intros a. unfold dyadic. destruct (0 <=? e) eqn:E; subst a.
  - assert (0 < 2 ^ e) by (apply pow2_pos; lia). rewrite <- Zle_Qle, <- Zlt_Qlt. nia.
  - assert (P : 0 < 2 ^ (- e)) by (apply pow2_pos; lia).
    pose proof (Z.div_mod (Zpos m) (2 ^ (- e)) ltac:(lia)) as D.
    pose proof (Z.mod_pos_bound (Zpos m) (2 ^ (- e)) P) as B.
    unfold Qle, Qlt. cbn -[Z.mul Z.pow Z.add Z.div]. rewrite !Z2Pos.id by lia.
    assert (0 <= Zpos m / 2 ^ (- e)) by (apply Z.div_pos; lia). repeat split; nia.
Qed.

Lemma dtrunc_ok d q : double_value d = Some (Fin q) ->
  exists z, dtrunc d = Some z /\ is_trunc q z.
Proof.
  destruct d as [s|[]| |s m e]; cbn [double_value]; try discriminate; intros [= <-].
  - exists 0. split; [reflexivity|]. split; intros; split; unfold Qle, Qlt; cbn; lia.
  - destruct (trunc_pos m e) as [[H1 H2] H3].
    cbn [dtrunc]. set (a := if 0 <=? e then _ else _) in *.
    eexists. split; [reflexivity|]. destruct s.
    + split.
      * rewrite dyadic_Zneg. intros C.
        assert (Z0 : (dyadic (Zpos m) e == 0)%Q).
        { apply Qle_antisym; [|apply dyadic_nonneg; lia].
          apply Qopp_le_compat in C. rewrite Qopp_involutive in C. exact C. }
        rewrite Z0 in *. change 0%Q with (inject_Z 0) in H1, H2. rewrite <- Zle_Qle in H1.
        assert (a = 0) as -> by lia. split; unfold Qle, Qlt; cbn; lia.
      * intros _. rewrite dyadic_Zneg. rewrite inject_Z_opp. split.
        -- now apply Qopp_le_compat.
        -- replace (- a - 1) with (- (a + 1)) by lia. rewrite inject_Z_opp. now apply Qopp_lt_compat.
    + split; [auto|]. intros C.
      assert (Z0 : (dyadic (Zpos m) e == 0)%Q) by (apply Qle_antisym; [auto|apply dyadic_nonneg; lia]).
      rewrite Z0 in *. change 0%Q with (inject_Z 0) in H1, H2. rewrite <- Zle_Qle in H1.
      assert (a = 0) as -> by lia. split; unfold Qle, Qlt; cbn; lia.
Qed.

Lemma is_trunc_bounds q z lo hi : is_trunc q z -> lo <= 0 <= hi ->
  (inject_Z (lo - 1) < q)%Q -> (q < inject_Z (hi + 1))%Q -> lo <= z <= hi.
Proof.
  intros [T1 T2] Hb L U. destruct (Qlt_le_dec q 0) as [N|N].
  - destruct (T2 (Qlt_le_weak _ _ N)) as [A B].
    assert (inject_Z (lo - 1) < inject_Z z)%Q by (eapply Qlt_le_trans; eauto).
    assert (inject_Z (z - 1) < inject_Z 0)%Q by (eapply Qlt_trans; eauto).
    rewrite <- Zlt_Qlt in *. lia.
  - destruct (T1 N) as [A B].
    assert (inject_Z z < inject_Z (hi + 1))%Q by (eapply Qle_lt_trans; eauto).
    assert (inject_Z 0 < inject_Z (z + 1))%Q by (eapply Qle_lt_trans; eauto).
    rewrite <- Zlt_Qlt in *. lia.
Qed.

Lemma is_trunc_int z z' : is_trunc (inject_Z z) z' -> z' = z.
Proof.
  intros [T1 T2]. change 0%Q with (inject_Z 0) in *. rewrite <- !Zle_Qle, <- ?Zlt_Qlt in *. lia.
Qed.
Lemma is_trunc_proper q q' z : (q == q')%Q -> is_trunc q z -> is_trunc q' z.
Proof. unfold is_trunc. intros E. now rewrite E. Qed.

Lemma d_lt_val v c q r : valid_double v = true -> double_value v = Some (Fin q) ->
  rounded c (double_of_Z c) r -> r = c ->
  d_lt v (double_of_Z c) = true <-> (q < inject_Z c)%Q.
Proof.
  intros Hv Ev R ->. unfold d_lt. rewrite SFcompare_spec by (auto; apply R).
  destruct (rd_val _ _ _ R) as (x & Hx & Ex). rewrite Hx, Ev. cbn. rewrite Ex, Qlt_alt.
  destruct (Qcompare q (inject_Z c)); split; congruence.
Qed.
Lemma d_gt_val v c q r : valid_double v = true -> double_value v = Some (Fin q) ->
  rounded c (double_of_Z c) r -> r = c ->
  d_gt v (double_of_Z c) = true <-> (inject_Z c < q)%Q.
Proof.
  intros Hv Ev R ->. unfold d_gt. rewrite SFcompare_spec by (auto; apply R).
  destruct (rd_val _ _ _ R) as (x & Hx & Ex). rewrite Hx, Ev. cbn. rewrite Ex, Qgt_alt.
  destruct (Qcompare q (inject_Z c)); split; congruence.
Qed.
Lemma d_ge_val v c q r : valid_double v = true -> double_value v = Some (Fin q) ->
  rounded c (double_of_Z c) r -> r = c ->
  d_ge v (double_of_Z c) = true <-> (inject_Z c <= q)%Q.
Proof.
  intros Hv Ev R ->. unfold d_ge. rewrite SFcompare_spec by (auto; apply R).
  destruct (rd_val _ _ _ R) as (x & Hx & Ex). rewrite Hx, Ev. cbn. rewrite Ex, Qge_alt.
  destruct (Qcompare q (inject_Z c)); split; congruence.
Qed.
Lemma d_le_val v c q x0 : valid_double v = true -> double_value v = Some (Fin q) ->
  valid_double c = true -> double_value c = Some (Fin x0) ->
  d_le v c = true <-> (q <= x0)%Q.
Proof.
  intros Hv Ev Hc Ec. unfold d_le. rewrite SFcompare_spec by auto.
  rewrite Ec, Ev. cbn. rewrite Qle_alt.
  destruct (Qcompare q x0); split; congruence.
Qed.

Lemma not_finite v : (forall q, double_value v <> Some (Fin q)) -> d_isfinite v = false.
Proof. destruct v; cbn; auto; intros H; exfalso; eapply H; reflexivity. Qed.
Lemma fin_or v : (exists q, double_value v = Some (Fin q)) \/ (forall q, double_value v <> Some (Fin q)).
Proof. destruct v as [|[]| |]; cbn; eauto; right; congruence. Qed.
Lemma fin_isfinite v q : double_value v = Some (Fin q) -> d_isfinite v = true.
Proof. destruct v as [|[]| |]; cbn; congruence. Qed.

Lemma DoubleToInt64_ok v : valid_double v = true ->
  (forall q, double_value v = Some (Fin q) -> (inject_Z (- 2 ^ 63) < q)%Q -> (q < inject_Z (2 ^ 63))%Q ->
    exists z, CheckedDoubleToInt64 v = Val z /\ is_trunc q z /\ in_int64 z = true) /\
  ((forall q, double_value v = Some (Fin q) -> ~ ((inject_Z (- 2 ^ 63) < q)%Q /\ (q < inject_Z (2 ^ 63))%Q)) ->
    exists s, CheckedDoubleToInt64 v = Err s).
Proof.
  intros Hv. unfold CheckedDoubleToInt64, CheckRange. rewrite kIntMax_eq, kIntMin_eq.
  destruct (fin_or v) as [[q Ev]|NF].
  - rewrite (fin_isfinite _ _ Ev). cbn [andb].
    pose proof (d_lt_val v (2 ^ 63) q _ Hv Ev (pow2_rounded 63 ltac:(lia)) eq_refl) as A.
    pose proof (d_gt_val v (- 2 ^ 63) q _ Hv Ev rounded_imin eq_refl) as B.
    split.
    + intros q' Eq' L U. rewrite Ev in Eq'. inversion Eq'; subst q'.
      apply A in U. apply B in L. rewrite U, L. cbn [obind andb].
      destruct (dtrunc_ok v q Ev) as (z & Hz & T). exists z. unfold cast_int64. rewrite Hz.
      apply A in U. apply B in L.
      assert (in_int64 z = true) as ->; [|auto].
      apply in_int64_iff.
      pose proof (is_trunc_bounds q z (- 2 ^ 63 + 1) (2 ^ 63 - 1) T) as Bd.
      replace (- 2 ^ 63 + 1 - 1) with (- 2 ^ 63) in Bd by lia.
      replace (2 ^ 63 - 1 + 1) with (2 ^ 63) in Bd by lia. specialize (Bd ltac:(lia) L U). lia.
    + intros H. specialize (H q Ev).
      destruct (d_lt v (double_of_Z (2 ^ 63))) eqn:E1; cbn [andb].
      * destruct (d_gt v (double_of_Z (- 2 ^ 63))) eqn:E2; cbn [obind]; [|eauto].
        exfalso. apply H. split; [now apply B|now apply A].
      * cbn; eauto.
  - split; [intros; exfalso; eapply NF; eauto|]. intros _. rewrite not_finite by auto. cbn. eauto.
Qed.

Lemma DoubleToUint64_ok v : valid_double v = true ->
  (forall q, double_value v = Some (Fin q) -> (0 <= q)%Q -> (q < inject_Z (2 ^ 64))%Q ->
    exists z, CheckedDoubleToUint64 v = Val z /\ is_trunc q z /\ in_uint64 z = true) /\
  ((forall q, double_value v = Some (Fin q) -> ~ ((0 <= q)%Q /\ (q < inject_Z (2 ^ 64))%Q)) ->
    exists s, CheckedDoubleToUint64 v = Err s).
Proof.
  intros Hv. unfold CheckedDoubleToUint64, CheckRange, kDoubleTwoTo64.
  change dzero with (double_of_Z 0).
  destruct (fin_or v) as [[q Ev]|NF].
  - rewrite (fin_isfinite _ _ Ev). cbn [andb].
    pose proof (d_lt_val v (2 ^ 64) q _ Hv Ev (pow2_rounded 64 ltac:(lia)) eq_refl) as A.
    pose proof (d_ge_val v 0 q _ Hv Ev rounded_0 eq_refl) as B.
    change (inject_Z 0) with 0%Q in B.
    split.
    + intros q' Eq' L U. rewrite Ev in Eq'. inversion Eq'; subst q'.
      apply A in U. apply B in L. rewrite U, L. cbn [obind andb].
      destruct (dtrunc_ok v q Ev) as (z & Hz & T). exists z. unfold cast_uint64. rewrite Hz.
      apply A in U. apply B in L.
      assert (in_uint64 z = true) as ->; [|auto].
      apply in_uint64_iff.
      pose proof (is_trunc_bounds q z 0 (2 ^ 64 - 1) T) as Bd.
      replace (2 ^ 64 - 1 + 1) with (2 ^ 64) in Bd by lia.
      apply Bd; auto. lia. eapply Qlt_le_trans; [|exact L]. reflexivity.
    + intros H. specialize (H q Ev).
      destruct (d_ge v (double_of_Z 0)) eqn:E1; cbn [andb].
      * destruct (d_lt v (double_of_Z (2 ^ 64))) eqn:E2; cbn [obind]; [|eauto].
        exfalso. apply H. split; [now apply B|now apply A].
      * cbn; eauto.
  - split; [intros; exfalso; eapply NF; eauto|]. intros _. rewrite not_finite by auto. cbn. eauto.
Qed.

(* an integer that a double denotes converts back to that double's value *)
Lemma double_of_int_value v q z : valid_double v = true -> double_value v = Some (Fin q) ->
  (q == inject_Z z)%Q -> Z.abs z <= 2 ^ 64 -> d_eq v (double_of_Z z) = true.
Proof.
  intros Hv Ev E Hz. destruct (rounded_any z Hz) as (r & R).
  pose proof (rd_lo _ _ _ R v q Hv Ev) as L1. pose proof (rd_hi _ _ _ R v q Hv Ev) as L2.
  rewrite E in L1, L2. specialize (L1 (Qle_refl _)). specialize (L2 (Qle_refl _)).
  rewrite <- Zle_Qle in L1, L2.
  unfold d_eq. rewrite SFcompare_spec by (auto; apply R).
  destruct (rd_val _ _ _ R) as (x & Hx & Ex). rewrite Hx, Ev. cbn.
  assert (r = z) as -> by lia.
  replace (Qcompare q x) with Eq; auto. symmetry. apply Qeq_alt. now rewrite E, Ex.
Qed.
Lemma d_eq_double_of_int v q z : valid_double v = true -> double_value v = Some (Fin q) ->
  Z.abs z <= 2 ^ 64 -> d_eq v (double_of_Z z) = true -> exists r, (q == inject_Z r)%Q.
Proof.
  intros Hv Ev Hz H. destruct (rounded_any z Hz) as (r & R).
  unfold d_eq in H. rewrite SFcompare_spec in H by (auto; apply R).
  destruct (rd_val _ _ _ R) as (x & Hx & Ex). rewrite Hx, Ev in H. cbn in H.
  exists r. rewrite <- Ex. apply Qeq_alt. destruct (Qcompare q x); congruence.
Qed.

Lemma maxint_rounded : rounded (2 ^ 63 - 513) (double_of_Z (2 ^ 63 - 513)) (2 ^ 63 - 1024).
Proof.
  destruct (rounded_any (2 ^ 63 - 513) ltac:(pows; lia)) as (r & R).
  enough (r = 2 ^ 63 - 1024) as E by (rewrite <- E; exact R).
  destruct (rd_val _ _ _ R) as (x & Hx & Ex). vm_compute in Hx. inversion Hx; subst x; clear Hx.
  unfold Qeq in Ex. cbn -[Z.pow] in Ex. pows. lia.
Qed.
Lemma maxint_rounded' : rounded (2 ^ 63 - 512) (double_of_Z (2 ^ 63 - 512)) (2 ^ 63).
Proof.
  destruct (rounded_any (2 ^ 63 - 512) ltac:(pows; lia)) as (r & R).
  enough (r = 2 ^ 63) as E by (rewrite E in R; exact R).
  destruct (rd_val _ _ _ R) as (x & Hx & Ex). vm_compute in Hx. inversion Hx; subst x; clear Hx.
  unfold Qeq in Ex. cbn -[Z.pow] in Ex. pows. lia.
Qed.
Lemma maxuint_rounded : rounded (2 ^ 64 - 1025) (double_of_Z (2 ^ 64 - 1025)) (2 ^ 64 - 2048).
Proof.
  destruct (rounded_any (2 ^ 64 - 1025) ltac:(pows; lia)) as (r & R).
  enough (r = 2 ^ 64 - 2048) as E by (rewrite <- E; exact R).
  destruct (rd_val _ _ _ R) as (x & Hx & Ex). vm_compute in Hx. inversion Hx; subst x; clear Hx.
  unfold Qeq in Ex. cbn -[Z.pow] in Ex. pows. lia.
Qed.
Lemma maxuint_rounded' : rounded (2 ^ 64 - 1024) (double_of_Z (2 ^ 64 - 1024)) (2 ^ 64).
Proof.
  destruct (rounded_any (2 ^ 64 - 1024) ltac:(pows; lia)) as (r & R).
  enough (r = 2 ^ 64) as E by (rewrite E in R; exact R).
  destruct (rd_val _ _ _ R) as (x & Hx & Ex). vm_compute in Hx. inversion Hx; subst x; clear Hx.
  unfold Qeq in Ex. cbn -[Z.pow] in Ex. pows. lia.
Qed.
Lemma kMaxInt_eq : kMaxDoubleRepresentableAsInt = double_of_Z (2 ^ 63 - 513).
Proof. vm_compute. reflexivity. Qed.
Lemma kMaxUint_eq : kMaxDoubleRepresentableAsUint = double_of_Z (2 ^ 64 - 1025).
Proof. vm_compute. reflexivity. Qed.

Lemma denotes_unique n z z' : denotes_int n z -> denotes_int n z' -> z = z'.
Proof.
  intros (q & H1 & H2) (q' & H3 & H4). rewrite H1 in H3. inversion H3; subst q'.
  rewrite H2 in H4. unfold Qeq in H4. cbn in H4. lia.
Qed.

Lemma Lossless_int_ok n : number_ok n ->
  (exists b, LosslessConvertibleToInt n = Val b /\
     (b = true <-> exists z, denotes_int n z /\ in_int64 z = true)) /\
  (forall z, denotes_int n z -> in_int64 z = true -> AsInt n = Val z).
Proof.
  intros Hn. destruct n as [v|u|i]; cbn [number_ok LosslessConvertibleToInt AsInt] in *.
  - unfold and_then. rewrite kIntMin_eq, kMaxInt_eq.
    destruct (fin_or v) as [[q Ev]|NF].
    + pose proof (d_ge_val v (- 2 ^ 63) q _ Hn Ev rounded_imin eq_refl) as A.
      destruct (rd_val _ _ _ maxint_rounded) as (x & Hx & Ex).
      pose proof (d_le_val v _ q x Hn Ev (rd_valid _ _ _ maxint_rounded) Hx) as B.
      rewrite Ex in B.
      destruct (dtrunc_ok v q Ev) as (z & Hz & T).
      unfold cast_int64. rewrite Hz.
      assert (DI : forall z0, denotes_int (NDouble v) z0 -> z0 = z).
      { intros z0 (q0 & H1 & H2). cbn in H1. rewrite Ev in H1. inversion H1; subst q0.
        symmetry. apply is_trunc_int. eapply is_trunc_proper; eauto. }
      destruct (d_ge v (double_of_Z (- 2 ^ 63))) eqn:E1; cbn [andb].
      2:{ split; [|intros z0 D I; rewrite (DI z0 D) in I; rewrite I; f_equal; now rewrite (DI z0 D)].
          exists false. split; auto. split; [discriminate|]. intros (z0 & (q0 & H1 & H2) & I).
          cbn in H1. rewrite Ev in H1. inversion H1; subst q0.
          apply A. rewrite H2, <- Zle_Qle. apply in_int64_iff in I. lia. }
      destruct (d_le v (double_of_Z (2 ^ 63 - 513))) eqn:E2.
      * pose proof (proj1 A eq_refl) as L. pose proof (proj1 B eq_refl) as U. clear E1 E2 A B.
        assert (I : in_int64 z = true).
        { apply in_int64_iff.
          pose proof (is_trunc_bounds q z (- 2 ^ 63) (2 ^ 63 - 1) T ltac:(lia)) as Bd. apply Bd.
          - eapply Qlt_le_trans; [|exact L]. rewrite <- Zlt_Qlt. lia.
          - eapply Qle_lt_trans; [exact U|]. rewrite <- Zlt_Qlt. lia. }
        rewrite I. cbn [obind]. apply in_int64_iff in I as I'. pows.
        split; [|intros z0 D _; now rewrite (DI z0 D)].
        eexists; split; [reflexivity|]. split.
        -- intros Heq. destruct (d_eq_double_of_int v q z Hn Ev ltac:(pows; lia) Heq) as (r & Hr).
           exists z. split; auto. exists q. split; auto.
           assert (z = r) as -> by (apply is_trunc_int; eapply is_trunc_proper; eauto). auto.
        -- intros (z0 & D & _). rewrite <- (DI z0 D) in *. destruct D as (q0 & H1 & H2).
           cbn in H1. rewrite Ev in H1. inversion H1; subst q0.
           eapply double_of_int_value; eauto. pows. lia.
      * split; [|intros z0 D I; rewrite (DI z0 D) in I; rewrite I; f_equal; now rewrite (DI z0 D)].
        exists false. split; auto. split; [discriminate|]. intros (z0 & (q0 & H1 & H2) & I).
        cbn in H1. rewrite Ev in H1. inversion H1; subst q0.
        apply B. apply in_int64_iff in I.
        destruct (Z.le_gt_cases z0 (2 ^ 63 - 513)) as [C|C].
        -- apply (rd_hi _ _ _ maxint_rounded v q Hn Ev). rewrite H2, <- Zle_Qle. auto.
        -- pose proof (rd_lo _ _ _ maxint_rounded' v q Hn Ev) as X.
           rewrite H2, <- !Zle_Qle in X. lia.
    + assert (ND : forall z, ~ denotes_int (NDouble v) z) by (intros z (q & H & _); eapply NF; exact H).
      split; [|intros z D; exfalso; eapply ND; eauto].
      exists false. split; [|split; [discriminate|intros (z & D & _); exfalso; eapply ND; eauto]].
      destruct v as [|[]| |]; try (exfalso; eapply NF; reflexivity); vm_compute; reflexivity.
  - apply in_uint64_iff in Hn. assert (D : denotes_int (NUint u) u) by (exists (inject_Z u); split; reflexivity).
    split.
    + eexists; split; [reflexivity|]. split.
      * intros H. exists u. split; auto. apply in_int64_iff. unr. lia.
      * intros (z & D' & I). rewrite (denotes_unique _ _ _ D' D) in I. apply in_int64_iff in I. unr. lia.
    + intros z D' I. rewrite (denotes_unique _ _ _ D' D) in *. apply in_int64_iff in I.
      replace (u <=? int64_max) with true by (unr; lia). reflexivity.
  - assert (D : denotes_int (NInt i) i) by (exists (inject_Z i); split; reflexivity).
    split.
    + eexists; split; [reflexivity|]. split; auto. intros _. exists i. auto.
    + intros z D' _. now rewrite (denotes_unique _ _ _ D' D).
Qed.

Lemma Lossless_uint_ok n : number_ok n ->
  (exists b, LosslessConvertibleToUint n = Val b /\
     (b = true <-> exists z, denotes_int n z /\ in_uint64 z = true)) /\
  (forall z, denotes_int n z -> in_uint64 z = true -> AsUint n = Val z).
Proof.
  intros Hn. destruct n as [v|u|i]; cbn [number_ok LosslessConvertibleToUint AsUint] in *.
  - unfold and_then. change dzero with (double_of_Z 0). rewrite kMaxUint_eq.
    destruct (fin_or v) as [[q Ev]|NF].
    + pose proof (d_ge_val v 0 q _ Hn Ev rounded_0 eq_refl) as A.
      destruct (rd_val _ _ _ maxuint_rounded) as (x & Hx & Ex).
      pose proof (d_le_val v _ q x Hn Ev (rd_valid _ _ _ maxuint_rounded) Hx) as B.
      rewrite Ex in B.
      destruct (dtrunc_ok v q Ev) as (z & Hz & T).
      unfold cast_uint64. rewrite Hz.
      assert (DI : forall z0, denotes_int (NDouble v) z0 -> z0 = z).
      { intros z0 (q0 & H1 & H2). cbn in H1. rewrite Ev in H1. inversion H1; subst q0.
        symmetry. apply is_trunc_int. eapply is_trunc_proper; eauto. }
      destruct (d_ge v (double_of_Z 0)) eqn:E1; cbn [andb].
      2:{ split; [|intros z0 D I; rewrite (DI z0 D) in I; rewrite I; f_equal; now rewrite (DI z0 D)].
          exists false. split; auto. split; [discriminate|]. intros (z0 & (q0 & H1 & H2) & I).
          cbn in H1. rewrite Ev in H1. inversion H1; subst q0.
          apply A. rewrite H2, <- Zle_Qle. apply in_uint64_iff in I. lia. }
      destruct (d_le v (double_of_Z (2 ^ 64 - 1025))) eqn:E2.
      * pose proof (proj1 A eq_refl) as L. pose proof (proj1 B eq_refl) as U. clear E1 E2 A B.
        assert (I : in_uint64 z = true).
        { apply in_uint64_iff.
          pose proof (is_trunc_bounds q z 0 (2 ^ 64 - 1) T ltac:(lia)) as Bd. apply Bd.
          - eapply Qlt_le_trans; [|exact L]. rewrite <- Zlt_Qlt. lia.
          - eapply Qle_lt_trans; [exact U|]. rewrite <- Zlt_Qlt. lia. }
        rewrite I. cbn [obind]. apply in_uint64_iff in I as I'. pows.
        split; [|intros z0 D _; now rewrite (DI z0 D)].
        eexists; split; [reflexivity|]. split.
        -- intros Heq. destruct (d_eq_double_of_int v q z Hn Ev ltac:(pows; lia) Heq) as (r & Hr).
           exists z. split; auto. exists q. split; auto.
           assert (z = r) as -> by (apply is_trunc_int; eapply is_trunc_proper; eauto). auto.
        -- intros (z0 & D & _). rewrite <- (DI z0 D) in *. destruct D as (q0 & H1 & H2).
           cbn in H1. rewrite Ev in H1. inversion H1; subst q0.
           eapply double_of_int_value; eauto. pows. lia.
      * split; [|intros z0 D I; rewrite (DI z0 D) in I; rewrite I; f_equal; now rewrite (DI z0 D)].
        exists false. split; auto. split; [discriminate|]. intros (z0 & (q0 & H1 & H2) & I).
        cbn in H1. rewrite Ev in H1. inversion H1; subst q0.
        apply B. apply in_uint64_iff in I.
        destruct (Z.le_gt_cases z0 (2 ^ 64 - 1025)) as [C|C].
        -- apply (rd_hi _ _ _ maxuint_rounded v q Hn Ev). rewrite H2, <- Zle_Qle. auto.
        -- pose proof (rd_lo _ _ _ maxuint_rounded' v q Hn Ev) as X.
           rewrite H2, <- !Zle_Qle in X. lia.
    + assert (ND : forall z, ~ denotes_int (NDouble v) z) by (intros z (q & H & _); eapply NF; exact H).
      split; [|intros z D; exfalso; eapply ND; eauto].
      exists false. split; [|split; [discriminate|intros (z & D & _); exfalso; eapply ND; eauto]].
      destruct v as [|[]| |]; try (exfalso; eapply NF; reflexivity); vm_compute; reflexivity.
  - assert (D : denotes_int (NUint u) u) by (exists (inject_Z u); split; reflexivity).
    split.
    + eexists; split; [reflexivity|]. split; auto. intros _. exists u. auto.
    + intros z D' _. now rewrite (denotes_unique _ _ _ D' D).
  - apply in_int64_iff in Hn. assert (D : denotes_int (NInt i) i) by (exists (inject_Z i); split; reflexivity).
    split.
    + eexists; split; [reflexivity|]. split.
      * intros H. exists i. split; auto. apply in_uint64_iff. pows. lia.
      * intros (z & D' & I). rewrite (denotes_unique _ _ _ D' D) in I. apply in_uint64_iff in I. lia.
    + intros z D' I. rewrite (denotes_unique _ _ _ D' D) in *. apply in_uint64_iff in I.
      unfold c_uint64. rewrite Z.mod_small by lia. reflexivity.
Qed.
