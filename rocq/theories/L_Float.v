(* Facts about binary64 values of SpecFloat: comparison and conversion from
   integers against their meaning in Q.  No axioms. *)
From Coq Require Import ZArith QArith Bool Lia ZifyBool.
From Verif Require Import Base M_Overflow M_Number S_Num S_Arith L_Overflow.
Open Scope Z_scope.

(* ------------------------------------------------------------- dyadics *)

Lemma pow2_pos n : 0 <= n -> 0 < 2 ^ n.
Proof. intros. apply Z.pow_pos_nonneg; lia. Qed.

Lemma dyadic_scaled m e K : 0 <= K -> 0 <= e + K ->
  (dyadic m e == (m * 2 ^ (e + K)) # (Z.to_pos (2 ^ K)))%Q.
Proof.
  intros HK HeK. unfold dyadic, Qeq. destruct (0 <=? e) eqn:E; cbn -[Z.pow Z.mul].
  - rewrite Z2Pos.id by (apply pow2_pos; lia). rewrite Z.pow_add_r by lia. ring.
  - rewrite !Z2Pos.id by (apply pow2_pos; lia).
    replace (2 ^ K) with (2 ^ (e + K) * 2 ^ (- e)); [ring|].
    rewrite <- Z.pow_add_r by lia. f_equal. lia.
Qed.

Lemma Qcompare_same_den a b d : Qcompare (a # d) (b # d) = Z.compare a b.
Proof. unfold Qcompare. cbn. symmetry. apply Zmult_compare_compat_r. reflexivity. Qed.

Lemma dyadic_compare m1 e1 m2 e2 K : 0 <= K -> 0 <= e1 + K -> 0 <= e2 + K ->
  Qcompare (dyadic m1 e1) (dyadic m2 e2) = Z.compare (m1 * 2 ^ (e1 + K)) (m2 * 2 ^ (e2 + K)).
Proof.
  intros. rewrite (dyadic_scaled m1 e1 K), (dyadic_scaled m2 e2 K) by lia.
  apply Qcompare_same_den.
Qed.

Lemma dyadic_int z : dyadic z 0 = inject_Z z.
Proof. unfold dyadic. cbn [Z.leb Z.compare]. change (2 ^ 0) with 1. now rewrite Z.mul_1_r. Qed.

Lemma dyadic_Zneg p e : (dyadic (Zneg p) e == - dyadic (Zpos p) e)%Q.
Proof.
  unfold dyadic. destruct (0 <=? e).
  - change (Zneg p) with (- Zpos p). rewrite Z.mul_opp_l, inject_Z_opp. reflexivity.
  - reflexivity.
Qed.

(* -------------------------------------------------------------- digits *)

Lemma digits2_pos_bounds p :
  2 ^ (Zpos (digits2_pos p) - 1) <= Zpos p < 2 ^ Zpos (digits2_pos p).
Proof.
  induction p as [p IH|p IH|].
  - cbn [digits2_pos]. rewrite Pos2Z.inj_succ.
    replace (Z.succ (Zpos (digits2_pos p)) - 1) with (Z.succ (Zpos (digits2_pos p) - 1)) by lia.
    rewrite !Z.pow_succ_r by lia. lia.
  - cbn [digits2_pos]. rewrite Pos2Z.inj_succ.
    replace (Z.succ (Zpos (digits2_pos p)) - 1) with (Z.succ (Zpos (digits2_pos p) - 1)) by lia.
    rewrite !Z.pow_succ_r by lia. lia.
  - cbn. lia.
Qed.

Lemma digits2_pos_unique p n : 0 < n -> 2 ^ (n - 1) <= Zpos p < 2 ^ n ->
  Zpos (digits2_pos p) = n.
Proof.
  intros Hn H. pose proof (digits2_pos_bounds p) as B.
  destruct (Z.lt_trichotomy (Zpos (digits2_pos p)) n) as [L|[E|G]]; auto; exfalso.
  - assert (2 ^ Zpos (digits2_pos p) <= 2 ^ (n - 1)) by (apply Z.pow_le_mono_r; lia). lia.
  - assert (2 ^ n <= 2 ^ (Zpos (digits2_pos p) - 1)) by (apply Z.pow_le_mono_r; lia). lia.
Qed.

Definition digs (m : positive) : Z := Zpos (digits2_pos m).

(* a canonical mantissa *)
Lemma valid_finite s m e : valid_double (S754_finite s m e) = true ->
  e = Z.max (digs m + e - 53) (-1074) /\ e <= 971 /\ Zpos m < 2 ^ 53 /\
  (e = -1074 \/ 2 ^ 52 <= Zpos m).
Proof.
  unfold valid_double, valid_binary, bounded, canonical_mantissa, fexp, emin, dprec, demax, digs.
  intros H. apply andb_true_iff in H as [H1 H2].
  apply Zeq_bool_eq in H1. apply Zle_bool_imp_le in H2.
  pose proof (digits2_pos_bounds m) as B.
  assert (Zpos (digits2_pos m) <= 53) by lia.
  assert (2 ^ Zpos (digits2_pos m) <= 2 ^ 53) by (apply Z.pow_le_mono_r; lia).
  repeat split; try lia.
  destruct (Z.eq_dec e (-1074)); [left; lia|right].
  assert (Zpos (digits2_pos m) = 53) as E by lia. rewrite E in B. exact (proj1 B).
Qed.

(* magnitude comparison of canonical floats with different exponents *)
Lemma canon_lt m1 e1 m2 e2 s1 s2 :
  valid_double (S754_finite s1 m1 e1) = true ->
  valid_double (S754_finite s2 m2 e2) = true -> e1 < e2 ->
  Zpos m1 * 2 ^ (e1 + 1074) < Zpos m2 * 2 ^ (e2 + 1074).
Proof.
  intros H1 H2 L. apply valid_finite in H1 as (A1 & A2 & A3 & A4).
  apply valid_finite in H2 as (B1 & B2 & B3 & B4).
  destruct B4 as [?|B4]; [lia|].
  apply Z.lt_le_trans with (2 ^ 53 * 2 ^ (e1 + 1074)).
  - apply Z.mul_lt_mono_pos_r; [apply pow2_pos; lia|lia].
  - apply Z.le_trans with (2 ^ 52 * 2 ^ (e2 + 1074)).
    + rewrite <- !Z.pow_add_r by lia. apply Z.pow_le_mono_r; lia.
    + apply Z.mul_le_mono_nonneg_r; [apply Z.lt_le_incl, pow2_pos; lia|lia].
Qed.

Lemma Zcompare_opp_opp a b : Z.compare (- a) (- b) = CompOpp (Z.compare a b).
Proof. rewrite <- (Z.compare_antisym a b). apply Z.compare_opp. Qed.

Lemma SFcompare_spec a b : valid_double a = true -> valid_double b = true ->
  SFcompare a b = spec_compare (double_value a) (double_value b).
Proof.
  intros Ha Hb.
  assert (Hs : forall p e, Qcompare (dyadic (Zneg p) e) 0 = Lt /\ Qcompare 0 (dyadic (Zneg p) e) = Gt
     /\ Qcompare (dyadic (Zpos p) e) 0 = Gt /\ Qcompare 0 (dyadic (Zpos p) e) = Lt).
  { intros p e. assert (0 < (dyadic (Zpos p) e))%Q.
    { unfold dyadic. destruct (0 <=? e) eqn:E; unfold Qlt; cbn -[Z.mul Z.pow]; [|lia].
      assert (0 < 2 ^ e) by (apply pow2_pos; lia). nia. }
    assert (dyadic (Zneg p) e < 0)%Q. { rewrite dyadic_Zneg.
      setoid_replace 0%Q with (- 0)%Q by reflexivity. now apply Qopp_lt_compat. }
    repeat split; [now apply Qlt_alt|now apply Qgt_alt|now apply Qgt_alt|now apply Qlt_alt]. }
  destruct a as [sa|sa| |sa ma ea], b as [sb|sb| |sb mb eb]; cbn [SFcompare spec_compare double_value ext_compare];
    try (destruct sa; reflexivity); try (destruct sb; reflexivity); try reflexivity;
    try (destruct sa, sb; reflexivity).
  - destruct (Hs mb eb) as (?&?&?&?), sb; congruence.
  - destruct (Hs ma ea) as (?&?&?&?), sa; congruence.
  - f_equal.
    pose proof (proj1 (proj2 (valid_finite _ _ _ Ha))). pose proof (proj1 (valid_finite _ _ _ Ha)).
    pose proof (proj1 (proj2 (valid_finite _ _ _ Hb))). pose proof (proj1 (valid_finite _ _ _ Hb)).
    assert (Pa : 0 < 2 ^ (ea + 1074)) by (apply pow2_pos; lia).
    assert (Pb : 0 < 2 ^ (eb + 1074)) by (apply pow2_pos; lia).
    assert (C : match Z.compare ea eb with Lt => Lt | Gt => Gt | Eq => Pos.compare ma mb end =
      Z.compare (Zpos ma * 2 ^ (ea + 1074)) (Zpos mb * 2 ^ (eb + 1074))).
    { destruct (Z.compare_spec ea eb) as [<-|L|L].
      - rewrite <- Zmult_compare_compat_r by lia. reflexivity.
      - symmetry. apply Z.compare_lt_iff. eapply canon_lt; eauto.
      - symmetry. apply Z.compare_gt_iff. eapply canon_lt; eauto. }
    rewrite (dyadic_compare _ _ _ _ 1074) by lia.
    destruct sa, sb.
    + change (Zneg ma) with (- Zpos ma). change (Zneg mb) with (- Zpos mb).
      rewrite !Z.mul_opp_l, Zcompare_opp_opp, <- C.
      destruct (Z.compare ea eb); reflexivity.
    + symmetry. apply Z.compare_lt_iff. nia.
    + symmetry. apply Z.compare_gt_iff. nia.
    + exact C.
Qed.
