(* Conversion of integers to binary64: round to nearest even, characterised. *)
From Coq Require Import ZArith QArith Bool Lia ZifyBool.
From Verif Require Import Base M_Overflow M_Number S_Num S_Arith L_Overflow L_Float.
Open Scope Z_scope.

Definition shr_inv (z k : Z) (x : shr_record) : Prop :=
  0 <= k /\ 0 <= shr_m x /\ exists rem,
    z = shr_m x * 2 ^ k + rem /\ 0 <= rem < 2 ^ k /\
    shr_r x = (2 ^ k <=? 2 * rem) /\
    shr_s x = negb (2 * rem =? (if 2 ^ k <=? 2 * rem then 2 ^ k else 0)).

Lemma shr_inv_0 z : 0 <= z -> shr_inv z 0 {| shr_m := z; shr_r := false; shr_s := false |}.
Proof.
  intros. split; [lia|]. cbn -[Z.mul Z.add]. split; [lia|]. exists 0. repeat split; try lia; reflexivity.
Qed.

Lemma shr_1_pair m r s : 0 <= m ->
  shr_1 {| shr_m := m; shr_r := r; shr_s := s |} =
  {| shr_m := m / 2; shr_r := Z.odd m; shr_s := r || s |}.
Proof.
  intros Hm. destruct m as [|p|p]; [reflexivity| |lia].
  rewrite <- Z.div2_div. destruct p; reflexivity.
Qed.

Lemma shr_inv_step z k x : shr_inv z k x -> shr_inv z (k + 1) (shr_1 x).
Proof.
  intros (Hk & Hm & rem & Hz & Hr & Er & Es). destruct x as [m r s]; cbn [shr_m shr_r shr_s] in Hm, Er, Es.
  cbn [shr_m] in Hz. rewrite shr_1_pair by auto.
  split; [lia|]. cbn [shr_m shr_r shr_s]. split; [apply Z.div_pos; lia|].
  pose proof (Z.div_mod m 2 ltac:(lia)) as D. rewrite Zmod_odd in D.
  assert (P : 2 ^ (k + 1) = 2 * 2 ^ k) by (rewrite Z.pow_add_r by lia; lia).
  rewrite P. set (h := m / 2) in *. clearbody h.
  set (w := 2 ^ k) in *. clearbody w. clear P.
  exists ((if Z.odd m then 1 else 0) * w + rem).
  subst r s.
  assert (E : (2 * w <=? 2 * ((if Z.odd m then 1 else 0) * w + rem)) = Z.odd m)
    by (destruct (Z.odd m); lia).
  rewrite E. split; [destruct (Z.odd m); nia|]. split; [destruct (Z.odd m); lia|].
  split; [reflexivity|].
  destruct (Z.odd m), (w <=? 2 * rem) eqn:?; cbn [orb];
    repeat match goal with |- context [?a =? ?b] => destruct (Z.eqb_spec a b) end;
    cbn [negb]; try reflexivity; lia.
Qed.

Lemma shr_inv_iter p : forall z k x, shr_inv z k x -> shr_inv z (k + Zpos p) (iter_pos shr_1 p x).
Proof.
  induction p as [p IH|p IH|]; intros z k x H; cbn [iter_pos].
  - replace (k + Zpos p~1) with (k + 1 + Zpos p + Zpos p) by lia.
    apply IH, IH. now apply shr_inv_step.
  - replace (k + Zpos p~0) with (k + Zpos p + Zpos p) by lia. now apply IH, IH.
  - now apply shr_inv_step.
Qed.

(* the result of rounding a positive integer *)
Definition excess (p : positive) : Z := Z.max 0 (digs p - 53).

Lemma fexp_small n : -1021 <= n -> fexp dprec demax n = n - 53.
Proof. intros. unfold fexp, emin, dprec, demax. lia. Qed.

Lemma round_aux_53 s m e : 2 ^ 52 <= Zpos m < 2 ^ 53 -> -1074 <= e <= 971 ->
  binary_round_aux dprec demax s (Zpos m) e loc_Exact = S754_finite s m e.
Proof.
  intros Hm He. assert (D : digs m = 53) by (apply digits2_pos_unique; [lia|exact Hm]).
  unfold binary_round_aux, shr_fexp.
  cbn [Zdigits2]. fold (digs m). rewrite D, fexp_small by lia.
  replace (53 + e - 53 - e) with 0 by lia.
  cbn [shr shr_record_of_loc shr_m loc_of_shr_record round_nearest_even Zdigits2].
  fold (digs m). rewrite D, fexp_small by lia.
  replace (53 + e - 53 - e) with 0 by lia.
  cbn [shr shr_m shr_record_of_loc].
  replace (e <=? demax - dprec) with true by (unfold demax, dprec; lia). reflexivity.
Qed.

Lemma double_of_pos_small s p : digs p <= 53 ->
  binary_round dprec demax s p 0 =
  S754_finite s (Z.to_pos (Zpos p * 2 ^ (53 - digs p))) (digs p - 53).
Proof.
  intros Hd. pose proof (digits2_pos_bounds p) as B. fold (digs p) in B.
  assert (0 < digs p) by (unfold digs; lia).
  unfold binary_round. fold (digs p).
  rewrite Z.add_0_r, fexp_small by lia. unfold shl_align. rewrite Z.sub_0_r.
  destruct (digs p - 53) as [|q|q] eqn:E; [|lia|].
  - assert (digs p = 53) by lia. rewrite H0 in *.
    rewrite round_aux_53 by (cbn in B |- *; lia). f_equal. cbn -[Z.mul]. lia.
  - assert (Zpos (shift_pos q p) = Zpos p * 2 ^ (53 - digs p)) as S.
    { rewrite shift_pos_correct. replace (53 - digs p) with (Zpos q) by lia.
      change (Z.pow_pos 2 q) with (2 ^ Zpos q). lia. }
    rewrite <- S. cbn [Z.to_pos]. rewrite round_aux_53; auto; [|lia].
    rewrite S.
    replace (2 ^ 52) with (2 ^ (digs p - 1) * 2 ^ (53 - digs p)) by
      (rewrite <- Z.pow_add_r by lia; f_equal; lia).
    replace (2 ^ 53) with (2 ^ (digs p) * 2 ^ (53 - digs p)) by
      (rewrite <- Z.pow_add_r by lia; f_equal; lia).
    assert (0 < 2 ^ (53 - digs p)) by (apply pow2_pos; lia). nia.
Qed.

Lemma double_of_pos_large s p : 53 < digs p <= 1000 ->
  exists q m e, binary_round dprec demax s p 0 = S754_finite s m e /\
    let k := digs p - 53 in
    Zpos m * 2 ^ e = q * 2 ^ k /\ 0 <= e <= k + 1 /\
    2 ^ 52 <= Zpos m < 2 ^ 53 /\
    (q = Zpos p / 2 ^ k \/ (q = Zpos p / 2 ^ k + 1 /\ Zpos p mod 2 ^ k <> 0)) /\
    2 * Z.abs (q * 2 ^ k - Zpos p) <= 2 ^ k.
Proof.
  intros Hd. pose proof (digits2_pos_bounds p) as B. fold (digs p) in B.
  unfold binary_round. fold (digs p). rewrite Z.add_0_r, fexp_small by lia.
  unfold shl_align. rewrite Z.sub_0_r.
  set (k := digs p - 53) in *.
  assert (Hk : 0 < k) by lia.
  replace (match k with Zneg d => (shift_pos d p, k) | _ => (p, 0) end) with (p, 0) by (destruct k; auto; lia).
  unfold binary_round_aux, shr_fexp at 1.
  cbn [Zdigits2 shr_record_of_loc]. fold (digs p). rewrite Z.add_0_r, fexp_small by lia.
  rewrite Z.sub_0_r. fold k.
  destruct k as [|kp|kp] eqn:Ek; try lia. cbn [shr]. rewrite <- Ek in *.
  pose proof (shr_inv_iter kp (Zpos p) 0 _ (shr_inv_0 (Zpos p) ltac:(lia))) as I.
  rewrite Z.add_0_l, <- Ek in I. rewrite Z.add_0_l.
  destruct (iter_pos shr_1 kp {| shr_m := Zpos p; shr_r := false; shr_s := false |}) as [m r s0].
  destruct I as (_ & Hm & rem & Hz & Hr & Er & Es). cbn [shr_m shr_r shr_s] in *.
  assert (Hdiv : Zpos p / 2 ^ k = m) by (symmetry; apply Z.div_unique with rem; lia).
  assert (Hmod : Zpos p mod 2 ^ k = rem) by (symmetry; apply Z.mod_unique with m; lia).
  rewrite Hdiv, Hmod.
  assert (P0 : 0 < 2 ^ k) by (apply pow2_pos; lia).
  assert (P1 : 2 ^ (digs p - 1) = 2 ^ 52 * 2 ^ k) by (rewrite <- Z.pow_add_r by lia; f_equal; lia).
  assert (P2 : 2 ^ (digs p) = 2 ^ 53 * 2 ^ k) by (rewrite <- Z.pow_add_r by lia; f_equal; lia).
  rewrite P1, P2 in B.
  assert (Bm : 2 ^ 52 <= m < 2 ^ 53) by nia.
  set (q := round_nearest_even m (loc_of_shr_record {| shr_m := m; shr_r := r; shr_s := s0 |})).
  assert (Hq : (q = m \/ (q = m + 1 /\ rem <> 0)) /\ 2 * Z.abs (q * 2 ^ k - Zpos p) <= 2 ^ k).
  { subst q r s0. set (w := 2 ^ k) in *. clearbody w.
    destruct (w <=? 2 * rem) eqn:E1; cbn [loc_of_shr_record];
      [destruct (2 * rem =? w) eqn:E2|destruct (2 * rem =? 0) eqn:E2]; cbn [negb loc_of_shr_record round_nearest_even].
    - destruct (Z.even m); split; try lia.
    - split; lia.
    - split; lia.
    - split; lia. }
  destruct Hq as [Hq Hq2]. clearbody q.
  unfold shr_fexp. exists q.
  destruct (Z.eq_dec q (2 ^ 53)) as [E|E].
  - rewrite E. change (Zdigits2 (2 ^ 53)) with 54. rewrite fexp_small by lia.
    replace (54 + k - 53 - k) with 1 by lia.
    cbn [shr iter_pos].
    change (shr_record_of_loc (2 ^ 53) loc_Exact) with {| shr_m := 2 ^ 53; shr_r := false; shr_s := false |}.
    rewrite shr_1_pair by lia. cbn [shr_m].
    change (2 ^ 53 / 2) with (Zpos (Z.to_pos (2 ^ 52))).
    replace (k + 1 <=? demax - dprec) with true by (unfold demax, dprec; lia).
    exists (Z.to_pos (2 ^ 52)), (k + 1). split; [reflexivity|].
    cbn zeta. change (Zpos (Z.to_pos (2 ^ 52))) with (2 ^ 52).
    split; [rewrite Z.pow_add_r by lia; lia|].
    split; [lia|]. split; [lia|]. rewrite <- E. auto.
  - destruct q as [|qp|qp]; try lia.
    assert (D : digs qp = 53) by (apply digits2_pos_unique; [lia|change (53 - 1) with 52; lia]).
    cbn [Zdigits2]. fold (digs qp). rewrite D, fexp_small by lia.
    replace (53 + k - 53 - k) with 0 by lia. cbn [shr shr_m shr_record_of_loc].
    replace (k <=? demax - dprec) with true by (unfold demax, dprec; lia).
    exists qp, k. split; [reflexivity|]. cbn zeta.
    repeat split; auto; lia.
Qed.

Lemma canon_valid s m e : 2 ^ 52 <= Zpos m < 2 ^ 53 -> -1074 <= e <= 971 ->
  valid_double (S754_finite s m e) = true.
Proof.
  intros Hm He. assert (D : digs m = 53) by (apply digits2_pos_unique; [lia|exact Hm]).
  unfold valid_double, valid_binary, bounded, canonical_mantissa. fold (digs m).
  rewrite D. rewrite fexp_small by lia. replace (53 + e - 53) with e by lia.
  replace (Zeq_bool e e) with true by (symmetry; apply Zeq_is_eq_bool; reflexivity).
  cbn. apply Z.leb_le. unfold dprec, demax. lia.
Qed.

(* Everything needed about the conversion of a positive integer up to 2^900:
   q * 2^k is one of the two multiples of 2^k next to p. *)
Lemma double_of_pos s p : digs p <= 1000 ->
  exists q m e, binary_round dprec demax s p 0 = S754_finite s m e /\
    valid_double (S754_finite s m e) = true /\
    (dyadic (Zpos m) e == inject_Z (q * 2 ^ excess p))%Q /\
    (q = Zpos p / 2 ^ excess p \/
      (q = Zpos p / 2 ^ excess p + 1 /\ Zpos p mod 2 ^ excess p <> 0)) /\
    2 * Z.abs (q * 2 ^ excess p - Zpos p) <= 2 ^ excess p /\
    (excess p = 0 -> q = Zpos p).
Proof.
  intros Hd. pose proof (digits2_pos_bounds p) as B. fold (digs p) in B.
  assert (0 < digs p) by (unfold digs; lia).
  destruct (Z.le_gt_cases (digs p) 53) as [L|G].
  - rewrite double_of_pos_small by auto.
    assert (E : excess p = 0) by (unfold excess; lia). rewrite E.
    set (w := 53 - digs p). assert (Hw : 0 < 2 ^ w) by (apply pow2_pos; lia).
    exists (Zpos p). eexists; eexists. split; [reflexivity|].
    assert (Hm : Zpos (Z.to_pos (Zpos p * 2 ^ w)) = Zpos p * 2 ^ w) by (apply Z2Pos.id; lia).
    split.
    { apply canon_valid; [|lia]. rewrite Hm.
      replace (2 ^ 52) with (2 ^ (digs p - 1) * 2 ^ w) by
        (rewrite <- Z.pow_add_r by lia; f_equal; lia).
      replace (2 ^ 53) with (2 ^ (digs p) * 2 ^ w) by
        (rewrite <- Z.pow_add_r by lia; f_equal; lia). nia. }
    change (2 ^ 0) with 1. rewrite Z.mul_1_r, Z.div_1_r. repeat split; auto; try lia.
    rewrite Hm, <- (dyadic_int (Zpos p)).
    rewrite (dyadic_scaled _ (digs p - 53) w), (dyadic_scaled (Zpos p) 0 w) by lia.
    replace (digs p - 53 + w) with 0 by lia. rewrite Z.add_0_l. change (2 ^ 0) with 1.
    rewrite Z.mul_1_r. reflexivity.
  - destruct (double_of_pos_large s p ltac:(lia)) as (q & m & e & H1 & H2 & H3 & H4 & H5 & H6).
    exists q, m, e. assert (E : excess p = digs p - 53) by (unfold excess; lia). rewrite E.
    repeat split; auto.
    + apply canon_valid; lia.
    + unfold dyadic. replace (0 <=? e) with true by lia. rewrite H2. reflexivity.
    + lia.
Qed.
