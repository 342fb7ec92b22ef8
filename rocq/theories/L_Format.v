(* Numerals, durations and the order of texts. *)
From Coq Require Import ZArith String List Bool Ascii Permutation Sorting.Sorted Lia ZifyBool.
From Verif Require Import Base M_Overflow M_Number M_Value.
From Verif Require Import M_Format S_Format.
Import ListNotations.
Open Scope list_scope.
Open Scope Z_scope.

Lemma str_text s : str s = text s.
Proof. reflexivity. Qed.

(** ** Digits *)
Lemma digit_char_value upper d : 0 <= d < 10 \/ (upper = false /\ 0 <= d < 16) -> digit_value upper (digit_char d) = Some d.
Proof.
  intros H. unfold digit_value, digit_char. destruct (d <? 10) eqn:E.
  - replace ((48 <=? 48 + d) && (48 + d <=? 57)) with true by lia. f_equal; lia.
  - destruct H as [H|[-> H]]; [lia|].
    replace ((48 <=? 87 + d) && (87 + d <=? 57)) with false by lia.
    replace ((97 <=? 87 + d) && (87 + d <=? 102)) with true by lia. f_equal; lia.
Qed.
Lemma digit_value_inj upper c c' d : digit_value upper c = Some d -> digit_value upper c' = Some d -> c = c'.
Proof.
  unfold digit_value. intros H H'.
  destruct ((48 <=? c) && (c <=? 57)) eqn:E, ((48 <=? c') && (c' <=? 57)) eqn:E'; destruct upper;
    repeat match goal with H : context [if ?b then _ else _] |- _ => destruct b eqn:? end; try discriminate; 
    injection H as <-; injection H' as ?; lia.
Qed.
Lemma digit_value_zero upper c : digit_value upper c = Some 0 <-> c = 48.
Proof.
  unfold digit_value. split.
  - destruct ((48 <=? c) && (c <=? 57)) eqn:E; destruct upper;
    repeat match goal with |- context [if ?b then _ else _] => destruct b eqn:? end; try discriminate;
    intros [=]; lia.
  - now intros ->.
Qed.

Lemma place_value_nonneg upper b t n : 0 < b -> place_value upper b t n -> 0 <= n.
Proof. intros Hb. induction 1; nia. Qed.
Lemma place_value_snoc_inv upper b t c m : place_value upper b (t ++ [c]) m ->
  exists n d, place_value upper b t n /\ digit_value upper c = Some d /\ 0 <= d < b /\ m = n * b + d.
Proof.
  intros H. inversion H as [E|t' n c' d Ht Hc Hd E].
  - destruct t; discriminate.
  - apply app_inj_tail in E as [-> ->]. now exists n, d.
Qed.
Lemma place_value_nil_inv upper b m : place_value upper b [] m -> m = 0.
Proof. intros H. inversion H as [|t n c d Ht Hc Hd E]; [easy|]. now destruct t. Qed.
Lemma place_value_fun upper b t : 0 < b -> forall n m, place_value upper b t n -> place_value upper b t m -> n = m.
Proof.
  intros Hb. induction t as [|c t IH] using rev_ind; intros n m Hn Hm.
  - apply place_value_nil_inv in Hn as ->. now apply place_value_nil_inv in Hm.
  - apply place_value_snoc_inv in Hn as (n0 & d & A & B & C & ->).
    apply place_value_snoc_inv in Hm as (m0 & d' & A' & B' & C' & ->).
    rewrite B in B'. injection B' as <-. now rewrite (IH n0 m0 A A').
Qed.
Lemma split_digits b n d n' d' : 0 < b -> 0 <= d < b -> 0 <= d' < b -> n * b + d = n' * b + d' -> n = n' /\ d = d'.
Proof. intros. assert (n = n') by nia. subst. lia. Qed.
(* texts of the same length with the same value are the same *)
Lemma place_value_length upper b t : 0 < b -> forall t' n, length t = length t' ->
  place_value upper b t n -> place_value upper b t' n -> t = t'.
Proof.
  intros Hb. induction t as [|c t IH] using rev_ind; intros t' n L A B.
  - destruct t'; [easy|discriminate].
  - destruct t' as [|c' t' _] using rev_ind; [rewrite app_length in L; cbn in L; lia|].
    rewrite !app_length in L. cbn in L.
    apply place_value_snoc_inv in A as (n0 & d & A1 & A2 & A3 & ->).
    apply place_value_snoc_inv in B as (m0 & d' & B1 & B2 & B3 & E).
    destruct (split_digits b _ _ _ _ Hb A3 B3 E) as [<- <-].
    f_equal; [apply (IH t' n0); (lia || easy)|]. now rewrite (digit_value_inj _ _ _ _ A2 B2).
Qed.
(* a first digit other than 0 makes the number positive *)
Lemma place_value_pos upper b t n : 0 < b -> place_value upper b t n -> t <> [] -> hd 0 t <> 48 -> 0 < n.
Proof.
  intros Hb H. induction H as [|t n c d H IH Hc Hd]; [easy|].
  intros _ Hh. destruct t as [|x t].
  - apply place_value_nil_inv in H as ->. cbn in Hh.
    assert (d <> 0) by (intros ->; now apply digit_value_zero in Hc). lia.
  - assert (0 < n) by (apply IH; easy). nia.
Qed.
Lemma numeral_unique upper b t : 0 < b -> forall t' n, natural_numeral upper b t n -> natural_numeral upper b t' n -> t = t'.
Proof.
  intros Hb. induction t as [|c t IH] using rev_ind; intros t' n (A & A1 & A2) (B & B1 & B2); [easy|].
  destruct t' as [|c' t' _] using rev_ind; [easy|].
  apply place_value_snoc_inv in A as (n0 & d & A3 & A4 & A5 & ->).
  apply place_value_snoc_inv in B as (m0 & d' & B3 & B4 & B5 & E).
  destruct (split_digits b _ _ _ _ Hb A5 B5 E) as [<- <-].
  assert (c = c') as <- by apply (digit_value_inj _ _ _ _ A4 B4). f_equal.
  destruct t as [|x t], t' as [|y t']; [easy| | |].
  - apply place_value_nil_inv in A3 as ->.
    destruct (Z.eq_dec y 48) as [->|Ny]; [specialize (B2 eq_refl); destruct t'; discriminate|].
    assert (0 < 0) by (eapply place_value_pos; eauto; easy). lia.
  - apply place_value_nil_inv in B3 as ->.
    destruct (Z.eq_dec x 48) as [->|Ny]; [specialize (A2 eq_refl); destruct t; discriminate|].
    assert (0 < 0) by (eapply place_value_pos; eauto; easy). lia.
  - apply (IH _ n0); (split; [easy|]); (split; [easy|]); cbn; intros ->.
    + cbn in A2. specialize (A2 eq_refl). destruct t; discriminate.
    + cbn in B2. specialize (B2 eq_refl). destruct t'; discriminate.
Qed.
Lemma integer_numeral_unique upper b t t' n : 0 < b -> integer_numeral upper b t n -> integer_numeral upper b t' n -> t = t'.
Proof.
  intros Hb [[? A]|[? (u & -> & A)]] [[? B]|[? (u' & -> & B)]]; try lia.
  - now apply (numeral_unique upper b t Hb _ n).
  - f_equal. now apply (numeral_unique upper b u Hb _ (- n)).
Qed.

(** ** The digits printed *)
Lemma digits_loop_acc fuel b n acc : digits_loop fuel b n acc = digits_loop fuel b n [] ++ acc.
Proof.
  revert n acc. induction fuel as [|fuel IH]; intros n acc; [easy|]. cbn.
  destruct (n <? b); [easy|]. rewrite IH, (IH _ [_]), <- app_assoc. easy.
Qed.
Lemma digits_loop_ok upper b fuel : 2 <= b -> (b <= 10 \/ upper = false /\ b <= 16) ->
  forall n, 0 <= n < 2 ^ Z.of_nat fuel -> (0 < fuel)%nat -> natural_numeral upper b (digits_loop fuel b n []) n.
Proof.
  intros Hb Hu. induction fuel as [|fuel IH]; intros n Hn Hf; [lia|].
  cbn [digits_loop]. destruct (n <? b) eqn:E.
  - assert (V : digit_value upper (digit_char n) = Some n) by (apply digit_char_value; lia).
    split; [|split; [easy|]].
    + change [digit_char n] with ([] ++ [digit_char n]). replace n with (0 * b + n) at 2 by lia.
      econstructor; [constructor|easy|lia].
    + cbn. now intros ->.
  - assert (Hf' : (0 < fuel)%nat) by (destruct fuel; [cbn in Hn; lia|lia]).
    rewrite Nat2Z.inj_succ, Z.pow_succ_r in Hn by lia.
    assert (Hq : 0 <= n / b < 2 ^ Z.of_nat fuel).
    { split; [apply Z.div_pos; lia|]. apply Z.div_lt_upper_bound; nia. }
    destruct (IH _ Hq Hf') as (A & B & C). rewrite digits_loop_acc.
    pose proof (Z.mod_pos_bound n b ltac:(lia)) as Hm.
    split; [|split].
    + rewrite (Z.div_mod n b) at 3 by lia. rewrite (Z.mul_comm b). econstructor; [easy|apply digit_char_value; lia|lia].
    + intros X. now apply app_eq_nil in X as [X _].
    + destruct (digits_loop fuel b (n / b) []) as [|x l] eqn:El; [easy|]. cbn in C |- *. intros ->.
      specialize (C eq_refl). injection C as ->.
      apply (place_value_fun upper b [48]) with (n := 0) in A; [|lia|].
      * assert (n / b <> 0); [|congruence]. apply Z.neq_sym, Z.lt_neq, Z.div_str_pos; lia.
      * change [48] with ([] ++ [48]). change 0 with (0 * b + 0). econstructor; [constructor|now apply digit_value_zero|lia].
Qed.
Lemma digits_ok upper b n : 2 <= b -> (b <= 10 \/ upper = false /\ b <= 16) -> 0 <= n ->
  natural_numeral upper b (digits b n) n.
Proof.
  intros Hb Hu Hn. unfold digits. apply digits_loop_ok; [easy|easy| |lia].
  destruct (Z.eq_dec n 0) as [->|N]; [cbn; lia|].
  rewrite Nat2Z.inj_succ, Z2Nat.id by apply Z.log2_nonneg. destruct (Z.log2_spec n); lia.
Qed.
Lemma int_text_ok n : integer_numeral false 10 (int_text n) n.
Proof.
  unfold int_text, integer_numeral. destruct (n <? 0) eqn:E.
  - right. split; [lia|]. eexists. split; [reflexivity|]. apply digits_ok; lia.
  - left. split; [lia|]. apply digits_ok; lia.
Qed.
Lemma unsigned_neg_ok n : - 2 ^ 63 <= n < 0 -> unsigned_neg n = - n.
Proof.
  intros H. unfold unsigned_neg. rewrite <- (Z.mod_small (- n) (2 ^ 64)) by lia.
  rewrite <- (Z.sub_0_l (n mod _)), Zminus_mod_idemp_r. now rewrite Z.sub_0_l.
Qed.

(* the binary digits *)
Lemma binary_loop_acc i n acc : binary_loop i n acc = binary_loop i n [] ++ acc.
Proof.
  revert n acc. induction i as [|i IH]; intros n acc; [easy|]. cbn.
  rewrite IH, (IH _ [_]), <- app_assoc. easy.
Qed.
Lemma bit_digit upper n : digit_value upper (if Z.odd n then 49 else 48) = Some (n mod 2).
Proof. rewrite Zmod_odd. destruct (Z.odd n), upper; reflexivity. Qed.
Lemma binary_loop_value i : forall n, 0 <= n < 2 ^ Z.of_nat i -> place_value false 2 (binary_loop i n []) n.
Proof.
  induction i as [|i IH]; intros n Hn.
  - cbn in Hn. replace n with 0 by lia. constructor.
  - cbn [binary_loop]. rewrite binary_loop_acc. rewrite Nat2Z.inj_succ, Z.pow_succ_r in Hn by lia.
    rewrite Z.shiftr_div_pow2, Z.pow_1_r by lia.
    rewrite (Z.div_mod n 2) at 3 by lia. rewrite (Z.mul_comm 2).
    pose proof (Z.mod_pos_bound n 2 ltac:(lia)).
    econstructor; [apply IH|apply bit_digit|lia].
    split; [apply Z.div_pos; lia|apply Z.div_lt_upper_bound; lia].
Qed.
Lemma binary_loop_length i n : length (binary_loop i n []) = i.
Proof.
  revert n. induction i as [|i IH]; intros n; [easy|]. cbn [binary_loop].
  rewrite binary_loop_acc, app_length, IH. cbn; lia.
Qed.
(* as many digits as bits: the first is 1; one more: the first is 0 *)
Lemma place_value_bound upper b t n : 0 < b -> place_value upper b t n -> n < b ^ Z.of_nat (length t).
Proof.
  intros Hb. induction 1 as [|t n c d H IH Hc Hd]; [cbn; lia|].
  rewrite app_length, Nat2Z.inj_add. cbn [length]. rewrite Z.pow_add_r by lia. change (Z.of_nat 1) with 1. nia.
Qed.
Lemma place_value_cons_inv upper b t c n : 0 < b -> place_value upper b (c :: t) n ->
  exists d m, digit_value upper c = Some d /\ 0 <= d < b /\ place_value upper b t m /\
    n = d * b ^ Z.of_nat (length t) + m.
Proof.
  intros Hb. revert n. induction t as [|x t IH] using rev_ind; intros n H.
  - change [c] with ([] ++ [c]) in H. apply place_value_snoc_inv in H as (m & d & A & B & C & ->).
    apply place_value_nil_inv in A as ->. exists d, 0. repeat split; try easy; [constructor|cbn; lia].
  - change (c :: t ++ [x]) with ((c :: t) ++ [x]) in H. apply place_value_snoc_inv in H as (m & d & A & B & C & ->).
    apply IH in A as (e & k & A1 & A2 & A3 & ->).
    exists e, (k * b + d). repeat split; try easy; [now constructor|].
    rewrite app_length, Nat2Z.inj_add. cbn [length]. rewrite Z.pow_add_r by lia. change (Z.of_nat 1) with 1. nia.
Qed.
Lemma bit_width_bounds n : 0 < n -> 0 < bit_width n /\ 2 ^ (bit_width n - 1) <= n < 2 ^ bit_width n.
Proof.
  intros H. unfold bit_width. replace (n =? 0) with false by lia.
  pose proof (Z.log2_nonneg n). split; [lia|]. replace (Z.log2 n + 1 - 1) with (Z.log2 n) by lia.
  destruct (Z.log2_spec n H). now rewrite Z.add_1_r.
Qed.
Lemma binary_nat_ok n : 0 < n -> natural_numeral false 2 (binary_loop (Z.to_nat (bit_width n)) n []) n.
Proof.
  intros H. destruct (bit_width_bounds n H) as [W B].
  pose proof (binary_loop_value (Z.to_nat (bit_width n)) n) as V. rewrite Z2Nat.id in V by lia.
  specialize (V ltac:(lia)).
  pose proof (binary_loop_length (Z.to_nat (bit_width n)) n) as L.
  split; [easy|]. split; [intros X; rewrite X in L; cbn in L; lia|].
  destruct (binary_loop _ n []) as [|c t]; [cbn in L; lia|]. cbn. intros ->.
  exfalso. apply place_value_cons_inv in V as (d & m & D & _ & P & E); [|lia].
  assert (d = 0) as -> by (cbn in D; congruence).
  apply place_value_bound in P; [|lia]. cbn in L.
  replace (Z.of_nat (length t)) with (bit_width n - 1) in P by lia. lia.
Qed.
Lemma binary_ok n sign scratch : 0 <= n -> (sign = true -> 0 < n) ->
  exists t, binary n sign scratch = Val (t, if n =? 0 then scratch else t) /\
    exists u, natural_numeral false 2 u n /\ t = if sign then 45 :: u else u.
Proof.
  intros H Hs. unfold binary. destruct (n =? 0) eqn:E.
  - assert (n = 0) as -> by lia. destruct sign; [specialize (Hs eq_refl); lia|].
    eexists. split; [reflexivity|]. eexists. split; [|reflexivity]. apply (digits_ok false 2 0); lia.
  - assert (Hp : 0 < n) by lia. destruct (bit_width_bounds n Hp) as [W _].
    pose proof (binary_nat_ok n Hp) as N.
    destruct sign; cbn [Z.b2z].
    + rewrite Z2Nat.inj_add, Nat.add_comm by lia. cbn [Z.to_nat Nat.add Pos.to_nat].
      change (Pos.to_nat 1 + Z.to_nat (bit_width n))%nat with (S (Z.to_nat (bit_width n))).
      assert (Q : exists c, binary_loop (S (Z.to_nat (bit_width n))) n [] = c :: binary_loop (Z.to_nat (bit_width n)) n []).
      { pose proof (binary_loop_length (S (Z.to_nat (bit_width n))) n) as L.
        destruct (binary_loop (S _) n []) as [|c t] eqn:Et; [discriminate|]. exists c. f_equal.
        injection L as L. 
        assert (V : place_value false 2 (c :: t) n).
        { rewrite <- Et. apply binary_loop_value. rewrite Nat2Z.inj_succ, Z2Nat.id by lia.
          destruct (bit_width_bounds n Hp) as [_ B]. rewrite Z.pow_succ_r by lia. lia. }
        apply place_value_cons_inv in V as (d & m & D & Hd & P & Em); [|lia].
        assert (d = 0) as ->.
        { pose proof (place_value_nonneg false 2 t m eq_refl P). rewrite L in Em.
          rewrite Z2Nat.id in Em by lia. destruct (bit_width_bounds n Hp) as [_ B]. nia. }
        cbn in Em. subst m. eapply place_value_length; [| |exact P|]; [lia|now rewrite binary_loop_length|apply N]. }
      destruct Q as (c & ->). cbn. eexists. split; [reflexivity|]. eexists; split; [exact N|reflexivity].
    + rewrite Z.add_0_r. cbn. eexists. split; [reflexivity|]. eexists; split; [exact N|reflexivity].
Qed.

(** ** Durations *)
Lemma repeat_zero_value upper k : forall t n, place_value upper 10 t n -> place_value upper 10 (repeat 48 k ++ t) n.
Proof.
  assert (Z0 : place_value upper 10 (repeat 48 k) 0).
  { induction k as [|k IH]; [constructor|]. cbn [repeat].
    replace (48 :: repeat 48 k) with (repeat 48 k ++ [48]) by (now rewrite <- repeat_cons).
    change 0 with (0 * 10 + 0). econstructor; [easy|now apply digit_value_zero|lia]. }
  induction 1; [now rewrite app_nil_r|]. rewrite app_assoc. now econstructor.
Qed.
Lemma numeral_length upper t n k : natural_numeral upper 10 t n -> n < 10 ^ Z.of_nat k -> (0 < k)%nat -> (length t <= k)%nat.
Proof.
  intros (A & B & C) H Hk. destruct t as [|c t]; [easy|].
  destruct (Z.eq_dec c 48) as [->|N]; [rewrite (C eq_refl); cbn; lia|].
  apply place_value_cons_inv in A as (d & m & D & Hd & P & E); [|lia].
  assert (d <> 0) by (intros ->; now apply digit_value_zero in D).
  pose proof (place_value_nonneg upper 10 t m eq_refl P).
  cbn. destruct (le_lt_dec (S (length t)) k) as [|L]; [easy|].
  assert (10 ^ Z.of_nat k <= 10 ^ Z.of_nat (length t)) by (apply Z.pow_le_mono_r; lia). nia.
Qed.
Lemma padded_ok k n : (0 < k)%nat -> 0 <= n < 10 ^ Z.of_nat k ->
  length (padded k n) = k /\ place_value false 10 (padded k n) n.
Proof.
  intros Hk Hn. unfold padded. pose proof (digits_ok false 10 n ltac:(lia) ltac:(lia) ltac:(lia)) as D.
  pose proof (numeral_length _ _ _ k D ltac:(lia) Hk). split.
  - rewrite app_length, repeat_length. lia.
  - apply repeat_zero_value, D.
Qed.
Lemma pow9 k : In k [3%nat; 6%nat; 9%nat] -> 10 ^ (9 - Z.of_nat k) = 1000000 \/ 10 ^ (9 - Z.of_nat k) = 1000 \/ 10 ^ (9 - Z.of_nat k) = 1.
Proof. intros [<-|[<-|[<-|[]]]]; cbn; auto. Qed.
Definition fraction_digits (nanos : Z) : list Z :=
  if Z.rem nanos kNanosPerMillisecond =? 0 then padded 3 (Z.quot nanos kNanosPerMillisecond)
  else if Z.rem nanos kNanosPerMicrosecond =? 0 then padded 6 (Z.quot nanos kNanosPerMicrosecond)
  else padded 9 nanos.
Lemma fraction_ok nanos : 0 < nanos < 10 ^ 9 -> fraction nanos (46 :: fraction_digits nanos).
Proof.
  intros H. right. unfold fraction_digits, kNanosPerMillisecond, kNanosPerMicrosecond.
  rewrite !Z.rem_mod_nonneg, !Z.quot_div_nonneg by lia.
  assert (Q : forall m, 0 < m -> nanos mod m =? 0 = true -> nanos = nanos / m * m).
  { intros m Hm E. pose proof (Z.div_mod nanos m ltac:(lia)). lia. }
  assert (N : forall m n', 0 < m -> nanos mod m =? 0 = false -> nanos <> n' * m).
  { intros m n' Hm E ->. rewrite Z.mod_mul in E by lia. lia. }
  destruct (nanos mod 1000000 =? 0) eqn:E6; [|destruct (nanos mod 1000 =? 0) eqn:E3].
  - destruct (padded_ok 3 (nanos / 1000000)) as [L V]; [lia| |].
    { split; [apply Z.div_pos; lia|]. apply Z.div_lt_upper_bound; cbn; lia. }
    exists 3%nat. do 2 eexists. split; [reflexivity|]. split; [cbn; auto|]. split; [exact L|]. split; [lia|].
    split; [exact V|]. split; [now apply Q|]. intros k' n' [<-|[<-|[<-|[]]]] _; clear; lia.
  - destruct (padded_ok 6 (nanos / 1000)) as [L V]; [lia| |].
    { split; [apply Z.div_pos; lia|]. apply Z.div_lt_upper_bound; cbn; lia. }
    exists 6%nat. do 2 eexists. split; [reflexivity|]. split; [cbn; auto|]. split; [exact L|]. split; [lia|].
    split; [exact V|]. split; [now apply Q|]. intros k' n' [<-|[<-|[<-|[]]]] X; [|clear; lia|clear; lia].
    now apply N in X.
  - destruct (padded_ok 9 nanos) as [L V]; [lia|cbn; lia|].
    exists 9%nat. do 2 eexists. split; [reflexivity|]. split; [cbn; auto|]. split; [exact L|]. split; [lia|].
    split; [exact V|]. split; [cbn; lia|]. intros k' n' [<-|[<-|[<-|[]]]] X; [| |clear; lia].
    + now apply N in X.
    + now apply N in X.
Qed.
Lemma fraction_unique nanos t t' : fraction nanos t -> fraction nanos t' -> t = t'.
Proof.
  intros [[-> ->]|(k & u & n & -> & K & L & N0 & V & E & M)] [[E' ->]|(k' & u' & n' & -> & K' & L' & N0' & V' & E' & M')];
    try easy.
  f_equal. assert (k = k') as <-.
  { pose proof (M _ _ K' E'). pose proof (M' _ _ K E). lia. }
  assert (n = n') as <- by (destruct (pow9 k K) as [X|[X|X]]; rewrite X in E, E'; lia).
  apply (place_value_length false 10 u ltac:(lia) u' n); congruence.
Qed.
Lemma duration_text_unique ns t t' : duration_text ns t -> duration_text ns t' -> t = t'.
Proof.
  intros (w & f & s & n & -> & A & B & C & D) (w' & f' & s' & n' & -> & A' & B' & C' & D').
  assert (s = s' /\ n = n') as [<- <-] by lia.
  now rewrite (numeral_unique false 10 w eq_refl _ _ A A'), (fraction_unique _ _ _ B B').
Qed.
Lemma FormatDuration_ok ns : - 2 ^ 63 * 10 ^ 9 < ns < 2 ^ 63 * 10 ^ 9 ->
  exists t s, FormatDuration (DFin ns) [] = Val (t, s) /\ duration_text ns t.
Proof.
  intros H. unfold FormatDuration, is_zero_d, is_neg_d.
  destruct (ns =? 0) eqn:E.
  - assert (ns = 0) as -> by lia. do 2 eexists. split; [reflexivity|].
    exists [48], [], 0, 0. repeat split; try lia; try easy.
    + apply (digits_ok false 10 0); lia.
    + now left.
  - assert (K : forall sc, exists t,
      (let seconds := ToInt64Seconds (DFin (Z.abs ns)) in
       let scratch := sc ++ int_text seconds in
       let nanos := ToInt64Nanoseconds (minus_seconds (DFin (Z.abs ns)) seconds) in
       let scratch0 := if negb (nanos =? 0) then (scratch ++ str ".") ++ fraction_digits nanos else scratch in
       ret (scratch0 ++ str "s")) = Val (sc ++ t, sc ++ t) /\
      exists whole frac seconds nanos, t = whole ++ frac ++ text "s" /\
        natural_numeral false 10 whole seconds /\ fraction nanos frac /\
        0 <= nanos < 10 ^ 9 /\ Z.abs ns = seconds * 10 ^ 9 + nanos).
    { intros sc. cbn zeta. unfold ToInt64Seconds, dur_div_sec, minus_seconds, ToInt64Nanoseconds, nanos_per_sec,
        int64_max, int64_min, ret.
      rewrite Z.quot_div_nonneg by lia.
      pose proof (Z.div_mod (Z.abs ns) 1000000000 ltac:(lia)) as DM.
      pose proof (Z.mod_pos_bound (Z.abs ns) 1000000000 ltac:(lia)) as MB.
      set (q := Z.abs ns / 1000000000) in *. set (r := Z.abs ns mod 1000000000) in *.
      assert (Q : 0 <= q < 2 ^ 63) by (change (2 ^ 63) with 9223372036854775808 in *; change (10 ^ 9) with 1000000000 in *; lia).
      replace (Z.max (- 2 ^ 63) (Z.min (2 ^ 63 - 1) q)) with q by lia.
      replace (Z.max (- 2 ^ 63) (Z.min (2 ^ 63 - 1) (Z.abs ns - q * 1000000000))) with r
        by (change (2 ^ 63) with 9223372036854775808; lia).
      pose proof (int_text_ok q) as [[_ Nq]|[? _]]; [|lia].
      destruct (r =? 0) eqn:Er; cbn [negb].
      - exists (int_text q ++ text "s"). split; [now rewrite <- !app_assoc|].
        exists (int_text q), [], q, r. split; [easy|]. split; [easy|]. split; [left; split; [lia|easy]|].
        change (10 ^ 9) with 1000000000. lia.
      - exists (int_text q ++ (46 :: fraction_digits r) ++ text "s").
        split; [rewrite <- !app_assoc; reflexivity|].
        exists (int_text q), (46 :: fraction_digits r), q, r. split; [easy|]. split; [easy|].
        split; [apply fraction_ok|]; change (10 ^ 9) with 1000000000; lia. }
    destruct (ns <? 0) eqn:En.
    + destruct (K ([] ++ str "-")) as (t & E1 & whole & frac & s & n & -> & R).
      do 2 eexists. split; [exact E1|]. exists whole, frac, s, n. now rewrite En.
    + destruct (K []) as (t & E1 & whole & frac & s & n & -> & R).
      do 2 eexists. split; [replace (DFin ns) with (DFin (Z.abs ns)) by (f_equal; lia); exact E1|].
      exists whole, frac, s, n. now rewrite En.
Qed.

(** ** The order of texts *)
Lemma bytes_cmp_eq a : forall b, bytes_cmp a b = Eq <-> a = b.
Proof.
  induction a as [|x a IH]; intros [|y b]; cbn; try easy.
  destruct (x ?= y) eqn:E; split; intros H; try discriminate.
  - apply Z.compare_eq in E as ->. f_equal. now apply IH.
  - injection H as -> ->. now apply IH.
  - injection H as -> ->. now rewrite Z.compare_refl in E.
  - injection H as -> ->. now rewrite Z.compare_refl in E.
Qed.
Lemma bytes_cmp_lt a : forall b, bytes_cmp a b = Lt <-> before a b.
Proof.
  induction a as [|x a IH]; intros [|y b]; cbn; split; intros H; try easy; try (now inversion H).
  - apply bf_prefix.
  - destruct (x ?= y) eqn:E; try discriminate.
    + apply Z.compare_eq in E as ->. apply bf_tail. now apply IH.
    + now apply bf_byte.
  - inversion H as [|? ? ? ? L|? ? ? L]; subst.
    + now rewrite (proj2 (Z.compare_lt_iff x y) L).
    + rewrite Z.compare_refl. now apply IH.
Qed.
Lemma bytes_cmp_gt a : forall b, bytes_cmp a b = Gt <-> before b a.
Proof.
  induction a as [|x a IH]; intros [|y b]; cbn; split; intros H; try easy; try (now inversion H).
  - apply bf_prefix.
  - destruct (x ?= y) eqn:E; try discriminate.
    + apply Z.compare_eq in E as ->. apply bf_tail. now apply IH.
    + apply bf_byte. now apply Z.compare_gt_iff in E.
  - inversion H as [|? ? ? ? L|? ? ? L]; subst.
    + now rewrite (proj2 (Z.compare_gt_iff x y) L).
    + rewrite Z.compare_refl. now apply IH.
Qed.
Lemma before_irrefl a : ~ before a a.
Proof. induction a as [|x a IH]; intros H; inversion H; subst; [lia|easy]. Qed.
Lemma before_trans a b c : before a b -> before b c -> before a c.
Proof.
  intros H. revert c. induction H as [x t|x y s t L|x s t H IH]; intros d D; inversion D; subst.
  - apply bf_prefix.
  - apply bf_prefix.
  - apply bf_byte. lia.
  - now apply bf_byte.
  - now apply bf_byte.
  - apply bf_tail. now apply IH.
Qed.
