(* Lemmas about the UTF-8 model. *)
From Coq Require Import ZArith List Bool Lia ZifyBool.
From Verif Require Import Base M_Utf8 S_Utf8.
Import ListNotations.
Open Scope Z_scope.

Ltac Zify.zify_post_hook ::= idtac.

(** ** Bit operations as arithmetic *)
Lemma lor_add x y n : 0 <= n -> 0 <= y < 2 ^ n -> Z.lor (x * 2 ^ n) y = x * 2 ^ n + y.
Proof.
  intros Hn Hy. symmetry.
  assert (L : Z.land (x * 2 ^ n) y = 0).
  { apply Z.bits_inj'. intros k Hk. rewrite Z.land_spec, Z.bits_0.
    destruct (Z.lt_ge_cases k n).
    - rewrite Z.mul_pow2_bits_low by lia. reflexivity.
    - assert (E : Z.testbit y k = false).
      { destruct (Z.eq_dec y 0) as [->|]; [apply Z.bits_0|].
        apply Z.bits_above_log2; [lia|].
        apply Z.lt_le_trans with n; [|lia]. apply Z.log2_lt_pow2; lia. }
      rewrite E. apply andb_false_r. }
  rewrite Z.add_nocarry_lxor by exact L. apply Z.lxor_lor. exact L.
Qed.
Lemma land_mask z n : 0 <= n -> Z.land z (2 ^ n - 1) = z mod 2 ^ n.
Proof.
  intros. replace (2 ^ n - 1) with (Z.ones n) by (rewrite Z.ones_equiv; lia).
  apply Z.land_ones. lia.
Qed.
Lemma land63 z : Z.land z 63 = z mod 64. Proof. exact (land_mask z 6 ltac:(lia)). Qed.
Lemma land31 z : Z.land z 31 = z mod 32. Proof. exact (land_mask z 5 ltac:(lia)). Qed.
Lemma land15 z : Z.land z 15 = z mod 16. Proof. exact (land_mask z 4 ltac:(lia)). Qed.
Lemma land7 z : Z.land z 7 = z mod 8. Proof. exact (land_mask z 3 ltac:(lia)). Qed.
Lemma shl6 z : Z.shiftl z 6 = z * 64. Proof. rewrite Z.shiftl_mul_pow2 by lia. reflexivity. Qed.
Lemma shl12 z : Z.shiftl z 12 = z * 4096. Proof. rewrite Z.shiftl_mul_pow2 by lia. reflexivity. Qed.
Lemma shl18 z : Z.shiftl z 18 = z * 262144. Proof. rewrite Z.shiftl_mul_pow2 by lia. reflexivity. Qed.
Lemma shr6 z : Z.shiftr z 6 = z / 64. Proof. rewrite Z.shiftr_div_pow2 by lia. reflexivity. Qed.
Lemma shr12 z : Z.shiftr z 12 = z / 4096. Proof. rewrite Z.shiftr_div_pow2 by lia. reflexivity. Qed.
Lemma shr18 z : Z.shiftr z 18 = z / 262144. Proof. rewrite Z.shiftr_div_pow2 by lia. reflexivity. Qed.
Lemma lor64 x y : 0 <= y < 64 -> Z.lor (x * 64) y = x * 64 + y.
Proof. intros. apply (lor_add x y 6); cbn; lia. Qed.
Lemma lor4096 x y : 0 <= y < 4096 -> Z.lor (x * 4096) y = x * 4096 + y.
Proof. intros. apply (lor_add x y 12); cbn; lia. Qed.
Lemma lor262144 x y : 0 <= y < 262144 -> Z.lor (x * 262144) y = x * 262144 + y.
Proof. intros. apply (lor_add x y 18); cbn; lia. Qed.
Lemma lorT y : 0 <= y < 64 -> Z.lor kTX y = 128 + y.
Proof. intros. apply (lor_add 2 y 6); cbn; lia. Qed.
Lemma lorT2 y : 0 <= y < 32 -> Z.lor kT2 y = 192 + y.
Proof. intros. apply (lor_add 6 y 5); cbn; lia. Qed.
Lemma lorT3 y : 0 <= y < 16 -> Z.lor kT3 y = 224 + y.
Proof. intros. apply (lor_add 14 y 4); cbn; lia. Qed.
Lemma lorT4 y : 0 <= y < 8 -> Z.lor kT4 y = 240 + y.
Proof. intros. apply (lor_add 30 y 3); cbn; lia. Qed.

Ltac Zify.zify_post_hook ::= Z.div_mod_to_equations.

Ltac lsteq := repeat match goal with
  | |- _ :: _ = _ :: _ => apply f_equal2; [lia|]
  | |- Val (_, _) = Val (_, _) => apply f_equal, f_equal2; [lia|]
  end; reflexivity.
(** ** Encoding *)
Lemma UnicodeIsValid_scalar c : 0 <= c -> (UnicodeIsValid c = true <-> scalar c).
Proof. intros. unfold UnicodeIsValid, scalar. lia. Qed.

Lemma Utf8Encode_valid c : scalar c -> Utf8Encode c = utf8 c.
Proof.
  intros S. unfold Utf8Encode.
  rewrite (proj2 (UnicodeIsValid_scalar c ltac:(destruct S; lia)) S).
  destruct S as [S1 S2].
  unfold utf8, to_uint8, kMaskX. rewrite ?shr6, ?shr12, ?shr18, ?land63.
  replace (c <=? 127) with (c <? 128) by lia.
  replace (c <=? 2047) with (c <? 2048) by lia.
  replace (c <=? 65535) with (c <? 65536) by lia.
  destruct (c <? 128) eqn:A; [lsteq|].
  destruct (c <? 2048) eqn:B.
  { rewrite lorT2, lorT by lia. lsteq. }
  destruct (c <? 65536) eqn:C.
  { rewrite lorT3, !lorT by lia. lsteq. }
  rewrite lorT4, !lorT by lia. lsteq.
Qed.
Lemma scalar_repl : scalar kUnicodeReplacementCharacter.
Proof. unfold scalar, kUnicodeReplacementCharacter. lia. Qed.
Lemma Utf8Encode_invalid c : 0 <= c -> ~ scalar c -> Utf8Encode c = utf8 65533.
Proof.
  intros H S. rewrite <- (Utf8Encode_valid 65533) by exact scalar_repl.
  unfold Utf8Encode. replace (UnicodeIsValid c) with false by
    (symmetry; apply not_true_is_false; rewrite UnicodeIsValid_scalar; auto).
  reflexivity.
Qed.

(** ** Leading bytes *)
Lemma kLeading_spec b : 0 <= b <= 255 -> kLeading b =
  if b <? 128 then kAS else if b <? 194 then kXX else if b <? 224 then kS1
  else if b =? 224 then kS2 else if b =? 237 then kS4 else if b <? 240 then kS3
  else if b =? 240 then kS5 else if b <? 244 then kS6 else if b =? 244 then kS7 else kXX.
Proof.
  intros H.
  set (f := fun b => if b <? 128 then kAS else if b <? 194 then kXX else if b <? 224 then kS1
  else if b =? 224 then kS2 else if b =? 237 then kS4 else if b <? 240 then kS3
  else if b =? 240 then kS5 else if b <? 244 then kS6 else if b =? 244 then kS7 else kXX).
  change (kLeading b = f b).
  assert (A : forallb (fun n => kLeading (Z.of_nat n) =? f (Z.of_nat n)) (seq 0 256) = true)
    by (vm_compute; reflexivity).
  rewrite forallb_forall in A. specialize (A (Z.to_nat b)).
  rewrite Z2Nat.id in A by lia. apply Z.eqb_eq, A, in_seq. lia.
Qed.

Ltac leads b H :=
  let E := fresh "E" in
  pose proof (kLeading_spec b H) as E;
  repeat match type of E with
  | _ = (if ?c then _ else _) => let D := fresh "D" in destruct c eqn:D
  end; try lia; rewrite ?E in *.

(** ** Decoding *)
Lemma size_S1 : leading_size kS1 = 1%nat. Proof. reflexivity. Qed.
Lemma size_S2 : leading_size kS2 = 2%nat. Proof. reflexivity. Qed.
Lemma size_S3 : leading_size kS3 = 2%nat. Proof. reflexivity. Qed.
Lemma size_S4 : leading_size kS4 = 2%nat. Proof. reflexivity. Qed.
Lemma size_S5 : leading_size kS5 = 3%nat. Proof. reflexivity. Qed.
Lemma size_S6 : leading_size kS6 = 3%nat. Proof. reflexivity. Qed.
Lemma size_S7 : leading_size kS7 = 3%nat. Proof. reflexivity. Qed.
Lemma acc_S1 : leading_accept kS1 = (128, 191). Proof. reflexivity. Qed.
Lemma acc_S2 : leading_accept kS2 = (160, 191). Proof. reflexivity. Qed.
Lemma acc_S3 : leading_accept kS3 = (128, 191). Proof. reflexivity. Qed.
Lemma acc_S4 : leading_accept kS4 = (128, 159). Proof. reflexivity. Qed.
Lemma acc_S5 : leading_accept kS5 = (144, 191). Proof. reflexivity. Qed.
Lemma acc_S6 : leading_accept kS6 = (128, 191). Proof. reflexivity. Qed.
Lemma acc_S7 : leading_accept kS7 = (128, 143). Proof. reflexivity. Qed.
Ltac lf := rewrite ?size_S1, ?size_S2, ?size_S3, ?size_S4, ?size_S5, ?size_S6, ?size_S7,
  ?acc_S1, ?acc_S2, ?acc_S3, ?acc_S4, ?acc_S5, ?acc_S6, ?acc_S7; cbn [fst snd].
Ltac xx := unfold kS1, kS2, kS3, kS4, kS5, kS6, kS7, kXX, kAS in *;
  repeat match goal with |- context [?a =? ?b] =>
    first [replace (a =? b) with true by lia | replace (a =? b) with false by lia] end.
Lemma notXX1 : (kS1 =? kXX) = false. Proof. reflexivity. Qed.
Lemma notXX2 : (kS2 =? kXX) = false. Proof. reflexivity. Qed.
Lemma notXX3 : (kS3 =? kXX) = false. Proof. reflexivity. Qed.
Lemma notXX4 : (kS4 =? kXX) = false. Proof. reflexivity. Qed.
Lemma notXX5 : (kS5 =? kXX) = false. Proof. reflexivity. Qed.
Lemma notXX6 : (kS6 =? kXX) = false. Proof. reflexivity. Qed.
Lemma notXX7 : (kS7 =? kXX) = false. Proof. reflexivity. Qed.
Lemma isXX : (kXX =? kXX) = true. Proof. reflexivity. Qed.
Ltac nx := rewrite ?notXX1, ?notXX2, ?notXX3, ?notXX4, ?notXX5, ?notXX6, ?notXX7, ?isXX; cbv iota.

Ltac cbool :=
  repeat match goal with
  | |- context [if ?c then _ else _] =>
    first [replace c with true by lia | replace c with false by lia]; cbv iota
  end.
Ltac dec := unfold Utf8DecodeImpl, at_; cbn [nth_error obind length]; nx; lf;
  unfold kLow, kHigh; cbn [Nat.ltb Nat.leb length].

Lemma decode_utf8 c t : scalar c -> Utf8Decode (utf8 c ++ t) = Val (c, length (utf8 c)).
Proof.
  intros [S1 S2]. unfold utf8.
  destruct (c <? 128) eqn:A.
  { cbn. unfold kUtf8RuneSelf. rewrite A. reflexivity. }
  destruct (c <? 2048) eqn:B.
  { cbn [app Utf8Decode length]. unfold kUtf8RuneSelf. replace (192 + c / 64 <? 128) with false by lia.
    assert (H : 0 <= 192 + c / 64 <= 255) by lia.
    leads (192 + c / 64) H. dec. cbool.
    unfold kMask2, kMaskX. rewrite land31, land63, shl6, lor64 by lia. lsteq. }
  destruct (c <? 65536) eqn:C.
  { cbn [app Utf8Decode length]. unfold kUtf8RuneSelf. replace (224 + c / 4096 <? 128) with false by lia.
    assert (H : 0 <= 224 + c / 4096 <= 255) by lia.
    leads (224 + c / 4096) H; dec; cbool.
    all: unfold kMask3, kMaskX; rewrite land15, !land63, shl6, shl12, lor4096 by lia.
    all: replace ((224 + c / 4096) mod 16 * 4096 + (128 + c / 64 mod 64) mod 64 * 64) with (c / 64 * 64) by lia.
    all: rewrite lor64 by lia; lsteq. }
  cbn [app Utf8Decode length]. unfold kUtf8RuneSelf. replace (240 + c / 262144 <? 128) with false by lia.
  assert (H : 0 <= 240 + c / 262144 <= 255) by lia.
  leads (240 + c / 262144) H; dec; cbool.
  all: unfold kMask4, kMaskX; rewrite land7, !land63, shl6, shl12, shl18, lor262144 by lia.
  all: replace ((240 + c / 262144) mod 8 * 262144 + (128 + c / 4096 mod 64) mod 64 * 4096) with (c / 4096 * 4096) by lia.
  all: rewrite lor4096 by lia.
  all: replace (c / 4096 * 4096 + (128 + c / 64 mod 64) mod 64 * 64) with (c / 64 * 64) by lia.
  all: rewrite lor64 by lia; lsteq.
Qed.

Lemma bytes_cons b s : bytes (b :: s) <-> 0 <= b <= 255 /\ bytes s.
Proof. unfold bytes. split; [intros H; inversion H; subst; auto | intros [? ?]; constructor; auto]. Qed.

Definition decoded (s : list Z) (c : Z) (n : nat) : Prop :=
  scalar c /\ n = length (utf8 c) /\ s = utf8 c ++ skipn n s.

Lemma u2 b b1 : 194 <= b <= 223 -> 128 <= b1 <= 191 ->
  let c := b mod 32 * 64 + b1 mod 64 in scalar c /\ utf8 c = [b; b1].
Proof.
  intros. unfold scalar, utf8, c. split; [lia|].
  replace (b mod 32 * 64 + b1 mod 64 <? 128) with false by lia.
  replace (b mod 32 * 64 + b1 mod 64 <? 2048) with true by lia. lsteq.
Qed.
Lemma u3 b b1 b2 : 224 <= b <= 239 -> 128 <= b1 <= 191 -> 128 <= b2 <= 191 ->
  (b = 224 -> 160 <= b1) -> (b = 237 -> b1 <= 159) ->
  let c := b mod 16 * 4096 + b1 mod 64 * 64 + b2 mod 64 in scalar c /\ utf8 c = [b; b1; b2].
Proof.
  intros. unfold scalar, utf8, c. split; [lia|].
  replace (b mod 16 * 4096 + b1 mod 64 * 64 + b2 mod 64 <? 128) with false by lia.
  replace (b mod 16 * 4096 + b1 mod 64 * 64 + b2 mod 64 <? 2048) with false by lia.
  replace (b mod 16 * 4096 + b1 mod 64 * 64 + b2 mod 64 <? 65536) with true by lia. lsteq.
Qed.
Lemma u4 b b1 b2 b3 : 240 <= b <= 244 -> 128 <= b1 <= 191 -> 128 <= b2 <= 191 -> 128 <= b3 <= 191 ->
  (b = 240 -> 144 <= b1) -> (b = 244 -> b1 <= 143) ->
  let c := b mod 8 * 262144 + b1 mod 64 * 4096 + b2 mod 64 * 64 + b3 mod 64 in
  scalar c /\ utf8 c = [b; b1; b2; b3].
Proof.
  intros. unfold scalar, utf8, c. split; [lia|].
  replace (b mod 8 * 262144 + b1 mod 64 * 4096 + b2 mod 64 * 64 + b3 mod 64 <? 128) with false by lia.
  replace (b mod 8 * 262144 + b1 mod 64 * 4096 + b2 mod 64 * 64 + b3 mod 64 <? 2048) with false by lia.
  replace (b mod 8 * 262144 + b1 mod 64 * 4096 + b2 mod 64 * 64 + b3 mod 64 <? 65536) with false by lia. lsteq.
Qed.

Ltac fin_bad := left; reflexivity.
Ltac kk := unfold kLow, kHigh, kMask2, kMask3, kMask4, kMaskX in *;
  rewrite ?land31, ?land15, ?land7, ?land63, ?shl6, ?shl12, ?shl18.

Lemma DecodeImpl2 b b1 t : 194 <= b <= 223 -> byte b1 ->
  Utf8DecodeImpl b kS1 1 (b1 :: t) = Val (kUnicodeReplacementCharacter, 1%nat) \/
  exists c, Utf8DecodeImpl b kS1 1 (b1 :: t) = Val (c, 2%nat) /\ scalar c /\ utf8 c = [b; b1].
Proof.
  intros Hb H1. unfold Utf8DecodeImpl, at_; cbn [nth_error obind]. lf.
  destruct ((b1 <? 128) || (b1 >? 191)) eqn:A; [fin_bad|right].
  cbn [Nat.leb]. kk. rewrite lor64 by lia.
  destruct (u2 b b1 Hb ltac:(lia)) as [S U]. eexists; split; [reflexivity|]. split; [exact S|exact U].
Qed.
Lemma DecodeImpl3 b L b1 b2 t : 224 <= b <= 239 -> kLeading b = L -> byte b1 -> byte b2 ->
  Utf8DecodeImpl b L 2 (b1 :: b2 :: t) = Val (kUnicodeReplacementCharacter, 1%nat) \/
  exists c, Utf8DecodeImpl b L 2 (b1 :: b2 :: t) = Val (c, 3%nat) /\ scalar c /\ utf8 c = [b; b1; b2].
Proof.
  intros Hb HL H1 H2. assert (Hb' : 0 <= b <= 255) by lia. subst L.
  leads b Hb'; unfold Utf8DecodeImpl, at_; cbn [nth_error obind]; lf; kk;
  (match goal with |- context [if ?c then _ else _] => destruct c eqn:? end; [fin_bad|]);
  cbn [Nat.leb];
  (match goal with |- context [if ?c then _ else _] => destruct c eqn:? end; [fin_bad|right]);
  rewrite lor4096 by lia;
  replace (b mod 16 * 4096 + b1 mod 64 * 64) with ((b mod 16 * 64 + b1 mod 64) * 64) by lia;
  rewrite lor64 by lia;
  replace ((b mod 16 * 64 + b1 mod 64) * 64) with (b mod 16 * 4096 + b1 mod 64 * 64) by lia;
  destruct (u3 b b1 b2) as [S U]; try lia;
  eexists; (split; [reflexivity|]; split; [exact S|exact U]).
Qed.
Lemma DecodeImpl4 b L b1 b2 b3 t : 240 <= b <= 244 -> kLeading b = L -> byte b1 -> byte b2 -> byte b3 ->
  Utf8DecodeImpl b L 3 (b1 :: b2 :: b3 :: t) = Val (kUnicodeReplacementCharacter, 1%nat) \/
  exists c, Utf8DecodeImpl b L 3 (b1 :: b2 :: b3 :: t) = Val (c, 4%nat) /\ scalar c /\ utf8 c = [b; b1; b2; b3].
Proof.
  intros Hb HL H1 H2 H3. assert (Hb' : 0 <= b <= 255) by lia. subst L.
  leads b Hb'; unfold Utf8DecodeImpl, at_; cbn [nth_error obind]; lf; kk;
  (match goal with |- context [if ?c then _ else _] => destruct c eqn:? end; [fin_bad|]);
  cbn [Nat.leb];
  (match goal with |- context [if ?c then _ else _] => destruct c eqn:? end; [fin_bad|]);
  (match goal with |- context [if ?c then _ else _] => destruct c eqn:? end; [fin_bad|right]);
  rewrite lor262144 by lia;
  replace (b mod 8 * 262144 + b1 mod 64 * 4096) with ((b mod 8 * 64 + b1 mod 64) * 4096) by lia;
  rewrite lor4096 by lia;
  replace ((b mod 8 * 64 + b1 mod 64) * 4096 + b2 mod 64 * 64) with
     ((b mod 8 * 4096 + b1 mod 64 * 64 + b2 mod 64) * 64) by lia;
  rewrite lor64 by lia;
  replace ((b mod 8 * 4096 + b1 mod 64 * 64 + b2 mod 64) * 64) with
    (b mod 8 * 262144 + b1 mod 64 * 4096 + b2 mod 64 * 64) by lia;
  destruct (u4 b b1 b2 b3) as [S U]; try lia;
  eexists; (split; [reflexivity|]; split; [exact S|exact U]).
Qed.

Lemma decode_cases b t : bytes (b :: t) ->
  (Utf8Decode (b :: t) = Val (kUnicodeReplacementCharacter, 1%nat) /\ 128 <= b) \/
  exists c n, Utf8Decode (b :: t) = Val (c, n) /\ decoded (b :: t) c n.
Proof.
  intros B. apply bytes_cons in B. destruct B as [Hb Ht].
  unfold Utf8Decode, kUtf8RuneSelf. destruct (b <? 128) eqn:A.
  { right. exists b, 1%nat. split; [reflexivity|]. unfold decoded, scalar, utf8. rewrite A.
    split; [lia|]. split; reflexivity. }
  leads b Hb; nx; try (left; split; [reflexivity|lia]); lf.
  - destruct t as [|b1 t]; [left; split; [reflexivity|lia]|]. cbn [length Nat.ltb Nat.leb].
    apply bytes_cons in Ht. destruct Ht as [H1 Ht].
    destruct (DecodeImpl2 b b1 t ltac:(lia) H1) as [->|[c [-> [S U]]]]; [left; split; [reflexivity|lia]|right].
    exists c, 2%nat. split; [reflexivity|]. unfold decoded. rewrite U. auto.
  - destruct t as [|b1 [|b2 t]]; try (left; split; [reflexivity|lia]). cbn [length Nat.ltb Nat.leb].
    apply bytes_cons in Ht. destruct Ht as [H1 Ht]. apply bytes_cons in Ht. destruct Ht as [H2 Ht].
    destruct (DecodeImpl3 b _ b1 b2 t ltac:(lia) E H1 H2) as [->|[c [-> [S U]]]]; [left; split; [reflexivity|lia]|right].
    exists c, 3%nat. split; [reflexivity|]. unfold decoded. rewrite U. auto.
  - destruct t as [|b1 [|b2 t]]; try (left; split; [reflexivity|lia]). cbn [length Nat.ltb Nat.leb].
    apply bytes_cons in Ht. destruct Ht as [H1 Ht]. apply bytes_cons in Ht. destruct Ht as [H2 Ht].
    destruct (DecodeImpl3 b _ b1 b2 t ltac:(lia) E H1 H2) as [->|[c [-> [S U]]]]; [left; split; [reflexivity|lia]|right].
    exists c, 3%nat. split; [reflexivity|]. unfold decoded. rewrite U. auto.
  - destruct t as [|b1 [|b2 t]]; try (left; split; [reflexivity|lia]). cbn [length Nat.ltb Nat.leb].
    apply bytes_cons in Ht. destruct Ht as [H1 Ht]. apply bytes_cons in Ht. destruct Ht as [H2 Ht].
    destruct (DecodeImpl3 b _ b1 b2 t ltac:(lia) E H1 H2) as [->|[c [-> [S U]]]]; [left; split; [reflexivity|lia]|right].
    exists c, 3%nat. split; [reflexivity|]. unfold decoded. rewrite U. auto.
  - destruct t as [|b1 [|b2 [|b3 t]]]; try (left; split; [reflexivity|lia]). cbn [length Nat.ltb Nat.leb].
    apply bytes_cons in Ht. destruct Ht as [H1 Ht]. apply bytes_cons in Ht. destruct Ht as [H2 Ht].
    apply bytes_cons in Ht. destruct Ht as [H3 Ht].
    destruct (DecodeImpl4 b _ b1 b2 b3 t ltac:(lia) E H1 H2 H3) as [->|[c [-> [S U]]]]; [left; split; [reflexivity|lia]|right].
    exists c, 4%nat. split; [reflexivity|]. unfold decoded. rewrite U. auto.
  - destruct t as [|b1 [|b2 [|b3 t]]]; try (left; split; [reflexivity|lia]). cbn [length Nat.ltb Nat.leb].
    apply bytes_cons in Ht. destruct Ht as [H1 Ht]. apply bytes_cons in Ht. destruct Ht as [H2 Ht].
    apply bytes_cons in Ht. destruct Ht as [H3 Ht].
    destruct (DecodeImpl4 b _ b1 b2 b3 t ltac:(lia) E H1 H2 H3) as [->|[c [-> [S U]]]]; [left; split; [reflexivity|lia]|right].
    exists c, 4%nat. split; [reflexivity|]. unfold decoded. rewrite U. auto.
  - destruct t as [|b1 [|b2 [|b3 t]]]; try (left; split; [reflexivity|lia]). cbn [length Nat.ltb Nat.leb].
    apply bytes_cons in Ht. destruct Ht as [H1 Ht]. apply bytes_cons in Ht. destruct Ht as [H2 Ht].
    apply bytes_cons in Ht. destruct Ht as [H3 Ht].
    destruct (DecodeImpl4 b _ b1 b2 b3 t ltac:(lia) E H1 H2 H3) as [->|[c [-> [S U]]]]; [left; split; [reflexivity|lia]|right].
    exists c, 4%nat. split; [reflexivity|]. unfold decoded. rewrite U. auto.
Qed.

(** ** Facts about [utf8] *)
Lemma utf8_len c : (1 <= length (utf8 c) <= 4)%nat.
Proof. unfold utf8. repeat (destruct (_ <? _); cbn; try lia). Qed.
Lemma utf8_inj_app c c' t t' : scalar c -> scalar c' -> utf8 c ++ t = utf8 c' ++ t' -> c = c' /\ t = t'.
Proof.
  intros S S' E. pose proof (decode_utf8 c t S) as D. pose proof (decode_utf8 c' t' S') as D'.
  rewrite E in D. rewrite D in D'. injection D' as -> L. split; [reflexivity|].
  eapply app_inv_head; exact E.
Qed.
Lemma utf8_bytes c : scalar c -> bytes (utf8 c).
Proof.
  intros [S1 S2]. unfold utf8, bytes, byte.
  destruct (c <? 128) eqn:A; [repeat constructor; lia|].
  destruct (c <? 2048) eqn:B; [repeat constructor; lia|].
  destruct (c <? 65536) eqn:C; [repeat constructor; lia|]. repeat constructor; lia.
Qed.
Lemma encode_bytes cps : Forall scalar cps -> bytes (encode cps).
Proof.
  induction 1; cbn; [constructor|]. apply Forall_app. split; [apply utf8_bytes; auto|auto].
Qed.
Lemma spells_unique s cps cps' : spells s cps -> spells s cps' -> cps = cps'.
Proof.
  revert s cps'. induction cps as [|c cps IH]; intros s cps' [F ->] [F' E].
  - destruct cps' as [|c' cps']; [reflexivity|]. cbn in E.
    pose proof (utf8_len c'). destruct (utf8 c'); cbn in *; [lia|discriminate].
  - destruct cps' as [|c' cps'].
    + cbn in E. pose proof (utf8_len c). destruct (utf8 c); cbn in *; [lia|discriminate].
    + cbn in E. inversion F; inversion F'; subst.
      destruct (utf8_inj_app c c' _ _ ltac:(auto) ltac:(auto) E) as [-> E'].
      f_equal. eapply IH; split; eauto.
Qed.
Lemma decode_bad_front s : Utf8Decode s = Val (kUnicodeReplacementCharacter, 1%nat) -> no_char_at_front s.
Proof.
  intros D c t S ->. rewrite decode_utf8 in D by exact S. injection D as -> L.
  vm_compute in L. discriminate.
Qed.

(* length of the character at the front, if there is one *)
Definition next (s : list Z) : option nat :=
  match Utf8Decode s with
  | Val (c, n) => if (c =? kUnicodeReplacementCharacter) && Nat.eqb n 1 then None else Some n
  | _ => None
  end.

Lemma decoded_not_bad s c n : decoded s c n -> (c =? kUnicodeReplacementCharacter) && Nat.eqb n 1 = false.
Proof.
  intros [S [-> _]]. destruct (c =? kUnicodeReplacementCharacter) eqn:E; [|reflexivity].
  apply Z.eqb_eq in E. subst c. reflexivity.
Qed.
Lemma next_cases b t : bytes (b :: t) ->
  (next (b :: t) = None /\ no_char_at_front (b :: t)) \/
  exists c s', scalar c /\ next (b :: t) = Some (length (utf8 c)) /\ b :: t = utf8 c ++ s' /\
     skipn (length (utf8 c)) (b :: t) = s'.
Proof.
  intros B. destruct (decode_cases b t B) as [[D _]|[c [n [D X]]]].
  - left. split; [unfold next; rewrite D; reflexivity|apply decode_bad_front; exact D].
  - right. pose proof (decoded_not_bad _ _ _ X) as NB. destruct X as [S [-> E]].
    exists c, (skipn (length (utf8 c)) (b :: t)). split; [exact S|].
    split; [unfold next; rewrite D, NB; reflexivity|]. split; [exact E|reflexivity].
Qed.

Lemma wf_cons c s : scalar c -> (well_formed (utf8 c ++ s) <-> well_formed s).
Proof.
  intros S. split.
  - intros [cps [F E]]. destruct cps as [|c' cps]; cbn in E.
    + pose proof (utf8_len c). destruct (utf8 c); cbn in *; [lia|discriminate].
    + inversion F; subst. destruct (utf8_inj_app c c' s (encode cps) S ltac:(auto) E) as [-> ->].
      exists cps. split; auto.
  - intros [cps [F ->]]. exists (c :: cps). split; [constructor; auto|reflexivity].
Qed.
Lemma wf_bad b t : no_char_at_front (b :: t) -> ~ well_formed (b :: t).
Proof.
  intros N [cps [F E]]. destruct cps as [|c cps]; [discriminate|].
  inversion F; subst. cbn in E. exact (N c (encode cps) ltac:(auto) E).
Qed.
Lemma wf_nil : well_formed []. Proof. exists []. split; [constructor|reflexivity]. Qed.
Lemma bytes_app s t : bytes (s ++ t) <-> bytes s /\ bytes t.
Proof. apply Forall_app. Qed.
Lemma spells_cons c s cps : spells (utf8 c ++ s) cps -> scalar c -> exists cps', cps = c :: cps' /\ spells s cps'.
Proof.
  intros [F E] S. destruct cps as [|c' cps]; cbn in E.
  - pose proof (utf8_len c). destruct (utf8 c); cbn in *; [lia|discriminate].
  - inversion F; subst. destruct (utf8_inj_app c c' s (encode cps) S ltac:(auto) E) as [-> ->].
    exists cps. split; [reflexivity|split; auto].
Qed.
Lemma counts_unique s n m : counts s n -> counts s m -> n = m.
Proof.
  intros H. revert m. induction H as [|c s n S H IH|b s n N H IH]; intros m Hm.
  - inversion Hm as [|c s n S' H' E|]; [reflexivity|].
    pose proof (utf8_len c). destruct (utf8 c); cbn in *; [lia|discriminate].
  - inversion Hm as [E|c' s' n' S' H' E|b s' n' N' H' E].
    + pose proof (utf8_len c). destruct (utf8 c); cbn in *; [lia|discriminate].
    + destruct (utf8_inj_app c' c s' s S' S E) as [-> ->]. f_equal. apply IH. exact H'.
    + exfalso. exact (N' c s S E).
  - inversion Hm as [|c' s' n' S' H' E|b' s' n' N' H' E].
    + exfalso. symmetry in E. exact (N c' s' S' E).
    + subst. f_equal. apply IH. exact H'.
Qed.

(** ** The validation loops over any reader *)
Section Loops.
  Context {R : Type}.
  Variable Remaining : R -> nat.
  Variable Peek : nat -> R -> out (list Z * R).
  Variable Read : R -> out (Z * R).
  Variable Advance : nat -> R -> out R.
  Variable Rel : R -> list Z -> Prop.
  Variable Mid : nat -> R -> list Z -> Prop.
  Hypothesis HRem : forall r s, Rel r s -> Remaining r = length s.
  Hypothesis HRead : forall r b s, Rel r (b :: s) -> exists r', Read r = Val (b, r') /\ Rel r' s.
  Hypothesis HPeek : forall n r s, Rel r s -> (1 <= n <= length s)%nat ->
    exists v r', Peek n r = Val (v, r') /\ firstn n v = firstn n s /\ Mid n r' s.
  Hypothesis HAdv : forall n r s, Mid n r s -> exists r', Advance n r = Val r' /\ Rel r' (skipn n s).

  Local Notation isvalid := (Utf8IsValidImpl Remaining Peek Read Advance).
  Local Notation ccount := (Utf8CodePointCountImpl Remaining Peek Read Advance).
  Local Notation validate := (Utf8ValidateImpl Remaining Peek Read Advance).

  Ltac conds := repeat match goal with
    | |- context [if (?a <? ?b) || (?c >? ?d) then _ else _] => destruct ((a <? b) || (c >? d)) eqn:?
    end.
  Ltac peek n r s :=
    let v := fresh "v" in let r' := fresh "r'" in let EP := fresh "EP" in
    let EV := fresh "EV" in let HM := fresh "HM" in let q := fresh "q" in
    let EA := fresh "EA" in let RA := fresh "RA" in
    destruct (HPeek n r s) as [v [r' [EP [EV HM]]]]; [assumption|cbn; lia|];
    rewrite EP; cbn [obind]; 
    destruct (HAdv n r' s HM) as [q [EA RA]].

  Ltac start b t r H B :=
    let Hb := fresh "Hb" in let Ht := fresh "Ht" in let r1 := fresh "r1" in
    let ER := fresh "ER" in let R1 := fresh "R1" in
    apply bytes_cons in B; destruct B as [Hb Ht];
    unfold next, Utf8Decode;
    rewrite (HRem _ _ H); cbn [length Nat.eqb];
    destruct (HRead r b t H) as [r1 [ER R1]]; rewrite ER; cbn [obind];
    unfold kUtf8RuneSelf.

  Lemma view1 (v : list Z) b1 t : firstn 1 v = firstn 1 (b1 :: t) -> exists w, v = b1 :: w.
  Proof. destruct v; cbn; [discriminate|]. intros [= ->]. eauto. Qed.
  Lemma view2 (v : list Z) b1 b2 t : firstn 2 v = firstn 2 (b1 :: b2 :: t) -> exists w, v = b1 :: b2 :: w.
  Proof. destruct v as [|? [|? ?]]; cbn; try discriminate. intros [= -> ->]. eauto. Qed.
  Lemma view3 (v : list Z) b1 b2 b3 t : firstn 3 v = firstn 3 (b1 :: b2 :: b3 :: t) -> exists w, v = b1 :: b2 :: b3 :: w.
  Proof. destruct v as [|? [|? [|? ?]]]; cbn; try discriminate. intros [= -> -> ->]. eauto. Qed.

  Ltac view := match goal with
    | E : firstn 1 ?v = firstn 1 (_ :: _) |- _ => destruct (view1 _ _ _ E); subst v
    | E : firstn 2 ?v = firstn 2 (_ :: _ :: _) |- _ => destruct (view2 _ _ _ _ E); subst v
    | E : firstn 3 ?v = firstn 3 (_ :: _ :: _ :: _) |- _ => destruct (view3 _ _ _ _ _ E); subst v
    end.
  Ltac run := unfold Utf8DecodeImpl, at_, kLow, kHigh; lf; cbn [nth_error obind fst snd Nat.eqb Nat.leb].
  Ltac fin := run; conds; rewrite ?Z.eqb_refl, ?andb_false_r; cbn [andb Nat.eqb]; try reflexivity; try discriminate;
     eexists; split; [eassumption|]; run; conds; try discriminate;
     repeat match goal with E : Advance _ _ = Val _ |- _ => rewrite E end; cbn [obind]; reflexivity.

  Lemma isvalid_step f r b t : Rel r (b :: t) -> bytes (b :: t) ->
    match next (b :: t) with
    | None => isvalid (S f) r = Val false
    | Some n => exists r', Rel r' (skipn n (b :: t)) /\ isvalid (S f) r = isvalid f r'
    end.
  Proof.
    intros H B. cbn [Utf8IsValidImpl]. start b t r H B.
    destruct (b <? 128) eqn:A.
    { replace (b =? kUnicodeReplacementCharacter) with false by (unfold kUnicodeReplacementCharacter; lia).
      cbn [andb]. exists r1. split; [exact R1|reflexivity]. }
    rewrite (HRem _ _ R1).
    leads b Hb; nx; lf; try reflexivity.
    - destruct t as [|b1 t]; [reflexivity|]. cbn [length Nat.ltb Nat.leb].
      peek 1%nat r1 (b1 :: t). view. fin.
    - destruct t as [|b1 [|b2 t]]; try reflexivity. cbn [length Nat.ltb Nat.leb].
      peek 2%nat r1 (b1 :: b2 :: t). view. fin.
    - destruct t as [|b1 [|b2 t]]; try reflexivity. cbn [length Nat.ltb Nat.leb].
      peek 2%nat r1 (b1 :: b2 :: t). view. fin.
    - destruct t as [|b1 [|b2 t]]; try reflexivity. cbn [length Nat.ltb Nat.leb].
      peek 2%nat r1 (b1 :: b2 :: t). view. fin.
    - destruct t as [|b1 [|b2 [|b3 t]]]; try reflexivity. cbn [length Nat.ltb Nat.leb].
      peek 3%nat r1 (b1 :: b2 :: b3 :: t). view. fin.
    - destruct t as [|b1 [|b2 [|b3 t]]]; try reflexivity. cbn [length Nat.ltb Nat.leb].
      peek 3%nat r1 (b1 :: b2 :: b3 :: t). view. fin.
    - destruct t as [|b1 [|b2 [|b3 t]]]; try reflexivity. cbn [length Nat.ltb Nat.leb].
      peek 3%nat r1 (b1 :: b2 :: b3 :: t). view. fin.
  Qed.
  Lemma validate_step f k r b t : Rel r (b :: t) -> bytes (b :: t) ->
    match next (b :: t) with
    | None => validate (S f) k r = Val (k, false)
    | Some n => exists r', Rel r' (skipn n (b :: t)) /\ validate (S f) k r = validate f (k + 1) r'
    end.
  Proof.
    intros H B. cbn [Utf8ValidateImpl]. start b t r H B.
    destruct (b <? 128) eqn:A.
    { replace (b =? kUnicodeReplacementCharacter) with false by (unfold kUnicodeReplacementCharacter; lia).
      cbn [andb]. exists r1. split; [exact R1|reflexivity]. }
    rewrite (HRem _ _ R1).
    leads b Hb; nx; lf; try reflexivity.
    - destruct t as [|b1 t]; [reflexivity|]. cbn [length Nat.ltb Nat.leb].
      peek 1%nat r1 (b1 :: t). view. fin.
    - destruct t as [|b1 [|b2 t]]; try reflexivity. cbn [length Nat.ltb Nat.leb].
      peek 2%nat r1 (b1 :: b2 :: t). view. fin.
    - destruct t as [|b1 [|b2 t]]; try reflexivity. cbn [length Nat.ltb Nat.leb].
      peek 2%nat r1 (b1 :: b2 :: t). view. fin.
    - destruct t as [|b1 [|b2 t]]; try reflexivity. cbn [length Nat.ltb Nat.leb].
      peek 2%nat r1 (b1 :: b2 :: t). view. fin.
    - destruct t as [|b1 [|b2 [|b3 t]]]; try reflexivity. cbn [length Nat.ltb Nat.leb].
      peek 3%nat r1 (b1 :: b2 :: b3 :: t). view. fin.
    - destruct t as [|b1 [|b2 [|b3 t]]]; try reflexivity. cbn [length Nat.ltb Nat.leb].
      peek 3%nat r1 (b1 :: b2 :: b3 :: t). view. fin.
    - destruct t as [|b1 [|b2 [|b3 t]]]; try reflexivity. cbn [length Nat.ltb Nat.leb].
      peek 3%nat r1 (b1 :: b2 :: b3 :: t). view. fin.
  Qed.
  Ltac finc := run; conds; rewrite ?Z.eqb_refl, ?andb_false_r; cbn [andb Nat.eqb]; try discriminate;
     try (let H0 := fresh "H0" in intros H0;
          match goal with HM : Mid _ _ _ |- _ => destruct (H0 _ _ _ HM) as [? [? ?]] end);
     eexists; (split; [eassumption|]; run; conds; try discriminate;
     repeat match goal with E : Advance _ _ = Val _ |- _ => rewrite E end; cbn [obind]; reflexivity).
  Lemma ccount_step f k r b t : Rel r (b :: t) -> bytes (b :: t) ->
    match next (b :: t) with
    | None => (forall n r s, Mid n r s -> exists r', Advance O r = Val r' /\ Rel r' s) ->
        exists r', Rel r' t /\ ccount (S f) k r = ccount f (k + 1) r'
    | Some n => exists r', Rel r' (skipn n (b :: t)) /\ ccount (S f) k r = ccount f (k + 1) r'
    end.
  Proof.
    intros H B. cbn [Utf8CodePointCountImpl]. start b t r H B.
    destruct (b <? 128) eqn:A.
    { replace (b =? kUnicodeReplacementCharacter) with false by (unfold kUnicodeReplacementCharacter; lia).
      cbn [andb]. exists r1. split; [exact R1|reflexivity]. }
    rewrite (HRem _ _ R1).
    leads b Hb; nx; lf; try (intros _; exists r1; split; [exact R1|reflexivity]).
    - destruct t as [|b1 t]; [intros _; exists r1; split; [exact R1|reflexivity]|]. cbn [length Nat.ltb Nat.leb].
      peek 1%nat r1 (b1 :: t). view. finc.
    - destruct t as [|b1 [|b2 t]]; try (intros _; exists r1; split; [exact R1|reflexivity]). cbn [length Nat.ltb Nat.leb].
      peek 2%nat r1 (b1 :: b2 :: t). view. finc.
    - destruct t as [|b1 [|b2 t]]; try (intros _; exists r1; split; [exact R1|reflexivity]). cbn [length Nat.ltb Nat.leb].
      peek 2%nat r1 (b1 :: b2 :: t). view. finc.
    - destruct t as [|b1 [|b2 t]]; try (intros _; exists r1; split; [exact R1|reflexivity]). cbn [length Nat.ltb Nat.leb].
      peek 2%nat r1 (b1 :: b2 :: t). view. finc.
    - destruct t as [|b1 [|b2 [|b3 t]]]; try (intros _; exists r1; split; [exact R1|reflexivity]). cbn [length Nat.ltb Nat.leb].
      peek 3%nat r1 (b1 :: b2 :: b3 :: t). view. finc.
    - destruct t as [|b1 [|b2 [|b3 t]]]; try (intros _; exists r1; split; [exact R1|reflexivity]). cbn [length Nat.ltb Nat.leb].
      peek 3%nat r1 (b1 :: b2 :: b3 :: t). view. finc.
    - destruct t as [|b1 [|b2 [|b3 t]]]; try (intros _; exists r1; split; [exact R1|reflexivity]). cbn [length Nat.ltb Nat.leb].
      peek 3%nat r1 (b1 :: b2 :: b3 :: t). view. finc.
  Qed.

  Lemma isvalid_gen f : forall s r, Rel r s -> bytes s -> (length s < f)%nat ->
    exists v, isvalid f r = Val v /\ (v = true <-> well_formed s).
  Proof.
    induction f as [|f IH]; intros s r H B L; [lia|].
    destruct s as [|b t].
    { exists true. split; [cbn; rewrite (HRem _ _ H); reflexivity|]. split; [intros _; apply wf_nil|reflexivity]. }
    pose proof (isvalid_step f r b t H B) as ST.
    destruct (next_cases b t B) as [[E N]|[c [s' [S [E [Es Ek]]]]]]; rewrite E in ST.
    - exists false. split; [exact ST|]. split; [discriminate|]. intros W. exfalso. exact (wf_bad _ _ N W).
    - destruct ST as [r' [H' ->]]. rewrite Ek in H'.
      assert (LL : length (b :: t) = (length (utf8 c) + length s')%nat) by (rewrite Es, app_length; reflexivity).
      pose proof (utf8_len c). rewrite Es in B. apply bytes_app in B.
      destruct (IH s' r' H' (proj2 B) ltac:(cbn in *; lia)) as [v [-> W]].
      exists v. split; [reflexivity|]. rewrite Es, wf_cons by exact S. exact W.
  Qed.

  Lemma validate_gen f : forall s k r, Rel r s -> bytes s -> (length s < f)%nat ->
    exists pre rest v, validate f k r = Val (k + Z.of_nat (length pre), v) /\
      Forall scalar pre /\ s = encode pre ++ rest /\
      (v = true -> rest = []) /\ (v = false -> rest <> [] /\ no_char_at_front rest).
  Proof.
    induction f as [|f IH]; intros s k r H B L; [lia|].
    destruct s as [|b t].
    { exists [], [], true. split; [cbn; rewrite (HRem _ _ H); cbn; f_equal; f_equal; lia|].
      repeat split; try constructor; discriminate. }
    pose proof (validate_step f k r b t H B) as ST.
    destruct (next_cases b t B) as [[E N]|[c [s' [S [E [Es Ek]]]]]]; rewrite E in ST.
    - exists [], (b :: t), false. split; [rewrite ST; cbn; f_equal; f_equal; lia|].
      repeat split; try constructor; try discriminate; assumption.
    - destruct ST as [r' [H' ->]]. rewrite Ek in H'.
      assert (LL : length (b :: t) = (length (utf8 c) + length s')%nat) by (rewrite Es, app_length; reflexivity).
      pose proof (utf8_len c). rewrite Es in B. apply bytes_app in B.
      destruct (IH s' (k + 1) r' H' (proj2 B) ltac:(cbn in *; lia)) as [pre [rest [v [-> [F [E1 E2]]]]]].
      exists (c :: pre), rest, v. split; [cbn [length]; do 2 f_equal; lia|].
      split; [constructor; auto|]. split; [|exact E2]. change (encode (c :: pre)) with (utf8 c ++ encode pre). rewrite <- app_assoc, <- E1. exact Es.
  Qed.

  Lemma ccount_gen f : (forall n r s, Mid n r s -> exists r', Advance O r = Val r' /\ Rel r' s) ->
    forall s k r, Rel r s -> bytes s -> (length s < f)%nat ->
    exists n, ccount f k r = Val (k + n) /\ counts s n.
  Proof.
    intros A0. induction f as [|f IH]; intros s k r H B L; [lia|].
    destruct s as [|b t].
    { exists 0. split; [cbn; rewrite (HRem _ _ H); cbn; f_equal; lia|constructor]. }
    pose proof (ccount_step f k r b t H B) as ST.
    destruct (next_cases b t B) as [[E N]|[c [s' [S [E [Es Ek]]]]]]; rewrite E in ST.
    - destruct (ST A0) as [r' [H' ->]]. apply bytes_cons in B.
      destruct (IH t (k + 1) r' H' (proj2 B) ltac:(cbn in *; lia)) as [n [-> C]].
      exists (n + 1). split; [f_equal; lia|]. constructor; assumption.
    - destruct ST as [r' [H' ->]]. rewrite Ek in H'.
      assert (LL : length (b :: t) = (length (utf8 c) + length s')%nat) by (rewrite Es, app_length; reflexivity).
      pose proof (utf8_len c). rewrite Es in B. apply bytes_app in B.
      destruct (IH s' (k + 1) r' H' (proj2 B) ltac:(cbn in *; lia)) as [n [-> C]].
      exists (n + 1). split; [f_equal; lia|]. rewrite Es. constructor; assumption.
  Qed.

  Lemma ccount_wf f : forall cps s k r, Rel r s -> spells s cps -> (length s < f)%nat ->
    ccount f k r = Val (k + Z.of_nat (length cps)).
  Proof.
    induction f as [|f IH]; intros cps s k r H Sp L; [lia|].
    destruct s as [|b t].
    { destruct Sp as [F E]. destruct cps as [|c cps].
      - cbn. rewrite (HRem _ _ H). cbn. f_equal. lia.
      - cbn in E. pose proof (utf8_len c). destruct (utf8 c); cbn in *; [lia|discriminate]. }
    assert (B : bytes (b :: t)) by (destruct Sp as [F ->]; apply encode_bytes; exact F).
    pose proof (ccount_step f k r b t H B) as ST.
    destruct (next_cases b t B) as [[E N]|[c [s' [S [E [Es Ek]]]]]]; rewrite E in ST.
    - exfalso. apply (wf_bad _ _ N). exists cps. exact Sp.
    - destruct ST as [r' [H' ->]]. rewrite Ek in H'.
      assert (LL : length (b :: t) = (length (utf8 c) + length s')%nat) by (rewrite Es, app_length; reflexivity).
      pose proof (utf8_len c). rewrite Es in Sp. destruct (spells_cons c s' cps Sp S) as [cps' [-> Sp']].
      rewrite (IH cps' s' (k + 1) r' H' Sp' ltac:(cbn in *; lia)). cbn [length]. f_equal. lia.
  Qed.
End Loops.

(** ** Readers *)
Definition sr_rel (r s : list Z) : Prop := r = s.
Definition sr_mid (n : nat) (r s : list Z) : Prop := r = s /\ (n <= length s)%nat.
Lemma sr_Rem r s : sr_rel r s -> sr_Remaining r = length s. Proof. intros ->. reflexivity. Qed.
Lemma sr_HRead r b s : sr_rel r (b :: s) -> exists r', sr_Read r = Val (b, r') /\ sr_rel r' s.
Proof. intros ->. exists s. split; reflexivity. Qed.
Lemma sr_HPeek n r s : sr_rel r s -> (1 <= n <= length s)%nat ->
    exists v r', sr_Peek n r = Val (v, r') /\ firstn n v = firstn n s /\ sr_mid n r' s.
Proof.
  intros -> L. exists (firstn n s), s. unfold sr_Peek.
  replace (Nat.leb n (length s)) with true by (symmetry; apply Nat.leb_le; lia).
  split; [reflexivity|]. split; [rewrite firstn_firstn, Nat.min_id; reflexivity|split; [reflexivity|lia]].
Qed.
Lemma sr_HAdv n r s : sr_mid n r s -> exists r', sr_Advance n r = Val r' /\ sr_rel r' (skipn n s).
Proof.
  intros [-> L]. exists (skipn n s). unfold sr_Advance.
  replace (Nat.leb n (length s)) with true by (symmetry; apply Nat.leb_le; lia). split; reflexivity.
Qed.
Lemma sr_HAdv0 n r s : sr_mid n r s -> exists r', sr_Advance O r = Val r' /\ sr_rel r' s.
Proof. intros [-> L]. exists s. split; reflexivity. Qed.

Definition cr_rel (r : cord_reader) (s : list Z) : Prop := r = cr_new s.
Definition cr_mid (n : nat) (r : cord_reader) (s : list Z) : Prop :=
  r = mkCR (skipn n s) (length s) (firstn n s) O /\ (1 <= n <= length s)%nat.
Section CordRel.
  Variable cap : list Z -> nat.
  Lemma cr_Rem r s : cr_rel r s -> cr_Remaining r = length s. Proof. intros ->. reflexivity. Qed.
  Lemma cr_HPeek n r s : cr_rel r s -> (1 <= n <= length s)%nat ->
    exists v r', cr_Peek cap n r = Val (v, r') /\ firstn n v = firstn n s /\ cr_mid n r' s.
  Proof.
    intros -> L. unfold cr_Peek, cr_new. cbn [cr_size cr_buffer cr_index cr_input].
    replace (Nat.leb n (length s)) with true by (symmetry; apply Nat.leb_le; lia).
    replace (Nat.eqb n 0) with false by (symmetry; apply Nat.eqb_neq; lia).
    replace (Nat.leb n (length (@nil Z) - 0)) with false by (symmetry; apply Nat.leb_gt; cbn; lia).
    cbn [Nat.eqb negb]. rewrite andb_false_r. cbn [length].
    replace (n - (0 - 0))%nat with n by lia.
    unfold cord_RemovePrefix.
    replace (Nat.leb n (length s)) with true by (symmetry; apply Nat.leb_le; lia). cbn [obind].
    eexists _, _. split; [reflexivity|]. split.
    - unfold cr_view. cbn [skipn]. rewrite firstn_firstn, Nat.min_id, firstn_app, firstn_firstn, Nat.min_id.
      rewrite firstn_length_le by lia. replace (n - n)%nat with O by lia. cbn. apply app_nil_r.
    - split; [reflexivity|exact L].
  Qed.
  Lemma cr_HAdv n r s : cr_mid n r s -> exists r', cr_Advance n r = Val r' /\ cr_rel r' (skipn n s).
  Proof.
    intros [-> L]. unfold cr_Advance. cbn [cr_size cr_buffer cr_index cr_input].
    replace (Nat.leb n (length s)) with true by (symmetry; apply Nat.leb_le; lia).
    replace (Nat.eqb n 0) with false by (symmetry; apply Nat.eqb_neq; lia). cbn [negb].
    rewrite firstn_length_le by lia.
    replace (Nat.ltb 0 n) with true by (symmetry; apply Nat.ltb_lt; lia).
    replace (Nat.min n (n - 0)) with n by lia. cbn [Nat.add].
    rewrite Nat.ltb_irrefl. replace (n - n)%nat with O by lia. cbn.
    eexists. split; [reflexivity|]. unfold cr_rel, cr_new. rewrite skipn_length. f_equal; lia.
  Qed.
  Lemma cr_HRead r b s : cr_rel r (b :: s) -> exists r', cr_Read cap r = Val (b, r') /\ cr_rel r' s.
  Proof.
    intros H. unfold cr_Read.
    destruct (cr_HPeek 1 r (b :: s) H ltac:(cbn; lia)) as [v [r1 [-> [E M]]]]. cbn [obind].
    destruct v as [|b' v]; cbn in E; [discriminate|]. injection E as ->.
    unfold at_. cbn [nth_error obind].
    destruct (cr_HAdv 1 r1 (b :: s) M) as [r' [-> R']]. cbn [obind]. exists r'. split; [reflexivity|exact R'].
  Qed.
End CordRel.

(** ** Decoding through a Cord iterator *)
Definition good_cord (it : list (list Z)) : Prop := Forall (fun c => c <> []) it.
Lemma cord_advance_concat it : forall n, concat (cord_advance it n) = skipn n (concat it).
Proof.
  induction it as [|c it IH]; intros n; cbn [cord_advance concat]; [rewrite skipn_nil; reflexivity|].
  destruct (Nat.ltb n (length c)) eqn:E.
  - apply Nat.ltb_lt in E. cbn [concat]. rewrite skipn_app. replace (n - length c)%nat with O by lia. reflexivity.
  - apply Nat.ltb_ge in E. rewrite IH, skipn_app. rewrite (skipn_all2 c) by lia. reflexivity.
Qed.
Lemma cord_advance_good it : forall n, good_cord it -> good_cord (cord_advance it n).
Proof.
  induction it as [|c it IH]; intros n G; cbn [cord_advance]; [constructor|]. inversion G; subst.
  destruct (Nat.ltb n (length c)) eqn:E; [|apply IH; auto].
  apply Nat.ltb_lt in E. constructor; [|auto]. intros X.
  apply (f_equal (@length _)) in X. rewrite skipn_length in X. cbn in X. lia.
Qed.
Lemma cord_collect_ok fuel : forall size buffer current, good_cord current ->
  (length buffer <= 3)%nat -> (size <= 3)%nat -> (size - length buffer < fuel)%nat ->
  (if Nat.leb size (length buffer + length (concat current))
   then exists b, cord_collect fuel size buffer current = Val (Some b) /\
          (size <= length b)%nat /\ firstn (length b) (buffer ++ concat current) = b
   else cord_collect fuel size buffer current = Val None).
Proof.
  induction fuel as [|fuel IH]; intros size buffer current G Lb Ls Lf; [lia|].
  cbn [cord_collect]. destruct (Nat.ltb (length buffer) size) eqn:E.
  2:{ apply Nat.ltb_ge in E. replace (Nat.leb size (length buffer + length (concat current))) with true
        by (symmetry; apply Nat.leb_le; lia).
      exists buffer. split; [reflexivity|]. split; [lia|]. rewrite firstn_app, firstn_all.
      replace (length buffer - length buffer)%nat with O by lia. cbn. apply app_nil_r. }
  apply Nat.ltb_lt in E.
  destruct current as [|c current]; cbn [chunk_remaining].
  { cbn [concat length]. replace (Nat.leb size (length buffer + 0)) with false
      by (symmetry; apply Nat.leb_gt; lia). reflexivity. }
  inversion G; subst. destruct c as [|x c']; [congruence|].
  set (str := x :: c') in *. set (k := Nat.min (3 - length buffer) (length str)).
  assert (Hk : (1 <= k <= length str)%nat) by (unfold k, str; cbn [length]; lia).
  assert (Lfn : length (firstn k str) = k) by (rewrite firstn_length; lia).
  specialize (IH size (buffer ++ firstn k str) (cord_advance (str :: current) k)
    (cord_advance_good _ _ G)).
  rewrite app_length, Lfn in IH. specialize (IH ltac:(unfold k; lia) Ls ltac:(lia)).
  rewrite cord_advance_concat, skipn_length in IH.
  cbn [concat] in *. rewrite app_length in *.
  replace (length buffer + k + (length str + length (concat current) - k))%nat
    with (length buffer + (length str + length (concat current)))%nat in IH by lia.
  destruct (Nat.leb size (length buffer + (length str + length (concat current)))) eqn:W; [|exact IH].
  destruct IH as [b [-> [Lb' Eb]]]. exists b. split; [reflexivity|]. split; [exact Lb'|].
  rewrite <- app_assoc in Eb. rewrite <- Eb at 2. f_equal. f_equal.
  rewrite skipn_app. replace (k - length str)%nat with O by lia. cbn [skipn].
  rewrite app_assoc, firstn_skipn. reflexivity.
Qed.

Lemma DecodeImpl_prefix b L size s t : (1 <= size <= 3)%nat -> (size <= length s)%nat ->
  Utf8DecodeImpl b L size (s ++ t) = Utf8DecodeImpl b L size s.
Proof.
  intros H L1. destruct s as [|x [|y [|z s]]]; cbn in L1; try lia.
  - assert (size = 1%nat) by lia. subst. reflexivity.
  - assert (D : size = 1%nat \/ size = 2%nat) by lia. destruct D; subst; reflexivity.
  - assert (D : size = 1%nat \/ size = 2%nat \/ size = 3%nat) by lia.
    destruct D as [|[|]]; subst; reflexivity.
Qed.
Lemma lead_size b : 128 <= b <= 255 -> kLeading b <> kXX -> (1 <= leading_size (kLeading b) <= 3)%nat.
Proof. intros H N. assert (Hb : 0 <= b <= 255) by lia. leads b Hb; try congruence; lf; lia. Qed.

Lemma decode_cord it : good_cord it -> it <> [] -> bytes (concat it) ->
  Utf8Decode_cord it = Utf8Decode (concat it).
Proof.
  intros G Ne B. destruct it as [|c it]; [congruence|]. inversion G; subst.
  destruct c as [|b str]; [congruence|]. unfold Utf8Decode_cord. cbn [chunk_remaining concat app Utf8Decode].
  cbn [concat app] in B. apply bytes_cons in B. destruct B as [Hb B].
  unfold kUtf8RuneSelf. destruct (b <? 128) eqn:A; [reflexivity|].
  destruct (kLeading b =? kXX) eqn:X; [reflexivity|].
  assert (LS := lead_size b ltac:(lia) ltac:(apply Z.eqb_neq; exact X)).
  set (size := leading_size (kLeading b)) in *. rewrite app_length.
  destruct (Nat.leb size (length str)) eqn:E.
  { apply Nat.leb_le in E. replace (Nat.ltb (length str + length (concat it)) size) with false
      by (symmetry; apply Nat.ltb_ge; lia).
    symmetry. apply DecodeImpl_prefix; lia. }
  pose proof (cord_collect_ok 4 size [] (cord_advance ((b :: str) :: it) 1)
    (cord_advance_good _ _ G) ltac:(cbn; lia) ltac:(lia) ltac:(cbn; lia)) as C.
  rewrite cord_advance_concat in C. cbn [concat app skipn length Nat.add] in C. rewrite app_length in C.
  destruct (Nat.leb size (length str + length (concat it))) eqn:W.
  - destruct C as [bf [-> [L1 L2]]]. cbn [obind].
    apply Nat.leb_le in W. replace (Nat.ltb (length str + length (concat it)) size) with false
      by (symmetry; apply Nat.ltb_ge; lia).
    cbn [app] in L2. rewrite <- (firstn_skipn (length bf) (str ++ concat it)), L2.
    symmetry. apply DecodeImpl_prefix; lia.
  - rewrite C. cbn [obind]. apply Nat.leb_gt in W.
    replace (Nat.ltb (length str + length (concat it)) size) with true
      by (symmetry; apply Nat.ltb_lt; lia). reflexivity.
Qed.
