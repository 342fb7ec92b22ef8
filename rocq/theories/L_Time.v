From Coq Require Import ZArith Bool Lia ZifyBool.
From Coq Require Import String.
From Verif Require Import Base M_Overflow S_Arith S_Time L_Overflow.
Open Scope string_scope.
Open Scope Z_scope.

Ltac tconst := unfold ts_range, ts_min, ts_max, dur_range, dur_bound, dur_small,
  kMinUnixTime, kMaxUnixTime, MinTimestampNs, MaxTimestampNs, kTimestampMinSeconds,
  kTimestampMaxSeconds, nanos_per_sec in *;
  change (10 ^ 9) with 1000000000 in *; pows.

Lemma sat_small n : dur_small n -> ToInt64Nanoseconds (DFin n) = n.
Proof. unfold ToInt64Nanoseconds. tconst. unr. lia. Qed.

Lemma add_small bi x y : in_int64 x = true -> in_int64 y = true -> in_int64 (x + y) = true ->
  CheckedAddInt bi x y = Val (x + y).
Proof. intros A B C. pose proof (add_int_ok bi x y A B) as H. unfold exact_or_error in H. now rewrite C in H. Qed.

Ltac Zify.zify_post_hook ::= Z.div_mod_to_equations.

Lemma add_time_ok t d : ts_range t -> dur_range d ->
  (ts_range (t + d) -> CheckedAddTime (TFin t) (DFin d) = Val (TFin (t + d))) /\
  (~ ts_range (t + d) -> exists s, CheckedAddTime (TFin t) (DFin d) = Err s).
Proof.
  intros Ht Hd. cbn [CheckedAddTime].
  pose (q := t / 1000000000). pose (r := t mod 1000000000).
  assert (Et : t = q * 1000000000 + r /\ 0 <= r < 1000000000) by (unfold q, r; lia).
  assert (Es1 : ToUnixSeconds t = q).
  { unfold ToUnixSeconds. change (t / nanos_per_sec) with q. tconst. unr. lia. }
  pose (q2 := Z.quot d 1000000000). pose (r2 := Z.rem d 1000000000).
  assert (Ed : d = q2 * 1000000000 + r2).
  { unfold q2, r2. pose proof (Z.quot_rem' d 1000000000). lia. }
  assert (Er2 : -1000000000 < r2 < 1000000000).
  { unfold r2. pose proof (Z.rem_bound_abs d 1000000000 ltac:(lia)). lia. }
  assert (Es2 : dur_div_sec d = q2).
  { unfold dur_div_sec. change (Z.quot d nanos_per_sec) with q2. tconst. unr. lia. }
  rewrite Es1, Es2. change (Z.rem d nanos_per_sec) with r2.
  clearbody q r q2 r2. clear Es1 Es2. destruct Et as [-> Hr]. subst d.
  replace (q * 1000000000 + r - q * nanos_per_sec) with r by (tconst; lia).
  assert (Hq : -62135596800 <= q <= 253402300799) by (tconst; lia).
  assert (Hq2 : -315576000001 <= q2 <= 315576000001) by (tconst; lia).
  rewrite add_small by (unr; lia). cbn [obind].
  unfold c_int64. replace (in_int64 (r2 + r)) with true by (unr; lia). cbn [obind].
  set (n := r2 + r) in *. assert (Hn : -1000000000 < n < 2000000000) by lia.
  set (s := q + q2) in *.
  assert (Esum : q * 1000000000 + r + (q2 * 1000000000 + r2) = s * 1000000000 + n) by (unfold s, n; lia).
  rewrite Esum. assert (Hs : -400000000000 <= s <= 600000000000) by lia.
  clearbody n s. clear Esum.
  assert (Hc : forall s' n', s' * 1000000000 + n' = s * 1000000000 + n -> 0 <= n' < 1000000000 ->
    (ts_range (s * 1000000000 + n) ->
     obind (CheckRange ((kMinUnixTime <=? s') && (s' <=? kMaxUnixTime)) "timestamp overflow")
        (fun _ => Val (TFin (s' * nanos_per_sec + n'))) = Val (TFin (s * 1000000000 + n))) /\
    (~ ts_range (s * 1000000000 + n) -> exists e,
     obind (CheckRange ((kMinUnixTime <=? s') && (s' <=? kMaxUnixTime)) "timestamp overflow")
        (fun _ => Val (TFin (s' * nanos_per_sec + n'))) = Err e)).
  { intros s' n' E B. unfold CheckRange.
    assert (K : kMinUnixTime = -62135596800 /\ kMaxUnixTime = 253402300799) by (split; reflexivity).
    destruct K as [-> ->].
    destruct ((-62135596800 <=? s') && (s' <=? 253402300799)) eqn:C; cbn [obind]; split; intros R.
    - do 2 f_equal. tconst. lia.
    - exfalso. apply R. tconst. lia.
    - exfalso. tconst. lia.
    - eauto. }
  destruct ((n <? 0) || (nanos_per_sec <=? n)) eqn:C.
  - assert (Edd : dur_div_sec n = if 1000000000 <=? n then 1 else 0).
    { unfold dur_div_sec, nanos_per_sec. destruct (1000000000 <=? n) eqn:G.
      - replace (Z.quot n 1000000000) with 1; [reflexivity|].
        rewrite Z.quot_div_nonneg by lia. lia.
      - assert (n < 0) by (tconst; lia).
        replace (Z.quot n 1000000000) with 0; [reflexivity|].
        rewrite <- (Z.opp_involutive n), Z.quot_opp_l by lia. rewrite Z.quot_small by lia. lia. }
    rewrite Edd. destruct (1000000000 <=? n) eqn:G.
    + rewrite add_small by (unr; lia). cbn [obind].
      replace (n - 1 * nanos_per_sec <? 0) with false by (tconst; lia). cbn [obind fst snd].
      apply Hc; tconst; lia.
    + rewrite add_small by (unr; lia). cbn [obind].
      replace (n - 0 * nanos_per_sec <? 0) with true by (tconst; lia). cbn [obind].
      rewrite add_small by (unr; lia). cbn [obind fst snd].
      apply Hc; tconst; lia.
  - cbn [obind fst snd]. apply Hc; tconst; lia.
Qed.

Lemma dur_op_ok n : forall r : out Z, exact_or_error in_int64 n r ->
  (dur_small n -> obind r (fun v => Val (DFin v)) = Val (DFin n)) /\
  (~ dur_small n -> exists s, obind r (fun v => Val (DFin v)) = Err s).
Proof.
  intros r H. unfold exact_or_error in H.
  destruct (in_int64 n) eqn:E; split; intros B.
  - now rewrite H.
  - apply in_int64_iff in E. exfalso. apply B. tconst. lia.
  - rewrite <- not_true_iff_false in E. exfalso. apply E, in_int64_iff. tconst. lia.
  - destruct H as [s ->]. cbn. eauto.
Qed.

Lemma small_int64 n : dur_small n -> in_int64 n = true.
Proof. intros. apply in_int64_iff. exact H. Qed.

Lemma add_dur_ok x y : dur_small x -> dur_small y ->
  (dur_small (x + y) -> CheckedAddDur (DFin x) (DFin y) = Val (DFin (x + y))) /\
  (~ dur_small (x + y) -> exists s, CheckedAddDur (DFin x) (DFin y) = Err s).
Proof.
  intros Hx Hy. unfold CheckedAddDur. cbn [is_fin_d andb CheckRange obind].
  rewrite !sat_small by auto. apply dur_op_ok. apply add_int_ok; now apply small_int64.
Qed.
Lemma sub_dur_ok x y : dur_small x -> dur_small y ->
  (dur_small (x - y) -> CheckedSubDur (DFin x) (DFin y) = Val (DFin (x - y))) /\
  (~ dur_small (x - y) -> exists s, CheckedSubDur (DFin x) (DFin y) = Err s).
Proof.
  intros Hx Hy. unfold CheckedSubDur. cbn [is_fin_d andb CheckRange obind].
  rewrite !sat_small by auto. apply dur_op_ok. apply sub_int_ok; now apply small_int64.
Qed.
Lemma neg_dur_ok x : dur_small x ->
  (dur_small (- x) -> CheckedNegDur (DFin x) = Val (DFin (- x))) /\
  (~ dur_small (- x) -> exists s, CheckedNegDur (DFin x) = Err s).
Proof.
  intros Hx. unfold CheckedNegDur. cbn [is_fin_d andb CheckRange obind].
  rewrite !sat_small by auto. apply dur_op_ok. apply neg_int_ok; now apply small_int64.
Qed.

Lemma small_range x : dur_small x -> dur_range x.
Proof. tconst. lia. Qed.

Lemma sub_time_dur_ok t d : ts_range t -> dur_small d ->
  (ts_range (t - d) /\ dur_small (- d) -> CheckedSubTimeDur (TFin t) (DFin d) = Val (TFin (t - d))) /\
  (~ (ts_range (t - d) /\ dur_small (- d)) -> exists s, CheckedSubTimeDur (TFin t) (DFin d) = Err s).
Proof.
  intros Ht Hd. unfold CheckedSubTimeDur.
  destruct (neg_dur_ok d Hd) as [N1 N2].
  assert (D : dur_small (- d) \/ ~ dur_small (- d)) by (tconst; lia).
  destruct D as [D|D].
  - rewrite N1 by auto. cbn [obind].
    destruct (add_time_ok t (- d) Ht (small_range _ D)) as [A1 A2]. unfold Z.sub. tauto.
  - destruct (N2 D) as [s E]. rewrite E. cbn [obind]. split; [tauto|eauto].
Qed.

Lemma sub_time_ok t1 t2 : ts_range t1 -> ts_range t2 ->
  (- 2 ^ 63 + 10 ^ 9 <= t1 - t2 <= 2 ^ 63 - 1 - 10 ^ 9 ->
     CheckedSubTime (TFin t1) (TFin t2) = Val (DFin (t1 - t2))) /\
  (~ dur_small (t1 - t2) -> exists s, CheckedSubTime (TFin t1) (TFin t2) = Err s) /\
  ((exists s, CheckedSubTime (TFin t1) (TFin t2) = Err s) \/
     CheckedSubTime (TFin t1) (TFin t2) = Val (DFin (t1 - t2))).
Proof.
  intros H1 H2. cbn [CheckedSubTime].
  assert (forall t, ts_range t -> exists q r, ToUnixSeconds t = q /\ t = q * 1000000000 + r /\
     0 <= r < 1000000000 /\ -62135596800 <= q <= 253402300799) as Dec.
  { intros t H. exists (t / 1000000000), (t mod 1000000000). unfold ToUnixSeconds.
    change (t / nanos_per_sec) with (t / 1000000000). tconst. unr. lia. }
  destruct (Dec t1 H1) as (q1 & r1 & -> & E1 & B1 & C1).
  destruct (Dec t2 H2) as (q2 & r2 & -> & E2 & B2 & C2).
  subst t1 t2. clear Dec H1 H2.
  replace (q1 * 1000000000 + r1 - q1 * nanos_per_sec) with r1 by (tconst; lia).
  replace (q2 * 1000000000 + r2 - q2 * nanos_per_sec) with r2 by (tconst; lia).
  pose proof (sub_int_ok true q1 q2 ltac:(unr; lia) ltac:(unr; lia)) as S. unfold exact_or_error in S.
  replace (in_int64 (q1 - q2)) with true in S by (unr; lia). rewrite S. cbn [obind].
  unfold c_int64. replace (in_int64 (r1 - r2)) with true by (unr; lia). cbn [obind].
  replace (q1 * 1000000000 + r1 - (q2 * 1000000000 + r2)) with ((q1 - q2) * 1000000000 + (r1 - r2)) by lia.
  set (q := q1 - q2) in *. set (r := r1 - r2) in *.
  assert (Bq : -400000000000 < q < 400000000000) by lia. assert (Br : -1000000000 < r < 1000000000) by lia.
  clearbody q r. clear S.
  pose proof (mul_int_ok true q nanos_per_sec ltac:(unr; lia) ltac:(reflexivity)) as M.
  unfold exact_or_error in M. unfold nanos_per_sec in *.
  rewrite sat_small by (tconst; lia).
  destruct (in_int64 (q * 1000000000)) eqn:I1.
  - rewrite M. cbn [obind].
    pose proof (add_int_ok true (q * 1000000000) r I1 ltac:(unr; lia)) as A. unfold exact_or_error in A.
    destruct (in_int64 (q * 1000000000 + r)) eqn:I2.
    + rewrite A. cbn [obind]. split; [auto|]. split; [|auto]. intros X. exfalso. apply X.
      apply in_int64_iff in I2. tconst. lia.
    + destruct A as [s ->]. cbn [obind]. split; [|split; eauto].
      intros X. exfalso. rewrite <- not_true_iff_false in I2. apply I2, in_int64_iff. tconst. lia.
  - destruct M as [s ->]. cbn [obind]. split; [|split; eauto].
    intros X. exfalso. rewrite <- not_true_iff_false in I1. apply I1, in_int64_iff. tconst. lia.
Qed.
