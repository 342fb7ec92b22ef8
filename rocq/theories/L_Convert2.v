(* Lemmas about reading and printing times. *)
From Coq Require Import ZArith String List Bool Lia.
From Verif Require Import Base M_Overflow M_Value M_Format S_Time S_Format L_Format.
From Verif Require Import M_Civil M_Convert S_Convert L_Calendar L_Convert.
Import ListNotations.
Open Scope list_scope.
Open Scope Z_scope.

(** ** Reading a time *)
Lemma fold_digits t a : forallb is_digit t = true -> fold_left value_of t a = a * 10 ^ Z.of_nat (length t) + fold_left value_of t 0.
Proof. intros H. pose proof (digits_place t H) as P. rewrite (place_fold _ _ P a). easy. Qed.
Lemma read_sub_gen t r : forallb is_digit t = true -> no_digit r -> forall v room count,
  read_sub (t ++ r) v room count =
    ((v * 10 ^ Z.of_nat (length t) + fold_left value_of t 0) * 10 ^ Z.of_nat room / 10 ^ Z.of_nat (length t),
     (count + length t)%nat, r).
Proof.
  intros H Hr. induction t as [|c t IH]; intros v room count.
  - cbn [app fold_left length]. rewrite Nat.add_0_r. change (10 ^ Z.of_nat 0) with 1. rewrite Z.div_1_r.
    replace (v * 1 + 0) with v by lia. destruct r as [|x r]; [easy|]. cbn in Hr |- *. now rewrite Hr.
  - cbn [forallb] in H. apply andb_true_iff in H as [A B]. specialize (IH B).
    pose proof (place_nonneg _ _ (digits_place t B)) as N. destruct (is_digit_value c A) as [_ Hc].
    cbn [app read_sub fold_left length]. rewrite A. rewrite (fold_digits t (0 * 10 + (c - 48)) B).
    rewrite Nat2Z.inj_succ, Z.pow_succ_r by lia. set (p := 10 ^ Z.of_nat (length t)) in *. set (u := fold_left value_of t 0) in *.
    destruct room as [|room]; rewrite IH; f_equal; try (f_equal; lia).
    + f_equal; [|lia]. change (10 ^ Z.of_nat 0) with 1. rewrite !Z.mul_1_r.
      transitivity v; [symmetry; apply Z.div_unique with (r := u); lia|].
      apply Z.div_unique with (r := (c - 48) * p + u); nia.
    + f_equal; [|lia]. rewrite Nat2Z.inj_succ, Z.pow_succ_r by lia.
      rewrite <- (Z.div_mul_cancel_r _ p 10) by lia. f_equal; lia.
Qed.
Lemma ParseSubSeconds_place us u r nanos : place_value false 10 us u -> us <> [] -> no_digit r ->
  nanos * 10 ^ Z.of_nat (length us) <= u * 10 ^ 9 < (nanos + 1) * 10 ^ Z.of_nat (length us) ->
  exists femto, ParseSubSeconds (us ++ r) = Some (femto, r) /\ femto / 1000000 = nanos.
Proof.
  intros P Ne Hr B. unfold ParseSubSeconds. rewrite read_sub_gen by (eauto using place_digits).
  assert (Nat.eqb (0 + length us) 0 = false) as -> by (now destruct us).
  rewrite (place_fold us u P 0). eexists. split; [reflexivity|].
  set (p := 10 ^ Z.of_nat (length us)) in *. assert (0 < p) by (unfold p; lia).
  rewrite Z.div_div by lia. replace ((0 * p + (0 * p + u)) * 10 ^ Z.of_nat 15) with (u * 10 ^ 9 * 1000000).
  2: { change (10 ^ Z.of_nat 15) with (10 ^ 9 * 1000000). lia. }
  rewrite Z.div_mul_cancel_r by lia. symmetry. apply Z.div_unique with (r := u * 10 ^ 9 - nanos * p); lia.
Qed.

Lemma two_place t n r max : digits_of 2 t n -> 0 <= n <= max -> two (t ++ r) max = Some (n, r).
Proof.
  intros [P L] H. unfold two. rewrite (ParseInt_place t n r) by (easy || (now destruct t)).
  rewrite app_length. replace (Nat.eqb (length t + length r) (length r + 2)) with true; [easy|].
  symmetry. apply Nat.eqb_eq. lia.
Qed.
Lemma ParseOffset_suffix zone ahead : zone_suffix zone ahead -> ParseOffset zone = Some (ahead, []).
Proof.
  intros [[[->| ->] ->]|(sign & hs & h & ms & m & -> & Hh & Hm & Rh & Rm & S)]; [easy|easy|].
  assert (G : forall c, c = 43 \/ c = 45 -> ParseOffset (c :: hs ++ text ":" ++ ms) =
    Some (if c =? 45 then - ((h * 60 + m) * 60 + 0) else (h * 60 + m) * 60 + 0, [])).
  { intros c Hc. unfold ParseOffset. assert ((c =? 43) || (c =? 45) = true) as -> by lia.
    rewrite (two_place hs h) by easy. unfold skip_colon. rewrite (starts_app (text ":")).
    rewrite <- (app_nil_r ms), (two_place ms m) by easy. reflexivity. }
  destruct S as [[-> ->]|[-> ->]]; cbn [text map list_ascii_of_string app]; cbv [text map list_ascii_of_string] in G.
  - change (ParseOffset (43 :: hs ++ text ":" ++ ms) = Some (h * 3600 + m * 60, [])).
    rewrite G by auto. cbn. do 2 f_equal. lia.
  - change (ParseOffset (45 :: hs ++ text ":" ++ ms) = Some (- (h * 3600 + m * 60), [])).
    rewrite G by auto. cbn. do 2 f_equal. lia.
Qed.
Definition no_zero (s : list Z) : Prop := Forall (fun c => c <> 0) s.
Lemma c_str_id s : no_zero s -> c_str s = s.
Proof. intros H. induction H as [|c s Hc H IH]; [easy|]. cbn. assert (c =? 0 = false) as -> by lia. now rewrite IH. Qed.
Lemma place_no_zero t n : place_value false 10 t n -> no_zero t.
Proof.
  intros H. apply place_digits in H. apply Forall_forall. intros c Hc.
  rewrite forallb_forall in H. specialize (H c Hc). unfold is_digit in H. lia.
Qed.
Lemma no_zero_app a b : no_zero a -> no_zero b -> no_zero (a ++ b).
Proof. intros. now apply Forall_app. Qed.
Ltac nz := apply Forall_forall; cbn; intros ? ?; intuition lia.
Lemma zone_no_zero z a : zone_suffix z a -> no_zero z.
Proof.
  intros [[[->| ->] _]|(sign & hs & h & ms & m & -> & [Hh _] & [Hm _] & _ & _ & S)]; [nz|nz|].
  repeat apply no_zero_app; eauto using place_no_zero.
  - destruct S as [[-> _]|[-> _]]; nz.
  - nz.
Qed.
Lemma zone_no_digit z a : zone_suffix z a -> no_digit z /\ starts z (str ".") = None.
Proof.
  intros [[[->| ->] _]|(sign & hs & h & ms & m & -> & _ & _ & _ & _ & S)]; [easy|easy|].
  now destruct S as [[-> _]|[-> _]].
Qed.
Lemma ymd_ord_bound y m d : 0 <= y <= 9999 -> date_ok (y, m, d) -> - 1000000 <= ymd_ord y m d <= 3000000.
Proof.
  intros Hy [Hm Hd].
  assert (Hd' : d <= 31) by (unfold month_length in Hd; destruct (m =? 2), (leap y), (m =? 4), (m =? 6), (m =? 9), (m =? 11); cbn in Hd; lia).
  unfold ymd_ord. cbv zeta.
  set (k := if m <=? 2 then y - 1 else y). assert (-1 <= k <= 9999) by (unfold k; destruct (m <=? 2); lia). clearbody k.
  set (mm := 153 * (m + (if 2 <? m then -3 else 9)) + 2). assert (0 <= mm <= 1700) by (unfold mm; destruct (2 <? m) eqn:E; lia). clearbody mm.
  set (e := Z.quot (if 0 <=? k then k else k - 399) 400). assert (-1 <= e <= 24 /\ 0 <= k - e * 400 <= 399).
  { unfold e. destruct (0 <=? k) eqn:E; [|assert (k = -1) as -> by lia; cbn; lia].
    rewrite Z.quot_div_nonneg by lia. pose proof (Z.div_mod k 400 ltac:(lia)). pose proof (Z.mod_pos_bound k 400 ltac:(lia)). lia. }
  clearbody e. set (w := k - e * 400) in *. clearbody w.
  assert (B : forall x n, 0 <= x -> 0 < n -> 0 <= Z.quot x n <= x).
  { intros x n Hx Hn. split; [apply Z.quot_pos; lia|]. rewrite Z.quot_div_nonneg by lia. apply Z.div_le_upper_bound; nia. }
  pose proof (B mm 5 ltac:(lia) ltac:(lia)). pose proof (B w 4 ltac:(lia) ltac:(lia)). pose proof (B w 100 ltac:(lia) ltac:(lia)).
  lia.
Qed.
Lemma ParseTime_rfc3339 s t : rfc3339 s t -> ParseTime s = Some (TFin t).
Proof.
  intros (ys & y & ms & m & ds & d & sep & hs & h & ns & n & cs & c & fs & nanos & zone & ahead & local & -> &
          [Py Ly] & [Pm Lm] & [Pd Ld] & Sep & [Ph Lh] & [Pn Ln] & [Pc Lc] & Ok & Ck & Fr & Zn & ->).
  pose proof (place_nonneg _ _ Py) as By. rewrite Ly in By. cbn in By.
  assert (Z1 : exists r, ys ++ text "-" ++ ms ++ text "-" ++ ds ++ sep ++ hs ++ text ":" ++ ns ++ text ":" ++ cs ++ fs ++ zone = r) by eauto.
  destruct Z1 as [whole W]. rewrite W.
  assert (Nz : no_zero whole).
  { rewrite <- W. repeat apply no_zero_app; eauto using place_no_zero, zone_no_zero; try nz.
    - destruct Sep as [->| ->]; nz.
    - destruct Fr as [[-> _]|(us & u & -> & _ & Pu & _)]; [constructor|]. apply no_zero_app; [nz|eauto using place_no_zero]. }
  assert (Front : exists x w, whole = x :: w /\ is_digit x = true).
  { rewrite <- W. destruct ys as [|x ys]; [discriminate|]. exists x. eexists. split; [reflexivity|]. now apply place_cons in Py. }
  assert (Pf : plain_front whole) by (destruct Front as (x & w & -> & D); cbn; now apply digit_plain).
  assert (Inf : starts whole (str "infinite-future") = None /\ starts whole (str "infinite-past") = None).
  { destruct Front as (x & w & -> & D). unfold is_digit in D. cbn. assert (x =? 105 = false) as -> by lia. easy. }
  unfold ParseTime. rewrite strip_front_plain by easy. destruct Inf as [-> ->].
  unfold cctz_parse. rewrite (c_str_id _ Nz), strip_front_plain by easy. rewrite <- W. clear W Nz Front Pf whole.
  destruct Ok as [Rm Rd].
  assert (Rd' : d <= 31) by (unfold month_length in Rd; destruct (m =? 2), (leap y), (m =? 4), (m =? 6), (m =? 9), (m =? 11); cbn in Rd; lia).
  destruct Ck as (k & Cal & Rh & Rn & Rc & E).
  assert (Kb : - 1000000 <= k <= 3000000).
  { rewrite <- (calendar_ord _ _ _ _ Cal). apply ymd_ord_bound; [lia|easy]. }
  assert (Ne : forall (l : list Z) k, length l = S k -> l <> []) by (now destruct l).
  rewrite (ParseInt_place ys y) by (eauto || (unfold int64_min, int64_max; lia) || easy). cbn [obindo].
  rewrite (starts_app (text "-")). cbn [obindo].
  rewrite (ParseInt_place ms m) by (eauto || lia || easy). cbn [obindo].
  rewrite (starts_app (text "-")). cbn [obindo].
  rewrite (ParseInt_place ds d) by (eauto || lia || easy). cbn [obindo].
  assert (match sep ++ hs ++ text ":" ++ ns ++ text ":" ++ cs ++ fs ++ zone with
          | c :: d => if (c =? 84) || (c =? 116) then Some d else None | [] => None end =
          Some (hs ++ text ":" ++ ns ++ text ":" ++ cs ++ fs ++ zone)) as ->.
  { destruct Sep as [->| ->]; reflexivity. }
  cbn [obindo].
  rewrite (ParseInt_place hs h) by (eauto || lia || easy). cbn [obindo].
  rewrite (starts_app (text ":")). cbn [obindo].
  rewrite (ParseInt_place ns n) by (eauto || lia || easy). cbn [obindo].
  rewrite (starts_app (text ":")). cbn [obindo].
  rewrite (ParseInt_place cs c) by (eauto || lia || easy). cbn [obindo].
  destruct (zone_no_digit _ _ Zn) as [Zd Zp].
  assert (exists femto, match starts (fs ++ zone) (str ".") with Some d => ParseSubSeconds d | None => Some (0, fs ++ zone) end =
            Some (femto, zone) /\ femto / 1000000 = nanos) as (femto & -> & Ef).
  { destruct Fr as [[-> ->]|(us & u & -> & Nu & Pu & Bu)].
    - cbn [app]. rewrite Zp. now exists 0.
    - rewrite <- app_assoc, (starts_app (text ".")). now apply ParseSubSeconds_place with (u := u). }
  cbn [obindo]. rewrite (ParseOffset_suffix _ _ Zn). cbn [obindo strip_front].
  assert (c =? 60 = false) as -> by lia.
  pose proof (calendar_ord _ _ _ _ Cal) as Ord. apply calendar_civil in Cal.
  rewrite Ord, Cal. rewrite !Z.eqb_refl. cbn [andb].
  unfold seconds_of_civil. cbn [c_year c_month c_day c_hour c_minute c_second]. rewrite Ord.
  assert (Ab : - 100000 <= ahead <= 100000).
  { destruct Zn as [[_ ->]|(sg & hh & h' & mm & m' & _ & _ & _ & R1 & R2 & [[_ ->]|[_ ->]])]; lia. }
  assert (in_int64 (k * 86400 + h * 3600 + n * 60 + c - ahead) = true) as -> by (unfold in_int64, int64_min, int64_max; lia).
  rewrite Ef, E. unfold nanos_per_sec. easy.
Qed.

(** ** Printing durations and times *)
Lemma FormatNanos_digits n : FormatNanos n = fraction_digits n.
Proof. reflexivity. Qed.
Lemma EncodeDuration_text ns : dur_range ns -> exists t, EncodeDurationToJson (DFin ns) = Val t /\ duration_text ns t.
Proof.
  intros R. unfold EncodeDurationToJson, ValidateDuration. cbn [dur_below dur_above].
  unfold dur_range, dur_bound in R. unfold MinDurationNs, MaxDurationNs, kDurationMaxSeconds, nanos_per_sec.
  assert (ns <? - (315576000000) * 1000000000 - 999999999 = false) as -> by lia.
  assert (315576000000 * 1000000000 + 999999999 <? ns = false) as -> by lia.
  cbn [obind IDivSeconds].
  assert (Q : dur_div_sec ns = Z.quot ns 1000000000).
  { unfold dur_div_sec, int64_min, int64_max, nanos_per_sec.
    assert (- 2 ^ 63 <= Z.quot ns 1000000000 <= 2 ^ 63 - 1); [|lia].
    split; [apply Z.quot_le_lower_bound; lia|apply Z.quot_le_upper_bound; lia]. }
  rewrite Q. set (s := Z.quot ns 1000000000). set (n := ns - s * nanos_per_sec).
  assert (Rn : n = Z.rem ns 1000000000).
  { unfold n, s, nanos_per_sec. pose proof (Z.quot_rem ns 1000000000 ltac:(lia)). lia. }
  assert (T : ToInt64Nanoseconds (DFin n) = n).
  { unfold ToInt64Nanoseconds, int64_min, int64_max. pose proof (Z.rem_bound_abs ns 1000000000 ltac:(lia)). lia. }
  rewrite T.
  set (a := Z.abs ns / 10 ^ 9). set (b := Z.abs ns mod 10 ^ 9).
  pose proof (Z.div_mod (Z.abs ns) (10 ^ 9) ltac:(lia)) as D. pose proof (Z.mod_pos_bound (Z.abs ns) (10 ^ 9) ltac:(lia)) as B. fold a b in D, B.
  assert (X : if ns <? 0 then s = - a /\ n = - b else s = a /\ n = b).
  { destruct (ns <? 0) eqn:E.
    - assert (Z.abs ns = - ns) as Hab by lia.
      assert (s = - a). { unfold s, a. rewrite Hab. rewrite <- Z.quot_div_nonneg by lia. rewrite Z.quot_opp_l by lia. cbn. lia. }
      unfold n, nanos_per_sec. lia.
    - assert (Z.abs ns = ns) as Hab by lia.
      assert (s = a). { unfold s, a. rewrite Hab. rewrite <- Z.quot_div_nonneg by lia. easy. }
      unfold n, nanos_per_sec. lia. }
  assert (A0 : 0 <= a) by (apply Z.div_pos; lia).
  assert (Y : (if (s <? 0) || (n <? 0) then (str "-", - s, - n) else ([], s, n)) = (if ns <? 0 then text "-" else [], a, b)).
  { destruct (ns <? 0) eqn:E; destruct X as [-> ->].
    - assert ((- a <? 0) || (- b <? 0) = true) as -> by lia. rewrite !Z.opp_involutive. easy.
    - assert ((a <? 0) || (b <? 0) = false) as -> by lia. easy. }
  rewrite Y. eexists. split; [reflexivity|].
  exists (int_text a), (if b =? 0 then [] else 46 :: fraction_digits b), a, b.
  split; [|split; [|split; [|split; [easy|lia]]]].
  - change (str "s") with (text "s"). change (str ".") with [46]. destruct (b =? 0); cbn [negb]; rewrite <- ?app_assoc; easy.
  - pose proof (int_text_ok a) as [[_ I]|[I _]]; [easy|lia].
  - destruct (b =? 0) eqn:E; [left; split; [lia|easy]|]. apply fraction_ok. lia.
Qed.
Lemma fraction_read n t : fraction n t -> 0 <= n < 10 ^ 9 ->
  t = [] /\ n = 0 \/ exists us u, t = text "." ++ us /\ us <> [] /\ place_value false 10 us u /\ (length us <= 9)%nat /\
    n * 10 ^ Z.of_nat (length us) = u * 10 ^ 9.
Proof.
  intros [[-> ->]|(k & u & x & -> & Hk & L & N & P & E & _)] B; [now left|].
  right. exists u, x. split; [easy|]. split; [intros ->; cbn in L; subst k; cbn in Hk; intuition discriminate|].
  split; [easy|]. rewrite L. cbn in Hk. destruct Hk as [<-|[<-|[<-|[]]]]; cbn in E |- *; lia.
Qed.
Lemma duration_text_literal ns t : duration_text ns t -> exists w, duration_literal t ns [w] /\ w * 10 ^ 9 <= Z.abs ns.
Proof.
  intros (whole & frac & seconds & nanos & -> & (Pw & Nw & _) & F & B & E).
  pose proof (place_nonneg _ _ Pw). exists seconds. split; [|lia].
  exists (if ns <? 0 then text "-" else []), (whole ++ frac ++ text "s"), (Z.abs ns). split; [easy|]. split.
  - apply tm_one. exists whole, (text "s"), (10 ^ 9). split; [cbn; auto|]. split; [easy|].
    destruct (fraction_read _ _ F B) as [[-> ->]|(us & u & -> & Nu & Pu & Lu & Eu)].
    + left. split; [easy|]. split; [easy|lia].
    + right. exists us, u. rewrite <- app_assoc. split; [easy|]. split; [auto|]. split; [easy|]. split; [easy|]. rewrite E. lia.
  - destruct (ns <? 0) eqn:S; [right|left]; split; auto; lia.
Qed.
Lemma ToUnixSeconds_range t : ts_range t -> ToUnixSeconds t = t / 10 ^ 9.
Proof.
  unfold ts_range, ts_min, ts_max. intros R. unfold ToUnixSeconds, int64_min, int64_max, nanos_per_sec.
  change (10 ^ 9) with 1000000000 in *.
  assert (- 2 ^ 63 <= t / 1000000000) by (apply Z.div_le_lower_bound; lia).
  assert (t / 1000000000 <= 2 ^ 63 - 1) by (apply Z.div_le_upper_bound; lia). lia.
Qed.
Lemma days_range t : ts_range t -> -719162 <= t / 10 ^ 9 / 86400 <= 2932896.
Proof.
  unfold ts_range, ts_min, ts_max. intros R. change (10 ^ 9) with 1000000000 in *.
  assert (-62135596800 <= t / 1000000000) by (apply Z.div_le_lower_bound; lia).
  assert (t / 1000000000 <= 253402300799) by (apply Z.lt_succ_r, Z.div_lt_upper_bound; lia).
  split; [apply Z.div_le_lower_bound; lia|apply Z.lt_succ_r, Z.div_lt_upper_bound; lia].
Qed.
Lemma padded_digits k n : (0 < k)%nat -> 0 <= n < 10 ^ Z.of_nat k -> digits_of k (padded k n) n.
Proof. intros. destruct (padded_ok k n); easy. Qed.
Lemma valid_timestamp t : ts_range t -> ValidateTimestamp (TFin t) = Val tt.
Proof.
  unfold ts_range, ts_min, ts_max. intros R. unfold ValidateTimestamp. cbn [time_below time_above].
  unfold MinTimestampNs, MaxTimestampNs, kTimestampMinSeconds, kTimestampMaxSeconds, nanos_per_sec.
  assert (t <? -62135596800 * 1000000000 = false) as -> by lia.
  assert (253402300799 * 1000000000 + 999999999 <? t = false) as -> by lia. easy.
Qed.
Lemma EncodeTimestamp_text t : ts_range t -> exists s, EncodeTimestampToJson (TFin t) = Val s /\ timestamp_text t s.
Proof.
  intros R. unfold EncodeTimestampToJson. rewrite valid_timestamp by easy. cbn [obind].
  rewrite ToUnixSeconds_range by easy. pose proof (days_range t R) as Dr.
  pose proof (Z.div_mod t (10 ^ 9) ltac:(lia)) as D. pose proof (Z.mod_pos_bound t (10 ^ 9) ltac:(lia)) as B.
  set (s := t / 10 ^ 9) in *. set (n := t - s * nanos_per_sec).
  assert (Hn : n = t mod 10 ^ 9) by (unfold n, nanos_per_sec; lia).
  unfold FormatTime. destruct (civil_of_seconds s) as [y m d h mi c] eqn:C.
  pose proof C as K. apply clock_civil in K.
  assert (Y : 1 <= y <= 9999).
  { unfold civil_of_seconds in C. destruct (civil_from_days (s / 86400)) as [[y0 m0] d0] eqn:E. injection C as <- <- <- <- <- <-.
    now apply civil_years in E. }
  destruct K as (k & Cal & Rh & Rm & Rc & Es).
  pose proof (calendar_ok _ _ Cal) as [Om Od].
  assert (d <= 31) by (unfold month_length in Od; destruct (m =? 2), (leap y), (m =? 4), (m =? 6), (m =? 9), (m =? 11); cbn in Od; lia).
  cbn [c_year c_month c_day c_hour c_minute c_second].
  eexists. split; [reflexivity|].
  exists (padded 4 y), y, (padded 2 m), m, (padded 2 d), d, (padded 2 h), h, (padded 2 mi), mi, (padded 2 c), c,
    (if n =? 0 then [] else 46 :: fraction_digits n), n, s.
  split.
  { change (str "Z") with (text "Z"). change (str ".") with [46].
    destruct (n =? 0) eqn:E; [assert (0 <? n = false) as -> by lia|assert (0 <? n = true) as -> by lia];
      rewrite <- !app_assoc; reflexivity. }
  repeat (split; [apply padded_digits; [lia|cbn; lia]|]).
  split; [exists k; repeat (split; [easy|]); exact Es|].
  split; [destruct (n =? 0) eqn:E; [left; split; [lia|easy]|apply fraction_ok; lia]|].
  split; [lia|]. unfold n, nanos_per_sec. lia.
Qed.
Lemma timestamp_text_rfc t s : timestamp_text t s -> rfc3339 s t.
Proof.
  intros (ys & y & ms & m & ds & d & hs & h & ns & n & cs & c & fs & nanos & seconds & -> & Hy & Hm & Hd & Hh & Hn & Hc & Ck & F & B & ->).
  exists ys, y, ms, m, ds, d, (text "T"), hs, h, ns, n, cs, c, fs, nanos, (text "Z"), 0, seconds.
  split; [easy|]. repeat (split; [easy || (now left)|]).
  split; [destruct Ck as (k & Cal & _); now apply calendar_ok in Cal|]. split; [easy|].
  split.
  - destruct (fraction_read _ _ F B) as [[-> ->]|(us & u & -> & Nu & Pu & Lu & Eu)]; [now left|].
    right. exists us, u. repeat (split; [easy|]). assert (0 < 10 ^ Z.of_nat (length us)) by lia. lia.
  - split; [left; auto|]. lia.
Qed.

(** ** Zones *)
Lemma colons_digits t n : place_value false 10 t n -> colons_to_h t = t.
Proof.
  intros H. apply place_digits in H. unfold colons_to_h. rewrite <- (map_id t) at 2. apply map_ext_in.
  intros c Hc. rewrite forallb_forall in H. specialize (H c Hc). unfold is_digit in H. assert (c =? 58 = false) as -> by lia. easy.
Qed.
Lemma offset_zone_duration tz ahead : offset_zone tz ahead ->
  tz <> [] /\ existsb (Z.eqb 58) tz = true /\ ParseDuration (colons_to_h (tz ++ str "m")) = Some (DFin (ahead * 10 ^ 9)) /\
  - 1000000 <= ahead <= 1000000.
Proof.
  intros (sign & hs & h & ms & m & -> & [Ph Lh] & [Pm Lm] & S).
  pose proof (place_nonneg _ _ Ph) as Bh. pose proof (place_nonneg _ _ Pm) as Bm. rewrite Lh in Bh. rewrite Lm in Bm. cbn in Bh, Bm.
  split; [destruct sign, hs; easy|].
  split; [rewrite !existsb_app; cbn; now rewrite !orb_true_r|].
  assert (A : - 1000000 <= ahead <= 1000000) by lia. split; [|easy].
  assert (E : colons_to_h ((sign ++ hs ++ text ":" ++ ms) ++ str "m") = sign ++ (hs ++ text "h") ++ (ms ++ text "m")).
  { unfold colons_to_h. rewrite !map_app. fold (colons_to_h sign) (colons_to_h hs) (colons_to_h ms).
    rewrite (colons_digits hs h), (colons_digits ms m) by easy.
    assert (colons_to_h sign = sign) as -> by (destruct S as [[[->| ->] _]|[-> _]]; easy).
    rewrite <- !app_assoc. reflexivity. }
  rewrite E. rewrite (ParseDuration_literal _ (ahead * 10 ^ 9) [h; m]).
  - f_equal. unfold absl_duration, nanos_per_sec. change (10 ^ 9) with 1000000000. rewrite Z.div_mul by lia.
    assert (in_int64 ahead = true) as -> by (unfold in_int64, int64_min, int64_max; lia). easy.
  - exists sign, ((hs ++ text "h") ++ (ms ++ text "m")), (h * (3600 * 10 ^ 9) + m * (60 * 10 ^ 9)). split; [easy|]. split.
    + apply tm_more; [|apply tm_one].
      * exists hs, (text "h"), (3600 * 10 ^ 9). split; [cbn; auto|]. split; [easy|]. left. split; [now destruct hs|easy].
      * exists ms, (text "m"), (60 * 10 ^ 9). split; [cbn; auto|]. split; [easy|]. left. split; [now destruct ms|easy].
    + destruct S as [[Sg ->]|[Sg ->]]; [left|right]; (split; [easy|lia]).
  - repeat constructor; unfold int64_max; lia.
Qed.
