(* The calendar: the day numbers of abseil count day by day. *)
From Coq Require Import ZArith List Bool Lia.
From Verif Require Import Base M_Overflow.
From Verif Require Import M_Civil S_Convert.
Import ListNotations.
Open Scope Z_scope.

(** ** Checking a finite range by computation *)
Definition check (p : Z -> bool) (n : positive) : bool :=
  snd (Pos.iter (fun '(z, b) => (z + 1, b && p z)) (0, true) n).
Lemma check_spec p n : check p n = true -> forall z, 0 <= z < Z.pos n -> p z = true.
Proof.
  unfold check.
  assert (G : fst (Pos.iter (fun '(z, b) => (z + 1, b && p z)) (0, true) n) = Z.pos n /\
              (snd (Pos.iter (fun '(z, b) => (z + 1, b && p z)) (0, true) n) = true ->
               forall z, 0 <= z < Z.pos n -> p z = true)).
  { induction n as [|n [IH1 IH2]] using Pos.peano_ind.
    - cbn. split; [easy|]. intros H z Hz. now replace z with 0 by lia.
    - rewrite Pos.iter_succ. destruct (Pos.iter _ _ n) as [z0 b0] eqn:E. cbn [fst snd] in *. subst z0.
      split; [lia|]. intros H z Hz. apply andb_true_iff in H as [Hb Hp].
      destruct (Z.eq_dec z (Z.pos n)) as [->|N]; [easy|]. apply IH2; [easy|lia]. }
  apply G.
Qed.

(** ** Periods of 400 years *)
Lemma leap_400 y e : leap (y + e * 400) = leap y.
Proof.
  unfold leap. replace (y + e * 400) with (y + e * 100 * 4) at 1 by lia. rewrite Z.mod_add by lia.
  replace (y + e * 400) with (y + e * 4 * 100) at 1 by lia. rewrite !Z.mod_add by lia. easy.
Qed.
Lemma month_length_400 y e m : month_length (y + e * 400) m = month_length y m.
Proof. unfold month_length. now rewrite leap_400. Qed.
Definition shift (e : Z) (x : date) : date := let '(y, m, d) := x in (y + e * 400, m, d).
Lemma next_day_shift e x : next_day (shift e x) = shift e (next_day x).
Proof.
  destruct x as [[y m] d]. unfold next_day, shift. rewrite month_length_400.
  destruct (d <? _); [easy|]. destruct (m <? 12); [easy|]. f_equal. f_equal. lia.
Qed.
Lemma date_ok_shift e x : date_ok (shift e x) <-> date_ok x.
Proof. destruct x as [[y m] d]. unfold date_ok, shift. now rewrite month_length_400. Qed.

(* the date of a day of the first era *)
Definition era_date (doe : Z) : date :=
  let yoe := (doe - doe / 1460 + doe / 36524 - doe / 146096) / 365 in
  let doy := doe - (365 * yoe + yoe / 4 - yoe / 100) in
  let mp := (5 * doy + 2) / 153 in
  let d := doy - (153 * mp + 2) / 5 + 1 in
  let m := if mp <? 10 then mp + 3 else mp - 9 in
  (yoe + (if m <=? 2 then 1 else 0), m, d).
Lemma civil_era n : civil_from_days n = shift ((n + 719468) / 146097) (era_date ((n + 719468) mod 146097)).
Proof.
  unfold civil_from_days, era_date, shift. cbv zeta. f_equal. f_equal. lia.
Qed.
Lemma ymd_ord_shift e y m d : ymd_ord (y + e * 400) m d = ymd_ord y m d + e * 146097.
Proof.
  unfold ymd_ord. cbv zeta.
  replace (if m <=? 2 then y + e * 400 - 1 else y + e * 400) with ((if m <=? 2 then y - 1 else y) + e * 400)
    by (destruct (m <=? 2); lia).
  set (k := if m <=? 2 then y - 1 else y).
  assert (Q : forall x, Z.quot (if 0 <=? x then x else x - 399) 400 = x / 400).
  { intros x. destruct (0 <=? x) eqn:E; [rewrite Z.quot_div_nonneg by lia; easy|].
    assert (Z.quot (x - 399) 400 = - ((399 - x) / 400)) as ->.
    { rewrite <- Z.quot_div_nonneg by lia. rewrite <- Z.quot_opp_l by lia. f_equal. lia. }
    pose proof (Z.div_mod (399 - x) 400 ltac:(lia)). pose proof (Z.mod_pos_bound (399 - x) 400 ltac:(lia)).
    apply Z.div_unique with (r := x + (399 - x) / 400 * 400); lia. }
  rewrite !Q, Z.div_add by lia.
  replace (k + e * 400 - (k / 400 + e) * 400) with (k - k / 400 * 400) by lia. lia.
Qed.
Definition date_eqb (x y : date) : bool :=
  let '(a, b, c) := x in let '(a', b', c') := y in (a =? a') && (b =? b') && (c =? c').
Lemma date_eqb_eq x y : date_eqb x y = true -> x = y.
Proof. destruct x as [[a b] c], y as [[a' b'] c']. cbn. intros H. f_equal; [f_equal|]; lia. Qed.
Definition date_okb (x : date) : bool :=
  let '(y, m, d) := x in (1 <=? m) && (m <=? 12) && (1 <=? d) && (d <=? month_length y m).
Lemma date_okb_ok x : date_okb x = true <-> date_ok x.
Proof. destruct x as [[y m] d]. cbn. lia. Qed.

(* The years of an era begin in March; [before y] days lie before the year y, which has
   [len y] days. *)
Definition before (y : Z) : Z := 365 * y + y / 4 - y / 100.
Definition len (y : Z) : Z := if leap (y + 1) then 366 else 365.
Definition year_of (doe : Z) : Z := (doe - doe / 1460 + doe / 36524 - doe / 146096) / 365.
Definition month_day (doy : Z) : Z * Z :=
  let mp := (5 * doy + 2) / 153 in
  (if mp <? 10 then mp + 3 else mp - 9, doy - (153 * mp + 2) / 5 + 1).
Definition day_of (m d : Z) : Z := (153 * (m + (if 2 <? m then -3 else 9)) + 2) / 5 + d - 1.
Definition length_of (lp : bool) (m : Z) : Z :=
  if m =? 2 then (if lp then 29 else 28) else if (m =? 4) || (m =? 6) || (m =? 9) || (m =? 11) then 30 else 31.
Lemma length_of_month y m : month_length y m = length_of (leap y) m.
Proof. unfold month_length, length_of. destruct (m =? 2), (leap y); reflexivity. Qed.

Lemma div_succ n k : 0 < k -> n / k <= (n + 1) / k <= n / k + 1.
Proof.
  intros K. split; [apply Z.div_le_mono; lia|].
  replace (n / k + 1) with ((n + 1 * k) / k) by (rewrite Z.div_add; lia). apply Z.div_le_mono; lia.
Qed.
Lemma year_of_mono a b : 0 <= a <= b -> b < 146097 -> year_of a <= year_of b.
Proof.
  intros A B. unfold year_of. apply Z.div_le_mono; [lia|].
  set (g := fun n => n - n / 1460 + n / 36524 - n / 146096). change (g a <= g b).
  assert (forall k : nat, a + Z.of_nat k < 146097 -> g a <= g (a + Z.of_nat k)) as G.
  { induction k as [|k IH]; intros Hk; [rewrite Z.add_0_r; lia|]. etransitivity; [apply IH; lia|].
    rewrite Nat2Z.inj_succ. replace (a + Z.succ (Z.of_nat k)) with (a + Z.of_nat k + 1) by lia.
    set (n := a + Z.of_nat k) in *. assert (0 <= n < 146096) as Hn by lia. unfold g.
    destruct (Z.eq_dec n 146095) as [->|N]; [vm_compute; discriminate|].
    rewrite (Z.div_small (n + 1) 146096), (Z.div_small n 146096) by lia.
    pose proof (div_succ n 1460 ltac:(lia)). pose proof (div_succ n 36524 ltac:(lia)). lia. }
  replace b with (a + Z.of_nat (Z.to_nat (b - a))) by lia. apply G. lia.
Qed.
Lemma years_checked : check (fun y =>
  (year_of (before y) =? y) && (year_of (before y + len y - 1) =? y) && (before y + len y <=? 146097) &&
  (0 <=? before y) && (if y =? 399 then before y + len y =? 146097 else before y + len y =? before (y + 1))) 400 = true.
Proof. vm_cast_no_check (eq_refl true). Qed.
Lemma year_facts y : 0 <= y < 400 -> year_of (before y) = y /\ year_of (before y + len y - 1) = y /\ before y + len y <= 146097 /\
  0 <= before y /\ (if y =? 399 then before y + len y = 146097 else before y + len y = before (y + 1)).
Proof.
  intros H. pose proof (check_spec _ _ years_checked y H) as C. cbv beta in C. rewrite !andb_true_iff in C.
  destruct C as [[[[A B] C] D] E]. destruct (y =? 399); lia.
Qed.
Lemma year_of_ok y doy : 0 <= y < 400 -> 0 <= doy < len y -> year_of (before y + doy) = y.
Proof.
  intros Hy Hd. destruct (year_facts y Hy) as (A & B & C & D & _).
  pose proof (year_of_mono (before y) (before y + doy) ltac:(lia) ltac:(lia)).
  pose proof (year_of_mono (before y + doy) (before y + len y - 1) ltac:(lia) ltac:(lia)). lia.
Qed.
Lemma year_exists doe : 0 <= doe < 146097 -> exists y doy, 0 <= y < 400 /\ 0 <= doy < len y /\ doe = before y + doy.
Proof.
  intros H. assert (forall n : nat, Z.of_nat n < 400 -> doe < before (Z.of_nat n) + len (Z.of_nat n) ->
    exists y doy, 0 <= y < 400 /\ 0 <= doy < len y /\ doe = before y + doy) as G.
  { induction n as [|n IH]; intros Hn B.
    - exists 0, doe. change (before (Z.of_nat 0)) with 0 in B. change (before 0) with 0. change (Z.of_nat 0) with 0 in B. lia.
    - destruct (Z_lt_ge_dec doe (before (Z.of_nat (S n)))) as [L|L].
      + apply IH; [lia|]. destruct (year_facts (Z.of_nat n) ltac:(lia)) as (_ & _ & _ & _ & E).
        rewrite (proj2 (Z.eqb_neq _ _)) in E by lia. rewrite Nat2Z.inj_succ in L. unfold Z.succ in L. lia.
      + exists (Z.of_nat (S n)), (doe - before (Z.of_nat (S n))). lia. }
  apply (G 399%nat); [reflexivity|]. destruct (year_facts 399 ltac:(lia)) as (_ & _ & _ & _ & E). change (Z.of_nat 399) with 399.
  change (399 =? 399) with true in E. cbn iota in E. lia.
Qed.
Lemma era_date_year y doy : 0 <= y < 400 -> 0 <= doy < len y ->
  era_date (before y + doy) = (y + (if fst (month_day doy) <=? 2 then 1 else 0), fst (month_day doy), snd (month_day doy)).
Proof.
  intros Hy Hd. unfold era_date. cbv zeta. fold (year_of (before y + doy)). rewrite year_of_ok by easy.
  fold (before y). replace (before y + doy - before y) with doy by lia. reflexivity.
Qed.
Definition late (m : Z) : Z := if m <=? 2 then 1 else 0.
Definition next_md (lp : bool) (m d : Z) : Z * Z * Z :=
  if d <? length_of lp m then (0, m, d + 1) else if m <? 12 then (0, m + 1, 1) else (1, 1, 1).
Lemma next_day_md y m d : next_day (y, m, d) = (y + fst (fst (next_md (leap y) m d)), snd (fst (next_md (leap y) m d)), snd (next_md (leap y) m d)).
Proof.
  unfold next_day, next_md. rewrite length_of_month. destruct (d <? _); [|destruct (m <? 12)]; cbn [fst snd]; rewrite ?Z.add_0_r; reflexivity.
Qed.
Definition days (lp : bool) : Z := if lp then 366 else 365.
(* each day of a year, leap or not *)
Definition day_check (lp : bool) (doy : Z) : bool :=
  let m := fst (month_day doy) in let d := snd (month_day doy) in let x := next_md lp m d in
  negb (doy <? days lp) ||
  ((1 <=? m) && (m <=? 12) && (1 <=? d) && (d <=? length_of lp m) && (day_of m d =? doy) &&
   Bool.eqb (m <=? 2) (306 <=? doy) &&
   (if doy + 1 <? days lp
    then (late m + fst (fst x) =? late (fst (month_day (doy + 1)))) && (snd (fst x) =? fst (month_day (doy + 1))) &&
         (snd x =? snd (month_day (doy + 1)))
    else (fst (fst x) =? 0) && (snd (fst x) =? 3) && (snd x =? 1))).
Lemma days_checked : check (fun doy => day_check true doy && day_check false doy) 366 = true.
Proof. vm_cast_no_check (eq_refl true). Qed.
Lemma day_facts lp doy : 0 <= doy < days lp ->
  let m := fst (month_day doy) in let d := snd (month_day doy) in let x := next_md lp m d in
  1 <= m <= 12 /\ 1 <= d <= length_of lp m /\ day_of m d = doy /\ (m <= 2 <-> 306 <= doy) /\
  (doy + 1 < days lp -> late m + fst (fst x) = late (fst (month_day (doy + 1))) /\ snd (fst x) = fst (month_day (doy + 1)) /\
     snd x = snd (month_day (doy + 1))) /\
  (doy + 1 = days lp -> fst (fst x) = 0 /\ snd (fst x) = 3 /\ snd x = 1).
Proof.
  intros H. pose proof (check_spec _ _ days_checked doy) as C. cbv beta in C.
  assert (day_check lp doy = true) as K.
  { specialize (C ltac:(unfold days in H; destruct lp; lia)). apply andb_true_iff in C. now destruct lp. }
  clear C. unfold day_check in K. cbv zeta in *. set (m := fst (month_day doy)) in *. set (d := snd (month_day doy)) in *.
  set (x := next_md lp m d) in *. assert (doy <? days lp = true) as L by lia. rewrite L in K. cbn [negb orb] in K. rewrite !andb_true_iff in K.
  destruct K as [[[[[[A B] C] D] E] F] G]. apply eqb_prop in F.
  repeat split; try lia.
  all: destruct (doy + 1 <? days lp) eqn:Q; lia.
Qed.
(* each month and day *)
Definition month_check (lp : bool) (k : Z) : bool :=
  let m := k / 31 + 1 in let d := k mod 31 + 1 in let doy := day_of m d in
  negb (d <=? length_of lp m) ||
  ((0 <=? doy) && (doy <? days lp) && ((m <=? 2) || (doy <? 365)) && (fst (month_day doy) =? m) && (snd (month_day doy) =? d)).
Lemma months_checked : check (fun k => month_check true k && month_check false k) 372 = true.
Proof. vm_cast_no_check (eq_refl true). Qed.
Lemma month_facts lp m d : 1 <= m <= 12 -> 1 <= d <= length_of lp m ->
  0 <= day_of m d < days lp /\ month_day (day_of m d) = (m, d).
Proof.
  intros Hm Hd. assert (Hd' : d <= 31) by (unfold length_of in Hd; destruct (m =? 2), lp, (m =? 4), (m =? 6), (m =? 9), (m =? 11); cbn in Hd; lia).
  pose proof (check_spec _ _ months_checked ((m - 1) * 31 + (d - 1)) ltac:(lia)) as C. cbv beta in C.
  assert (month_check lp ((m - 1) * 31 + (d - 1)) = true) as K by (apply andb_true_iff in C; now destruct lp).
  unfold month_check in K. cbv zeta in K.
  assert (((m - 1) * 31 + (d - 1)) / 31 = m - 1) as E1 by (symmetry; apply Z.div_unique with (r := d - 1); lia).
  assert (((m - 1) * 31 + (d - 1)) mod 31 = d - 1) as E2 by (symmetry; apply Z.mod_unique with (q := m - 1); lia).
  rewrite E1, E2 in K. replace (m - 1 + 1) with m in K by lia. replace (d - 1 + 1) with d in K by lia.
  assert (d <=? length_of lp m = true) as L by lia. rewrite L in K. cbn [negb orb] in K. rewrite !andb_true_iff in K.
  destruct K as [[[[A B] _] C1] C2]. split; [lia|]. rewrite (surjective_pairing (month_day _)). f_equal; lia.
Qed.
Lemma length_late y m : length_of (leap (y + late m)) m = length_of (leap (y + 1)) m.
Proof. unfold late, length_of. destruct (m =? 2) eqn:E; [|reflexivity]. assert (m <=? 2 = true) as -> by lia. reflexivity. Qed.
Lemma next_md_late y m d : next_md (leap (y + late m)) m d = next_md (leap (y + 1)) m d.
Proof. unfold next_md. now rewrite length_late. Qed.
Lemma ymd_ord_year y m d : 0 <= y < 400 -> 1 <= m <= 12 -> ymd_ord (y + late m) m d = before y + day_of m d - 719468.
Proof.
  intros Hy Hm. unfold ymd_ord. cbv zeta. assert ((if m <=? 2 then y + late m - 1 else y + late m) = y) as ->.
  { unfold late. destruct (m <=? 2); lia. }
  assert (0 <=? y = true) as -> by lia. rewrite Z.quot_small by lia. unfold before, day_of.
  replace (y - 0 * 400) with y by lia. rewrite !Z.quot_div_nonneg by (try destruct (2 <? m) eqn:?; lia). lia.
Qed.

(* every day of an era: its date exists, has its number, and the next day is next *)
Lemma era_checked doe : 0 <= doe < 146097 ->
  let x := era_date doe in let '(y, m, d) := x in
  date_ok x /\ ymd_ord y m d = doe - 719468 /\
  next_day x = (if doe =? 146096 then shift 1 (era_date 0) else era_date (doe + 1)) /\
  (y <= 399 \/ 146037 <= doe) /\ (1 <= y \/ doe < 306 /\ 0 <= y) /\ y <= 400.
Proof.
  intros H. destruct (year_exists doe H) as (y & doy & Hy & Hd & ->). cbv zeta. rewrite era_date_year by easy.
  fold (late (fst (month_day doy))). pose proof (day_facts (leap (y + 1)) doy Hd) as F. cbv zeta in F.
  set (m := fst (month_day doy)) in *. set (d := snd (month_day doy)) in *.
  destruct F as (Fm & Fd & Fo & Fl & Fn & Fe). destruct (year_facts y Hy) as (_ & _ & Yb & Y0 & Ye).
  assert (late m = if 306 <=? doy then 1 else 0) as Lm by (unfold late; destruct (m <=? 2) eqn:?, (306 <=? doy) eqn:?; lia).
  split; [|split; [|split; [|split; [|split]]]].
  - unfold date_ok. rewrite length_of_month, length_late. lia.
  - rewrite ymd_ord_year by easy. lia.
  - rewrite next_day_md, next_md_late. set (x := next_md (leap (y + 1)) m d) in *.
    destruct (Z.eq_dec (doy + 1) (len y)) as [E|E].
    + destruct (Fe E) as (-> & -> & ->). assert (late m = 1) as ->.
      { rewrite Lm. assert (306 <=? doy = true) as ->; [|reflexivity]. unfold len in E. destruct (leap (y + 1)); lia. }
      destruct (y =? 399) eqn:Y9.
      * assert (before y + doy =? 146096 = true) as -> by lia. change (era_date 0) with (0, 3, 1). cbn [shift]. f_equal. f_equal. lia.
      * assert (before y + doy =? 146096 = false) as ->.
        { destruct (year_facts (y + 1) ltac:(lia)) as (_ & _ & Q & _). unfold len in Q. destruct (leap (y + 1 + 1)); lia. }
        replace (before y + doy + 1) with (before (y + 1) + 0) by lia. rewrite era_date_year by (unfold len; destruct (leap (y + 1 + 1)); lia).
        change (month_day 0) with (3, 1). cbn [fst snd]. cbn. f_equal; try (f_equal; lia).
    + assert (before y + doy =? 146096 = false) as -> by lia.
      assert (doy + 1 < len y) as L by lia. destruct (Fn L) as (A & B & C). rewrite B, C.
      replace (before y + doy + 1) with (before y + (doy + 1)) by lia. rewrite era_date_year by lia.
      fold (late (fst (month_day (doy + 1)))). f_equal. f_equal. lia.
  - destruct (Z.eq_dec y 399) as [->|N]; [|left; rewrite Lm; destruct (306 <=? doy); lia].
    rewrite Lm. destruct (306 <=? doy) eqn:Q; [|lia]. right. change (before 399) with 145731. lia.
  - destruct (Z.eq_dec y 0) as [->|N]; [|left; rewrite Lm; destruct (306 <=? doy); lia].
    rewrite Lm. destruct (306 <=? doy) eqn:Q; [lia|]. right. change (before 0) with 0. lia.
  - rewrite Lm. destruct (306 <=? doy); lia.
Qed.
(* every date of an era, counted from March *)
Lemma dates_checked y m d : 0 <= y < 400 -> date_ok (y + late m, m, d) ->
  civil_from_days (ymd_ord (y + late m) m d) = (y + late m, m, d).
Proof.
  intros Hy [Hm Hd]. rewrite length_of_month, length_late in Hd.
  destruct (month_facts _ m d Hm Hd) as [D M]. rewrite ymd_ord_year by easy. rewrite civil_era.
  destruct (year_facts y Hy) as (_ & _ & Yb & Y0 & _).
  assert (days (leap (y + 1)) = len y) as Dl by reflexivity. rewrite Dl in D.
  replace (before y + day_of m d - 719468 + 719468) with (before y + day_of m d) by lia.
  rewrite Z.div_small, Z.mod_small by lia. rewrite era_date_year by easy. rewrite M. cbn [fst snd shift]. fold (late m). f_equal. f_equal. lia.
Qed.

Lemma civil_ok n : date_ok (civil_from_days n).
Proof.
  rewrite civil_era, date_ok_shift.
  pose proof (era_checked ((n + 719468) mod 146097) (Z.mod_pos_bound (n + 719468) 146097 ltac:(lia))) as C.
  cbv zeta in C. destruct (era_date _) as [[y m] d]. apply C.
Qed.
Lemma ord_civil n : let '(y, m, d) := civil_from_days n in ymd_ord y m d = n.
Proof.
  rewrite civil_era.
  pose proof (era_checked ((n + 719468) mod 146097) (Z.mod_pos_bound (n + 719468) 146097 ltac:(lia))) as C.
  cbv zeta in C. destruct (era_date _) as [[y m] d]. cbn [shift].
  rewrite ymd_ord_shift. destruct C as (_ & C & _).
  pose proof (Z.div_mod (n + 719468) 146097 ltac:(lia)). lia.
Qed.
Lemma civil_next n : civil_from_days (n + 1) = next_day (civil_from_days n).
Proof.
  rewrite !civil_era.
  set (z := n + 719468). replace (n + 1 + 719468) with (z + 1) by lia.
  pose proof (Z.mod_pos_bound z 146097 ltac:(lia)) as B.
  pose proof (era_checked (z mod 146097) B) as C.
  cbv zeta in C. rewrite next_day_shift.
  pose proof (Z.div_mod z 146097 ltac:(lia)) as D.
  destruct (z mod 146097 =? 146096) eqn:E.
  - assert ((z + 1) / 146097 = z / 146097 + 1) as -> by (symmetry; apply Z.div_unique with (r := 0); lia).
    assert ((z + 1) mod 146097 = 0) as -> by (symmetry; apply Z.mod_unique with (q := z / 146097 + 1); lia).
    destruct (era_date (z mod 146097)) as [[y m] d]. destruct C as (_ & _ & C & _).
    rewrite C. destruct (era_date 0) as [[y0 m0] d0]. cbn. f_equal. f_equal. lia.
  - assert ((z + 1) / 146097 = z / 146097) as -> by (symmetry; apply Z.div_unique with (r := z mod 146097 + 1); lia).
    assert ((z + 1) mod 146097 = z mod 146097 + 1) as -> by (symmetry; apply Z.mod_unique with (q := z / 146097); lia).
    destruct (era_date (z mod 146097)) as [[y m] d]. destruct C as (_ & _ & C & _). now rewrite C.
Qed.
(* the years 1 to 9999 *)
Lemma civil_years n y m d : civil_from_days n = (y, m, d) -> -719162 <= n <= 2932896 -> 1 <= y <= 9999.
Proof.
  rewrite civil_era. intros E Hn. set (z := n + 719468) in *.
  pose proof (Z.mod_pos_bound z 146097 ltac:(lia)) as B.
  pose proof (era_checked (z mod 146097) B) as C. cbv zeta in C.
  pose proof (Z.div_mod z 146097 ltac:(lia)) as D.
  destruct (era_date (z mod 146097)) as [[y0 m0] d0]. cbn [shift] in E. injection E as <- <- <-.
  destruct C as (_ & _ & _ & C2 & C1 & C3).
  set (e := z / 146097) in *. set (r := z mod 146097) in *. clearbody e r.
  assert (0 <= e <= 24) by lia.
  lia.
Qed.
Lemma civil_ord y m d : date_ok (y, m, d) -> civil_from_days (ymd_ord y m d) = (y, m, d).
Proof.
  intros H. set (e := (y - late m) / 400). set (k := (y - late m) mod 400).
  assert (Y : y = (k + late m) + e * 400) by (unfold k, e; pose proof (Z.div_mod (y - late m) 400 ltac:(lia)); lia).
  assert (Hk : 0 <= k < 400) by (apply Z.mod_pos_bound; lia).
  rewrite Y in H |- *. clearbody e k. clear Y y. rewrite ymd_ord_shift.
  apply (date_ok_shift e (k + late m, m, d)) in H. pose proof (dates_checked k m d Hk H) as C.
  rewrite civil_era in C |- *.
  replace (ymd_ord (k + late m) m d + e * 146097 + 719468) with (ymd_ord (k + late m) m d + 719468 + e * 146097) by lia.
  rewrite Z.div_add, Z.mod_add by lia.
  destruct (era_date _) as [[y0 m0] d0]. cbn [shift] in C |- *. injection C as C1 C2 C3. f_equal; [f_equal|]; lia.
Qed.

(** ** The calendar counted day by day *)
Lemma next_day_ok x : date_ok x -> date_ok (next_day x).
Proof.
  destruct x as [[y m] d]. intros [A B]. unfold next_day. destruct (d <? month_length y m) eqn:E; [cbn; lia|].
  assert (L : forall y m, 28 <= month_length y m).
  { intros y' m'. unfold month_length. destruct (m' =? 2), (leap y'); try lia; destruct (_ || _); lia. }
  destruct (m <? 12) eqn:E2; cbn; [specialize (L y (m + 1))|specialize (L (y + 1) 1)]; lia.
Qed.
Lemma next_day_inj x x' : date_ok x -> date_ok x' -> next_day x = next_day x' -> x = x'.
Proof.
  destruct x as [[y m] d], x' as [[y' m'] d']. intros [A B] [A' B']. unfold next_day.
  destruct (d <? month_length y m) eqn:E, (d' <? month_length y' m') eqn:E'; try (destruct (m <? 12) eqn:F); try (destruct (m' <? 12) eqn:F');
    intros X; injection X; clear X; intros; try lia;
    assert (m = m') by lia; assert (y = y') by lia; subst m' y'; f_equal; lia.
Qed.
Theorem calendar_civil n x : calendar n x <-> civil_from_days n = x.
Proof.
  assert (Sound : forall n x, calendar n x -> civil_from_days n = x).
  { clear. intros n x H. induction H as [|n x H IH|n x Ok H IH].
    - reflexivity.
    - now rewrite civil_next, IH.
    - apply next_day_inj; [apply civil_ok|easy|]. now rewrite <- civil_next. }
  split; [apply Sound|]. intros <-.
  assert (P : forall k : nat, calendar (Z.of_nat k) (civil_from_days (Z.of_nat k))).
  { induction k as [|k IH]; [exact cal_epoch|]. rewrite Nat2Z.inj_succ. unfold Z.succ. rewrite civil_next. now constructor. }
  assert (N : forall k : nat, calendar (- Z.of_nat k) (civil_from_days (- Z.of_nat k))).
  { induction k as [|k IH]; [exact cal_epoch|]. apply cal_before; [apply civil_ok|].
    rewrite <- civil_next. replace (- Z.of_nat (S k) + 1) with (- Z.of_nat k) by lia. easy. }
  destruct (Z_le_gt_dec 0 n).
  - rewrite <- (Z2Nat.id n) by lia. apply P.
  - replace n with (- Z.of_nat (Z.to_nat (- n))) by lia. apply N.
Qed.
Lemma calendar_ok n x : calendar n x -> date_ok x.
Proof. intros H. apply calendar_civil in H as <-. apply civil_ok. Qed.
Lemma calendar_ord n y m d : calendar n (y, m, d) -> ymd_ord y m d = n.
Proof. intros H. apply calendar_civil in H. pose proof (ord_civil n) as O. now rewrite H in O. Qed.
Lemma ord_calendar y m d : date_ok (y, m, d) -> calendar (ymd_ord y m d) (y, m, d).
Proof. intros H. apply calendar_civil. now apply civil_ord. Qed.
Lemma clock_civil s y m d h mi c : clock s (y, m, d) h mi c <-> civil_of_seconds s = mkCivil y m d h mi c.
Proof.
  split.
  - intros (n & C & Hh & Hm & Hc & ->). unfold civil_of_seconds.
    assert ((n * 86400 + h * 3600 + mi * 60 + c) / 86400 = n) as -> by (symmetry; apply Z.div_unique with (r := h * 3600 + mi * 60 + c); lia).
    assert ((n * 86400 + h * 3600 + mi * 60 + c) mod 86400 = h * 3600 + mi * 60 + c) as -> by (symmetry; apply Z.mod_unique with (q := n); lia).
    apply calendar_civil in C. rewrite C. f_equal.
    + symmetry. apply Z.div_unique with (r := mi * 60 + c); lia.
    + assert ((h * 3600 + mi * 60 + c) mod 3600 = mi * 60 + c) as -> by (symmetry; apply Z.mod_unique with (q := h); lia).
      symmetry. apply Z.div_unique with (r := c); lia.
    + symmetry. apply Z.mod_unique with (q := h * 60 + mi); lia.
  - unfold civil_of_seconds. destruct (civil_from_days (s / 86400)) as [[y0 m0] d0] eqn:E.
    intros [= <- <- <- <- <- <-]. exists (s / 86400). split; [now apply calendar_civil|].
    pose proof (Z.div_mod s 86400 ltac:(lia)). pose proof (Z.mod_pos_bound s 86400 ltac:(lia)).
    set (r := s mod 86400) in *.
    pose proof (Z.div_mod r 3600 ltac:(lia)). pose proof (Z.mod_pos_bound r 3600 ltac:(lia)).
    pose proof (Z.div_mod (r mod 3600) 60 ltac:(lia)). pose proof (Z.mod_pos_bound (r mod 3600) 60 ltac:(lia)).
    assert (r mod 60 = r mod 3600 mod 60).
    { symmetry. apply Z.mod_unique with (q := r / 3600 * 60 + r mod 3600 / 60); [left; apply Z.mod_pos_bound; lia|lia]. }
    set (a := r / 3600) in *. set (b := r mod 3600 / 60) in *. set (c := r mod 60) in *.
    assert (0 <= a) by (apply Z.div_pos; lia). assert (0 <= b) by (apply Z.div_pos; lia). lia.
Qed.
