(* Lemmas about reading numbers, durations and times from texts. *)
From Coq Require Import ZArith String List Bool Lia.
From Verif Require Import Base M_Overflow M_Format S_Time S_Format L_Format.
From Verif Require Import M_Civil S_Convert L_Calendar.
Import ListNotations.
Open Scope list_scope.
Open Scope Z_scope.

(** ** Digits *)
Lemma digit_is c d : digit_value false c = Some d -> 0 <= d < 10 -> is_digit c = true /\ d = c - 48.
Proof.
  unfold digit_value, is_digit. destruct ((48 <=? c) && (c <=? 57)); [intros [= <-]; easy|].
  destruct (_ && _) eqn:E; [|easy]. intros [= <-]. lia.
Qed.
Lemma is_digit_value c : is_digit c = true -> digit_value false c = Some (c - 48) /\ 0 <= c - 48 < 10.
Proof. unfold digit_value, is_digit. intros H. rewrite H. split; [easy|lia]. Qed.
Notation value_of := (fun a c => a * 10 + (c - 48)).
Lemma place_digits t n : place_value false 10 t n -> forallb is_digit t = true.
Proof.
  intros H. induction H as [|t n c d H IH Hc Hd]; [easy|]. rewrite forallb_app, IH. cbn.
  now destruct (digit_is c d Hc Hd) as [-> _].
Qed.
Lemma place_fold t n : place_value false 10 t n -> forall a, fold_left value_of t a = a * 10 ^ Z.of_nat (length t) + n.
Proof.
  intros H. induction H as [|t n c d H IH Hc Hd]; intros a; [cbn; lia|].
  rewrite fold_left_app, IH, app_length. cbn [fold_left length]. destruct (digit_is c d Hc Hd) as [_ ->].
  rewrite Nat2Z.inj_add, Z.pow_add_r by lia. cbn. lia.
Qed.
Lemma digits_place t : forallb is_digit t = true -> place_value false 10 t (fold_left value_of t 0).
Proof.
  induction t as [|c t IH] using rev_ind; [constructor|]. rewrite forallb_app, fold_left_app. cbn.
  intros H. apply andb_true_iff in H as [A B]. rewrite andb_true_r in B.
  destruct (is_digit_value c B). econstructor; eauto.
Qed.
Lemma decimal_place t n : decimal t = Some n <-> place_value false 10 t n.
Proof.
  unfold decimal. split.
  - destruct (forallb is_digit t) eqn:E; [|easy]. intros [= <-]. now apply digits_place.
  - intros H. rewrite (place_digits t n H). f_equal. rewrite (place_fold t n H). lia.
Qed.
Lemma place_nonneg t n : place_value false 10 t n -> 0 <= n < 10 ^ Z.of_nat (length t).
Proof.
  intros H. induction H as [|t n c d H IH Hc Hd]; [cbn; lia|].
  rewrite app_length, Nat2Z.inj_add, Z.pow_add_r by lia. cbn. lia.
Qed.
Lemma place_cons c t n : place_value false 10 (c :: t) n -> is_digit c = true.
Proof. intros H. apply place_digits in H. cbn in H. now apply andb_true_iff in H. Qed.
(* the rest of a text that does not begin with a digit *)
Definition no_digit (s : list Z) : Prop := match s with c :: _ => is_digit c = false | [] => True end.

Lemma read_digits_gen t r : forallb is_digit t = true -> no_digit r -> forall acc count,
  read_digits (t ++ r) acc count = (fold_left value_of t acc, (count + length t)%nat, r).
Proof.
  intros H Hr. induction t as [|c t IH]; intros acc count.
  - cbn [app fold_left length]. rewrite Nat.add_0_r. destruct r as [|x r]; [easy|]. cbn in Hr |- *. now rewrite Hr.
  - cbn in H. apply andb_true_iff in H as [A B]. cbn [app read_digits fold_left length]. rewrite A, IH by easy. f_equal. f_equal. lia.
Qed.
Lemma read_digits_place t n r : place_value false 10 t n -> no_digit r -> read_digits (t ++ r) 0 0 = (n, length t, r).
Proof. intros H Hr. rewrite read_digits_gen, (place_fold t n H) by (eauto using place_digits). f_equal. Qed.
Lemma read_fraction_gen t r : forallb is_digit t = true -> no_digit r -> forall part k,
  0 <= k -> k + Z.of_nat (length t) <= 18 ->
  read_fraction (t ++ r) part (10 ^ k) = (fold_left value_of t part, 10 ^ (k + Z.of_nat (length t)), r).
Proof.
  intros H Hr. induction t as [|c t IH]; intros part k Hk L.
  - cbn [app fold_left length]. rewrite Z.add_0_r. destruct r as [|x r]; [easy|]. cbn in Hr |- *. now rewrite Hr.
  - cbn in H. apply andb_true_iff in H as [A B]. cbn [app read_fraction fold_left length] in *. rewrite A.
    assert (10 ^ k <=? int64_max / 10 = true) as ->.
    { apply Z.leb_le. apply Z.le_trans with (10 ^ 17); [apply Z.pow_le_mono_r; lia|]. vm_compute. discriminate. }
    replace (10 ^ k * 10) with (10 ^ (k + 1)) by (rewrite Z.pow_add_r by lia; lia).
    rewrite IH by (easy || lia). f_equal. f_equal. f_equal. lia.
Qed.
Lemma read_fraction_place t n r : place_value false 10 t n -> no_digit r -> (length t <= 18)%nat ->
  read_fraction (t ++ r) 0 1 = (n, 10 ^ Z.of_nat (length t), r).
Proof.
  intros H Hr L. change 1 with (10 ^ 0) at 1. rewrite read_fraction_gen, (place_fold t n H) by (eauto using place_digits; lia).
  f_equal.
Qed.
Lemma read_width_gen t r : forallb is_digit t = true -> forall width acc count,
  match width with Some w => w = length t | None => no_digit r end ->
  read_width width (t ++ r) acc count = (fold_left value_of t acc, (count + length t)%nat, r).
Proof.
  induction t as [|c t IH]; intros H width acc count Hw.
  - cbn [app fold_left length]. rewrite Nat.add_0_r. destruct r as [|x r]; [easy|]. cbn.
    destruct width as [w|]; [subst w; easy|]. cbn in Hw. now rewrite Hw.
  - cbn in H. apply andb_true_iff in H as [A B]. cbn [app read_width fold_left length]. rewrite A.
    destruct width as [w|]; [subst w; cbn [length]|]; (rewrite IH; [f_equal; f_equal; lia|easy|easy]).
Qed.
Lemma no_minus c t r : is_digit c = true -> starts ((c :: t) ++ r) (str "-") = None.
Proof. cbn. unfold is_digit. intros H. assert (c =? 45 = false) as -> by lia. easy. Qed.
Lemma ParseInt_place t n r width min max : place_value false 10 t n -> t <> [] -> min <= n <= max ->
  match width with Some w => w = length t | None => no_digit r end ->
  ParseInt (t ++ r) width min max = Some (n, r).
Proof.
  intros H Ne Hn Hw. unfold ParseInt. destruct t as [|c t]; [easy|].
  rewrite (no_minus c t r) by (now apply place_cons in H).
  rewrite read_width_gen by (eauto using place_digits). rewrite (place_fold _ n H).
  cbn [length Nat.eqb Nat.add andb]. assert ((min <=? 0 * 10 ^ Z.of_nat (S (length t)) + n) && (0 * 10 ^ Z.of_nat (S (length t)) + n <=? max) = true) as -> by lia.
  easy.
Qed.

(** ** White space *)
Lemma isspace_space c : isspace c = true <-> space c.
Proof. unfold isspace, space. lia. Qed.
Lemma strip_front_spaces w s : Forall space w -> strip_front (w ++ s) = strip_front s.
Proof. intros H. induction H as [|c w Hc H IH]; [easy|]. cbn. now rewrite (proj2 (isspace_space c) Hc). Qed.
Definition plain_front (s : list Z) : Prop := match s with c :: _ => isspace c = false | [] => True end.
Lemma strip_front_plain s : plain_front s -> strip_front s = s.
Proof. destruct s as [|c s]; [easy|]. cbn. now intros ->. Qed.
Lemma strip_front_split s : exists w, Forall space w /\ s = w ++ strip_front s /\ plain_front (strip_front s).
Proof.
  induction s as [|c s (w & A & B & C)]; [now exists []|]. cbn. destruct (isspace c) eqn:E.
  - exists (c :: w). split; [constructor; [now apply isspace_space|easy]|]. cbn. split; [now f_equal|easy].
  - now exists [].
Qed.
Lemma strip_text w t w' : Forall space w -> Forall space w' -> plain_front t -> plain_front (rev t) ->
  strip (w ++ t ++ w') = t.
Proof.
  intros Hw Hw' P P'. unfold strip. rewrite strip_front_spaces by easy.
  destruct t as [|c t].
  - cbn [app]. rewrite <- (app_nil_r w'), strip_front_spaces by easy. easy.
  - rewrite (strip_front_plain (_ ++ w')) by easy. rewrite rev_app_distr, strip_front_spaces by (now apply Forall_rev).
    rewrite strip_front_plain by easy. apply rev_involutive.
Qed.
Lemma strip_split s : exists w w', Forall space w /\ Forall space w' /\ s = w ++ strip s ++ w'.
Proof.
  unfold strip. destruct (strip_front_split s) as (w & A & B & _).
  destruct (strip_front_split (rev (strip_front s))) as (u & A' & B' & _).
  exists w, (rev u). split; [easy|]. split; [now apply Forall_rev|].
  rewrite <- rev_app_distr, <- B', rev_involutive. easy.
Qed.
Lemma digit_plain c : is_digit c = true -> isspace c = false.
Proof. unfold is_digit, isspace. lia. Qed.
Lemma digits_plain t r : forallb is_digit t = true -> t <> [] -> plain_front (t ++ r).
Proof. destruct t as [|c t]; [easy|]. cbn. intros H _. apply andb_true_iff in H as [H _]. now apply digit_plain. Qed.
Lemma forallb_rev {A} (p : A -> bool) l : forallb p (rev l) = forallb p l.
Proof. induction l as [|a l IH]; [easy|]. cbn. rewrite forallb_app, IH. cbn. rewrite andb_true_r. apply andb_comm. Qed.

(** ** int and uint from texts *)
Lemma parse_sign_text w sign ds w' : Forall space w -> Forall space w' -> forallb is_digit ds = true -> ds <> [] ->
  (sign = [] \/ sign = text "+" \/ sign = text "-") ->
  parse_sign (w ++ sign ++ ds ++ w') = Some (match sign with [45] => true | _ => false end, ds).
Proof.
  intros Hw Hw' Hd Ne Hs. unfold parse_sign. rewrite app_assoc with (m := ds), strip_text; try easy.
  - destruct Hs as [->|[->| ->]]; destruct ds as [|c ds]; try easy.
    cbn. cbn in Hd. apply andb_true_iff in Hd as [Hd _]. unfold is_digit in Hd.
    assert (c =? 45 = false) as -> by lia. assert (c =? 43 = false) as -> by lia. easy.
  - destruct Hs as [->|[->| ->]]; [|easy|easy]. rewrite app_nil_l, <- (app_nil_r ds). now apply digits_plain.
  - rewrite rev_app_distr. apply digits_plain; [now rewrite forallb_rev|]. intros E. apply Ne.
    rewrite <- (rev_involutive ds), E. easy.
Qed.
Lemma parse_sign_inv s neg ds : parse_sign s = Some (neg, ds) ->
  ds <> [] /\ exists w sign w', s = w ++ sign ++ ds ++ w' /\ Forall space w /\ Forall space w' /\
    (neg = true /\ sign = text "-" \/ neg = false /\ (sign = [] \/ sign = text "+")).
Proof.
  unfold parse_sign. destruct (strip_split s) as (w & w' & A & B & E).
  destruct (strip s) as [|c t]; [easy|].
  destruct (c =? 45) eqn:E1; [|destruct (c =? 43) eqn:E2]; (destruct t as [|x t]; intros [= <- <-]; (split; [easy|])).
  - exists w, [45], w'. replace c with 45 in E by lia. split; [exact E|]. auto 6.
  - exists w, [43], w'. replace c with 43 in E by lia. split; [exact E|]. auto 7.
  - exists w, [], w'. split; [exact E|]. auto 7.
  - exists w, [], w'. split; [exact E|]. auto 7.
Qed.
Lemma SimpleAtoi_int64_spec s n : SimpleAtoi_int64 s = Some n <-> integer_text s n /\ - 2 ^ 63 <= n <= 2 ^ 63 - 1.
Proof.
  unfold SimpleAtoi_int64. split.
  - destruct (parse_sign s) as [[neg ds]|] eqn:E; [|easy].
    apply parse_sign_inv in E as (Ne & w & sign & w' & -> & A & B & C).
    destruct (decimal ds) as [m|] eqn:D; [|easy]. apply decimal_place in D.
    destruct (in_int64 _) eqn:I; [|easy]. intros [= <-]. unfold in_int64, int64_min, int64_max in I. split; [|lia].
    exists w, sign, ds, w', m. repeat split; try easy.
    destruct C as [[-> ->]|[-> C]]; auto.
  - intros [(w & sign & ds & w' & m & -> & A & B & Ne & D & C) R].
    rewrite parse_sign_text; try easy; [|eauto using place_digits|tauto].
    rewrite (proj2 (decimal_place ds m) D).
    assert (I : in_int64 n = true) by (unfold in_int64, int64_min, int64_max; lia).
    destruct C as [[[->| ->] ->]|[-> ->]]; cbn; now rewrite I.
Qed.
Lemma SimpleAtoi_uint64_spec s n : SimpleAtoi_uint64 s = Some n <-> natural_text s n /\ n <= 2 ^ 64 - 1.
Proof.
  unfold SimpleAtoi_uint64. split.
  - destruct (parse_sign s) as [[neg ds]|] eqn:E; [|easy].
    apply parse_sign_inv in E as (Ne & w & sign & w' & -> & A & B & C).
    destruct neg; [easy|]. destruct (decimal ds) as [m|] eqn:D; [|easy]. apply decimal_place in D.
    destruct (in_uint64 _) eqn:I; [|easy]. intros [= <-]. unfold in_uint64, uint64_max in I. split; [|lia].
    exists w, sign, ds, w'. repeat split; try easy. now destruct C as [[? _]|[_ C]].
  - intros [(w & sign & ds & w' & -> & A & B & Ne & D & C) R].
    rewrite parse_sign_text; try easy; [|eauto using place_digits|tauto].
    rewrite (proj2 (decimal_place ds n) D). pose proof (place_nonneg ds n D).
    assert (I : in_uint64 n = true) by (unfold in_uint64, uint64_max; lia).
    destruct C as [->| ->]; cbn; now rewrite I.
Qed.

(** ** Durations *)
Lemma starts_app p r : starts (p ++ r) p = Some r.
Proof. induction p as [|c p IH]; [now destruct r|]. cbn. now rewrite Z.eqb_refl. Qed.
Lemma unit_read u size r : In (u, size) units ->
  (u = text "m" -> starts r (text "s") = None) -> ConsumeDurationUnit (u ++ r) = Some (size, r).
Proof.
  intros H M. cbn in H.
  destruct H as [[= <- <-]|[[= <- <-]|[[= <- <-]|[[= <- <-]|[[= <- <-]|[[= <- <-]|[]]]]]]]; try (destruct r; reflexivity).
  specialize (M eq_refl). unfold ConsumeDurationUnit. cbn. destruct r as [|x r]; [easy|]. cbn in M |- *.
  destruct (x =? 115) eqn:E; [now destruct r|]. easy.
Qed.

Definition opens_term (r : list Z) : Prop := match r with c :: _ => is_digit c = true \/ c = 46 | [] => True end.
Lemma opens_no_s r : opens_term r -> starts r (text "s") = None.
Proof. destruct r as [|c r]; [easy|]. cbn. unfold is_digit. intros H. assert (c =? 115 = false) as -> by lia. easy. Qed.
Lemma unit_front u size r : In (u, size) units -> no_digit (u ++ r) /\ starts (u ++ r) (str ".") = None.
Proof.
  intros H. cbn in H.
  destruct H as [[= <- <-]|[[= <- <-]|[[= <- <-]|[[= <- <-]|[[= <- <-]|[[= <- <-]|[]]]]]]]; now cbn.
Qed.
Lemma units_size u size : In (u, size) units -> 0 < size <= 3600 * 10 ^ 9.
Proof.
  intros H. cbn in H.
  destruct H as [[= <- <-]|[[= <- <-]|[[= <- <-]|[[= <- <-]|[[= <- <-]|[[= <- <-]|[]]]]]]]; cbn; lia.
Qed.

(* absl_duration of a multiple of the sign *)
Definition sat (sign a : Z) : duration := absl_duration (sign * a).
Lemma sat_add sign a b : (sign = 1 \/ sign = -1) -> 0 <= a -> 0 <= b ->
  absl_add_dur (sat sign a) (sat sign b) = sat sign (a + b).
Proof.
  intros Hs Ha Hb. unfold sat, absl_duration.
  assert (M : forall x, 0 <= x -> in_int64 (sign * x / nanos_per_sec) = false -> forall y, x <= y ->
              in_int64 (sign * y / nanos_per_sec) = false /\ (sign * y <? 0) = (sign * x <? 0)).
  { intros x Hx E y Hy. unfold in_int64, int64_min, int64_max, nanos_per_sec in *.
    destruct Hs as [->| ->].
    - pose proof (Z.div_le_mono (1 * x) (1 * y) 1000000000 ltac:(lia) ltac:(lia)).
      assert (0 <= 1 * x / 1000000000) by (apply Z.div_pos; lia). lia.
    - pose proof (Z.div_le_mono (-1 * y) (-1 * x) 1000000000 ltac:(lia) ltac:(lia)).
      assert (-1 * x / 1000000000 <= 0) by (apply Z.div_le_upper_bound; lia).
      destruct (Z.eq_dec x 0) as [->|]; [cbn in E; discriminate|]. lia. }
  destruct (in_int64 (sign * a / nanos_per_sec)) eqn:Ea.
  - destruct (in_int64 (sign * b / nanos_per_sec)) eqn:Eb.
    + cbn [absl_add_dur]. unfold absl_duration. now rewrite <- Z.mul_add_distr_l.
    + cbn [absl_add_dur]. destruct (M b Hb Eb (a + b) ltac:(lia)) as [-> ->]. easy.
  - cbn [absl_add_dur]. destruct (M a Ha Ea (a + b) ltac:(lia)) as [-> ->]. easy.
Qed.
Lemma sat_zero sign : sat sign 0 = DFin 0.
Proof. unfold sat. now rewrite Z.mul_0_r. Qed.
Lemma sat_add_zero sign a : (sign = 1 \/ sign = -1) -> 0 <= a -> absl_add_dur (sat sign a) (DFin 0) = sat sign a.
Proof. intros. rewrite <- (sat_zero sign), sat_add by easy || lia. f_equal. lia. Qed.
Lemma sat_fin sign a : (sign = 1 \/ sign = -1) -> 0 <= a < 10 ^ 18 * 10 ^ 9 -> sat sign a = DFin (sign * a).
Proof.
  intros Hs Ha. unfold sat, absl_duration.
  assert (in_int64 (sign * a / nanos_per_sec) = true) as ->; [|easy].
  unfold in_int64, int64_min, int64_max, nanos_per_sec.
  assert (- 2 ^ 63 <= sign * a / 1000000000) by (apply Z.div_le_lower_bound; lia).
  assert (sign * a / 1000000000 <= 2 ^ 63 - 1) by (apply Z.div_le_upper_bound; lia). lia.
Qed.

Lemma term_parts t ns whole r : term t ns whole -> whole <= int64_max -> opens_term r ->
  t <> [] /\ 0 <= ns /\
  exists frac scale unit s1, ConsumeDurationNumber (t ++ r) = Some (whole, frac, scale, s1) /\
    ConsumeDurationUnit s1 = Some (unit, r) /\ 0 <= whole /\ 0 <= frac < 10 ^ 9 /\ 0 < scale /\
    0 < unit <= 3600 * 10 ^ 9 /\ 0 <= ns - whole * unit /\ frac * unit = (ns - whole * unit) * scale.
Proof.
  intros (is & unit & size & Hu & Pi & H) Hw Hr. pose proof (place_nonneg _ _ Pi) as [Hw0 _].
  pose proof (units_size _ _ Hu) as Hz.
  assert (Hread : ConsumeDurationUnit (unit ++ r) = Some (size, r)).
  { apply unit_read; [easy|]. intros _. now apply opens_no_s. }
  assert (int64_max <? whole = false) as Lw by lia.
  destruct H as [(Ne & -> & ->)|(fs & frac & -> & Ne & Pf & L & E)].
  - split; [now destruct is|]. split; [nia|].
    exists 0, 1, size, (unit ++ r). destruct (unit_front _ _ r Hu) as [F1 F2].
    unfold ConsumeDurationNumber. rewrite <- app_assoc, (read_digits_place is whole) by easy. rewrite Lw, F2.
    destruct is; [easy|]. cbn [length Nat.eqb]. split; [easy|]. split; [easy|]. lia.
  - pose proof (place_nonneg _ _ Pf) as [Hf0 Hf].
    assert (P9 : 0 < 10 ^ Z.of_nat (length fs) <= 10 ^ 9) by (split; [lia|apply Z.pow_le_mono_r; lia]).
    assert (0 <= ns - whole * size) by nia.
    split; [now destruct is|]. split; [nia|].
    exists frac, (10 ^ Z.of_nat (length fs)), size, (unit ++ r).
    unfold ConsumeDurationNumber. rewrite <- app_assoc, (read_digits_place is whole) by easy. rewrite Lw.
    rewrite <- app_assoc, (starts_app (str ".")), <- app_assoc, (read_fraction_place fs frac); [|easy|now apply (unit_front _ size)|lia].
    assert (Nat.eqb (length is) 0 && (10 ^ Z.of_nat (length fs) =? 1) = false) as ->.
    { destruct Ne as [Ne|Ne]; [now destruct is|]. apply andb_false_iff. right. destruct fs as [|c fs]; [easy|].
      apply Z.eqb_neq. cbn [length]. rewrite Nat2Z.inj_succ, Z.pow_succ_r by lia. lia. }
    split; [easy|]. split; [easy|]. repeat (split; [lia|]). lia.
Qed.
Lemma terms_opens ts total ws : terms ts total ws -> opens_term ts /\ ts <> [] /\ 0 <= total.
Proof.
  assert (T : forall t ns w r, term t ns w -> opens_term (t ++ r) /\ t <> [] /\ 0 <= ns).
  { intros t ns w r (is & unit & size & Hu & Pi & H). pose proof (place_nonneg _ _ Pi). pose proof (units_size _ _ Hu).
    destruct H as [(Ne & -> & ->)|(fs & frac & -> & Ne & Pf & L & E)].
    - destruct is as [|c is]; [easy|]. apply place_cons in Pi. cbn. split; [auto|]. split; [easy|nia].
    - pose proof (place_nonneg _ _ Pf). split; [|split; [now destruct is|]].
      + destruct is as [|c is]; [cbn; auto|]. apply place_cons in Pi. cbn. auto.
      + assert (0 < 10 ^ Z.of_nat (length fs)) by lia. nia. }
  intros H. induction H as [t ns w H|t ns w ts total ws H Hs IH].
  - specialize (T t ns w [] H). now rewrite app_nil_r in T.
  - destruct (T t ns w ts H) as (A & B & C). split; [easy|]. split; [now destruct t|lia].
Qed.
Lemma parse_terms_spec ts total ws : terms ts total ws -> Forall (fun w => w <= int64_max) ws ->
  forall fuel sign a, (length ts <= fuel)%nat -> (sign = 1 \/ sign = -1) -> 0 <= a ->
  parse_terms fuel sign ts (sat sign a) = Some (sat sign (a + total)).
Proof.
  assert (Step : forall t ns w r fuel sign a, term t ns w -> w <= int64_max -> opens_term r -> (sign = 1 \/ sign = -1) -> 0 <= a ->
    parse_terms (S fuel) sign (t ++ r) (sat sign a) = parse_terms fuel sign r (sat sign (a + ns))).
  { intros t ns w r fuel sign a H Hw Hr Hs Ha.
    destruct (term_parts t ns w r H Hw Hr) as (Ne & N0 & frac & scale & unit & s1 & E1 & E2 & W0 & F & S0 & U & R & Q).
    destruct (t ++ r) as [|c rest] eqn:E; [now destruct t|].
    cbn [parse_terms]. rewrite E1, E2.
    assert (X : (if w =? 0 then sat sign a else absl_add_dur (sat sign a) (absl_duration (sign * w * unit))) = sat sign (a + w * unit)).
    { destruct (w =? 0) eqn:W; [replace w with 0 by lia; f_equal; lia|].
      rewrite <- Z.mul_assoc. change (absl_duration (sign * (w * unit))) with (sat sign (w * unit)).
      now rewrite sat_add by (easy || nia). }
    rewrite X.
    assert (Y : (if frac =? 0 then sat sign (a + w * unit)
                 else absl_add_dur (sat sign (a + w * unit)) (dur_div (absl_duration (sign * frac * unit)) scale)) = sat sign (a + ns)).
    { destruct (frac =? 0) eqn:W; [assert (ns = w * unit) as -> by nia; easy|].
      rewrite <- Z.mul_assoc. change (absl_duration (sign * (frac * unit))) with (sat sign (frac * unit)).
      assert (FU : 0 <= frac * unit <= 10 ^ 9 * (3600 * 10 ^ 9)) by (split; [nia|apply Z.mul_le_mono_nonneg; lia]).
      assert (RU : ns - w * unit <= frac * unit) by (rewrite Q; nia).
      rewrite (sat_fin sign (frac * unit)) by (easy || lia). cbn [dur_div].
      replace (sign * (frac * unit)) with (sign * (ns - w * unit) * scale) by (rewrite Q; lia).
      rewrite Z.quot_mul by lia.
      rewrite <- (sat_fin sign (ns - w * unit)); [|easy|lia]. rewrite sat_add by (easy || nia). f_equal. lia. }
    now rewrite Y. }
  intros H. induction H as [t ns w H|t ns w ts total ws H Hs IH]; intros Fw fuel sign a L Sg A; inversion Fw as [|? ? W1 W2]; subst.
  - rewrite <- (app_nil_r t). destruct fuel as [|fuel].
    { destruct (term_parts t ns w [] H W1 I) as (Ne & _). destruct t; [easy|]. cbn in L. lia. }
    rewrite (Step t ns w) by easy. now destruct fuel.
  - destruct (terms_opens _ _ _ Hs) as (O & Ne & T0).
    destruct (term_parts t ns w ts H W1 O) as (Nt & N0 & _).
    destruct fuel as [|fuel]; [destruct t; [easy|]; cbn in L; lia|].
    rewrite (Step t ns w) by easy. rewrite IH; [f_equal; f_equal; lia|easy| |easy|lia].
    rewrite app_length in L. destruct t; [easy|]. cbn in L. lia.
Qed.
Lemma terms_not_special ts total ws : terms ts total ws -> ts <> str "0" /\ ts <> str "inf".
Proof.
  intros H. destruct (terms_opens _ _ _ H) as (O & Ne & _). split; intros ->.
  - assert (G : forall s n l, terms s n l -> exists c, last s 0 = c /\ is_digit c = false).
    { clear. assert (T : forall t ns w, term t ns w -> t <> [] /\ is_digit (last t 0) = false).
      { intros t ns w (is & unit & size & Hu & Pi & H).
        assert (U : forall l, l ++ unit <> [] /\ is_digit (last (l ++ unit) 0) = false).
        { intros l. cbn in Hu.
          destruct Hu as [[= <- <-]|[[= <- <-]|[[= <- <-]|[[= <- <-]|[[= <- <-]|[[= <- <-]|[]]]]]]];
            (split; [now destruct l|]);
            (rewrite last_last; reflexivity) ||
            (match goal with |- context [l ++ [?x; ?y]] => change [x; y] with ([x] ++ [y]); rewrite app_assoc, last_last; reflexivity end). }
        destruct H as [(Ne & -> & ->)|(fs & frac & -> & Ne & Pf & L & E)]; [apply U|].
        rewrite !app_assoc. apply U. }
      assert (LA : forall (a b : list Z), b <> [] -> last (a ++ b) 0 = last b 0).
      { intros a b Hb. destruct (exists_last Hb) as (b' & x & ->). now rewrite app_assoc, !last_last. }
      intros s n l H. induction H as [t ns w H|t ns w ts total ws H Hs (c & E1 & E2)].
      - exists (last t 0). split; [easy|]. apply (T _ _ _ H).
      - destruct ts as [|x ts]; [now destruct (terms_opens _ _ _ Hs)|]. exists c. now rewrite LA. }
    destruct (G _ _ _ H) as (c & <- & C). discriminate.
  - cbn in O. unfold is_digit in O. cbn in O. intuition discriminate.
Qed.
Lemma bytes_eqb_neq a b : a <> b -> bytes_eqb a b = false.
Proof.
  intros H. unfold bytes_eqb. destruct (bytes_cmp a b) eqn:E; [|easy|easy]. now apply bytes_cmp_eq in E.
Qed.
Lemma opens_no_sign r : opens_term r -> starts r (str "-") = None /\ starts r (str "+") = None.
Proof.
  destruct r as [|c r]; [easy|]. cbn. unfold is_digit. intros H.
  assert (c =? 45 = false) as -> by lia. assert (c =? 43 = false) as -> by lia. easy.
Qed.
Theorem ParseDuration_literal s ns ws : duration_literal s ns ws -> Forall (fun w => w <= int64_max) ws ->
  ParseDuration s = Some (absl_duration ns).
Proof.
  intros (sign & ts & total & -> & T & H) F.
  destruct (terms_opens _ _ _ T) as (O & Ne & T0). destruct (opens_no_sign _ O) as [O1 O2].
  destruct (terms_not_special _ _ _ T) as [N1 N2].
  assert (G : forall sg, (sg = 1 \/ sg = -1) ->
    (if bytes_eqb ts [] then None
     else if bytes_eqb ts (str "0") then Some (DFin 0)
     else if bytes_eqb ts (str "inf") then Some (DInf (sg =? -1))
     else parse_terms (length ts) sg ts (DFin 0)) = Some (absl_duration (sg * total))).
  { intros sg Hsg. rewrite !bytes_eqb_neq by easy. rewrite <- (sat_zero sg).
    rewrite (parse_terms_spec ts total ws) by (easy || lia). f_equal. }
  unfold ParseDuration. destruct H as [[[->| ->] ->]|[-> ->]].
  - cbn [app]. rewrite O1, O2. rewrite G by auto. do 2 f_equal; lia.
  - assert (starts (text "+" ++ ts) (str "-") = None) as -> by reflexivity.
    rewrite (starts_app (str "+")). rewrite G by auto. do 2 f_equal; lia.
  - rewrite (starts_app (str "-")). rewrite G by auto. do 2 f_equal; lia.
Qed.
