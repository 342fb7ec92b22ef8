(* Lemmas about string escaping. *)
From Coq Require Import ZArith List Bool Lia ZifyBool.
From Verif Require Import Base M_Utf8 S_Utf8 L_Utf8 M_Strings S_Strings.
Import ListNotations.
Open Scope Z_scope.
Ltac Zify.zify_post_hook ::= idtac.

(** ** Digits *)
Lemma HexDigit_val c : ascii_isxdigit c = true -> hex_digit c (HexDigitToInt c) /\ 0 <= HexDigitToInt c <= 15.
Proof.
  intros H. unfold ascii_isxdigit in H.
  assert (D : (48 <= c <= 57) \/ (65 <= c <= 70) \/ (97 <= c <= 102)) by lia.
  unfold HexDigitToInt. rewrite land15.
  destruct D as [D|[D|D]].
  - replace (c >? 57) with false by lia. 
    replace (c mod 16) with (c - 48) by (Z.div_mod_to_equations; lia).
    split; [|lia]. apply hex_09; lia.
  - replace (c >? 57) with true by lia.
    replace ((c + 9) mod 16) with (c - 55) by (Z.div_mod_to_equations; lia).
    split; [|lia]. apply hex_AF; lia.
  - replace (c >? 57) with true by lia.
    replace ((c + 9) mod 16) with (c - 87) by (Z.div_mod_to_equations; lia).
    split; [|lia]. apply hex_af; lia.
Qed.
Lemma hex_digit_is c v : hex_digit c v -> ascii_isxdigit c = true /\ HexDigitToInt c = v.
Proof.
  intros H. assert (X : ascii_isxdigit c = true) by (unfold ascii_isxdigit; inversion H; subst; lia).
  split; [exact X|]. destruct (HexDigit_val c X) as [Y R].
  revert Y R. generalize (HexDigitToInt c). intros w Y R.
  destruct H; inversion Y; lia.
Qed.
Lemma hex_number_range ds n : hex_number ds n -> 0 <= n < 16 ^ Z.of_nat (length ds).
Proof.
  induction 1 as [|ds n c v H IH D]; [cbn; lia|].
  rewrite app_length, Nat2Z.inj_add, Z.pow_add_r by lia. cbn [length Z.of_nat Pos.of_succ_nat].
  change (16 ^ 1) with 16. destruct (hex_digit_is c v D) as [X <-]. destruct (HexDigit_val c X). lia.
Qed.
Lemma hex_number_fun ds n m : hex_number ds n -> hex_number ds m -> n = m.
Proof.
  intros H. revert m. induction H as [|ds n c v H IH D]; intros m Hm.
  - inversion Hm as [|ds' n' c' v' A B E]; [reflexivity|]. destruct ds'; discriminate.
  - inversion Hm as [E|ds' n' c' v' A B E]; [destruct ds; discriminate|].
    apply app_inj_tail in E. destruct E; subst.
    rewrite (IH _ A). destruct (hex_digit_is _ _ D), (hex_digit_is _ _ B). lia.
Qed.

(* read_hex reads exactly n digits *)
Lemma read_hex_none n : forall ds0 ch s r, hex_number ds0 ch -> (n <= length s)%nat ->
  read_hex n None ch s = Val r ->
  exists ds v, s = ds ++ snd r /\ length ds = n /\ hex_number (ds0 ++ ds) (fst r) /\ v = fst r.
Proof.
  induction n as [|n IH]; intros ds0 ch s r H L E; cbn [read_hex] in E.
  - injection E as <-. exists [], ch. rewrite app_nil_r. auto.
  - destruct s as [|c t]; cbn in L; [lia|].
    destruct (ascii_isxdigit c) eqn:X; [|discriminate].
    destruct (HexDigit_val c X) as [D R].
    assert (H' : hex_number (ds0 ++ [c]) (Z.shiftl ch 4 + HexDigitToInt c)).
    { rewrite Z.shiftl_mul_pow2 by lia. change (2 ^ 4) with 16. rewrite Z.mul_comm. constructor; auto. }
    destruct (IH _ _ t r H' ltac:(lia) E) as [ds [v [-> [Ld [Hn ->]]]]].
    exists (c :: ds), (fst r). rewrite <- app_assoc in Hn. cbn in *. auto.
Qed.
Lemma read_hex_none_ok ds : forall ds0 ch v t, hex_number ds0 ch -> hex_number (ds0 ++ ds) v ->
  read_hex (length ds) None ch (ds ++ t) = Val (v, t).
Proof.
  induction ds as [|c ds IH]; intros ds0 ch v t H Hv; cbn [read_hex length app].
  - rewrite app_nil_r in Hv. rewrite (hex_number_fun _ _ _ H Hv). reflexivity.
  - assert (E : exists w, hex_digit c w).
    { clear - Hv. remember (ds0 ++ c :: ds) as l eqn:El. revert ds El.
      induction Hv as [|ds' n' c' v' A IHA B]; intros ds El; [destruct ds0; discriminate|].
      destruct ds as [|d ds _] using rev_ind.
      - apply app_inj_tail in El. destruct El; subst. eauto.
      - rewrite app_comm_cons, app_assoc in El. apply app_inj_tail in El. destruct El as [El _]. eauto. }
    destruct E as [w D]. destruct (hex_digit_is _ _ D) as [-> ->].
    apply (IH (ds0 ++ [c])).
    + rewrite Z.shiftl_mul_pow2 by lia. change (2 ^ 4) with 16. rewrite Z.mul_comm. constructor; auto.
    + rewrite <- app_assoc. exact Hv.
Qed.
(* the limited reader: same answer, or an error when the limit is exceeded *)
Lemma read_hex_lim n l : forall ch s, 0 <= ch ->
  (exists r, read_hex n (Some l) ch s = Val r /\ read_hex n None ch s = Val r /\ (n = O \/ fst r <= l)) \/
  (read_hex n (Some l) ch s = read_hex n None ch s /\ forall r, read_hex n None ch s <> Val r) \/
  ((forall r, read_hex n (Some l) ch s <> Val r) /\ (forall r, read_hex n None ch s = Val r -> l < fst r)).
Proof.
  assert (Mono : forall n ch s r, 0 <= ch -> read_hex n None ch s = Val r -> ch <= fst r).
  { clear. induction n as [|n IH]; intros ch s r H E; cbn [read_hex] in E; [injection E as <-; cbn; lia|].
    destruct s as [|c t]; [discriminate|]. destruct (ascii_isxdigit c) eqn:X; [|discriminate].
    destruct (HexDigit_val c X) as [_ R]. rewrite Z.shiftl_mul_pow2 in E by lia. change (2 ^ 4) with 16 in E.
    apply IH in E; lia. }
  induction n as [|n IH]; intros ch s H.
  - left. exists (ch, s). cbn. auto.
  - cbn [read_hex]. destruct s as [|c t]; [right; left; split; [reflexivity|discriminate]|].
    destruct (ascii_isxdigit c) eqn:X; [|right; left; split; [reflexivity|discriminate]].
    destruct (HexDigit_val c X) as [_ R]. rewrite Z.shiftl_mul_pow2 by lia. change (2 ^ 4) with 16.
    set (ch' := ch * 16 + HexDigitToInt c) in *.
    destruct (ch' >? l) eqn:G.
    + right. right. split; [discriminate|]. intros r E. apply Mono in E; lia.
    + destruct (IH ch' t ltac:(lia)) as [[r [A [B C]]]|[A|A]].
      * left. exists r. split; [exact A|]. split; [exact B|]. right.
        destruct C as [->|C]; [|exact C]. cbn in B. injection B as <-. cbn. lia.
      * right. left. exact A.
      * right. right. exact A.
Qed.

Lemma read_octal3 a b c t : 
  read_octal 3 0 (a :: b :: c :: t) =
  if IsOctalDigit a && IsOctalDigit b && IsOctalDigit c
  then Val (64 * (a - 48) + 8 * (b - 48) + (c - 48), t) else bad.
Proof.
  cbn -[Z.mul Z.add Z.sub].
  destruct (IsOctalDigit a); [|reflexivity]. destruct (IsOctalDigit b); [|reflexivity].
  destruct (IsOctalDigit c); [|reflexivity]. cbn [andb]. f_equal. f_equal. lia.
Qed.

(** ** One escape *)
Lemma contributes_eq (by_ : bool) v : 0 <= v <= 255 ->
  (if by_ then [to_uint8 v] else Utf8Encode v) = contributes by_ v.
Proof.
  intros H. unfold contributes. destruct by_.
  - unfold to_uint8. rewrite Z.mod_small by lia. reflexivity.
  - apply Utf8Encode_valid. unfold scalar. lia.
Qed.
Lemma app_cons (x : Z) d : [x] ++ d = x :: d. Proof. reflexivity. Qed.

Lemma leb_len n (s : list Z) : Nat.leb (length s) n = false -> (n < length s)%nat.
Proof. apply Nat.leb_gt. Qed.

Ltac simp c := destruct (c =? _) eqn:?;
  [match goal with H : (c =? _) = true |- _ => apply Z.eqb_eq in H; subst c end|].

Lemma unescape_one_sound by_ s w rest :
  unescape_one by_ s = Val (w, rest) ->
  (forall d, unescapes by_ rest d -> unescapes by_ (92 :: s) (w ++ d)) /\ (length rest < length s)%nat.
Proof.
  intros E. destruct s as [|c t]; [discriminate|]. cbn [unescape_one] in E.
  unfold ch_bslash, ch_squote, ch_dquote, ch_bquote in E.
  do 12 (match type of E with (if c =? ?k then _ else _) = _ => destruct (c =? k) eqn:? end;
    [match goal with H : (c =? _) = true |- _ => apply Z.eqb_eq in H; subst c end;
     injection E as <- <-; split; [intros d H; rewrite app_cons; apply un_simple; [cbn; tauto|exact H]|cbn; lia]|]).
  destruct ((c =? 48) || (c =? 49) || (c =? 50) || (c =? 51)) eqn:Oc.
  { destruct (Nat.leb (length (c :: t)) 2) eqn:L; [discriminate|].
    destruct t as [|b [|a t]]; try discriminate. rewrite read_octal3 in E.
    destruct (IsOctalDigit c && IsOctalDigit b && IsOctalDigit a) eqn:D; [|discriminate].
    cbn [obind] in E. unfold IsOctalDigit in D.
    rewrite contributes_eq in E by lia. injection E as <- <-.
    split; [|cbn; lia]. intros d H. apply un_octal; auto; lia. }
  destruct ((c =? 120) || (c =? 88)) eqn:Xc.
  { destruct (Nat.leb (length (c :: t)) 2) eqn:L; [discriminate|]. apply Nat.leb_gt in L. cbn in L.
    destruct (read_hex 2 None 0 t) as [[v r]| |] eqn:R; try discriminate.
    cbn [obind] in E.
    destruct (read_hex_none 2 [] 0 t (v, r) ltac:(constructor) ltac:(lia) R) as [ds [? [-> [Ld [Hn _]]]]].
    cbn [fst snd app] in *. pose proof (hex_number_range _ _ Hn) as Rg. rewrite Ld in Rg. cbn in Rg.
    rewrite contributes_eq in E by lia. injection E as <- <-.
    split; [|cbn; rewrite app_length; lia]. intros d H. apply un_hex; auto. lia. }
  destruct (c =? 117) eqn:Uc.
  { apply Z.eqb_eq in Uc. subst c. destruct by_; [discriminate|].
    destruct (Nat.leb (length (117 :: t)) 4) eqn:L; [discriminate|]. apply Nat.leb_gt in L. cbn in L.
    destruct (read_hex 4 None 0 t) as [[v r]| |] eqn:R; try discriminate.
    cbn [obind] in E.
    destruct (read_hex_none 4 [] 0 t (v, r) ltac:(constructor) ltac:(lia) R) as [ds [? [-> [Ld [Hn _]]]]].
    cbn [fst snd app] in *. pose proof (hex_number_range _ _ Hn) as Rg.
    destruct (UnicodeIsValid v) eqn:V; [|discriminate]. apply UnicodeIsValid_scalar in V; [|lia].
    rewrite Utf8Encode_valid in E by exact V. injection E as <- <-.
    split; [|cbn; rewrite app_length; lia]. intros d H. apply un_u; auto. }
  destruct (c =? 85) eqn:UUc; [|discriminate].
  apply Z.eqb_eq in UUc. subst c. destruct by_; [discriminate|].
  destruct (Nat.leb (length (85 :: t)) 8) eqn:L; [discriminate|]. apply Nat.leb_gt in L. cbn in L.
  destruct (read_hex 8 (Some 1114111) 0 t) as [[v r]| |] eqn:R; try discriminate.
  cbn [obind] in E.
  assert (R' : read_hex 8 None 0 t = Val (v, r)).
  { destruct (read_hex_lim 8 1114111 0 t ltac:(lia)) as [[q [A [B _]]]|[[A B]|[A _]]].
    - rewrite A in R. injection R as ->. exact B.
    - rewrite A in R. exact R.
    - exfalso. exact (A _ R). }
  destruct (read_hex_none 8 [] 0 t (v, r) ltac:(constructor) ltac:(lia) R') as [ds [? [-> [Ld [Hn _]]]]].
  cbn [fst snd app] in *. pose proof (hex_number_range _ _ Hn) as Rg.
  destruct (UnicodeIsValid v) eqn:V; [|discriminate]. apply UnicodeIsValid_scalar in V; [|lia].
  rewrite Utf8Encode_valid in E by exact V. injection E as <- <-.
  split; [|cbn; rewrite app_length; lia]. intros d H. apply un_U; auto.
Qed.

Lemma hex_len ds v t n : length ds = n -> hex_number ds v -> read_hex n None 0 (ds ++ t) = Val (v, t).
Proof. intros <- H. apply (read_hex_none_ok ds [] 0 v t); [constructor|exact H]. Qed.

Lemma unescape_loop_sound f : forall by_ s d,
  unescape_loop f false by_ s = Val d -> unescapes by_ s d.
Proof.
  induction f as [|f IH]; intros by_ s d E; [discriminate|]. cbn [unescape_loop] in E.
  destruct s as [|c t]; [injection E as <-; constructor|].
  unfold ch_bslash, ch_cr, ch_lf in E.
  destruct (c =? 92) eqn:B; cbn [negb] in E.
  - apply Z.eqb_eq in B. subst c. destruct t as [|c' t']; [discriminate|].
    destruct (unescape_one by_ (c' :: t')) as [[w rest]| |] eqn:U; try discriminate. cbn [obind] in E.
    destruct (unescape_loop f false by_ rest) as [d'| |] eqn:R; try discriminate.
    cbn [obind] in E. injection E as <-.
    destruct (unescape_one_sound _ _ _ _ U) as [X _]. apply X. apply IH. exact R.
  - destruct (c =? 13) eqn:C; cbn [negb] in E.
    + apply Z.eqb_eq in C. subst c.
      destruct t as [|c' t'].
      * destruct (unescape_loop f false by_ []) as [d'| |] eqn:R; try discriminate.
        cbn [obind] in E. injection E as <-. apply un_cr; [congruence|]. apply IH. exact R.
      * destruct (c' =? 10) eqn:N.
        -- apply Z.eqb_eq in N. subst c'.
           destruct (unescape_loop f false by_ t') as [d'| |] eqn:R; try discriminate.
           cbn [obind] in E. injection E as <-. apply un_crlf. apply IH. exact R.
        -- destruct (unescape_loop f false by_ (c' :: t')) as [d'| |] eqn:R; try discriminate.
           cbn [obind] in E. injection E as <-. apply un_cr; [|apply IH; exact R].
           intros s' [= -> _]. discriminate.
    + destruct (unescape_loop f false by_ t) as [d'| |] eqn:R; try discriminate.
      cbn [obind] in E. injection E as <-. apply un_plain; [lia|lia|]. apply IH. exact R.
Qed.

Lemma one_complete_hex by_ x h v t : x = 120 \/ x = 88 -> length h = 2%nat -> hex_number h v ->
  unescape_one by_ (x :: h ++ t) = Val (contributes by_ v, t).
Proof.
  intros Hx L H.
  assert (E : unescape_one by_ (x :: h ++ t) =
    (if Nat.leb (length (x :: h ++ t)) 2 then bad else
      obind (read_hex 2 None 0 (h ++ t)) (fun r => let '(ch, rest) := r in
      Val (if by_ then [to_uint8 ch] else Utf8Encode ch, rest)))) by (destruct Hx; subst x; reflexivity).
  rewrite E. replace (Nat.leb _ 2) with false
    by (symmetry; apply Nat.leb_gt; cbn; rewrite app_length; lia).
  rewrite (hex_len h v t 2 L H). cbn [obind]. pose proof (hex_number_range _ _ H) as R. rewrite L in R. cbn in R.
  rewrite contributes_eq by lia. reflexivity.
Qed.

Lemma unescape_loop_complete by_ s d : unescapes by_ s d -> forall f, (length s < f)%nat ->
  unescape_loop f false by_ s = Val d.
Proof.
  induction 1 as [|c s d N1 N2 H IH|s d H IH|s d N H IH|c v s d I H IH|a b c v s d Ha Hb Hc Hv H IH
    |x h v s d Hx L Hn H IH|h v s d Eb L Hn Hs H IH|h v s d Eb L Hn Hs H IH]; intros f Lf.
  all: destruct f as [|f]; [lia|].
  - reflexivity.
  - cbn [unescape_loop]. unfold ch_bslash, ch_cr. replace (c =? 92) with false by lia.
    replace (c =? 13) with false by lia. cbn [negb]. rewrite IH by (cbn in Lf; lia). reflexivity.
  - cbn [unescape_loop Z.eqb]. change (13 =? ch_bslash) with false. change (13 =? ch_cr) with true.
    change (10 =? ch_lf) with true. cbn [negb]. rewrite IH by (cbn in Lf; lia). reflexivity.
  - cbn [unescape_loop]. change (13 =? ch_bslash) with false. change (13 =? ch_cr) with true.
    cbn [negb]. destruct s as [|c' t'].
    + rewrite IH by (cbn in *; lia). reflexivity.
    + destruct (c' =? ch_lf) eqn:E; [apply Z.eqb_eq in E; exfalso; unfold ch_lf in E; subst c'; exact (N t' eq_refl)|].
      rewrite IH by (cbn in *; lia). reflexivity.
  - cbn [unescape_loop]. change (92 =? ch_bslash) with true. cbn [negb].
    replace (unescape_one by_ (c :: s)) with (Val ([v], s)).
    2:{ cbn in I. repeat destruct I as [I|I]; try (injection I as <- <-; reflexivity). contradiction. }
    cbn [obind]. rewrite IH by (cbn in *; lia). reflexivity.
  - cbn [unescape_loop]. change (92 =? ch_bslash) with true. cbn [negb].
    replace (unescape_one by_ (a :: b :: c :: s)) with (Val (contributes by_ v, s)).
    2:{ subst v. assert (E : a = 48 \/ a = 49 \/ a = 50 \/ a = 51) by lia.
        rewrite <- contributes_eq by lia.
        destruct E as [E|[E|[E|E]]]; subst a; unfold unescape_one; cbn [Z.eqb length Nat.leb orb Pos.eqb];
        unfold ch_bslash, ch_squote, ch_dquote, ch_bquote; cbn [Z.eqb Pos.eqb orb];
        rewrite read_octal3; unfold IsOctalDigit;
        replace ((b >=? 48) && (b <=? 55)) with true by lia;
        replace ((c >=? 48) && (c <=? 55)) with true by lia; reflexivity. }
    cbn [obind]. rewrite IH by (cbn in *; lia). reflexivity.
  - cbn [unescape_loop]. change (92 =? ch_bslash) with true. cbn [negb].
    rewrite (one_complete_hex by_ x h v s Hx L Hn). cbn [obind].
    rewrite IH by (cbn in *; rewrite app_length in Lf; lia). reflexivity.
  - subst by_. cbn [unescape_loop]. change (92 =? ch_bslash) with true. cbn [negb].
    replace (unescape_one false (117 :: h ++ s)) with (Val (utf8 v, s)).
    2:{ unfold unescape_one. unfold ch_bslash, ch_squote, ch_dquote, ch_bquote; cbn [Z.eqb Pos.eqb orb].
        replace (Nat.leb (length (117 :: h ++ s)) 4) with false
          by (symmetry; apply Nat.leb_gt; cbn; rewrite app_length; lia).
        rewrite (hex_len h v s 4 L Hn). cbn [obind].
        rewrite (proj2 (UnicodeIsValid_scalar v ltac:(destruct Hs; lia)) Hs).
        rewrite Utf8Encode_valid by exact Hs. reflexivity. }
    cbn [obind]. rewrite IH by (cbn in *; rewrite app_length in Lf; lia). reflexivity.
  - subst by_. cbn [unescape_loop]. change (92 =? ch_bslash) with true. cbn [negb].
    replace (unescape_one false (85 :: h ++ s)) with (Val (utf8 v, s)).
    2:{ unfold unescape_one. unfold ch_bslash, ch_squote, ch_dquote, ch_bquote; cbn [Z.eqb Pos.eqb orb].
        replace (Nat.leb (length (85 :: h ++ s)) 8) with false
          by (symmetry; apply Nat.leb_gt; cbn; rewrite app_length; lia).
        pose proof (hex_len h v s 8 L Hn) as R.
        destruct (read_hex_lim 8 1114111 0 (h ++ s) ltac:(lia)) as [[q [A [B _]]]|[[A B]|[A B]]].
        - rewrite A. rewrite B in R. injection R as ->. cbn [obind].
          rewrite (proj2 (UnicodeIsValid_scalar v ltac:(destruct Hs; lia)) Hs).
          rewrite Utf8Encode_valid by exact Hs. reflexivity.
        - exfalso. exact (B _ R).
        - exfalso. specialize (B _ R). cbn in B. destruct Hs. lia. }
    cbn [obind]. rewrite IH by (cbn in *; rewrite app_length in Lf; lia). reflexivity.
Qed.

(** ** Raw text *)
Lemma raw_sound f : forall by_ s d, unescape_loop f true by_ s = Val d -> raw_text s d.
Proof.
  induction f as [|f IH]; intros by_ s d E; [discriminate|]. cbn [unescape_loop] in E.
  destruct s as [|c t]; [injection E as <-; constructor|].
  unfold ch_bslash, ch_cr, ch_lf in E.
  destruct (c =? 92) eqn:B; cbn [negb] in E.
  - apply Z.eqb_eq in B. subst c. destruct t as [|c' t']; [discriminate|].
    destruct (unescape_loop f true by_ t') as [d'| |] eqn:R; try discriminate.
    cbn [obind] in E. injection E as <-. apply raw_pair. eapply IH. exact R.
  - destruct (c =? 13) eqn:C; cbn [negb] in E.
    + apply Z.eqb_eq in C. subst c.
      destruct t as [|c' t'].
      * destruct (unescape_loop f true by_ []) as [d'| |] eqn:R; try discriminate.
        cbn [obind] in E. injection E as <-. apply raw_cr; [congruence|]. eapply IH. exact R.
      * destruct (c' =? 10) eqn:N.
        -- apply Z.eqb_eq in N. subst c'.
           destruct (unescape_loop f true by_ t') as [d'| |] eqn:R; try discriminate.
           cbn [obind] in E. injection E as <-. apply raw_crlf. eapply IH. exact R.
        -- destruct (unescape_loop f true by_ (c' :: t')) as [d'| |] eqn:R; try discriminate.
           cbn [obind] in E. injection E as <-. apply raw_cr; [|eapply IH; exact R].
           intros s' [= -> _]. discriminate.
    + destruct (unescape_loop f true by_ t) as [d'| |] eqn:R; try discriminate.
      cbn [obind] in E. injection E as <-. apply raw_plain; [lia|lia|]. eapply IH. exact R.
Qed.
Lemma raw_complete by_ s d : raw_text s d -> forall f, (length s < f)%nat -> unescape_loop f true by_ s = Val d.
Proof.
  induction 1 as [|c s d N1 N2 H IH|s d H IH|s d N H IH|c s d H IH]; intros f Lf.
  all: destruct f as [|f]; [lia|].
  - reflexivity.
  - cbn [unescape_loop]. unfold ch_bslash, ch_cr. replace (c =? 92) with false by lia.
    replace (c =? 13) with false by lia. cbn [negb]. rewrite IH by (cbn in Lf; lia). reflexivity.
  - cbn [unescape_loop Z.eqb]. change (13 =? ch_bslash) with false. change (13 =? ch_cr) with true.
    change (10 =? ch_lf) with true. cbn [negb]. rewrite IH by (cbn in Lf; lia). reflexivity.
  - cbn [unescape_loop]. change (13 =? ch_bslash) with false. change (13 =? ch_cr) with true.
    cbn [negb]. destruct s as [|c' t'].
    + rewrite IH by (cbn in *; lia). reflexivity.
    + destruct (c' =? ch_lf) eqn:E; [apply Z.eqb_eq in E; exfalso; unfold ch_lf in E; subst c'; exact (N t' eq_refl)|].
      rewrite IH by (cbn in *; lia). reflexivity.
  - cbn [unescape_loop]. change (92 =? ch_bslash) with true. cbn [negb].
    rewrite IH by (cbn in *; lia). reflexivity.
Qed.

(** ** Well-formedness of concatenations *)
Lemma wf_app a b : well_formed a -> well_formed b -> well_formed (a ++ b).
Proof.
  intros [ca [Fa ->]] [cb [Fb ->]]. exists (ca ++ cb). split; [apply Forall_app; auto|].
  unfold encode. rewrite flat_map_app. reflexivity.
Qed.
Lemma utf8_ascii c : c < 128 -> utf8 c = [c].
Proof. intros H. unfold utf8. replace (c <? 128) with true by lia. reflexivity. Qed.
Lemma wf_char c : scalar c -> well_formed (utf8 c).
Proof. intros S. exists [c]. split; [constructor; auto|]. cbn. rewrite app_nil_r. reflexivity. Qed.
Lemma scalar_ascii c : 0 <= c < 128 -> scalar c. Proof. unfold scalar. lia. Qed.
Lemma wf_ascii c : 0 <= c < 128 -> well_formed [c].
Proof. intros H. rewrite <- (utf8_ascii c) by lia. apply wf_char, scalar_ascii, H. Qed.
Lemma wf_ascii_cons c s : 0 <= c < 128 -> (well_formed (c :: s) <-> well_formed s).
Proof. intros H. rewrite <- (wf_cons c s) by (apply scalar_ascii; exact H). rewrite utf8_ascii by lia. reflexivity. Qed.
Lemma utf8_high c : 128 <= c -> scalar c -> Forall (fun b => 128 <= b <= 255) (utf8 c).
Proof.
  intros H [S1 S2]. unfold utf8. replace (c <? 128) with false by lia.
  destruct (c <? 2048) eqn:B; [repeat constructor; Z.div_mod_to_equations; lia|].
  destruct (c <? 65536) eqn:C; [repeat constructor; Z.div_mod_to_equations; lia|].
  repeat constructor; Z.div_mod_to_equations; lia.
Qed.
Lemma wf_bytes s : well_formed s -> bytes s.
Proof. intros [cps [F ->]]. apply encode_bytes. exact F. Qed.
Lemma wf_ind (P : list Z -> Prop) : P [] ->
  (forall c s, 0 <= c < 128 -> well_formed s -> P s -> P (c :: s)) ->
  (forall u s, Forall (fun b => 128 <= b <= 255) u -> well_formed u -> well_formed s -> P s -> P (u ++ s)) ->
  forall s, well_formed s -> P s.
Proof.
  intros H0 H1 H2 s [cps [F ->]]. induction F as [|c cps S F IH]; [exact H0|].
  change (encode (c :: cps)) with (utf8 c ++ encode cps).
  destruct (Z.lt_ge_cases c 128) as [L|L].
  - rewrite utf8_ascii by lia. apply H1; [destruct S; lia| |exact IH]. exists cps. split; auto.
  - apply H2; [apply utf8_high; auto|apply wf_char; exact S| |exact IH]. exists cps. split; auto.
Qed.

(** ** Escaping *)
Lemma hexdig_ascii n : 0 <= n <= 15 -> hex_digit (kHexTable n) n /\ 48 <= kHexTable n <= 102 /\ kHexTable n <> 92 /\ kHexTable n <> 96.
Proof.
  intros H.
  assert (D : n = 0 \/ n = 1 \/ n = 2 \/ n = 3 \/ n = 4 \/ n = 5 \/ n = 6 \/ n = 7 \/ n = 8 \/ n = 9 \/
     n = 10 \/ n = 11 \/ n = 12 \/ n = 13 \/ n = 14 \/ n = 15) by lia.
  repeat match type of D with _ \/ _ => destruct D as [D|D] end; subst n;
  (split; [first [apply hex_09; [lia|reflexivity] | apply hex_af; [lia|reflexivity]] | repeat split; vm_compute; congruence]).
Qed.
Lemma hex_pair c : 0 <= c <= 255 -> hex_number [kHexTable (c / 16); kHexTable (c mod 16)] c.
Proof.
  intros H. assert (D1 : 0 <= c / 16 <= 15) by (Z.div_mod_to_equations; lia).
  assert (D2 : 0 <= c mod 16 <= 15) by (Z.div_mod_to_equations; lia).
  replace c with (16 * (16 * 0 + c / 16) + c mod 16) at 3 by (Z.div_mod_to_equations; lia).
  apply (hexn_snoc [kHexTable (c / 16)]); [|apply hexdig_ascii; lia].
  apply (hexn_snoc []); [constructor|apply hexdig_ascii; lia].
Qed.

Definition ok_quote (q : Z) : Prop := q = ch_squote \/ q = ch_dquote.

Lemma hex_unescapes c s d by_ : 0 <= c <= 255 -> (by_ = true \/ c < 128) -> unescapes by_ s d ->
  unescapes by_ ([92; 120; kHexTable (c / 16); kHexTable (c mod 16)] ++ s) (c :: d).
Proof.
  intros Hc D H. pose proof (un_hex by_ 120 [kHexTable (c / 16); kHexTable (c mod 16)] c s d ltac:(auto) eq_refl (hex_pair c Hc) H) as U.
  replace (contributes by_ c) with [c] in U; [exact U|].
  unfold contributes. destruct by_; [reflexivity|]. rewrite utf8_ascii; [reflexivity|]. destruct D; [discriminate|lia].
Qed.

Lemma escape_char_unescapes q last c s d : 0 <= c <= 255 -> unescapes false s d ->
  unescapes false (fst (escape_char true q last c) ++ s) (c :: d).
Proof.
  intros Hc H. unfold escape_char, ch_lf, ch_cr, ch_bslash, ch_squote, ch_dquote, ch_bquote.
  destruct (c =? 10) eqn:E1; [apply Z.eqb_eq in E1; subst; apply un_simple; [cbn; tauto|exact H]|].
  destruct (c =? 13) eqn:E2; [apply Z.eqb_eq in E2; subst; apply un_simple; [cbn; tauto|exact H]|].
  destruct (c =? 9) eqn:E3; [apply Z.eqb_eq in E3; subst; apply un_simple; [cbn; tauto|exact H]|].
  destruct (c =? 92) eqn:E4; [apply Z.eqb_eq in E4; subst; apply un_simple; [cbn; tauto|exact H]|].
  destruct ((c =? 39) || (c =? 34) || (c =? 96)) eqn:E5.
  { destruct ((q =? 0) || (c =? q)); cbn [fst app].
    - apply un_simple; [|exact H].
      assert (D : c = 39 \/ c = 34 \/ c = 96) by lia. destruct D as [->|[->| ->]]; cbn; tauto.
    - apply un_plain; [lia|lia|exact H]. }
  cbn [negb orb].
  destruct ((c <? 128) && _) eqn:E6; cbn [fst].
  - apply hex_unescapes; [lia|lia|exact H].
  - apply un_plain; [lia|lia|exact H].
Qed.
Lemma esc_loop_unescapes q s : bytes s -> forall last, unescapes false (esc_loop true q last s) s.
Proof.
  induction 1 as [|c s Hc Hs IH]; intros last; [constructor|]. cbn [esc_loop].
  pose proof (escape_char_unescapes q last c (esc_loop true q (snd (escape_char true q last c)) s) s Hc (IH _)) as U.
  destruct (escape_char true q last c) as [w h]. exact U.
Qed.

Lemma qf_app q a b : quote_free q a -> quote_free q b -> quote_free q (a ++ b).
Proof. induction 1; intros; cbn; [assumption|apply qf_plain; auto|apply qf_escape; auto]. Qed.
Lemma qf_hex q c : ok_quote q -> 0 <= c <= 255 -> quote_free q [92; 120; kHexTable (c / 16); kHexTable (c mod 16)].
Proof.
  intros Q Hc. assert (D1 : 0 <= c / 16 <= 15) by (Z.div_mod_to_equations; lia).
  assert (D2 : 0 <= c mod 16 <= 15) by (Z.div_mod_to_equations; lia).
  destruct (hexdig_ascii _ D1) as [_ A1]. destruct (hexdig_ascii _ D2) as [_ A2].
  unfold ok_quote, ch_squote, ch_dquote in Q.
  apply qf_escape, qf_plain; [lia|lia|]. apply qf_plain; [lia|lia|constructor].
Qed.
Lemma escape_char_qf q last c : ok_quote q -> 0 <= c <= 255 -> quote_free q (fst (escape_char true q last c)).
Proof.
  intros Q Hc. unfold escape_char, ch_lf, ch_cr, ch_bslash, ch_squote, ch_dquote, ch_bquote.
  assert (Hq : q = 39 \/ q = 34) by exact Q.
  destruct (c =? 10); [apply qf_escape, qf_nil|]. destruct (c =? 13); [apply qf_escape, qf_nil|].
  destruct (c =? 9); [apply qf_escape, qf_nil|]. destruct (c =? 92) eqn:E4; [apply qf_escape, qf_nil|].
  destruct ((c =? 39) || (c =? 34) || (c =? 96)) eqn:E5.
  { destruct ((q =? 0) || (c =? q)) eqn:E; cbn [fst]; [apply qf_escape, qf_nil|].
    apply qf_plain; [lia|lia|constructor]. }
  cbn [negb orb].
  destruct ((c <? 128) && _) eqn:E6; cbn [fst].
  - apply qf_hex; [exact Q|exact Hc].
  - apply qf_plain; [lia|lia|constructor].
Qed.
Lemma esc_loop_qf q s : ok_quote q -> bytes s -> forall last, quote_free q (esc_loop true q last s).
Proof.
  intros Q. induction 1 as [|c s Hc Hs IH]; intros last; [constructor|]. cbn [esc_loop].
  pose proof (escape_char_qf q last c Q Hc) as U. destruct (escape_char true q last c) as [w h].
  apply qf_app; [exact U|apply IH].
Qed.

Lemma hex_wf c : 0 <= c <= 255 -> well_formed [92; 120; kHexTable (c / 16); kHexTable (c mod 16)].
Proof.
  intros Hc. assert (D1 : 0 <= c / 16 <= 15) by (Z.div_mod_to_equations; lia).
  assert (D2 : 0 <= c mod 16 <= 15) by (Z.div_mod_to_equations; lia).
  destruct (hexdig_ascii _ D1) as [_ A1]. destruct (hexdig_ascii _ D2) as [_ A2].
  rewrite !wf_ascii_cons by lia. apply wf_nil.
Qed.
Lemma escape_char_wf q last c : 0 <= c < 128 -> well_formed (fst (escape_char true q last c)).
Proof.
  intros Hc. unfold escape_char, ch_lf, ch_cr, ch_bslash, ch_squote, ch_dquote, ch_bquote.
  assert (W : forall a b, 0 <= a < 128 -> 0 <= b < 128 -> well_formed [a; b])
    by (intros; rewrite !wf_ascii_cons by lia; apply wf_nil).
  destruct (c =? 10); [apply W; lia|]. destruct (c =? 13); [apply W; lia|].
  destruct (c =? 9); [apply W; lia|]. destruct (c =? 92) eqn:E4; [apply W; lia|].
  destruct ((c =? 39) || (c =? 34) || (c =? 96)) eqn:E5.
  { destruct ((q =? 0) || (c =? q)) eqn:E; cbn [fst]; [apply W; lia|apply wf_ascii; lia]. }
  destruct (_ && _) eqn:E6; cbn [fst]; [apply hex_wf; lia|apply wf_ascii; lia].
Qed.
Lemma esc_loop_high q u : Forall (fun b => 128 <= b <= 255) u -> forall s last,
  esc_loop true q last (u ++ s) = u ++ esc_loop true q (match u with [] => last | _ => false end) s.
Proof.
  induction 1 as [|c u Hc Hu IH]; intros s last; [reflexivity|]. cbn [app esc_loop].
  assert (E : escape_char true q last c = ([c], false)).
  { unfold escape_char, ch_lf, ch_cr, ch_bslash, ch_squote, ch_dquote, ch_bquote.
    replace (c =? 10) with false by lia. replace (c =? 13) with false by lia. replace (c =? 9) with false by lia.
    replace (c =? 92) with false by lia. replace ((c =? 39) || (c =? 34) || (c =? 96)) with false by lia.
    cbn [negb orb]. replace (c <? 128) with false by lia. reflexivity. }
  rewrite E, IH. cbn [app]. destruct u; reflexivity.
Qed.
Lemma esc_loop_wf q s : well_formed s -> forall last, well_formed (esc_loop true q last s).
Proof.
  revert s. apply (wf_ind (fun s => forall last, well_formed (esc_loop true q last s))).
  - intros last. apply wf_nil.
  - intros c s Hc _ IH last. cbn [esc_loop]. pose proof (escape_char_wf q last c Hc) as W.
    destruct (escape_char true q last c) as [w h]. apply wf_app; [exact W|apply IH].
  - intros u s Hu Wu _ IH last. rewrite esc_loop_high by exact Hu. apply wf_app; [exact Wu|apply IH].
Qed.

Lemma escape_byte_unescapes all q c s d : 0 <= c <= 255 -> unescapes true s d ->
  unescapes true (escape_byte all q c ++ s) (c :: d).
Proof.
  intros Hc H. unfold escape_byte, ch_bslash, ch_squote, ch_dquote, ch_bquote.
  destruct (all || negb (ascii_isprint c)) eqn:E0; [apply hex_unescapes; [lia|auto|exact H]|].
  unfold ascii_isprint in E0.
  destruct (c =? 92) eqn:E1; [apply Z.eqb_eq in E1; subst; apply un_simple; [cbn; tauto|exact H]|].
  destruct ((c =? 39) || (c =? 34) || (c =? 96)) eqn:E5; [|apply un_plain; [lia|lia|exact H]].
  destruct ((q =? 0) || (c =? q)); cbn [app].
  - apply un_simple; [|exact H]. assert (D : c = 39 \/ c = 34 \/ c = 96) by lia.
    destruct D as [->|[->| ->]]; cbn; tauto.
  - apply un_plain; [lia|lia|exact H].
Qed.
Lemma EscapeBytes_unescapes all q s : bytes s -> unescapes true (EscapeBytes s all q) s.
Proof. induction 1 as [|c s Hc Hs IH]; [constructor|]. apply escape_byte_unescapes; [exact Hc|exact IH]. Qed.
Lemma EscapeBytes_qf all q s : ok_quote q -> bytes s -> quote_free q (EscapeBytes s all q).
Proof.
  intros Q. induction 1 as [|c s Hc Hs IH]; [constructor|]. cbn [EscapeBytes flat_map]. apply qf_app; [|exact IH].
  unfold byte in Hc. unfold escape_byte, ch_bslash, ch_squote, ch_dquote, ch_bquote.
  assert (Hq : q = 39 \/ q = 34) by exact Q.
  destruct (all || negb (ascii_isprint c)) eqn:E0; [apply qf_hex; [exact Q|exact Hc]|].
  destruct (c =? 92) eqn:E1; [apply qf_escape, qf_nil|].
  destruct ((c =? 39) || (c =? 34) || (c =? 96)) eqn:E5; [|apply qf_plain; [lia|lia|constructor]].
  destruct ((q =? 0) || (c =? q)) eqn:E; cbn [app]; [apply qf_escape, qf_nil|].
  apply qf_plain; [lia|lia|constructor].
Qed.

(** ** Closing quotes *)
Lemma closing_qf q s : quote_free q s -> q <> 92 -> forall b, closing_loop [q] (s ++ [q]) b = Some true.
Proof.
  intros H Q. induction H as [|c s N1 N2 H IH|c s H IH]; intros b.
  - cbn. unfold ch_bslash. replace (q =? 92) with false by lia. cbn. rewrite Z.eqb_refl. reflexivity.
  - cbn [app closing_loop]. unfold ch_bslash. replace (c =? 92) with false by lia. cbn [negb starts_with].
    replace (q =? c) with false by lia. cbn [andb length Nat.ltb Nat.leb]. apply IH.
  - cbn [app closing_loop length Nat.ltb Nat.leb]. change (92 =? ch_bslash) with true. cbn [negb]. apply IH.
Qed.

Lemma Utf8IsValid_ok s : bytes s -> exists v, Utf8IsValid s = Val v /\ (v = true <-> well_formed s).
Proof.
  intros B. apply (isvalid_gen _ _ _ _ _ _ sr_Rem sr_HRead sr_HPeek sr_HAdv); [reflexivity|exact B|lia].
Qed.
Lemma Utf8IsValid_wf s : well_formed s -> Utf8IsValid s = Val true.
Proof. intros W. destruct (Utf8IsValid_ok s (wf_bytes s W)) as [v [-> H]]. f_equal. tauto. Qed.

Lemma parse_quoted_eq q s raw by_ : ok_quote q -> quote_free q s ->
  parse_quoted (q :: s ++ [q]) raw by_ =
  obind (if by_ then Val true else Utf8IsValid s)
    (fun v => if negb v then bad else unescape_loop (S (length s)) raw by_ s).
Proof.
  intros Q F. assert (Hq : q = 39 \/ q = 34) by exact Q. unfold parse_quoted.
  assert (E : MayBeTripleQuotedString (q :: s ++ [q]) = false).
  { unfold MayBeTripleQuotedString. destruct s as [|c s].
    - reflexivity.
    - assert (Nc : c <> q) by (inversion F; subst; lia).
      replace (starts_with (q :: (c :: s) ++ [q]) [ch_dquote; ch_dquote; ch_dquote]) with false.
      2:{ symmetry. cbn [app starts_with]. unfold ch_dquote. destruct (34 =? q) eqn:E1; [|reflexivity].
          replace (34 =? c) with false by lia. reflexivity. }
      replace (starts_with (q :: (c :: s) ++ [q]) [ch_squote; ch_squote; ch_squote]) with false.
      2:{ symmetry. cbn [app starts_with]. unfold ch_squote. destruct (39 =? q) eqn:E1; [|reflexivity].
          replace (39 =? c) with false by lia. reflexivity. }
      apply andb_false_r. }
  rewrite E. cbn [firstn skipn]. unfold UnescapeInternal.
  unfold CheckForClosingString. rewrite (closing_qf q s F ltac:(lia)). cbn [negb].
  destruct (s ++ [q]) as [|z zs] eqn:Es; [destruct s; discriminate|]. rewrite <- Es.
  rewrite app_length. cbn [length]. replace (length s + 1 - 1)%nat with (length s) by lia.
  rewrite firstn_app, firstn_all. replace (length s - length s)%nat with O by lia. cbn [firstn]. rewrite app_nil_r.
  reflexivity.
Qed.
Lemma parse_quoted_qf q s d by_ : ok_quote q -> quote_free q s -> (by_ = false -> well_formed s) ->
  unescapes by_ s d -> parse_quoted (q :: s ++ [q]) false by_ = Val d.
Proof.
  intros Q F W U. rewrite parse_quoted_eq by assumption.
  replace (if by_ then Val true else Utf8IsValid s) with (Val true)
    by (destruct by_; [reflexivity|rewrite Utf8IsValid_wf by auto; reflexivity]).
  cbn [obind negb]. apply (unescape_loop_complete by_ s d U). lia.
Qed.

(** ** Parsed literals are well formed *)
Lemma wf_split s : well_formed s -> s = [] \/ (exists c s', s = c :: s' /\ 0 <= c < 128 /\ well_formed s') \/
  (exists b u s', s = (b :: u) ++ s' /\ Forall (fun b => 128 <= b <= 255) (b :: u) /\ well_formed (b :: u) /\ well_formed s').
Proof.
  intros [cps [F ->]]. destruct F as [|c cps S F]; [left; reflexivity|right].
  change (encode (c :: cps)) with (utf8 c ++ encode cps).
  destruct (Z.lt_ge_cases c 128) as [L|L].
  - left. exists c, (encode cps). rewrite utf8_ascii by lia. split; [reflexivity|]. split; [destruct S; lia|].
    exists cps. split; auto.
  - right. pose proof (utf8_len c) as Ln. pose proof (utf8_high c L S) as Hh. pose proof (wf_char c S) as Wc.
    destruct (utf8 c) as [|b u]; [cbn in Ln; lia|]. exists b, u, (encode cps).
    split; [reflexivity|]. split; [exact Hh|]. split; [exact Wc|]. exists cps. split; auto.
Qed.
Lemma unescapes_high u : Forall (fun b => 128 <= b <= 255) u -> forall by_ s d, unescapes by_ (u ++ s) d ->
  exists d', d = u ++ d' /\ unescapes by_ s d'.
Proof.
  induction 1 as [|c u Hc Hu IH]; intros by_ s d H; [exists d; auto|].
  cbn in H. inversion H; subst; try lia.
  match goal with U : unescapes _ (u ++ s) _ |- _ => destruct (IH _ _ _ U) as [d' [-> H']] end. exists d'. auto.
Qed.
Lemma raw_high u : Forall (fun b => 128 <= b <= 255) u -> forall s d, raw_text (u ++ s) d ->
  exists d', d = u ++ d' /\ raw_text s d'.
Proof.
  induction 1 as [|c u Hc Hu IH]; intros s d H; [exists d; auto|].
  cbn in H. inversion H; subst; try lia.
  match goal with U : raw_text (u ++ s) _ |- _ => destruct (IH _ _ U) as [d' [-> H']] end. exists d'. auto.
Qed.
Lemma hex_ascii h v : hex_number h v -> Forall (fun c => 0 <= c < 128) h.
Proof.
  induction 1 as [|ds n c v H IH D]; [constructor|]. apply Forall_app. split; [exact IH|].
  constructor; [|constructor]. destruct D; lia.
Qed.
Lemma wf_ascii_app h s : Forall (fun c => 0 <= c < 128) h -> well_formed (h ++ s) -> well_formed s.
Proof. induction 1; cbn; [auto|]. rewrite wf_ascii_cons by assumption. assumption. Qed.
Lemma wf_ascii_back c s : 0 <= c < 128 -> well_formed (c :: s) -> well_formed s.
Proof. intros H. rewrite wf_ascii_cons by exact H. auto. Qed.

Lemma unescapes_wf n : forall s d, (length s < n)%nat -> well_formed s -> unescapes false s d -> well_formed d.
Proof.
  induction n as [|n IH]; intros s d L W U; [lia|].
  destruct (wf_split s W) as [->|[[c [s' [-> [Hc W']]]]|[b [u [s' [-> [Hu [Wu W']]]]]]]].
  - inversion U; subst; apply wf_nil.
  - inversion U as [|c0 s0 d0 N1 N2 H|s0 d0 H|s0 d0 N H|c0 v s0 d0 I H|a b c0 v s0 d0 Ha Hb Hc0 Hv H
    |x h v s0 d0 Hx Lh Hn H|h v s0 d0 Eb Lh Hn Hs H|h v s0 d0 Eb Lh Hn Hs H]; subst; cbn in L.
    + rewrite wf_ascii_cons by lia. apply (IH s'); [lia|auto|auto].
    + rewrite wf_ascii_cons by lia. apply (IH s0); [cbn in L; lia|apply wf_ascii_back in W'; [auto|lia]|auto].
    + rewrite wf_ascii_cons by lia. apply (IH s'); [lia|auto|auto].
    + assert (A : 0 <= c0 < 128 /\ 0 <= v < 128).
      { cbn in I. repeat destruct I as [I|I]; try (injection I as <- <-; lia). contradiction. }
      rewrite wf_ascii_cons by lia. apply (IH s0); [lia|apply wf_ascii_back in W'; [auto|lia]|auto].
    + apply wf_app; [apply wf_char; unfold scalar; lia|].
      apply wf_ascii_back in W'; [|lia]. apply wf_ascii_back in W'; [|lia]. apply wf_ascii_back in W'; [|lia].
      apply (IH s0); [cbn in *; lia|auto|auto].
    + pose proof (hex_number_range _ _ Hn) as R. rewrite Lh in R. cbn in R.
      apply wf_app; [apply wf_char; unfold scalar; lia|].
      apply wf_ascii_back in W'; [|lia]. apply (wf_ascii_app h) in W'; [|eapply hex_ascii; exact Hn].
      rewrite app_length in L. apply (IH s0); [lia|auto|auto].
    + apply wf_app; [apply wf_char; exact Hs|].
      apply wf_ascii_back in W'; [|lia]. apply (wf_ascii_app h) in W'; [|eapply hex_ascii; exact Hn].
      rewrite app_length in L. apply (IH s0); [lia|auto|auto].
    + apply wf_app; [apply wf_char; exact Hs|].
      apply wf_ascii_back in W'; [|lia]. apply (wf_ascii_app h) in W'; [|eapply hex_ascii; exact Hn].
      rewrite app_length in L. apply (IH s0); [lia|auto|auto].
  - destruct (unescapes_high _ Hu _ _ _ U) as [d' [-> U']]. apply wf_app; [exact Wu|].
    rewrite app_length in L. cbn in L. apply (IH s'); [lia|auto|auto].
Qed.
Lemma raw_wf n : forall s d, (length s < n)%nat -> well_formed s -> raw_text s d -> well_formed d.
Proof.
  induction n as [|n IH]; intros s d L W U; [lia|].
  destruct (wf_split s W) as [->|[[c [s' [-> [Hc W']]]]|[b [u [s' [-> [Hu [Wu W']]]]]]]].
  - inversion U; subst; apply wf_nil.
  - inversion U as [|c0 s0 d0 N1 N2 H|s0 d0 H|s0 d0 N H|c0 s0 d0 H]; subst; cbn in L.
    + rewrite wf_ascii_cons by lia. apply (IH s'); [lia|auto|auto].
    + rewrite wf_ascii_cons by lia. apply (IH s0); [cbn in L; lia|apply wf_ascii_back in W'; [auto|lia]|auto].
    + rewrite wf_ascii_cons by lia. apply (IH s'); [lia|auto|auto].
    + rewrite wf_ascii_cons by lia.
      destruct (wf_split _ W') as [E|[[c1 [s1 [E [Hc1 W1]]]]|[b1 [u1 [s1 [E [Hu1 [Wu1 W1]]]]]]]]; [discriminate| |].
      * injection E as -> ->. rewrite wf_ascii_cons by lia. apply (IH s1); [cbn in L; lia|auto|auto].
      * injection E as -> ->. inversion Hu1; subst.
        match goal with F : Forall _ u1 |- _ => destruct (raw_high _ F _ _ H) as [d' [-> U']] end.
        change (b1 :: u1 ++ d') with ((b1 :: u1) ++ d'). apply wf_app; [exact Wu1|].
        cbn in L. rewrite app_length in L. apply (IH s1); [lia|auto|auto].
  - destruct (raw_high _ Hu _ _ U) as [d' [-> U']]. apply wf_app; [exact Wu|].
    rewrite app_length in L. cbn in L. apply (IH s'); [lia|auto|auto].
Qed.

Lemma UnescapeInternal_wf source closing raw d : bytes source ->
  UnescapeInternal source closing raw false = Val d -> well_formed d.
Proof.
  intros B E. unfold UnescapeInternal in E.
  destruct (CheckForClosingString source closing); cbn [negb] in E; [|discriminate].
  destruct source as [|z zs]; [injection E as <-; apply wf_nil|].
  set (src := firstn _ _) in E.
  assert (Bs : bytes src).
  { unfold src. rewrite <- (firstn_skipn (length (z :: zs) - length closing) (z :: zs)) in B.
    apply bytes_app in B. apply B. }
  destruct (Utf8IsValid_ok src Bs) as [v [V Hv]]. rewrite V in E. cbn [obind] in E.
  destruct v; cbn [negb] in E; [|discriminate]. assert (W : well_formed src) by tauto.
  destruct raw.
  - eapply raw_wf; [|exact W|eapply raw_sound; exact E]. apply Nat.lt_succ_diag_r.
  - eapply unescapes_wf; [|exact W|eapply unescape_loop_sound; exact E]. apply Nat.lt_succ_diag_r.
Qed.
Lemma bytes_skipn n s : bytes s -> bytes (skipn n s).
Proof. intros B. rewrite <- (firstn_skipn n s) in B. apply bytes_app in B. apply B. Qed.
