(* Lemmas about the string functions: case, white space, reversal, quoting. *)
From Coq Require Import ZArith String List Bool Lia ZifyBool.
From Verif Require Import Base M_Utf8 S_Utf8 L_Utf8 M_Strings S_Strings L_Strings.
From Verif Require Import M_StrExt S_StrExt L_StrExt L_StrExt2.
Import ListNotations.
Local Open Scope string_scope.
Open Scope list_scope.
Open Scope Z_scope.
Ltac Zify.zify_post_hook ::= idtac.

(** ** Case *)
Section Case.
  Variable hit : Z -> bool.
  Variable conv : Z -> Z.
  Hypothesis idle : forall c, hit c = false -> conv c = c.
  Lemma first_hit_none s : forall k, first_hit hit k s = None -> map conv s = s.
  Proof.
    induction s as [|c s IH]; intros k H; [reflexivity|]. cbn [first_hit map] in *.
    destruct (hit c) eqn:E; [discriminate|]. rewrite (idle c E), (IH _ H). reflexivity.
  Qed.
  Lemma first_hit_some s : forall k p, first_hit hit k s = Some p ->
    (k <= p)%nat /\ (p - k < length s)%nat /\ map conv (firstn (p - k) s) = firstn (p - k) s.
  Proof.
    induction s as [|c s IH]; intros k p H; [discriminate|]. cbn [first_hit length] in *.
    destruct (hit c) eqn:E.
    - injection H as <-. rewrite Nat.sub_diag. cbn. repeat split; lia.
    - destruct (IH _ _ H) as [L [M F]]. split; [lia|]. split; [lia|].
      replace (p - k)%nat with (S (p - S k)) by lia. cbn [firstn map]. rewrite (idle c E), F. reflexivity.
  Qed.
  Lemma convert_case_map t : convert_case hit conv t = Val (map conv (content t)).
  Proof.
    destruct t as [s|ch]; cbn [convert_case content].
    - destruct s as [|c s]; [reflexivity|]. destruct (first_hit hit O (c :: s)) eqn:E; [reflexivity|].
      rewrite (first_hit_none _ _ E). reflexivity.
    - set (s := concat ch). assert (D : s = [] \/ s <> []) by (destruct s; [left; reflexivity|right; discriminate]).
      destruct D as [-> | Ne]; [reflexivity|].
      assert (K : match first_hit hit 0 s with
        | Some pos => obind (slice s 0 pos) (fun a => obind (slice s pos (length s)) (fun rest => Val (a ++ map conv rest)))
        | None => Val s end = Val (map conv s)).
      { destruct (first_hit hit 0 s) as [p|] eqn:E.
        - destruct (first_hit_some _ _ _ E) as [_ [L F]]. rewrite Nat.sub_0_r in *.
          pose proof (slice_mid [] (firstn p s) (skipn p s)) as S1.
          pose proof (slice_end (firstn p s) (skipn p s)) as S2.
          cbn [app length Nat.add] in S1. rewrite firstn_skipn in S1, S2. rewrite firstn_length in S1, S2.
          replace (Nat.min p (length s)) with p in S1, S2 by lia. rewrite S1, S2. cbn [obind].
          rewrite <- F, <- map_app, firstn_skipn. reflexivity.
        - rewrite (first_hit_none _ _ E). reflexivity. }
      destruct s; [congruence|exact K].
  Qed.
End Case.
Lemma lower_enc s : Forall scalar s -> map ascii_tolower (encode s) = encode (map lower s).
Proof.
  induction 1 as [|c s Sc F IH]; [reflexivity|]. cbn [map]. rewrite !encode_cons, map_app, IH. f_equal.
  unfold scalar in Sc. destruct (Z.ltb_spec c 128) as [L|L].
  - assert (L' : lower c < 128) by (unfold lower; destruct ((65 <=? c) && (c <=? 90)) eqn:E; lia).
    rewrite !utf8_ascii by assumption. reflexivity.
  - replace (lower c) with c by (unfold lower; replace ((65 <=? c) && (c <=? 90)) with false by lia; reflexivity).
    pose proof (utf8_high c L Sc) as H. induction H as [|b u Hb H IHu]; [reflexivity|]. cbn [map]. rewrite IHu. f_equal.
    unfold ascii_tolower, ascii_isupper. replace ((65 <=? b) && (b <=? 90)) with false by lia. reflexivity.
Qed.
Lemma upper_enc s : Forall scalar s -> map ascii_toupper (encode s) = encode (map upper s).
Proof.
  induction 1 as [|c s Sc F IH]; [reflexivity|]. cbn [map]. rewrite !encode_cons, map_app, IH. f_equal.
  unfold scalar in Sc. destruct (Z.ltb_spec c 128) as [L|L].
  - assert (L' : upper c < 128) by (unfold upper; destruct ((97 <=? c) && (c <=? 122)) eqn:E; lia).
    rewrite !utf8_ascii by assumption. reflexivity.
  - replace (upper c) with c by (unfold upper; replace ((97 <=? c) && (c <=? 122)) with false by lia; reflexivity).
    pose proof (utf8_high c L Sc) as H. induction H as [|b u Hb H IHu]; [reflexivity|]. cbn [map]. rewrite IHu. f_equal.
    unfold ascii_toupper, ascii_islower. replace ((97 <=? b) && (b <=? 122)) with false by lia. reflexivity.
Qed.

(** ** White space *)
Lemma white_iff c : IsUnicodeWhitespace c = true <-> white c.
Proof.
  unfold white, white_space. cbn [In]. unfold IsUnicodeWhitespace.
  destruct (c <=? 32) eqn:A; [lia|]. destruct (c >? 12288) eqn:B; [lia|].
  destruct ((c =? 133) || (c =? 160) || (c =? 5760)) eqn:C; [lia|].
  destruct ((c >=? 8192) && (c <=? 8202)) eqn:D; lia.
Qed.
Lemma white_false c : IsUnicodeWhitespace c = false <-> ~ white c.
Proof. rewrite <- white_iff. destruct (IsUnicodeWhitespace c); split; congruence. Qed.
Lemma whites l : Forall (fun c => IsUnicodeWhitespace c = true) l -> Forall white l.
Proof. apply Forall_impl. intros c. apply white_iff. Qed.

Lemma Trim_flat_ok x s : spells x s -> exists t, Trim_flat x = Val (encode t) /\ trimmed s t.
Proof.
  intros [F ->]. unfold Trim_flat.
  assert (R : reads (fun s => s) (fun _ : list Z => True) (encode s) s) by (split; [exact I|split; [exact F|reflexivity]]).
  assert (Lf : (length s < S (length (encode s)))%nat) by (pose proof (encode_len s); lia).
  destruct (left_trim_ok _ _ _ _ flat_dec flat_drop_ok s _ O _ R Lf) as [l [r [Es [Wl [Nr ->]]]]].
  cbn [obind Nat.add]. destruct (Nat.eqb (length (encode l)) (length (encode s))) eqn:E.
  - apply Nat.eqb_eq in E. assert (r = []).
    { apply encode_nil_inv. subst s. rewrite encode_app, app_length in E. destruct (encode r); [reflexivity|cbn in E; lia]. }
    subst r. rewrite app_nil_r in Es. subst l.
    exists []. split.
    + pose proof (slice_end (encode s) []) as K. rewrite app_nil_r in K. exact K.
    + exists s, []. rewrite !app_nil_r. split; [reflexivity|]. split; [apply whites, Wl|]. split; [constructor|].
      split; [discriminate|intros c u H; destruct u; discriminate].
  - destruct (right_trim_ok _ _ _ _ flat_dec flat_drop_ok s _ O O _ R Lf) as [l' [r' [Es' [Wr [Nl ->]]]]].
    cbn [obind]. destruct r as [|c u].
    { exfalso. subst s. rewrite app_nil_r, Nat.eqb_refl in E. discriminate. }
    specialize (Nr c u eq_refl).
    assert (P : exists t, l' = l ++ t /\ t <> []).
    { rewrite Es in Es'. destruct (app_eq_app _ _ _ _ Es') as [z [[-> Ez]|[-> Ez]]].
      - exfalso. rewrite Ez in Wr. apply Forall_app in Wr. destruct Wr as [_ Wr].
        apply Forall_inv in Wr. congruence.
      - exists z. split; [reflexivity|]. intros ->. cbn in Ez. subst r'. apply Forall_inv in Wr. congruence. }
    destruct P as [t [-> Tn]].
    assert (Er : c :: u = t ++ r') by (rewrite Es, <- app_assoc in Es'; exact (app_inv_head _ _ _ Es')).
    exists t. split.
    + replace (match l ++ t with [] => 0%nat | _ => (0 + length (encode (l ++ t)))%nat end)
        with (length (encode (l ++ t))) by (destruct l; [destruct t; [congruence|reflexivity]|reflexivity]).
      replace (length (encode s) - (length (encode s) - length (encode (l ++ t))))%nat with (length (encode (l ++ t)))
        by (rewrite Es', (encode_app (l ++ t)), (app_length (encode (l ++ t))); lia).
      rewrite Es', <- app_assoc. apply slice_text.
    + exists l, r'. split; [rewrite app_assoc; exact Es'|]. split; [apply whites, Wl|]. split; [apply whites, Wr|]. split.
      * intros d v ->. injection Er as <- _. apply white_false, Nr.
      * intros d v ->. apply white_false. apply (Nl d (l ++ v)). rewrite app_assoc. reflexivity.
Qed.
Lemma Trim_cord_ok x s : holds (Large x) s -> exists t, Trim_cord x = Val (encode t) /\ trimmed s t.
Proof.
  intros H. pose proof (holds_cord _ _ H) as R. pose proof (holds_fuel _ _ H) as Lf. unfold fuel_of, size in Lf. cbn [content] in Lf.
  unfold Trim_cord.
  destruct (left_trim_ok _ _ _ _ cord_dec cord_drop_ok s _ O _ R Lf) as [l [r [Es [Wl [Nr ->]]]]].
  cbn [obind Nat.add]. rewrite (proj2 (proj2 R)).
  destruct (Nat.eqb (length (encode l)) (length (encode s))) eqn:E.
  - apply Nat.eqb_eq in E. assert (r = []).
    { apply encode_nil_inv. subst s. rewrite encode_app, app_length in E. destruct (encode r); [reflexivity|cbn in E; lia]. }
    subst r. rewrite app_nil_r in Es. subst l. exists []. split; [reflexivity|].
    exists s, []. rewrite !app_nil_r. split; [reflexivity|]. split; [apply whites, Wl|]. split; [constructor|].
    split; [discriminate|intros c u K; destruct u; discriminate].
  - assert (D : cord_drop (length (encode l)) x = Val (cord_advance x (length (encode l)))).
    { unfold cord_drop. rewrite (proj2 (proj2 R)).
      replace (Nat.leb (length (encode l)) (length (encode s))) with true
        by (subst s; rewrite encode_app, app_length; lia).
      reflexivity. }
    rewrite D. cbn [obind].
    assert (R' : reads (@concat Z) good_cord (cord_advance x (length (encode l))) r).
    { destruct R as [G [F B]]. split; [apply cord_advance_good, G|].
      split; [subst s; apply Forall_app in F; exact (proj2 F)|].
      rewrite cord_advance_concat, B, Es, encode_app, skipn_app, skipn_all, Nat.sub_diag. reflexivity. }
    rewrite (proj2 (proj2 R')).
    assert (Lf' : (length r < S (length (encode r)))%nat) by (pose proof (encode_len r); lia).
    destruct (right_trim_ok _ _ _ _ cord_dec cord_drop_ok r _ O O _ R' Lf') as [l' [r' [Es' [Wr [Nl ->]]]]].
    cbn [obind]. destruct r as [|c u].
    { exfalso. subst s. rewrite app_nil_r, Nat.eqb_refl in E. discriminate. }
    specialize (Nr c u eq_refl).
    destruct l' as [|d t].
    { exfalso. cbn in Es'. subst r'. apply Forall_inv in Wr. congruence. }
    exists (d :: t). split.
    + rewrite Es'. exact (slice_text [] (d :: t) r').
    + exists l, r'. split; [rewrite Es, Es'; reflexivity|]. split; [apply whites, Wl|]. split; [apply whites, Wr|]. split.
      * intros e v [= <- <-]. injection Es' as <- _. apply white_false, Nr.
      * intros e v K. apply white_false. exact (Nl e v K).
Qed.

(** ** Reversal *)
Lemma back_up_char r b before : Forall (fun x => Z.land x 192 = 128) r -> Z.land b 192 <> 128 ->
  back_up (r ++ b :: before) = (b :: rev r, before).
Proof.
  intros C N. induction C as [|x r Cx C IH].
  - cbn [app back_up rev]. destruct before; [reflexivity|]. destruct (Z.land b 192 =? 128) eqn:E; [lia|reflexivity].
  - cbn [app back_up rev]. rewrite IH. destruct (r ++ b :: before) eqn:E; [destruct r; discriminate|].
    rewrite Cx, Z.eqb_refl. reflexivity.
Qed.
Lemma reverse_loop_ok s : Forall scalar s -> forall fuel acc, (length s < fuel)%nat ->
  reverse_loop fuel acc (rev (encode s)) = Val (acc ++ encode (rev s)).
Proof.
  induction s as [|c s IH] using rev_ind; intros F [|fuel] acc L; try lia.
  - cbn. rewrite app_nil_r. reflexivity.
  - apply Forall_app in F. destruct F as [F Fc]. apply Forall_inv in Fc.
    cbn [reverse_loop]. rewrite encode_app, rev_app_distr, rev_app_distr. cbn [encode flat_map]. rewrite app_nil_r.
    destruct (utf8_shape c Fc) as [b [t [E [Nb Ct]]]].
    assert (B : back_up (rev (utf8 c) ++ rev (encode s)) = (utf8 c, rev (encode s))).
    { rewrite E. cbn [rev]. rewrite <- app_assoc. cbn [app]. rewrite back_up_char; [rewrite rev_involutive; reflexivity| |exact Nb].
      apply Forall_rev, Ct. }
    assert (Ne : rev (utf8 c) ++ rev (encode s) <> []).
    { rewrite E. cbn [rev]. rewrite <- app_assoc. intros X. apply app_eq_nil in X. destruct X as [_ X]. discriminate. }
    fold (encode s). destruct (rev (utf8 c) ++ rev (encode s)) eqn:Q; [congruence|]. rewrite B.
    rewrite app_length in L. cbn [length] in L. rewrite IH by (assumption || lia).
    cbn [rev app]. rewrite encode_cons, app_assoc. reflexivity.
Qed.
Lemma encode_model s : Forall scalar s -> flat_map Utf8Encode s = encode s.
Proof.
  induction 1 as [|c s Sc F IH]; [reflexivity|]. cbn [flat_map encode]. rewrite (Utf8Encode_valid c Sc), IH. reflexivity.
Qed.

(** ** Quoting *)
Lemma unescapes_app_high u : Forall (fun b => 128 <= b <= 255) u -> forall s d, unescapes false s d ->
  unescapes false (u ++ s) (u ++ d).
Proof. induction 1 as [|b u Hb H IH]; intros s d U; [exact U|]. cbn [app]. apply un_plain; [lia|lia|]. apply IH, U. Qed.
Lemma qf_app_high u : Forall (fun b => 128 <= b <= 255) u -> forall s, quote_free 34 s -> quote_free 34 (u ++ s).
Proof. induction 1 as [|b u Hb H IH]; intros s U; [exact U|]. cbn [app]. apply qf_plain; [lia|lia|]. apply IH, U. Qed.
Lemma quote_char c s d : scalar c -> unescapes false s d -> quote_free 34 s -> well_formed s ->
  unescapes false (AppendQuoteCodePoint c ++ s) (utf8 c ++ d) /\ quote_free 34 (AppendQuoteCodePoint c ++ s) /\
  well_formed (AppendQuoteCodePoint c ++ s).
Proof.
  intros Sc U Q W. unfold AppendQuoteCodePoint.
  assert (E : forall x v, In (x, v) simple_escapes -> 0 <= x < 128 -> 0 <= v < 128 ->
    unescapes false ([92; x] ++ s) (utf8 v ++ d) /\ quote_free 34 ([92; x] ++ s) /\ well_formed ([92; x] ++ s)).
  { intros x v I Hx Hv. rewrite utf8_ascii by lia. cbn [app]. split; [apply un_simple; assumption|].
    split; [apply qf_escape, Q|]. apply wf_ascii_cons; [lia|]. apply wf_ascii_cons; [lia|exact W]. }
  assert (I : forall x v, existsb (fun p => (fst p =? x) && (snd p =? v)) simple_escapes = true -> In (x, v) simple_escapes).
  { intros x v H. apply existsb_exists in H. destruct H as [[a b] [Hin H]]. cbn in H. 
    replace x with a by lia. replace v with b by lia. exact Hin. }
  repeat match goal with |- context [if c =? ?k then _ else _] =>
    let Q := fresh "Q" in destruct (Z.eqb_spec c k) as [->|Q]; [apply E; [apply I; reflexivity|lia|lia]|] end.
  rewrite (Utf8Encode_valid c Sc). unfold scalar in Sc. destruct (Z.ltb_spec c 128) as [L|L].
  - rewrite utf8_ascii by assumption. cbn [app]. split; [apply un_plain; [lia|lia|exact U]|]. split; [apply qf_plain; [lia|lia|exact Q]|].
    apply wf_ascii_cons; [lia|exact W].
  - pose proof (utf8_high c L Sc) as H. split; [apply unescapes_app_high; assumption|].
    split; [apply qf_app_high; assumption|]. apply wf_cons; assumption.
Qed.
Lemma quote_text s : Forall scalar s -> unescapes false (flat_map AppendQuoteCodePoint s) (encode s) /\
  quote_free 34 (flat_map AppendQuoteCodePoint s) /\ well_formed (flat_map AppendQuoteCodePoint s).
Proof.
  induction 1 as [|c s Sc F [U [Q W]]].
  - split; [constructor|]. split; [constructor|apply wf_nil].
  - cbn [flat_map]. rewrite encode_cons. apply quote_char; assumption.
Qed.
