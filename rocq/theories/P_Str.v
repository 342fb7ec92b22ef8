(* Property theorems C09-C13, C40-C42: UTF-8, literals and source positions. *)
From Coq Require Import ZArith List Bool Lia ZifyBool.
From Verif Require Import Base M_Utf8 S_Utf8 L_Utf8 M_Strings S_Strings L_Strings
  M_Source S_Source L_Source.
Import ListNotations.
Open Scope Z_scope.
Ltac Zify.zify_post_hook ::= idtac.

(* A concrete text with 1, 2, 3 and 4 byte characters, quotes, a backslash and
   a newline *)
Definition sample_cps : list Z := [97; 39; 34; 92; 10; 233; 8364; 128512].
Lemma sample_scalar : Forall scalar sample_cps.
Proof. repeat constructor; unfold scalar; lia. Qed.
Definition sample : list Z :=
  [97; 39; 34; 92; 10; 195; 169; 226; 130; 172; 240; 159; 152; 128].
Lemma sample_spells : spells sample sample_cps.
Proof. split; [exact sample_scalar|reflexivity]. Qed.

(* ------------------------------------------------------------------ C09 *)
Theorem C09_decode_encode : forall c rest, scalar c ->
  Utf8Decode (Utf8Encode c ++ rest) = Val (c, length (Utf8Encode c)) /\ Utf8Encode c = utf8 c.
Proof. intros c rest S. rewrite Utf8Encode_valid by exact S. split; [apply decode_utf8; exact S|reflexivity]. Qed.
Print Assumptions C09_decode_encode.
Example C09_decode_encode_ex : scalar 8364 /\ Utf8Decode (Utf8Encode 8364 ++ [65]) = Val (8364, 3%nat).
Proof. split; [unfold scalar; lia|reflexivity]. Qed.

(* char32_t is unsigned: every value that is not a scalar value *)
Theorem C09_encode_invalid : forall c, 0 <= c <= uint32_max -> ~ scalar c ->
  Utf8Encode c = utf8 65533.
Proof. intros c H N. apply Utf8Encode_invalid; [lia|exact N]. Qed.
Print Assumptions C09_encode_invalid.
Example C09_encode_invalid_ex : ~ scalar 55296 /\ ~ scalar 1114112.
Proof. unfold scalar. lia. Qed.

(* Any nonempty input: the result is a scalar value, between 1 and 4 units are
   consumed, never more than there are, and either those units are exactly the
   encoding of the result or no character starts here and U+FFFD is reported. *)
Theorem C09_decode_total : forall s, bytes s -> s <> [] ->
  exists c n, Utf8Decode s = Val (c, n) /\ scalar c /\ (1 <= n <= 4)%nat /\ (n <= length s)%nat /\
    ((s = utf8 c ++ skipn n s /\ n = length (utf8 c)) \/
     (c = 65533 /\ n = 1%nat /\ no_char_at_front s)).
Proof.
  intros s B N. destruct s as [|b t]; [congruence|].
  destruct (decode_next b t B) as [[D F]|[c [s [Sc [E [D [_ [Ek _]]]]]]]].
  - exists 65533, 1%nat. split; [exact D|]. split; [exact scalar_repl|]. split; [lia|]. split; [cbn; lia|].
    right. auto.
  - exists c, (length (utf8 c)). split; [exact D|]. split; [exact Sc|]. pose proof (utf8_len c).
    split; [lia|]. split; [rewrite E, app_length; lia|]. left. split; [|reflexivity]. rewrite Ek. exact E.
Qed.
Print Assumptions C09_decode_total.
Example C09_decode_total_ex : bytes [226; 130] /\ Utf8Decode [226; 130] = Val (65533, 1%nat).
Proof. split; [repeat constructor; unfold byte; lia|reflexivity]. Qed.

(* The Cord iterator form sees the same characters however the text is cut into
   (nonempty) chunks. *)
Theorem C09_decode_cord : forall chunks, Forall (fun c => c <> []) chunks -> chunks <> [] ->
  bytes (concat chunks) -> Utf8Decode_cord chunks = Utf8Decode (concat chunks).
Proof. exact decode_cord. Qed.
Print Assumptions C09_decode_cord.
Example C09_decode_cord_ex : Utf8Decode_cord [[226]; [130]; [172; 65]] = Val (8364, 3%nat).
Proof. reflexivity. Qed.

(* ------------------------------------------------------------------ C10 *)
Theorem C10_valid_iff_well_formed : forall s, bytes s ->
  (exists v, Utf8IsValid s = Val v) /\ (Utf8IsValid s = Val true <-> well_formed s).
Proof.
  intros s B. destruct (Utf8IsValid_ok s B) as [v [E H]]. split; [eauto|]. rewrite E, <- H.
  split; [congruence|intros ->; reflexivity].
Qed.
Print Assumptions C10_valid_iff_well_formed.
Example C10_valid_ex : Utf8IsValid sample = Val true /\ Utf8IsValid [237; 160; 128] = Val false.
Proof. split; reflexivity. Qed.

Theorem C10_count_is_length : forall s cps, spells s cps ->
  Utf8CodePointCount s = Val (Z.of_nat (length cps)).
Proof.
  intros s cps Sp. unfold Utf8CodePointCount.
  rewrite (ccount_wf _ _ _ _ _ _ sr_Rem sr_HRead sr_HPeek sr_HAdv _ cps s 0 s eq_refl Sp) by lia.
  f_equal.
Qed.
Print Assumptions C10_count_is_length.
Example C10_count_ex : spells sample sample_cps /\ Utf8CodePointCount sample = Val 8.
Proof. split; [exact sample_spells|reflexivity]. Qed.

(* every byte string: bytes that start no character count as one each *)
Theorem C10_count_malformed : forall s, bytes s ->
  exists n, Utf8CodePointCount s = Val n /\ counts s n /\ (forall m, counts s m -> m = n).
Proof.
  intros s B.
  destruct (ccount_gen _ _ _ _ _ _ sr_Rem sr_HRead sr_HPeek sr_HAdv (S (length s)) sr_HAdv0 s 0 s eq_refl B ltac:(lia)) as [n [E C]].
  exists n. split; [exact E|]. split; [exact C|]. intros m Cm. exact (counts_unique _ _ _ Cm C).
Qed.
Print Assumptions C10_count_malformed.
Example C10_count_malformed_ex : Utf8CodePointCount [65; 226; 130; 195; 169] = Val 4.
Proof. reflexivity. Qed.

(* validation reports the length of the longest well-formed prefix *)
Theorem C10_validate_prefix : forall s, bytes s ->
  exists pre rest v, Utf8Validate s = Val (Z.of_nat (length pre), v) /\
    Forall scalar pre /\ s = encode pre ++ rest /\
    (v = true -> rest = []) /\ (v = false -> rest <> [] /\ no_char_at_front rest).
Proof.
  intros s B.
  exact (validate_gen _ _ _ _ _ _ sr_Rem sr_HRead sr_HPeek sr_HAdv (S (length s)) s 0 s eq_refl B ltac:(lia)).
Qed.
Print Assumptions C10_validate_prefix.
Example C10_validate_prefix_ex : Utf8Validate [65; 195; 169; 195; 65] = Val (2, false).
Proof. reflexivity. Qed.

(* The absl::Cord forms; cap is the capacity of the reader's buffer as a function
   of its content, which the C++ library may choose. *)
Theorem C10_cord_valid_iff_well_formed : forall cap s, bytes s ->
  (exists v, Utf8IsValid_cord cap s = Val v) /\ (Utf8IsValid_cord cap s = Val true <-> well_formed s).
Proof.
  intros cap s B. unfold Utf8IsValid_cord.
  destruct (isvalid_gen _ _ _ _ _ _ cr_Rem (cr_HRead cap) (cr_HPeek cap) (cr_HAdv cap) (S (length s)) s _ eq_refl B ltac:(lia)) as [v [E H]].
  rewrite E. split; [eauto|]. rewrite <- H. split; [congruence|intros ->; reflexivity].
Qed.
Print Assumptions C10_cord_valid_iff_well_formed.
Example C10_cord_valid_ex : Utf8IsValid_cord (fun _ => 15%nat) sample = Val true.
Proof. reflexivity. Qed.

Theorem C10_cord_count_is_length : forall cap s cps, spells s cps ->
  Utf8CodePointCount_cord cap s = Val (Z.of_nat (length cps)).
Proof.
  intros cap s cps Sp. unfold Utf8CodePointCount_cord.
  rewrite (ccount_wf _ _ _ _ _ _ cr_Rem (cr_HRead cap) (cr_HPeek cap) (cr_HAdv cap) _ cps s 0 _ eq_refl Sp) by lia.
  f_equal.
Qed.
Print Assumptions C10_cord_count_is_length.
Example C10_cord_count_ex : Utf8CodePointCount_cord (fun _ => 15%nat) sample = Val 8.
Proof. reflexivity. Qed.

(* ------------------------------------------------------------------ C42 *)
Theorem C42_cord_validate_agrees_partial : forall cap s, bytes s ->
  Utf8IsValid_cord cap s = Utf8IsValid s /\ Utf8Validate_cord cap s = Utf8Validate s /\
  (well_formed s -> Utf8CodePointCount_cord cap s = Utf8CodePointCount s).
Proof.
  intros cap s B. split; [|split].
  - destruct (C10_valid_iff_well_formed s B) as [[v E] H].
    destruct (C10_cord_valid_iff_well_formed cap s B) as [[v' E'] H'].
    rewrite E, E' in *. f_equal. destruct v, v'; try reflexivity; exfalso.
    + assert (Val (A := bool) false = Val true) by tauto. discriminate.
    + assert (Val (A := bool) false = Val true) by tauto. discriminate.
  - destruct (C10_validate_prefix s B) as [p [r [v [E [F [Es [T N]]]]]]].
    unfold Utf8Validate_cord.
    destruct (validate_gen _ _ _ _ _ _ cr_Rem (cr_HRead cap) (cr_HPeek cap) (cr_HAdv cap) (S (length s)) s 0 _ eq_refl B ltac:(lia))
      as [p' [r' [v' [E' [F' [Es' [T' N']]]]]]].
    rewrite E, E'. cut (p = p' /\ v = v'). { intros [-> ->]. reflexivity. }
    assert (X : forall p q r r', Forall scalar p -> Forall scalar q -> encode p ++ r = encode q ++ r' ->
       (r = [] \/ no_char_at_front r) -> (r' = [] \/ no_char_at_front r') -> p = q /\ r = r').
    { clear. induction p as [|c p IH]; intros q r r' Fp Fq Ee Hr Hr'.
      - destruct q as [|d q]; [auto|]. exfalso. cbn in Ee. apply Forall_cons_iff in Fq. destruct Fq as [Sd Fq].
        rewrite <- app_assoc in Ee. destruct Hr as [->|Hr].
        + pose proof (utf8_len d). destruct (utf8 d); cbn in *; [lia|discriminate].
        + exact (Hr d _ ltac:(assumption) Ee).
      - apply Forall_cons_iff in Fp. destruct Fp as [Sc Fp]. destruct q as [|d q].
        + exfalso. cbn in Ee. rewrite <- app_assoc in Ee. symmetry in Ee. destruct Hr' as [->|Hr'].
          * pose proof (utf8_len c). destruct (utf8 c); cbn in *; [lia|discriminate].
          * exact (Hr' c _ ltac:(assumption) Ee).
        + apply Forall_cons_iff in Fq. destruct Fq as [Sd Fq]. cbn in Ee. rewrite <- !app_assoc in Ee.
          destruct (utf8_inj_app c d _ _ ltac:(assumption) ltac:(assumption) Ee) as [-> Et].
          destruct (IH q r r' ltac:(assumption) ltac:(assumption) Et Hr Hr') as [-> ->]. auto. }
    assert (R : r = [] \/ no_char_at_front r) by (destruct v; [left; auto|right; apply N; auto]).
    assert (R' : r' = [] \/ no_char_at_front r') by (destruct v'; [left; auto|right; apply N'; auto]).
    destruct (X p p' r r' F F' ltac:(congruence) R R') as [-> ->]. split; [reflexivity|].
    destruct v, v'; try reflexivity; exfalso.
    + apply (proj1 (N' eq_refl)). apply T. reflexivity.
    + apply (proj1 (N eq_refl)). apply T'. reflexivity.
  - intros [cps Sp]. rewrite (C10_cord_count_is_length cap s cps Sp), (C10_count_is_length s cps Sp). reflexivity.
Qed.
Print Assumptions C42_cord_validate_agrees_partial.
Example C42_cord_validate_ex : Utf8Validate_cord (fun _ => 15%nat) [65; 195; 169; 195; 65] = Val (2, false).
Proof. reflexivity. Qed.

(* counting the code points of a malformed Cord reads past the reader's buffer,
   for the two string capacities in use (15 inline bytes, or exact fit) *)
Theorem C42_cord_count_refuted : exists s, bytes s /\ Utf8CodePointCount s = Val 5 /\
  Utf8CodePointCount_cord (fun _ => 15%nat) s = UB /\ Utf8CodePointCount_cord (@length Z) s = UB.
Proof. exists [225; 225; 128; 65; 65]. split; [repeat constructor; unfold byte; lia|]. repeat split; reflexivity. Qed.
Print Assumptions C42_cord_count_refuted.

(* ------------------------------------------------------------------ C11 *)
Lemma choose_quote_ok s : ok_quote (choose_quote s).
Proof. unfold choose_quote, ok_quote. destruct (_ && _); auto. Qed.
Lemma format_string_ok q s : ok_quote q -> well_formed s ->
  ParseStringLiteral (q :: EscapeInternal s true q ++ [q]) = Val s.
Proof.
  intros Q W. assert (B := wf_bytes s W). unfold ParseStringLiteral, EscapeInternal.
  assert (Hq : q = 39 \/ q = 34) by exact Q.
  set (e := esc_loop true q false s).
  assert (M : MayBeStringLiteral (q :: e ++ [q]) = true).
  { unfold MayBeStringLiteral, last_char. rewrite app_comm_cons, last_last. cbn [length app].
    rewrite app_length. cbn [length]. rewrite Nat.add_1_r. destruct Hq as [->| ->]; reflexivity. }
  assert (MR : MayBeRawStringLiteral (q :: e ++ [q]) = false).
  { unfold MayBeRawStringLiteral. destruct (q :: e ++ [q]) as [|a l] eqn:E; [discriminate|]. injection E as <- <-.
    destruct Hq as [->| ->]; rewrite ?andb_false_r, ?andb_false_l; cbn; rewrite ?andb_false_r; reflexivity. }
  rewrite M, MR. cbn. apply parse_quoted_qf.
  - exact Q.
  - apply esc_loop_qf; assumption.
  - intros _. apply esc_loop_wf. exact W.
  - apply esc_loop_unescapes. exact B.
Qed.

Theorem C11_string_literal_round_trip : forall s, well_formed s ->
  ParseStringLiteral (FormatStringLiteral s) = Val s /\
  ParseStringLiteral (FormatSingleQuotedStringLiteral s) = Val s /\
  ParseStringLiteral (FormatDoubleQuotedStringLiteral s) = Val s.
Proof.
  intros s W. split; [|split].
  - apply format_string_ok; [apply choose_quote_ok|exact W].
  - apply (format_string_ok 39); [left; reflexivity|exact W].
  - apply (format_string_ok 34); [right; reflexivity|exact W].
Qed.
Print Assumptions C11_string_literal_round_trip.
Example C11_ex : well_formed sample /\ FormatStringLiteral sample <> ([34] ++ sample ++ [34])%list /\
  ParseStringLiteral (FormatStringLiteral sample) = Val sample.
Proof. split; [exists sample_cps; exact sample_spells|]. split; [discriminate|reflexivity]. Qed.

Lemma UnescapeString_iff s d : bytes s -> (UnescapeString s = Val d <-> well_formed s /\ unescapes false s d).
Proof.
  intros B. unfold UnescapeString, UnescapeInternal. destruct s as [|c s].
  - cbn. split.
    + intros [= <-]. split; [apply wf_nil|constructor].
    + intros [_ U]. inversion U. reflexivity.
  - destruct (Utf8IsValid_ok (c :: s) B) as [v [V Hv]].
    cbn [CheckForClosingString negb].
    replace (length (c :: s) - length (@nil Z))%nat with (length (c :: s)) by (cbn [length]; lia).
    rewrite firstn_all, V. cbn [obind].
    destruct v; cbn [negb].
    + split.
      * intros E. split; [tauto|]. eapply unescape_loop_sound. exact E.
      * intros [_ U]. apply (unescape_loop_complete false _ d U). cbn [length]. lia.
    + split; [discriminate|]. intros [W _]. apply Hv in W. discriminate.
Qed.

Theorem C11_escape_round_trip : forall s, well_formed s -> UnescapeString (EscapeString s) = Val s.
Proof.
  intros s W. pose proof (esc_loop_wf 0 s W false) as We.
  apply UnescapeString_iff; [apply wf_bytes; exact We|]. split; [exact We|].
  apply esc_loop_unescapes, wf_bytes, W.
Qed.
Print Assumptions C11_escape_round_trip.
Example C11_escape_ex : UnescapeString (EscapeString sample) = Val sample.
Proof. reflexivity. Qed.

(* ------------------------------------------------------------------ C12 *)
Lemma UnescapeBytes_iff s d : UnescapeBytes s = Val d <-> unescapes true s d.
Proof.
  unfold UnescapeBytes, UnescapeInternal. destruct s as [|c s].
  - cbn. split; [intros [= <-]; constructor|intros U; inversion U; reflexivity].
  - cbn [CheckForClosingString negb].
    replace (length (c :: s) - length (@nil Z))%nat with (length (c :: s)) by (cbn [length]; lia).
    rewrite firstn_all. cbn [obind negb]. split.
    + intros E. eapply unescape_loop_sound. exact E.
    + intros U. apply (unescape_loop_complete true _ d U). cbn [length]. lia.
Qed.
Lemma format_bytes_ok q s : ok_quote q -> bytes s ->
  ParseBytesLiteral (98 :: q :: EscapeBytes s false q ++ [q]) = Val s.
Proof.
  intros Q B. unfold ParseBytesLiteral.
  assert (Hq : q = 39 \/ q = 34) by exact Q.
  set (e := EscapeBytes s false q).
  assert (M : MayBeBytesLiteral (98 :: q :: e ++ [q]) = true).
  { unfold MayBeBytesLiteral, last_char. change (98 :: q :: e ++ [q]) with ((98 :: q :: e) ++ [q]). rewrite last_last. cbn [length app].
    rewrite app_length. cbn [length]. rewrite Nat.add_1_r. destruct Hq as [->| ->]; reflexivity. }
  assert (MR : MayBeRawBytesLiteral (98 :: q :: e ++ [q]) = false).
  { unfold MayBeRawBytesLiteral. destruct Hq as [->| ->]; cbn [nth]; cbn -[Nat.leb]; rewrite ?andb_false_r; reflexivity. }
  rewrite M, MR. cbn [negb andb]. cbn [skipn]. apply parse_quoted_qf.
  - exact Q.
  - apply EscapeBytes_qf; assumption.
  - discriminate.
  - apply EscapeBytes_unescapes. exact B.
Qed.
Theorem C12_bytes_literal_round_trip : forall s, bytes s ->
  ParseBytesLiteral (FormatBytesLiteral s) = Val s /\
  ParseBytesLiteral (FormatSingleQuotedBytesLiteral s) = Val s /\
  ParseBytesLiteral (FormatDoubleQuotedBytesLiteral s) = Val s.
Proof.
  intros s B. split; [|split].
  - apply format_bytes_ok; [apply choose_quote_ok|exact B].
  - apply (format_bytes_ok 39); [left; reflexivity|exact B].
  - apply (format_bytes_ok 34); [right; reflexivity|exact B].
Qed.
Print Assumptions C12_bytes_literal_round_trip.
Example C12_ex : bytes [0; 255; 39; 34; 92; 65] /\
  ParseBytesLiteral (FormatBytesLiteral [0; 255; 39; 34; 92; 65]) = Val [0; 255; 39; 34; 92; 65].
Proof. split; [repeat constructor; unfold byte; lia|reflexivity]. Qed.

(* EscapeBytes with any quote, and in escape-everything mode *)
Theorem C12_escape_round_trip : forall all q s, bytes s -> UnescapeBytes (EscapeBytes s all q) = Val s.
Proof. intros all q s B. apply UnescapeBytes_iff, EscapeBytes_unescapes, B. Qed.
Print Assumptions C12_escape_round_trip.
Example C12_escape_ex : UnescapeBytes (EscapeBytes [0; 255; 34] true 0) = Val [0; 255; 34].
Proof. reflexivity. Qed.

(* ------------------------------------------------------------------ C40 *)
Lemma parse_quoted_wf copy raw d : bytes copy -> parse_quoted copy raw false = Val d -> well_formed d.
Proof. intros B. apply UnescapeInternal_wf. apply bytes_skipn. exact B. Qed.
Theorem C40_parsed_strings_well_formed : forall s d, bytes s ->
  ParseStringLiteral s = Val d \/ UnescapeString s = Val d -> well_formed d.
Proof.
  intros s d B [E|E].
  - unfold ParseStringLiteral in E. destruct (_ && _); [discriminate|].
    apply parse_quoted_wf in E; [exact E|]. destruct (MayBeRawStringLiteral s); [apply bytes_skipn|]; exact B.
  - apply UnescapeInternal_wf in E; assumption.
Qed.
Print Assumptions C40_parsed_strings_well_formed.
Example C40_ex : (* "\u20ac" in quotes *)
  ParseStringLiteral [34; 92; 117; 50; 48; 97; 99; 34] = Val [226; 130; 172] /\
  (* "\ud800", a surrogate *)
  ParseStringLiteral [34; 92; 117; 100; 56; 48; 48; 34] = bad.
Proof. split; reflexivity. Qed.

(* ------------------------------------------------------------------ C41 *)
(* Exactly the escape grammar of the language definition: nothing else is
   accepted, nothing is decoded differently, and decoding is deterministic. *)
Theorem C41_string_escapes : forall s d, bytes s ->
  (UnescapeString s = Val d <-> well_formed s /\ unescapes false s d).
Proof. exact UnescapeString_iff. Qed.
Print Assumptions C41_string_escapes.
Example C41_string_ex : UnescapeString [92; 120; 101; 57; 13; 10; 92; 49; 48; 49] = Val [195; 169; 10; 65].
Proof. reflexivity. Qed.
Theorem C41_bytes_escapes : forall s d, UnescapeBytes s = Val d <-> unescapes true s d.
Proof. exact UnescapeBytes_iff. Qed.
Print Assumptions C41_bytes_escapes.
Example C41_bytes_ex : UnescapeBytes [92; 120; 101; 57; 92; 51; 55; 55] = Val [233; 255].
Proof. reflexivity. Qed.

(* the same through quotes: a text with every quote escaped *)
Lemma is_string_literal q s : q = 39 \/ q = 34 ->
  MayBeStringLiteral (q :: s ++ [q]) = true /\ MayBeRawStringLiteral (q :: s ++ [q]) = false.
Proof.
  intros Hq. split.
  - unfold MayBeStringLiteral, last_char. rewrite app_comm_cons, last_last. cbn [length app].
    rewrite app_length. cbn [length]. rewrite Nat.add_1_r. destruct Hq as [->| ->]; reflexivity.
  - unfold MayBeRawStringLiteral. destruct Hq as [->| ->]; cbn [nth]; cbn -[Nat.leb nth last_char]; rewrite ?andb_false_r; reflexivity.
Qed.
Lemma is_raw_string_literal r q s : q = 39 \/ q = 34 -> r = 114 \/ r = 82 ->
  MayBeStringLiteral (r :: q :: s ++ [q]) = false /\ MayBeRawStringLiteral (r :: q :: s ++ [q]) = true.
Proof.
  intros Hq Hr. split.
  - unfold MayBeStringLiteral. cbn [nth]. destruct Hr as [->| ->]; cbn -[Nat.leb last_char]; rewrite ?andb_false_r; reflexivity.
  - unfold MayBeRawStringLiteral, last_char. change (r :: q :: s ++ [q]) with ((r :: q :: s) ++ [q]). rewrite last_last. cbn [length app].
    rewrite app_length. cbn [length]. rewrite Nat.add_1_r. destruct Hq as [->| ->], Hr as [->| ->]; reflexivity.
Qed.
Lemma is_bytes_literal b q s : q = 39 \/ q = 34 -> b = 98 \/ b = 66 ->
  MayBeBytesLiteral (b :: q :: s ++ [q]) = true /\ MayBeRawBytesLiteral (b :: q :: s ++ [q]) = false.
Proof.
  intros Hq Hb. split.
  - unfold MayBeBytesLiteral, last_char. change (b :: q :: s ++ [q]) with ((b :: q :: s) ++ [q]). rewrite last_last. cbn [length app].
    rewrite app_length. cbn [length]. rewrite Nat.add_1_r. destruct Hq as [->| ->], Hb as [->| ->]; reflexivity.
  - unfold MayBeRawBytesLiteral. destruct Hq as [->| ->], Hb as [->| ->]; cbn [nth]; cbn -[Nat.leb nth last_char]; rewrite ?andb_false_r; reflexivity.
Qed.
Theorem C41_quoted_literal : forall q s d, q = 39 \/ q = 34 -> quote_free q s -> bytes s ->
  (ParseStringLiteral (q :: s ++ [q]) = Val d <-> well_formed s /\ unescapes false s d) /\
  (forall b, b = 98 \/ b = 66 ->
     (ParseBytesLiteral (b :: q :: s ++ [q]) = Val d <-> unescapes true s d)) /\
  (forall r, r = 114 \/ r = 82 ->
     (ParseStringLiteral (r :: q :: s ++ [q]) = Val d <-> well_formed s /\ raw_text s d)).
Proof.
  intros q s d Hq F B. destruct (Utf8IsValid_ok s B) as [v [V Hv]]. split; [|split].
  - unfold ParseStringLiteral. destruct (is_string_literal q s Hq) as [-> ->]. cbn [negb andb].
    rewrite parse_quoted_eq by assumption. rewrite V. cbn [obind]. destruct v; cbn [negb].
    + split; [intros E; split; [tauto|eapply unescape_loop_sound; exact E]|].
      intros [_ U]. apply (unescape_loop_complete false _ d U). lia.
    + split; [discriminate|]. intros [W _]. apply Hv in W. discriminate.
  - intros b Hb. unfold ParseBytesLiteral. destruct (is_bytes_literal b q s Hq Hb) as [-> ->]. cbn [negb andb skipn].
    rewrite parse_quoted_eq by assumption. cbn [obind negb].
    split; [intros E; eapply unescape_loop_sound; exact E|].
    intros U. apply (unescape_loop_complete true _ d U). lia.
  - intros r Hr. unfold ParseStringLiteral. destruct (is_raw_string_literal r q s Hq Hr) as [-> ->]. cbn [negb andb skipn].
    rewrite parse_quoted_eq by assumption. rewrite V. cbn [obind]. destruct v; cbn [negb].
    + split; [intros E; split; [tauto|eapply raw_sound; exact E]|].
      intros [_ U]. apply (raw_complete false _ d U). lia.
    + split; [discriminate|]. intros [W _]. apply Hv in W. discriminate.
Qed.
Print Assumptions C41_quoted_literal.
Example C41_quoted_ex : quote_free 34 [39; 92; 34] /\ bytes [39; 92; 34] /\
  ParseStringLiteral [34; 39; 92; 34; 34] = Val [39; 34] /\
  ParseStringLiteral [114; 34; 39; 92; 34; 34] = Val [39; 92; 34].
Proof.
  split; [apply qf_plain; try lia; apply qf_escape; constructor|].
  split; [repeat constructor; unfold byte; lia|split; reflexivity].
Qed.

(* ------------------------------------------------------------------ C13 *)
(* The source is created from any well-formed text below 2^31 - 1 bytes and
   holds exactly its code points. *)
Theorem C13_source_content : forall text cps, Z.of_nat (length text) < int32_max -> spells text cps ->
  exists s, NewSource text = Val s /\ content_size s = Z.of_nat (length cps) /\
    (forall p c, nth_error cps p = Some c -> content_at s (Z.of_nat p) = Val c) /\
    content_to_string s 0 (content_size s) = Val text.
Proof.
  intros text cps L Sp. destruct (NewSource_ok text cps L Sp) as [k [E A]]. eexists. split; [exact E|].
  split; [reflexivity|]. split.
  - intros p c N. unfold content_at. cbn [src_text]. replace (_ <? 0) with false by lia.
    rewrite Nat2Z.id, N. reflexivity.
  - destruct Sp as [F Et]. unfold content_size. cbn [src_text].
    rewrite to_string_ok by (auto; lia). rewrite Z.sub_0_r, Nat2Z.id. cbn [Z.to_nat skipn]. rewrite firstn_all, Et. reflexivity.
Qed.
Print Assumptions C13_source_content.
Theorem C13_malformed_rejected : forall text, Z.of_nat (length text) < int32_max -> bytes text ->
  ~ well_formed text -> NewSource text = bad.
Proof. exact NewSource_bad. Qed.
Print Assumptions C13_malformed_rejected.

Theorem C13_positions : forall text cps p, Z.of_nat (length text) < int32_max -> spells text cps ->
  (p <= length cps)%nat ->
  exists s, NewSource text = Val s /\
    GetLocation s (Z.of_nat p) = Some (line_of cps p, column_of cps p) /\
    GetPosition s (line_of cps p) (column_of cps p) = Some (Z.of_nat p).
Proof.
  intros text cps p L Sp Hp. destruct (NewSource_ok text cps L Sp) as [k [E A]]. eexists. split; [exact E|].
  split; [apply GetLocation_ok|apply GetPosition_ok]; exact Hp.
Qed.
Print Assumptions C13_positions.
Example C13_positions_ex : spells sample sample_cps /\ (7 <= length sample_cps)%nat /\
  line_of sample_cps 7 = 2 /\ column_of sample_cps 7 = 2 /\
  match NewSource sample with Val s => GetLocation s 7 | _ => None end = Some (2, 2).
Proof. split; [exact sample_spells|]. split; [cbn [length sample_cps]; lia|]. vm_compute. auto. Qed.

(* the n-th line of the text, and nothing for other line numbers; an empty text
   has no snippet *)
Theorem C13_snippet : forall text cps, Z.of_nat (length text) < int32_max -> spells text cps ->
  exists s, NewSource text = Val s /\
    (cps <> [] -> forall n l, nth_error (lines_of cps) n = Some l ->
       Snippet s (Z.of_nat n + 1) = Val (Some (encode l))) /\
    (forall line, line < 1 \/ Z.of_nat (length (lines_of cps)) < line -> Snippet s line = Val None).
Proof.
  intros text cps L Sp. destruct (NewSource_ok text cps L Sp) as [k [E A]]. eexists. split; [exact E|].
  split.
  - intros N n l H. replace (Z.of_nat n + 1) with (Z.of_nat (S n)) by lia.
    apply Snippet_ok; auto. exact (proj1 Sp).
  - intros line [H|H].
    + unfold Snippet, FindLinePosition. replace (line <? 1) with true by lia. reflexivity.
    + replace line with (Z.of_nat (S (Z.to_nat (line - 1)))) by lia. apply Snippet_none. lia.
Qed.
Print Assumptions C13_snippet.
Example C13_snippet_ex : lines_of sample_cps = [[97; 39; 34; 92]; [233; 8364; 128512]] /\
  match NewSource sample with Val s => Snippet s 2 | _ => UB end = Val (Some [195; 169; 226; 130; 172; 240; 159; 152; 128]).
Proof. split; vm_compute; reflexivity. Qed.

(* ------------------------------------------------------------------ C43 *)
(* A text of exactly 2^31 - 1 bytes passes the size check, and then the position
   after its last character, plus one, overflows the 32-bit position type. *)
Lemma ascii_loop_overflow f : forall n text index offset lines, (n < f)%nat ->
  0 <= offset -> offset + Z.of_nat n = int32_max ->
  ascii_loop f text (repeat 97 n) index offset lines = UB.
Proof.
  induction f as [|f IH]; intros n text index offset lines L Ho H; [lia|].
  destruct n as [|n].
  - cbn [repeat ascii_loop]. unfold finish, c_int32, in_int32, int32_min.
    replace (_ && _) with false by lia. reflexivity.
  - cbn [repeat ascii_loop].
    replace (Utf8Decode (97 :: repeat 97 n)) with (Val (97, 1%nat)) by reflexivity.
    cbn [obind]. change (97 =? kUnicodeReplacementCharacter) with false. cbn [andb].
    rewrite note_newline_ok by lia. cbn [obind]. rewrite c_int32_ok by lia. cbn [obind].
    change (97 <=? 127) with true. cbn [skipn]. apply IH; lia.
Qed.
Lemma largest_overflow n : Z.of_nat n = int32_max ->
  Z.of_nat (length (repeat 97 n)) = int32_max /\ well_formed (repeat 97 n) /\ NewSource (repeat 97 n) = UB.
Proof.
  intros H. rewrite repeat_length. split; [exact H|]. split.
  - exists (repeat 97 n). clear H. split.
    + apply Forall_forall. intros x I. apply repeat_spec in I. subst. unfold scalar. lia.
    + induction n as [|n IH]; [reflexivity|]. cbn [repeat]. rewrite IH at 1. reflexivity.
  - unfold NewSource. rewrite repeat_length, H. rewrite Z.gtb_ltb, Z.ltb_irrefl.
    apply ascii_loop_overflow; [lia|lia|lia].
Qed.
Theorem C43_largest_source_refuted :
  exists text, Z.of_nat (length text) = int32_max /\ well_formed text /\ NewSource text = UB.
Proof.
  destruct (Z_of_nat_complete int32_max ltac:(unfold int32_max; lia)) as [n H].
  exists (repeat 97 n). apply largest_overflow. symmetry. exact H.
Qed.
Print Assumptions C43_largest_source_refuted.
(* larger texts are refused, smaller ones never meet undefined behaviour *)
Theorem C43_source_size_partial : forall text, bytes text ->
  (Z.of_nat (length text) < int32_max -> NewSource text <> UB) /\
  (int32_max < Z.of_nat (length text) -> NewSource text = bad).
Proof.
  intros text B. split.
  - intros L. destruct (Utf8IsValid_ok text B) as [v [_ V]]. destruct v.
    + destruct (proj1 V eq_refl) as [cps Sp]. destruct (NewSource_ok text cps L Sp) as [k [-> _]]. discriminate.
    + rewrite NewSource_bad; [discriminate|exact L|exact B|]. intros W. apply V in W. discriminate.
  - intros L. unfold NewSource. replace (_ >? _) with true by lia. reflexivity.
Qed.
Print Assumptions C43_source_size_partial.
Example C43_ex : bytes [65; 10] /\ Z.of_nat (length [65; 10]) < int32_max.
Proof. split; [repeat constructor; unfold byte; lia|reflexivity]. Qed.
