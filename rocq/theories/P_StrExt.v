(* Property theorems C66-C70: the string functions. *)
From Coq Require Import ZArith String List Bool Lia ZifyBool.
From Verif Require Import Base M_Utf8 S_Utf8 L_Utf8 M_Strings S_Strings L_Strings P_Str.
From Verif Require Import M_StrExt S_StrExt L_StrExt L_StrExt2 L_StrExt3.
Import ListNotations.
Local Open Scope string_scope.
Open Scope list_scope.
Open Scope Z_scope.
Ltac Zify.zify_post_hook ::= idtac.

(* A text with 1, 2, 3 and 4 byte characters, as a contiguous string and as a Cord
   cut in the middle of characters: "ta" U+00A9 "o" U+20AC U+00A9 U+1F600 "T" *)
Definition tx : list Z := [116; 97; 169; 111; 8364; 169; 128512; 84].
Definition tx_flat : text := Flat (encode tx).
Definition tx_cord : text :=
  Large [[116; 97; 194]; [169; 111; 226]; [130]; [172; 194; 169; 240; 159]; [152; 128; 84]].
Lemma tx_holds : holds tx_flat tx /\ holds tx_cord tx.
Proof.
  assert (F : Forall scalar tx) by (repeat constructor; unfold scalar; lia).
  split; (split; [split; [exact F|reflexivity]|]); [exact I|repeat constructor; discriminate].
Qed.
Definition needle : text := Flat (encode [169]).
Lemma needle_holds : holds needle [169].
Proof. split; [split; [repeat constructor; unfold scalar; lia|reflexivity]|exact I]. Qed.

(* ------------------------------------------------------------------ C66 *)
Theorem C66_index_of : forall h n hs ns, holds h hs -> holds n ns ->
  exists r, IndexOf2 h n = Val r /\ first_from ns hs 0 r.
Proof.
  intros h n hs ns H N. unfold IndexOf2, IndexOf. rewrite (holds_content _ _ N).
  pose proof (holds_fuel _ _ H) as Lf. revert Lf. generalize (fuel_of h). intros f Lf.
  apply (visit_ok (fun V b d r => IndexOf_loop b d r f (encode ns) 0)
    (fun o => exists r, obind o (fun o => Val (value_or o)) = Val r /\ first_from ns hs 0 r) h hs H).
  intros V b d r good v Hd Hr R.
  destruct (IndexOf_loop_ok _ _ _ _ Hd Hr ns (holds_scalar _ _ N) hs f 0 v R Lf) as [o [-> K]].
  cbn [obind]. exists (value_or o). split; [reflexivity|].
  destruct o as [i|]; cbn [value_or].
  - rewrite Z.sub_0_r in K. destruct K as [O M]. left. split; [apply occurs_nonneg in O; lia|]. split; [exact O|].
    intros j Hj. apply M. lia.
  - right. split; [reflexivity|]. intros j _. apply K.
Qed.
Print Assumptions C66_index_of.
Example C66_index_of_ex : holds tx_cord tx /\ holds needle [169] /\
  IndexOf2 tx_cord needle = Val 2 /\ IndexOf2 tx_flat needle = Val 2 /\ IndexOf2 needle tx_flat = Val (-1).
Proof. split; [apply tx_holds|]. split; [apply needle_holds|]. repeat split. Qed.

Lemma Size_ok cap t s : holds t s -> Size cap t = Val (Z.of_nat (length s)).
Proof.
  intros [Sp _]. destruct t as [x|x]; cbn [Size content] in *.
  - apply C10_count_is_length, Sp.
  - apply C10_cord_count_is_length, Sp.
Qed.
(* strings whose size is a valid int64_t *)
Definition fits (s : list Z) : Prop := Z.of_nat (length (encode s)) < int64_max.
Lemma unsigned_pos pos s : fits s -> in_int64 pos = true ->
  (c_uint64 pos >? Z.of_nat (length s)) = ((pos <? 0) || (pos >? Z.of_nat (length s))).
Proof.
  unfold fits, in_int64, int64_min, int64_max, c_uint64. intros F P. pose proof (encode_len s).
  destruct (pos <? 0) eqn:E; cbn [orb].
  - replace pos with (pos + 2 ^ 64 + (-1) * 2 ^ 64) by lia. rewrite Z.mod_add by lia.
    rewrite Z.mod_small by lia. lia.
  - rewrite Z.mod_small by lia. reflexivity.
Qed.

Theorem C66_index_of_from : forall cap h n pos hs ns, holds h hs -> holds n ns -> fits hs -> in_int64 pos = true ->
  (0 <= pos <= Z.of_nat (length hs) -> exists r, IndexOf3 cap h n pos = Val r /\ first_from ns hs pos r) /\
  (~ 0 <= pos <= Z.of_nat (length hs) -> IndexOf3 cap h n pos = Err out_of_range).
Proof.
  intros cap h n pos hs ns H N Fi P. unfold IndexOf3. rewrite (Size_ok _ _ _ H). cbn [obind].
  rewrite (unsigned_pos _ _ Fi P). split.
  - intros Hp. replace ((pos <? 0) || (pos >? Z.of_nat (length hs))) with false by lia.
    unfold IndexOf_from. rewrite (holds_content _ _ N). replace (pos <? 0) with false by lia.
    pose proof (holds_fuel _ _ H) as Lf. revert Lf. generalize (fuel_of h). intros f Lf.
    apply (visit_ok (fun V b d r => IndexOf_from_loop b d r f (encode ns) pos 0)
      (fun o => exists r, obind o (fun o => Val (value_or o)) = Val r /\ first_from ns hs pos r) h hs H).
    intros V b d r good v Hd Hr R.
    destruct (IndexOf_from_loop_ok _ _ _ _ Hd Hr ns pos (holds_scalar _ _ N) hs f 0 v R Lf) as [o [-> K]].
    cbn [obind]. exists (value_or o). split; [reflexivity|].
    destruct o as [i|]; cbn [value_or].
    + rewrite Z.sub_0_r in K. destruct K as [Hi [O M]]. left. split; [exact Hi|]. split; [exact O|].
      intros j Hj. apply M; lia.
    + right. split; [reflexivity|]. intros j Hj. apply K. lia.
  - intros Hp. replace ((pos <? 0) || (pos >? Z.of_nat (length hs))) with true by lia. reflexivity.
Qed.
Print Assumptions C66_index_of_from.
Example C66_index_of_from_ex : fits tx /\ in_int64 3 = true /\
  IndexOf3 (fun _ => 15%nat) tx_cord needle 3 = Val 5 /\ IndexOf3 (fun _ => 15%nat) tx_flat needle 6 = Val (-1) /\
  IndexOf3 (fun _ => 15%nat) tx_cord (Flat []) 8 = Val 8.
Proof. split; [reflexivity|]. split; [reflexivity|]. split; [vm_compute; reflexivity|]. split; vm_compute; reflexivity. Qed.

Lemma last_result_upto n s m o : last_result n s 0 (-1) m o -> last_upto n s m (value_or o).
Proof.
  intros [[r [-> [L [O M]]]]|[-> M]]; cbn [value_or].
  - rewrite Z.sub_0_r in *. left. auto.
  - right. split; [reflexivity|exact M].
Qed.
Theorem C66_last_index_of : forall h n hs ns, holds h hs -> holds n ns ->
  exists r, LastIndexOf2 h n = Val r /\ last_upto ns hs (Z.of_nat (length hs)) r.
Proof.
  intros h n hs ns H N. unfold LastIndexOf2, LastIndexOf. rewrite (holds_content _ _ N).
  pose proof (holds_fuel _ _ H) as Lf. revert Lf. generalize (fuel_of h). intros f Lf.
  apply (visit_ok (fun V b d r => LastIndexOf_loop b d r f (encode ns) (-1) 0)
    (fun o => exists r, obind o (fun o => Val (value_or o)) = Val r /\ last_upto ns hs (Z.of_nat (length hs)) r) h hs H).
  intros V b d r good v Hd Hr R.
  destruct (LastIndexOf_loop_ok _ _ _ _ Hd Hr ns (holds_scalar _ _ N) hs f (-1) 0 v R Lf ltac:(lia)) as [o [-> K]].
  cbn [obind]. exists (value_or o). split; [reflexivity|]. apply last_result_upto, K.
Qed.
Print Assumptions C66_last_index_of.
Example C66_last_index_of_ex : holds tx_cord tx /\ holds needle [169] /\ LastIndexOf2 tx_cord needle = Val 5 /\
  LastIndexOf2 tx_flat (Flat []) = Val 8.
Proof. split; [apply tx_holds|]. split; [apply needle_holds|]. repeat split. Qed.

Theorem C66_last_index_of_from : forall cap h n pos hs ns, holds h hs -> holds n ns -> fits hs -> in_int64 pos = true ->
  (0 <= pos <= Z.of_nat (length hs) -> exists r, LastIndexOf3 cap h n pos = Val r /\ last_upto ns hs pos r) /\
  (~ 0 <= pos <= Z.of_nat (length hs) -> LastIndexOf3 cap h n pos = Err out_of_range).
Proof.
  intros cap h n pos hs ns H N Fi P. unfold LastIndexOf3. rewrite (Size_ok _ _ _ H). cbn [obind].
  rewrite (unsigned_pos _ _ Fi P). split.
  - intros Hp. replace ((pos <? 0) || ((pos <? 0) || (pos >? Z.of_nat (length hs)))) with false by lia.
    unfold LastIndexOf_from. rewrite (holds_content _ _ N). replace (pos <? 0) with false by lia.
    pose proof (holds_fuel _ _ H) as Lf. revert Lf. generalize (fuel_of h). intros f Lf.
    apply (visit_ok (fun V b d r => LastIndexOf_from_loop b d r f (encode ns) pos (-1) 0)
      (fun o => exists r, obind o (fun o => Val (value_or o)) = Val r /\ last_upto ns hs pos r) h hs H).
    intros V b d r good v Hd Hr R.
    destruct (LastIndexOf_from_loop_ok _ _ _ _ Hd Hr ns pos (holds_scalar _ _ N) hs f (-1) 0 v R Lf ltac:(lia)) as [o [-> K]].
    cbn [obind]. exists (value_or o). split; [reflexivity|]. apply last_result_upto. rewrite Z.sub_0_r in K. exact K.
  - intros Hp. replace ((pos <? 0) || ((pos <? 0) || (pos >? Z.of_nat (length hs)))) with true by lia. reflexivity.
Qed.
Print Assumptions C66_last_index_of_from.
Example C66_last_index_of_from_ex : fits tx /\
  LastIndexOf3 (fun _ => 15%nat) tx_cord needle 4 = Val 2 /\ LastIndexOf3 (fun _ => 15%nat) tx_flat needle 1 = Val (-1).
Proof. split; [reflexivity|]. split; vm_compute; reflexivity. Qed.

(* contains, startsWith and endsWith look at bytes; they answer for characters. *)
Theorem C66_contains : forall h n hs ns, holds h hs -> holds n ns ->
  (Contains h n = true <-> exists k, occurs ns hs k) /\
  (StartsWith h n = true <-> occurs ns hs 0) /\
  (EndsWith h n = true <-> occurs ns hs (Z.of_nat (length hs) - Z.of_nat (length ns))).
Proof.
  intros h n hs ns H N. pose proof (holds_scalar _ _ H) as Sh. pose proof (holds_scalar _ _ N) as Sn.
  unfold Contains, StartsWith, EndsWith. rewrite (holds_content _ _ H), (holds_content _ _ N). split; [|split].
  - destruct ns as [|c ns].
    { split; [intros _; exists 0; apply occurs_0; exists hs; reflexivity|].
      intros _. unfold sv_find. cbn [Nat.ltb]. destruct (Nat.ltb (length (encode hs)) 0) eqn:E; [lia|].
      cbn [skipn encode flat_map]. destruct (encode hs); reflexivity. }
    pose proof (find_text (c :: ns) [] hs ltac:(discriminate) Sn Sh) as F. cbn [app] in F.
    change (length (encode [])) with O in F.
    destruct (sv_find (encode hs) (encode (c :: ns)) 0) as [j|].
    + destruct F as [p [rest [-> _]]]. split; [|reflexivity]. intros _. exists (Z.of_nat (length p)), p, rest. auto.
    + split; [discriminate|]. intros [k O]. destruct (F k O).
  - rewrite starts_with_text by assumption. symmetry. apply occurs_0.
  - unfold ends_with. rewrite starts_with_iff. split.
    + intros [t E]. assert (E' : encode hs = rev t ++ encode ns).
      { apply (f_equal (@rev Z)) in E. rewrite rev_app_distr, !rev_involutive in E. exact E. }
      destruct ns as [|c ns].
      { exists hs, []. rewrite app_nil_r. split; [reflexivity|cbn [length]; lia]. }
      assert (E2 : encode hs = rev t ++ encode (c :: ns) ++ []) by (rewrite app_nil_r; exact E').
      destruct (occurrence (c :: ns) ltac:(discriminate) Sn hs _ _ Sh E2) as [a [b [-> [_ Eb]]]].
      symmetry in Eb. apply encode_nil_inv in Eb. subst b. exists a, []. split; [reflexivity|].
      rewrite !app_length. cbn [length]. lia.
    + intros [a [b [-> L]]]. rewrite !app_length in L. destruct b; [|cbn [length] in L; lia].
      exists (rev (encode a)). rewrite app_nil_r, encode_app, rev_app_distr. reflexivity.
Qed.
Print Assumptions C66_contains.
Example C66_contains_ex : holds tx_cord tx /\ holds needle [169] /\ Contains tx_cord needle = true /\
  EndsWith tx_flat needle = false /\ StartsWith tx_flat (Flat [116; 97]) = true.
Proof. split; [apply tx_holds|]. split; [apply needle_holds|]. repeat split. Qed.

(* ------------------------------------------------------------------ C67 *)
Theorem C67_char_at : forall t pos s, holds t s ->
  (0 <= pos < Z.of_nat (length s) ->
     exists c, between pos (pos + 1) s [c] /\ CharAt t pos = Val (encode [c])) /\
  (pos = Z.of_nat (length s) -> CharAt t pos = Val []) /\
  (pos < 0 -> CharAt t pos = Err (invalid "<string>.charAt(<pos>): <pos> is less than 0")) /\
  (Z.of_nat (length s) < pos ->
     CharAt t pos = Err (invalid "<string>.charAt(<pos>): <pos> is greater than <string>.size()")).
Proof.
  intros t pos s H. pose proof (holds_fuel _ _ H) as Lf.
  assert (E : 0 <= pos -> CharAt t pos = match nth_error s (Z.to_nat pos) with
      | Some c => Val (utf8 c)
      | None => if pos =? Z.of_nat (length s) then Val [] else
          Err (invalid "<string>.charAt(<pos>): <pos> is greater than <string>.size()")
      end).
  { intros P. unfold CharAt. replace (pos <? 0) with false by lia. revert Lf. generalize (fuel_of t). intros f Lf.
    apply (visit_ok (fun V b d r => CharAt_loop b d r f pos) (fun o => o = _) t s H).
    intros V b d r good v Hd Hr R. exact (CharAt_loop_ok _ _ _ _ Hd Hr s f pos v R Lf P). }
  split; [|split; [|split]].
  - intros P. rewrite E by lia. destruct (nth_error s (Z.to_nat pos)) as [c|] eqn:Q.
    + exists c. destruct (nth_error_split _ _ Q) as [a [b [-> L]]]. split.
      * exists a, b. split; [reflexivity|]. cbn [length]. lia.
      * cbn [encode flat_map]. rewrite app_nil_r. reflexivity.
    + apply nth_error_None in Q. lia.
  - intros P. rewrite E by lia. destruct (nth_error s (Z.to_nat pos)) as [c|] eqn:Q.
    + assert (nth_error s (Z.to_nat pos) <> None) by congruence. apply nth_error_Some in H0. lia.
    + rewrite P, Z.eqb_refl. reflexivity.
  - intros P. unfold CharAt. replace (pos <? 0) with true by lia. reflexivity.
  - intros P. rewrite E by lia. destruct (nth_error s (Z.to_nat pos)) as [c|] eqn:Q.
    + assert (nth_error s (Z.to_nat pos) <> None) by congruence. apply nth_error_Some in H0. lia.
    + replace (pos =? Z.of_nat (length s)) with false by lia. reflexivity.
Qed.
Print Assumptions C67_char_at.
Example C67_char_at_ex : holds tx_cord tx /\ CharAt tx_cord 6 = Val (encode [128512]) /\ CharAt tx_flat 8 = Val [].
Proof. split; [apply tx_holds|]. split; vm_compute; reflexivity. Qed.

Lemma off_len s k : (k <= length s)%nat -> (off s k <= length (encode s))%nat.
Proof. intros L. unfold off. rewrite <- (firstn_skipn k s) at 2. rewrite encode_app, app_length. lia. Qed.
Lemma slice_off s a b : (a <= b <= length s)%nat ->
  exists u, slice (encode s) (off s a) (off s b) = Val (encode u) /\ between (Z.of_nat a) (Z.of_nat b) s u.
Proof.
  intros L. exists (firstn (b - a) (skipn a s)).
  assert (Es : s = firstn a s ++ firstn (b - a) (skipn a s) ++ skipn (b - a) (skipn a s))
    by (rewrite firstn_skipn, firstn_skipn; reflexivity).
  assert (Eb : firstn b s = firstn a s ++ firstn (b - a) (skipn a s)).
  { rewrite Es at 1. rewrite app_assoc, firstn_app.
    assert (Lb : length (firstn a s ++ firstn (b - a) (skipn a s)) = b)
      by (rewrite app_length, !firstn_length, skipn_length; lia).
    rewrite Lb, Nat.sub_diag, firstn_all2 by lia. cbn [firstn]. apply app_nil_r. }
  split.
  - unfold off. rewrite Eb. rewrite Es at 1. apply slice_text.
  - exists (firstn a s), (skipn (b - a) (skipn a s)). split; [exact Es|].
    rewrite !firstn_length, skipn_length. lia.
Qed.
Lemma off_all s : off s (length s) = length (encode s).
Proof. unfold off. rewrite firstn_all. reflexivity. Qed.

(* substring(start): the characters from start on; a position past the end or
   below zero is an error.  Missing: a Cord with start = size, see below. *)
Theorem C67_substring_from_partial : forall t start s, holds t s ->
  (0 <= start < Z.of_nat (length s) \/ (start = Z.of_nat (length s) /\ exists x, t = Flat x) ->
     exists u, Substring t start = Val (encode u) /\ between start (Z.of_nat (length s)) s u) /\
  (start < 0 \/ Z.of_nat (length s) < start -> exists msg, Substring t start = Err (invalid msg)).
Proof.
  intros t start s H. pose proof (holds_fuel _ _ H) as Lf.
  assert (E : 0 <= start -> forall f, (length s < f)%nat ->
    visit (fun V b d r => Substring_loop b d r f start 0 O) t =
      Val (if start - 0 <? Z.of_nat (length s) then Some (true, (0 + off s (Z.to_nat (start - 0)))%nat)
           else if start - 0 =? Z.of_nat (length s) then Some (false, (0 + length (encode s))%nat) else None)).
  { intros P f Hf. apply (visit_ok (fun V b d r => Substring_loop b d r f start 0 O) (fun o => o = _) t s H).
    intros V b d r good v Hd Hr R. apply (Substring_loop_ok _ _ _ _ Hd Hr); assumption. }
  rewrite Z.sub_0_r in E. cbn [Nat.add] in E. pose proof (encode_len s) as El.
  split.
  - intros P. assert (P1 : 0 <= start <= Z.of_nat (length s)) by lia. unfold Substring.
    replace (start <? 0) with false by lia. unfold size at 1. rewrite (holds_content _ _ H).
    replace (start >? Z.of_nat (length (encode s))) with false by lia.
    destruct (start =? 0) eqn:Z0.
    + exists s. split; [reflexivity|]. exists [], []. rewrite app_nil_r. cbn [length app]. repeat split; lia.
    + rewrite (E ltac:(lia) _ Lf). cbn [obind].
      destruct (slice_off s (Z.to_nat start) (length s) ltac:(lia)) as [u [Su Bu]]. rewrite off_all in Su.
      replace (Z.of_nat (Z.to_nat start)) with start in Bu by lia.
      destruct P as [P|[P [x Ex]]].
      * replace (start <? Z.of_nat (length s)) with true by lia.
        exists u. split; [|exact Bu]. destruct t as [x|x]; pose proof (holds_content _ _ H) as C; cbn [content] in C; rewrite C; exact Su.
      * replace (start <? Z.of_nat (length s)) with false by lia. replace (start =? Z.of_nat (length s)) with true by lia.
        subst t. pose proof (holds_content _ _ H) as C. cbn [content] in C. rewrite C.
        exists u. split; [|exact Bu]. replace (off s (Z.to_nat start)) with (length (encode s)) in Su; [exact Su|].
        replace (Z.to_nat start) with (length s) by lia. symmetry. apply off_all.
  - intros P. unfold Substring. destruct (start <? 0) eqn:N; [eexists; reflexivity|].
    destruct (start >? Z.of_nat (size t)) eqn:B; [eexists; reflexivity|].
    replace (start =? 0) with false by lia. rewrite (E ltac:(lia) _ Lf). cbn [obind].
    replace (start <? Z.of_nat (length s)) with false by lia. replace (start =? Z.of_nat (length s)) with false by lia.
    eexists; reflexivity.
Qed.
Print Assumptions C67_substring_from_partial.
Example C67_substring_from_ex : holds tx_cord tx /\ Substring tx_cord 5 = Val (encode [169; 128512; 84]) /\
  Substring tx_flat 8 = Val [].
Proof. split; [apply tx_holds|]. split; vm_compute; reflexivity. Qed.

(* In a Cord substring(size()) is the whole string, not the empty one. *)
Theorem C67_substring_cord_refuted : forall chunks s, holds (Large chunks) s -> s <> [] ->
  Substring (Large chunks) (Z.of_nat (length s)) = Val (encode s) /\ encode s <> [] /\
  Substring (Flat (encode s)) (Z.of_nat (length s)) = Val [].
Proof.
  intros ch s H Ne. pose proof (holds_fuel _ _ H) as Lf. pose proof (encode_len s) as El.
  assert (L0 : (0 < length s)%nat) by (destruct s; [congruence|cbn; lia]).
  split; [|split; [apply encode_ne, Ne|]].
  - unfold Substring. replace (Z.of_nat (length s) <? 0) with false by lia. unfold size at 1.
    rewrite (holds_content _ _ H). replace (Z.of_nat (length s) >? Z.of_nat (length (encode s))) with false by lia.
    replace (Z.of_nat (length s) =? 0) with false by lia. cbn [visit].
    rewrite (Substring_loop_ok _ _ _ _ cord_dec cord_drop_ok _ s _ 0 O _ (holds_cord _ _ H) Lf) by lia.
    rewrite Z.sub_0_r, Z.ltb_irrefl, Z.eqb_refl. cbn [obind]. f_equal. exact (holds_content _ _ H).
  - destruct (C67_substring_from_partial (Flat (encode s)) (Z.of_nat (length s)) s) as [K _].
    { split; [split; [exact (holds_scalar _ _ H)|reflexivity]|exact I]. }
    destruct K as [u [-> [a [b [Es [La Lb]]]]]]; [right; split; [reflexivity|eauto]|].
    assert (u = []) by (apply (f_equal (@List.length Z)) in Es; rewrite !app_length in Es; destruct u; [reflexivity|cbn [length] in *; lia]).
    subst u. reflexivity.
Qed.
Print Assumptions C67_substring_cord_refuted.
Example C67_substring_cord_ex : holds tx_cord tx /\ tx <> [] /\ Substring tx_cord 8 = Val (encode tx).
Proof. split; [apply tx_holds|]. split; [discriminate|]. vm_compute; reflexivity. Qed.

Lemma range_loop t start end_ s f : holds t s -> 0 <= start <= end_ -> (length s < f)%nat ->
  visit (fun V b d r => Substring_range_loop b d r f start end_ 0 O None) t =
    Val (if end_ <? Z.of_nat (length s) then Some (off s (Z.to_nat start), off s (Z.to_nat end_))
         else if (end_ =? Z.of_nat (length s)) && (start =? end_)
              then Some (length (encode s), length (encode s)) else None).
Proof.
  intros H P Hf. apply (visit_ok (fun V b d r => Substring_range_loop b d r f start end_ 0 O None) (fun o => o = _) t s H).
  intros V b d r good v Hd Hr R. rewrite (Substring_range_loop_ok _ _ _ _ Hd Hr start end_ s f 0 O None v R Hf) by lia.
  rewrite !Z.sub_0_r. reflexivity.
Qed.

(* substring(start, end): the characters from start to end; an end below start, a
   start below zero or an end past the size is an error.  Missing: end = size with
   start < end, see below. *)
Theorem C67_substring_partial : forall t start end_ s, holds t s ->
  (0 <= start <= end_ /\ end_ <= Z.of_nat (length s) /\ (end_ < Z.of_nat (length s) \/ start = end_) ->
     exists u, Substring_range t start end_ = Val (encode u) /\ between start end_ s u) /\
  (start < 0 \/ end_ < start \/ Z.of_nat (length s) < end_ ->
     exists msg, Substring_range t start end_ = Err (invalid msg)).
Proof.
  intros t start end_ s H. pose proof (holds_fuel _ _ H) as Lf. pose proof (encode_len s) as El. split.
  - intros [P [Q W]]. unfold Substring_range. replace (start <? 0) with false by lia. replace (end_ <? start) with false by lia.
    unfold size at 1 2. rewrite (holds_content _ _ H).
    replace ((start >? Z.of_nat (length (encode s))) || (end_ >? Z.of_nat (length (encode s)))) with false by lia.
    rewrite (range_loop t start end_ s _ H ltac:(lia) Lf). cbn [obind].
    destruct (slice_off s (Z.to_nat start) (Z.to_nat end_) ltac:(lia)) as [u [Su Bu]].
    rewrite !Z2Nat.id in Bu by lia. exists u. split; [|exact Bu].
    destruct (end_ <? Z.of_nat (length s)) eqn:E; [exact Su|].
    replace ((end_ =? Z.of_nat (length s)) && (start =? end_)) with true by lia.
    replace (Z.to_nat start) with (length s) in Su by lia. replace (Z.to_nat end_) with (length s) in Su by lia.
    rewrite off_all in Su. exact Su.
  - intros P. unfold Substring_range. destruct (start <? 0) eqn:A; [eexists; reflexivity|].
    destruct (end_ <? start) eqn:B; [eexists; reflexivity|].
    destruct ((start >? Z.of_nat (size t)) || (end_ >? Z.of_nat (size t))) eqn:C; [eexists; reflexivity|].
    rewrite (range_loop t start end_ s _ H ltac:(lia) Lf). cbn [obind].
    replace (end_ <? Z.of_nat (length s)) with false by lia.
    replace ((end_ =? Z.of_nat (length s)) && (start =? end_)) with false by lia. eexists; reflexivity.
Qed.
Print Assumptions C67_substring_partial.
Example C67_substring_ex : holds tx_cord tx /\ Substring_range tx_cord 2 7 = Val (encode [169; 111; 8364; 169; 128512]) /\
  Substring_range tx_flat 8 8 = Val [].
Proof. split; [apply tx_holds|]. split; vm_compute; reflexivity. Qed.

(* A nonempty substring that reaches the end of the string is refused, in either
   representation; substring(start) gives it. *)
Theorem C67_substring_end_refuted : forall t start s, holds t s -> 0 <= start < Z.of_nat (length s) ->
  Substring_range t start (Z.of_nat (length s)) = Err kRangeTooBig /\
  exists u, Substring t start = Val (encode u) /\ between start (Z.of_nat (length s)) s u.
Proof.
  intros t start s H P. pose proof (holds_fuel _ _ H) as Lf. pose proof (encode_len s) as El. split.
  - unfold Substring_range. replace (start <? 0) with false by lia. replace (Z.of_nat (length s) <? start) with false by lia.
    unfold size at 1 2. rewrite (holds_content _ _ H).
    replace ((start >? Z.of_nat (length (encode s))) || (Z.of_nat (length s) >? Z.of_nat (length (encode s)))) with false by lia.
    rewrite (range_loop t start (Z.of_nat (length s)) s _ H ltac:(lia) Lf). cbn [obind].
    rewrite Z.ltb_irrefl. replace ((Z.of_nat (length s) =? Z.of_nat (length s)) && (start =? Z.of_nat (length s))) with false by lia.
    reflexivity.
  - apply C67_substring_from_partial; [exact H|left; lia].
Qed.
Print Assumptions C67_substring_end_refuted.
Example C67_substring_end_ex : holds tx_flat tx /\ Substring_range tx_flat 0 8 = Err kRangeTooBig.
Proof. split; [apply tx_holds|]. vm_compute; reflexivity. Qed.

(* ------------------------------------------------------------------ C68 *)
Lemma limit_pos limit : limit <> 0 -> in_int64 limit = true -> 0 < (if limit <? 0 then int64_max else limit).
Proof. unfold in_int64, int64_min, int64_max. intros. destruct (limit <? 0) eqn:E; lia. Qed.
Lemma with_sep_len n front : n <> [] -> (length front <= length (with_sep n front))%nat.
Proof.
  intros Ne. induction front as [|p front IH]; [cbn; lia|]. unfold with_sep in *. cbn [flat_map].
  rewrite !app_length. destruct n; [congruence|]. cbn [length]. lia.
Qed.
Lemma no_occurs_nil n k : n <> [] -> ~ occurs n [] k.
Proof. intros Ne [a [b [E _]]]. destruct a; [|discriminate]. destruct n; [congruence|discriminate]. Qed.
Lemma size_encode t s : holds t s -> size t = length (encode s).
Proof. intros H. unfold size. rewrite (holds_content _ _ H). reflexivity. Qed.
Lemma size_zero t s : holds t s -> Nat.eqb (size t) 0 = match s with [] => true | _ => false end.
Proof.
  intros H. rewrite (size_encode _ _ H). destruct s as [|c s]; [reflexivity|].
  apply Nat.eqb_neq. intros E. apply length_zero_iff_nil, encode_nil_inv in E. discriminate.
Qed.

(* split(sep, limit): no limit when it is negative, nothing at all when it is 0. *)
Theorem C68_split : forall t tn limit s n, holds t s -> holds tn n -> fits s -> in_int64 limit = true ->
  (limit <> 0 -> exists ps, Split3 t tn limit = Val (map encode ps) /\ split_of n (limit_of limit) s ps) /\
  (limit = 0 -> Split3 t tn limit = Val []).
Proof.
  intros t tn limit s n H N Fi I. split; [|intros ->; reflexivity].
  intros Nz. unfold Split3, Split. replace (limit =? 0) with false by lia.
  pose proof (limit_pos _ Nz I) as Lp. set (lim := if limit <? 0 then int64_max else limit) in *.
  pose proof (encode_len s) as El. unfold fits in Fi.
  assert (Lim : limit_of limit = None /\ lim = int64_max \/ limit_of limit = Some lim)
    by (unfold limit_of, lim; destruct (limit <? 0); auto).
  pose proof (holds_fuel _ _ H) as Lf. rewrite (size_zero _ _ N), (size_encode _ _ H), (holds_content _ _ H).
  destruct n as [|c n]; cbn [negb orb split_of].
  - assert (K : exists front last splits' limit',
        visit (fun V b d rd => Split_chars_loop b d rd (fuel_of t) [] 0 lim) t = Val (splits', length (encode front), limit') /\
        slices (encode s) splits' = Val (map encode (map (fun c => [c]) front)) /\
        length splits' = length front /\ s = front ++ last /\ limit' = lim - Z.of_nat (length front) /\
        (limit' <= 1 \/ last = []) /\ (limit' <> lim -> 1 <= limit')).
    { revert Lf. generalize (fuel_of t). intros f Lf.
      apply (visit_ok (fun V b d rd => Split_chars_loop b d rd f [] 0 lim)
        (fun o => exists front last splits' limit', o = Val (splits', length (encode front), limit') /\
          slices (encode s) splits' = Val (map encode (map (fun c => [c]) front)) /\
          length splits' = length front /\ s = front ++ last /\ limit' = lim - Z.of_nat (length front) /\
          (limit' <= 1 \/ last = []) /\ (limit' <> lim -> 1 <= limit')) t s H).
      intros V b d r good v Hd Hr R.
      exact (Split_chars_ok _ _ _ _ Hd Hr s f [] [] [] lim v R Lf eq_refl). }
    destruct K as [front [last [splits' [limit' [-> [Sl [Ls [Es [El' [Lst Lo]]]]]]]]]]. cbn [obind]. rewrite Ls, orb_false_r.
    assert (Llen : Z.of_nat (length s) = Z.of_nat (length front) + Z.of_nat (length last)) by (rewrite Es, app_length; lia).
    destruct last as [|x last].
    + rewrite app_nil_r in Es. subst front. rewrite Nat.ltb_irrefl, orb_false_r.
      destruct s as [|y s'] eqn:Q.
      * cbn [length Nat.eqb]. destruct splits'; [|discriminate]. exists [[]]. split; [reflexivity|]. left. auto.
      * rewrite <- Q in *. assert (Ls0 : (0 < length s)%nat) by (rewrite Q; cbn [length]; lia).
        replace (Nat.eqb (length s) 0) with false by (symmetry; apply Nat.eqb_neq; lia).
        exists (map (fun c => [c]) s). split; [exact Sl|]. right. split; [rewrite Q; discriminate|].
        destruct (exists_last (l := s)) as [s0 [z Ez]]; [rewrite Q; discriminate|].
        rewrite Ez, map_app. cbn [map]. split.
        { rewrite joined_front. f_equal. unfold with_sep. clear. induction s0; [reflexivity|]. cbn [map flat_map app] in *. congruence. }
        split.
        { replace (length (map (fun c => [c]) s0 ++ [[z]])) with (length s) by (rewrite Ez, !app_length, map_length; reflexivity).
          unfold within. destruct Lim as [[-> _]| ->]; [exact Logic.I|]. destruct (Z.eq_dec limit' lim); lia. }
        exists (map (fun c => [c]) s0), [z]. split; [reflexivity|]. split; [discriminate|]. split; [|right; reflexivity].
        apply Forall_forall. intros p Hp. apply in_map_iff in Hp. destruct Hp as [? [<- _]]. reflexivity.
    + assert (Lq : Nat.ltb (length (encode front)) (length (encode s)) = true).
      { apply Nat.ltb_lt. rewrite Es, encode_app, app_length. pose proof (encode_len (x :: last)). cbn [length] in *. lia. }
      rewrite Lq, orb_true_r. exists (map (fun c => [c]) front ++ [x :: last]). split.
      * rewrite map_app. apply slices_app; [exact Sl|]. cbn [map]. apply slices_one. rewrite Es. apply slice_text_end.
      * right. split; [rewrite Es; destruct front; discriminate|].
        cbn [length] in Llen. destruct Lst as [Lst|]; [|discriminate].
        assert (Z.of_nat (length front) = lim - 1) by (destruct (Z.eq_dec limit' lim); lia).
        destruct Lim as [[Ln L2]|Ln]; [lia|]. rewrite Ln. split; [|split].
        -- rewrite joined_front, Es. f_equal. unfold with_sep. clear. induction front; [reflexivity|]. cbn [map flat_map app] in *. congruence.
        -- rewrite app_length, map_length. cbn [length within]. lia.
        -- exists (map (fun c => [c]) front), (x :: last). split; [reflexivity|]. split; [discriminate|]. split.
           ++ apply Forall_forall. intros p Hp. apply in_map_iff in Hp. destruct Hp as [? [<- _]]. reflexivity.
           ++ left. rewrite app_length, map_length. cbn [length]. f_equal. lia.
  - destruct (Split_loop_ok t (c :: n) s tn H N ltac:(discriminate) (fuel_of t) s [] [] [] lim eq_refl Lf eq_refl)
      as [front [last [splits' [limit' [E [Sl [Es [Fr [El' [Lst Lo]]]]]]]]]].
    change (length (encode [])) with O in E. rewrite E. cbn [obind app] in *. rewrite orb_true_r. cbn [orb].
    exists (front ++ [last]). split.
    + rewrite map_app. apply slices_app; [exact Sl|]. cbn [map]. apply slices_one. rewrite Es. apply slice_text_end.
    + assert (Llen : Z.of_nat (length s) >= Z.of_nat (length front) + Z.of_nat (length last)).
      { rewrite Es, app_length. pose proof (with_sep_len (c :: n) front ltac:(discriminate)). lia. }
      assert (L1 : 1 <= limit') by (destruct (Z.eq_dec limit' lim); [lia|auto]).
      split; [rewrite joined_front; symmetry; exact Es|]. rewrite app_length. cbn [length]. split.
      * unfold within. destruct Lim as [[-> _]| ->]; [exact Logic.I|]. lia.
      * exists front, last. split; [reflexivity|]. split; [exact Fr|].
        destruct Lim as [[Ln L2]|Ln]; rewrite Ln.
        -- right. destruct Lst as [Lst|Lst]; [|exact Lst]. destruct last; [intros k; apply no_occurs_nil; discriminate|].
           cbn [length] in Llen. lia.
        -- destruct Lst as [Lst|Lst]; [left|right; exact Lst]. f_equal. lia.
Qed.
Print Assumptions C68_split.
Example C68_split_ex : holds tx_cord tx /\ fits tx /\
  Split3 tx_cord needle (-1) = Val (map encode [[116; 97]; [111; 8364]; [128512; 84]]) /\
  Split3 tx_flat needle 2 = Val (map encode [[116; 97]; [111; 8364; 169; 128512; 84]]) /\
  Split3 tx_cord (Flat []) 3 = Val (map encode [[116]; [97]; [169; 111; 8364; 169; 128512; 84]]).
Proof. split; [apply tx_holds|]. split; [reflexivity|]. split; [|split]; vm_compute; reflexivity. Qed.

(* What a split is, is determined by the text, the separator and the limit. *)
Lemma prefix_cut (a b x y : list Z) : a ++ x = b ++ y -> (length a <= length b)%nat -> exists z, b = a ++ z.
Proof.
  revert b. induction a as [|c a IH]; intros b E L; [exists b; reflexivity|].
  destruct b as [|d b]; [cbn [length] in L; lia|]. cbn [app length] in *. injection E as -> E.
  destruct (IH b E ltac:(lia)) as [z ->]. exists z. reflexivity.
Qed.
Lemma same_first n p q x y : p ++ n ++ x = q ++ n ++ y -> leftmost n q -> (length p <= length q)%nat -> p = q.
Proof.
  intros E Lq L. rewrite !app_assoc in E.
  destruct (prefix_cut _ _ _ _ E ltac:(rewrite !app_length; lia)) as [z Ez].
  assert (K : Z.of_nat (length p) = Z.of_nat (length q)).
  { apply Lq. exists p, z. split; [rewrite <- app_assoc in Ez; exact Ez|reflexivity]. }
  rewrite <- app_assoc in E. rewrite <- app_assoc in E.
  destruct (prefix_cut _ _ _ _ E L) as [w ->]. rewrite app_length in K. destruct w; [|cbn [length] in K; lia].
  rewrite app_nil_r. reflexivity.
Qed.
Lemma pieces_unique n : n <> [] -> forall f1 l1 f2 l2 (k : option Z),
  with_sep n f1 ++ l1 = with_sep n f2 ++ l2 -> Forall (leftmost n) f1 -> Forall (leftmost n) f2 ->
  (match k with Some k => Z.of_nat (length f1) <= k /\ Z.of_nat (length f2) <= k | None => True end) ->
  (k = Some (Z.of_nat (length f1)) \/ forall j, ~ occurs n l1 j) ->
  (k = Some (Z.of_nat (length f2)) \/ forall j, ~ occurs n l2 j) ->
  f1 = f2 /\ l1 = l2.
Proof.
  intros Ne. induction f1 as [|p f1 IH]; intros l1 [|q f2] l2 k E F1 F2 W L1 L2.
  - auto.
  - exfalso. cbn [with_sep flat_map app] in E. destruct L1 as [->|L1].
    + cbn [length] in W. lia.
    + apply (L1 (Z.of_nat (length q))). exists q, (with_sep n f2 ++ l2). split; [|reflexivity].
      rewrite E. unfold with_sep. rewrite <- !app_assoc. reflexivity.
  - exfalso. cbn [with_sep flat_map app] in E. destruct L2 as [->|L2].
    + cbn [length] in W. lia.
    + apply (L2 (Z.of_nat (length p))). exists p, (with_sep n f1 ++ l1). split; [|reflexivity].
      rewrite <- E. unfold with_sep. rewrite <- !app_assoc. reflexivity.
  - inversion F1; subst. inversion F2; subst. cbn [with_sep flat_map] in E.
    change (flat_map (fun p => p ++ n) f1) with (with_sep n f1) in E. change (flat_map (fun p => p ++ n) f2) with (with_sep n f2) in E.
    rewrite <- !app_assoc in E.
    assert (p = q).
    { destruct (Nat.le_ge_cases (length p) (length q)) as [L|L].
      - exact (same_first n p q _ _ E H3 L).
      - symmetry. exact (same_first n q p _ _ (eq_sym E) H1 L). }
    subst q. apply app_inv_head, app_inv_head in E.
    destruct (IH l1 f2 l2 (option_map Z.pred k) E H2 H4) as [-> ->]; [| | |auto].
    + destruct k; cbn [option_map length] in *; [lia|exact I].
    + destruct L1 as [->|L1]; [left|right; exact L1]. cbn [option_map length]. f_equal. lia.
    + destruct L2 as [->|L2]; [left|right; exact L2]. cbn [option_map length]. f_equal. lia.
Qed.
Lemma chars_unique : forall f1 l1 f2 l2 (k : option Z),
  with_sep [] f1 ++ l1 = with_sep [] f2 ++ l2 -> Forall (fun p => length p = 1%nat) f1 -> Forall (fun p => length p = 1%nat) f2 ->
  l1 <> [] -> l2 <> [] ->
  (match k with Some k => Z.of_nat (length f1) <= k /\ Z.of_nat (length f2) <= k | None => True end) ->
  (k = Some (Z.of_nat (length f1)) \/ length l1 = 1%nat) ->
  (k = Some (Z.of_nat (length f2)) \/ length l2 = 1%nat) ->
  f1 = f2 /\ l1 = l2.
Proof.
  induction f1 as [|p f1 IH]; intros l1 [|q f2] l2 k E F1 F2 N1 N2 W L1 L2.
  - auto.
  - exfalso. cbn [with_sep flat_map app] in E. apply (f_equal (@List.length Z)) in E. inversion F2; subst.
    rewrite !app_length in E. destruct l2; [congruence|]. cbn [length] in *. destruct L1 as [->|L1]; lia.
  - exfalso. cbn [with_sep flat_map app] in E. apply (f_equal (@List.length Z)) in E. inversion F1; subst.
    rewrite !app_length in E. destruct l1; [congruence|]. cbn [length] in *. destruct L2 as [->|L2]; lia.
  - inversion F1; subst. inversion F2; subst. cbn [with_sep flat_map] in E. rewrite !app_nil_r in E.
    change (flat_map (fun p => p ++ []) f1) with (with_sep [] f1) in E. change (flat_map (fun p => p ++ []) f2) with (with_sep [] f2) in E.
    rewrite <- !app_assoc in E.
    assert (p = q /\ with_sep [] f1 ++ l1 = with_sep [] f2 ++ l2) as [-> E'].
    { destruct p as [|c [|]]; try discriminate. destruct q as [|d [|]]; try discriminate. cbn [app] in E. injection E as -> E. auto. }
    destruct (IH l1 f2 l2 (option_map Z.pred k) E' H2 H4 N1 N2) as [-> ->]; [| | |auto].
    + destruct k; cbn [option_map length] in *; [lia|exact I].
    + destruct L1 as [->|L1]; [left|right; exact L1]. cbn [option_map length]. f_equal. lia.
    + destruct L2 as [->|L2]; [left|right; exact L2]. cbn [option_map length]. f_equal. lia.
Qed.
Lemma limit_shift (k : option Z) (n : nat) : k = Some (Z.of_nat (n + 1)) -> option_map Z.pred k = Some (Z.of_nat n).
Proof. intros ->. cbn [option_map]. f_equal. lia. Qed.
Theorem C68_split_determined : forall n k s ps qs, split_of n k s ps -> split_of n k s qs -> ps = qs.
Proof.
  intros [|c n] k s ps qs; cbn [split_of].
  - intros [[-> ->]|[Ne [J1 [W1 [f1 [l1 [-> [N1 [F1 L1]]]]]]]]] [[E ->]|[Ne' [J2 [W2 [f2 [l2 [-> [N2 [F2 L2]]]]]]]]];
      try congruence.
    rewrite joined_front in J1, J2. rewrite app_length in *. cbn [length] in *.
    destruct (chars_unique f1 l1 f2 l2 (option_map Z.pred k)) as [-> ->]; try congruence.
    + destruct k; cbn [within option_map] in *; [lia|exact I].
    + destruct L1 as [L1|L1]; [left; apply limit_shift, L1|right; exact L1].
    + destruct L2 as [L2|L2]; [left; apply limit_shift, L2|right; exact L2].
  - intros [J1 [W1 [f1 [l1 [-> [F1 L1]]]]]] [J2 [W2 [f2 [l2 [-> [F2 L2]]]]]].
    rewrite joined_front in J1, J2. rewrite app_length in *. cbn [length] in *.
    destruct (pieces_unique (c :: n) ltac:(discriminate) f1 l1 f2 l2 (option_map Z.pred k)) as [-> ->]; try congruence; auto.
    + destruct k; cbn [within option_map] in *; [lia|exact I].
    + destruct L1 as [L1|L1]; [left; apply limit_shift, L1|right; exact L1].
    + destruct L2 as [L2|L2]; [left; apply limit_shift, L2|right; exact L2].
Qed.
Print Assumptions C68_split_determined.
Example C68_split_determined_ex : split_of [1; 1] (Some 2) [1; 1; 1; 1; 1] [[]; [1; 1; 1]].
Proof.
  split; [reflexivity|]. split; [cbn; lia|]. exists [[]], [1; 1; 1]. split; [reflexivity|]. split; [|left; reflexivity].
  constructor; [|constructor]. intros k [a [b [E L]]]. destruct a as [|x a]; [cbn [length] in *; lia|].
  apply (f_equal (@List.length Z)) in E. rewrite !app_length in E. cbn [length] in E. lia.
Qed.

(* join: the elements with the separator between each two; an element that is not
   a string is an error. *)
Lemma Join_loop_ok sep seps l : forall ss acc, Forall2 (fun o s => exists t, o = Some t /\ holds t s) l ss ->
  content sep = encode seps ->
  Join_loop (content sep) (encode acc) l = Val (encode (acc ++ flat_map (fun s => seps ++ s) ss)).
Proof.
  induction l as [|o l IH]; intros ss acc F C; inversion F; subst; cbn [Join_loop flat_map].
  - rewrite app_nil_r. reflexivity.
  - destruct H1 as [t [-> H]].
    replace (encode acc ++ content sep ++ content t) with (encode (acc ++ seps ++ y))
      by (rewrite (holds_content _ _ H), C, !encode_app; reflexivity).
    rewrite (IH _ _ H3 C), <- !app_assoc. reflexivity.
Qed.
Lemma joined_cons sep p ps : joined sep (p :: ps) = p ++ flat_map (fun s => sep ++ s) ps.
Proof.
  revert p. induction ps as [|q ps IH]; intros p; [cbn; rewrite app_nil_r; reflexivity|].
  change (joined sep (p :: q :: ps)) with (p ++ sep ++ joined sep (q :: ps)). rewrite IH. cbn [flat_map].
  rewrite <- app_assoc. reflexivity.
Qed.
Theorem C68_join : forall l tsep ss sep, holds tsep sep ->
  Forall2 (fun o s => exists t, o = Some t /\ holds t s) l ss ->
  Join2 l tsep = Val (encode (joined sep ss)).
Proof.
  intros l tsep ss sep Hs F. unfold Join2, Join. destruct l as [|o l]; inversion F; subst; [reflexivity|].
  destruct H1 as [t [-> H]]. rewrite (holds_content _ _ H). rewrite (Join_loop_ok _ sep _ _ _ H3 (holds_content _ _ Hs)).
  rewrite joined_cons. reflexivity.
Qed.
Print Assumptions C68_join.
Example C68_join_ex : Forall2 (fun o s => exists t, o = Some t /\ holds t s) [Some tx_cord; Some needle] [tx; [169]] /\
  Join2 [Some tx_cord; Some needle] needle = Val (encode (tx ++ [169] ++ [169])).
Proof.
  split; [|vm_compute; reflexivity].
  constructor; [exists tx_cord; split; [reflexivity|apply tx_holds]|].
  constructor; [exists needle; split; [reflexivity|apply needle_holds]|constructor].
Qed.
Theorem C68_join_refuses : forall l tsep, In None l -> Join2 l tsep = Err join_error.
Proof.
  intros l tsep I. assert (K : forall l a, In None l -> Join_loop (content tsep) a l = Err join_error).
  { clear l I. induction l as [|[t|] l IH]; intros a I; cbn [Join_loop]; [destruct I| |reflexivity].
    destruct I as [I|I]; [discriminate|]. apply IH, I. }
  unfold Join2, Join. destruct l as [|[t|] l]; [destruct I| |reflexivity].
  destruct I as [I|I]; [discriminate|]. apply K, I.
Qed.
Print Assumptions C68_join_refuses.
Example C68_join_refuses_ex : In None [Some tx_flat; None] /\ Join2 [Some tx_flat; None] needle = Err join_error.
Proof. split; [right; left|]; reflexivity. Qed.

(* Joining what split gives with the same separator is the original string. *)
Theorem C68_join_of_split : forall t tn limit s n, holds t s -> holds tn n -> fits s -> in_int64 limit = true ->
  limit <> 0 -> exists parts, Split3 t tn limit = Val parts /\
    Join2 (map (fun p => Some (Flat p)) parts) tn = Val (content t).
Proof.
  intros t tn limit s n H N Fi I Nz. destruct (C68_split t tn limit s n H N Fi I) as [K _].
  destruct (K Nz) as [ps [E Sp]]. exists (map encode ps). split; [exact E|].
  assert (J : joined n ps = s).
  { destruct n; cbn [split_of] in Sp.
    - destruct Sp as [[-> ->]|[_ [J _]]]; [reflexivity|exact J].
    - apply Sp. }
  rewrite (C68_join _ tn ps n N).
  - rewrite J, (holds_content _ _ H). reflexivity.
  - assert (Sc : forall p, In p ps -> Forall scalar p).
    { pose proof (holds_scalar _ _ H) as Sc. clear - J Sc. subst s. intros p Hp. revert Sc. induction ps as [|q ps IH]; intros Sc; [destruct Hp|].
      rewrite joined_cons in Sc. apply Forall_app in Sc. destruct Sc as [Sq Sr]. destruct Hp as [->|Hp]; [exact Sq|].
      apply IH; [exact Hp|]. destruct ps; [constructor|]. rewrite joined_cons. cbn [flat_map] in Sr.
      rewrite <- app_assoc in Sr. apply Forall_app in Sr. apply Sr. }
    clear - Sc. induction ps as [|p ps IH]; cbn [map]; constructor.
    + exists (Flat (encode p)). split; [reflexivity|]. split; [|exact Logic.I]. split; [apply Sc; left; reflexivity|reflexivity].
    + apply IH. intros q Hq. apply Sc. right. exact Hq.
Qed.
Print Assumptions C68_join_of_split.
Example C68_join_of_split_ex : holds tx_cord tx /\ fits tx /\ in_int64 2 = true /\
  (forall parts, Split3 tx_cord needle 2 = Val parts -> Join2 (map (fun p => Some (Flat p)) parts) needle = Val (encode tx)).
Proof.
  split; [apply tx_holds|]. split; [reflexivity|]. split; [reflexivity|]. vm_compute. intros parts [= <-]. reflexivity.
Qed.

(* ------------------------------------------------------------------ C69 *)
Lemma interleaved_all new s : interleaved new (S (length s)) s = flat_map (fun c => new ++ [c]) s ++ new.
Proof.
  induction s as [|c s IH]; [reflexivity|]. cbn [length]. change (interleaved new (S (S (length s))) (c :: s)) with (new ++ c :: interleaved new (S (length s)) s).
  rewrite IH. cbn [flat_map]. rewrite <- !app_assoc. reflexivity.
Qed.
Lemma interleaved_more new s : forall n, (length s < n)%nat -> interleaved new n s = flat_map (fun c => new ++ [c]) s ++ new.
Proof.
  induction s as [|c s IH]; intros [|n] L; cbn [length] in L; try lia; [reflexivity|].
  cbn [interleaved flat_map]. rewrite IH by lia. rewrite <- !app_assoc. reflexivity.
Qed.
Lemma interleaved_some new front : forall last n, length front = n ->
  interleaved new n (front ++ last) = flat_map (fun c => new ++ [c]) front ++ last.
Proof.
  induction front as [|c front IH]; intros last n <-; [reflexivity|].
  cbn [length app interleaved flat_map]. rewrite IH by reflexivity. rewrite <- !app_assoc. reflexivity.
Qed.
Theorem C69_replace : forall t tn tr limit s n r, holds t s -> holds tn n -> holds tr r -> fits s -> in_int64 limit = true ->
  exists u, Replace2 t tn tr limit = Val (encode u) /\ replaced n r (limit_of limit) s u.
Proof.
  intros t tn tr limit s n r H N R Fi I. unfold Replace2, Replace.
  destruct (limit =? 0) eqn:Z0.
  { exists s. split; [rewrite (holds_content _ _ H); reflexivity|]. replace limit with 0 by lia. cbn [limit_of Z.ltb Z.compare].
    unfold replaced. destruct n as [|c n].
    - reflexivity.
    - exists [s]. split; [|reflexivity]. split; [reflexivity|]. split; [cbn; lia|].
      exists [], s. split; [reflexivity|]. split; [constructor|]. left. reflexivity. }
  assert (Nz : limit <> 0) by lia.
  pose proof (limit_pos _ Nz I) as Lp. set (lim := if limit <? 0 then int64_max else limit) in *.
  pose proof (encode_len s) as El. unfold fits in Fi.
  assert (Lim : limit_of limit = None /\ lim = int64_max \/ limit_of limit = Some lim)
    by (unfold limit_of, lim; destruct (limit <? 0); auto).
  pose proof (holds_fuel _ _ H) as Lf. rewrite (size_zero _ _ N), (size_encode _ _ H), (holds_content _ _ H), (holds_content _ _ R).
  destruct n as [|c n]; cbn [replaced].
  - assert (K : exists front last,
        visit (fun V b d rd => Replace_chars_loop b d rd (fuel_of t) (encode s) (encode r) [] 0 lim) t =
          Val (encode (flat_map (fun c => r ++ [c]) front), length (encode front), lim - Z.of_nat (length front)) /\
        s = front ++ last /\ Z.of_nat (length front) <= lim /\ (Z.of_nat (length front) = lim \/ last = [])).
    { revert Lf. generalize (fuel_of t). intros f Lf.
      apply (visit_ok (fun V b d rd => Replace_chars_loop b d rd f (encode s) (encode r) [] 0 lim)
        (fun o => exists front last, o = Val (encode (flat_map (fun c => r ++ [c]) front), length (encode front), lim - Z.of_nat (length front)) /\
        s = front ++ last /\ Z.of_nat (length front) <= lim /\ (Z.of_nat (length front) = lim \/ last = [])) t s H).
      intros V b d r0 good v Hd Hr Rd.
      exact (Replace_chars_ok _ _ _ _ Hd Hr r s f [] [] lim v Rd Lf ltac:(lia)). }
    destruct K as [front [last [-> [Es [Lo Lst]]]]]. cbn [obind].
    assert (Llen : Z.of_nat (length s) = Z.of_nat (length front) + Z.of_nat (length last)) by (rewrite Es, app_length; lia).
    destruct (lim - Z.of_nat (length front) >? 0) eqn:M.
    + destruct Lst as [Lst| ->]; [lia|]. rewrite app_nil_r in Es. subst front. rewrite Nat.ltb_irrefl.
      exists (flat_map (fun c => r ++ [c]) s ++ r). split; [rewrite encode_app; reflexivity|]. symmetry.
      destruct Lim as [[-> _]| ->]; [apply interleaved_all|]. apply interleaved_more. lia.
    + exists (flat_map (fun c => r ++ [c]) front ++ last). split.
      * destruct (Nat.ltb (length (encode front)) (length (encode s))) eqn:Q.
        -- rewrite Es at 1 2. rewrite slice_text_end. cbn [obind]. rewrite encode_app. reflexivity.
        -- apply Nat.ltb_ge in Q. rewrite Es, encode_app, app_length in Q.
           destruct last as [|x last]; [rewrite app_nil_r; reflexivity|]. pose proof (encode_len (x :: last)). cbn [length] in *. lia.
      * destruct Lim as [[_ L2]| ->]; [lia|]. rewrite Es. symmetry. apply interleaved_some. lia.
  - destruct (Replace_loop_ok t (c :: n) s tn r H N ltac:(discriminate) (fuel_of t) s [] [] lim eq_refl Lf ltac:(lia))
      as [front [last [E [Es [Fr [Lo Lst]]]]]].
    change (length (encode [])) with O in E. change (encode []) with (@nil Z) in E. rewrite E. cbn [obind app] in *.
    exists (joined r (front ++ [last])). split.
    + rewrite joined_front. destruct (Nat.ltb (length (encode (with_sep (c :: n) front))) (length (encode s))) eqn:Q.
      * rewrite Es at 1 2. rewrite slice_text_end. cbn [obind]. rewrite encode_app. reflexivity.
      * apply Nat.ltb_ge in Q. rewrite Es, encode_app, app_length in Q.
        destruct last as [|x last]; [rewrite app_nil_r; reflexivity|]. pose proof (encode_len (x :: last)). cbn [length] in *. lia.
    + exists (front ++ [last]). split; [|reflexivity].
      assert (Llen : Z.of_nat (length s) >= Z.of_nat (length front) + Z.of_nat (length last)).
      { rewrite Es, app_length. pose proof (with_sep_len (c :: n) front ltac:(discriminate)). lia. }
      split; [rewrite joined_front; symmetry; exact Es|]. rewrite app_length. cbn [length]. split.
      * destruct Lim as [[-> _]| ->]; [exact Logic.I|]. cbn [within]. lia.
      * exists front, last. split; [reflexivity|]. split; [exact Fr|].
        destruct Lim as [[Ln L2]|Ln]; rewrite Ln.
        -- right. destruct Lst as [Lst|Lst]; [|exact Lst]. lia.
        -- destruct Lst as [Lst|Lst]; [left|right; exact Lst]. f_equal. lia.
Qed.
Print Assumptions C69_replace.
Example C69_replace_ex : holds tx_cord tx /\ fits tx /\
  Replace2 tx_cord needle tx_flat 1 = Val (encode ([116; 97] ++ tx ++ [111; 8364; 169; 128512; 84])) /\
  Replace2 tx_cord (Flat []) needle 2 = Val (encode [169; 116; 169; 97; 169; 111; 8364; 169; 128512; 84]) /\
  Replace1 (Flat [97; 98]) (Flat []) (Flat [45]) = Val [45; 97; 45; 98; 45].
Proof. split; [apply tx_holds|]. split; [reflexivity|]. split; [|split]; vm_compute; reflexivity. Qed.

(* Replacing a string by itself changes nothing. *)
Theorem C69_replace_same : forall t tn limit s n, holds t s -> holds tn n -> n <> [] -> fits s -> in_int64 limit = true ->
  Replace2 t tn tn limit = Val (content t).
Proof.
  intros t tn limit s n H N Ne Fi I. destruct (C69_replace t tn tn limit s n n H N N Fi I) as [u [-> Ru]].
  rewrite (holds_content _ _ H). f_equal. f_equal. unfold replaced in Ru. destruct n as [|c n]; [congruence|].
  destruct Ru as [ps [[J _] ->]]. exact J.
Qed.
Print Assumptions C69_replace_same.
Example C69_replace_same_ex : holds tx_cord tx /\ Replace2 tx_cord needle needle (-1) = Val (encode tx).
Proof. split; [apply tx_holds|vm_compute; reflexivity]. Qed.

(* ------------------------------------------------------------------ C70 *)
Theorem C70_case : forall t s, holds t s ->
  LowerAscii t = Val (encode (map lower s)) /\ UpperAscii t = Val (encode (map upper s)).
Proof.
  intros t s H. pose proof (holds_scalar _ _ H) as Sc. unfold LowerAscii, UpperAscii. rewrite !convert_case_map.
  - rewrite (holds_content _ _ H), lower_enc, upper_enc by exact Sc. auto.
  - intros c E. unfold ascii_toupper. rewrite E. reflexivity.
  - intros c E. unfold ascii_tolower. rewrite E. reflexivity.
Qed.
Print Assumptions C70_case.
Example C70_case_ex : holds tx_cord tx /\ LowerAscii tx_cord = Val (encode [116; 97; 169; 111; 8364; 169; 128512; 116]).
Proof. split; [apply tx_holds|vm_compute; reflexivity]. Qed.

Theorem C70_trim : forall t s, holds t s -> exists u, Trim t = Val (encode u) /\ trimmed s u.
Proof.
  intros [x|x] s H; cbn [Trim].
  - apply Trim_flat_ok, H.
  - apply Trim_cord_ok, H.
Qed.
Print Assumptions C70_trim.
Example C70_trim_ex : Trim (Flat (encode [32; 8232; 97; 9; 98; 12288; 10])) = Val [97; 9; 98] /\
  holds (Flat (encode [32; 8232; 97; 9; 98; 12288; 10])) [32; 8232; 97; 9; 98; 12288; 10].
Proof.
  split; [vm_compute; reflexivity|]. split; [split; [repeat constructor; unfold scalar; lia|reflexivity]|exact I].
Qed.

Theorem C70_reverse : forall t s, holds t s -> Reverse t = Val (encode (rev s)).
Proof.
  intros [x|x] s H; unfold Reverse.
  - pose proof (holds_content _ _ H) as C. cbn [content] in C. subst x.
    rewrite (reverse_loop_ok s (holds_scalar _ _ H)); [reflexivity|]. pose proof (encode_len s). lia.
  - pose proof (holds_content _ _ H) as C. cbn [content] in C. rewrite C.
    destruct (encode s) eqn:E; [apply encode_nil_inv in E; subst s; reflexivity|].
    rewrite (collect_loop_ok _ _ _ _ cord_dec cord_drop_ok s _ [] x (holds_cord _ _ H) (holds_fuel _ _ H)). cbn [obind app].
    rewrite encode_model; [reflexivity|]. apply Forall_rev, (holds_scalar _ _ H).
Qed.
Print Assumptions C70_reverse.
Example C70_reverse_ex : holds tx_cord tx /\ Reverse tx_cord = Val (encode (rev tx)) /\ Reverse tx_flat = Val (encode (rev tx)).
Proof. split; [apply tx_holds|]. split; vm_compute; reflexivity. Qed.

(* strings.quote gives a string literal that the parser reads as the original. *)
Lemma quote_bytes s : Forall scalar s -> bytes (flat_map AppendQuoteCodePoint s).
Proof.
  induction 1 as [|c s Sc F IH]; [constructor|]. cbn [flat_map]. apply Forall_app. split; [|exact IH].
  unfold AppendQuoteCodePoint.
  repeat match goal with |- context[if ?b then _ else _] => destruct b; [repeat constructor; unfold byte; lia|] end.
  rewrite (Utf8Encode_valid c Sc). apply utf8_bytes, Sc.
Qed.
Theorem C70_quote : forall t s, holds t s ->
  exists lit, Quote t = Val lit /\ ParseStringLiteral lit = Val (content t).
Proof.
  intros t s H. pose proof (holds_fuel _ _ H) as Lf. pose proof (holds_scalar _ _ H) as Sc.
  exists (34 :: flat_map AppendQuoteCodePoint s ++ [34]). split.
  - unfold Quote. revert Lf. generalize (fuel_of t). intros f Lf.
    apply (visit_ok (fun V b d rd => Quote_loop b d rd f [34])
      (fun o => obind o (fun r => Val (r ++ [34])) = Val (34 :: flat_map AppendQuoteCodePoint s ++ [34])) t s H).
    intros V b d r good v Hd Hr R. rewrite (Quote_loop_ok _ _ _ _ Hd Hr s f [34] v R Lf). reflexivity.
  - destruct (quote_text s Sc) as [U [Q W]]. rewrite (holds_content _ _ H).
    apply (C41_quoted_literal 34 _ _ (or_intror eq_refl) Q (quote_bytes s Sc)). auto.
Qed.
Print Assumptions C70_quote.
Example C70_quote_ex : Quote (Flat [97; 34; 10; 92; 39]) = Val [34; 97; 92; 34; 92; 110; 92; 92; 39; 34] /\
  holds tx_cord tx.
Proof. split; [vm_compute; reflexivity|apply tx_holds]. Qed.
