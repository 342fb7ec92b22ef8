(* Lemmas about the regular expression extension. *)
From Coq Require Import ZArith String List Bool Lia.
From Verif Require Import Base.
From Verif Require Import M_RegexExt S_RegexExt.
Import ListNotations.
Open Scope list_scope.
Open Scope nat_scope.

(** ** Replacement strings *)
Lemma digit_ok n : n <= 9 -> digit (48 + Z.of_nat n) = Some n.
Proof.
  intros h. unfold digit.
  replace ((48 <=? 48 + Z.of_nat n) && (48 + Z.of_nat n <=? 57))%Z with true
    by (symmetry; apply andb_true_iff; split; apply Z.leb_le; lia).
  f_equal. lia.
Qed.
Lemma digit_inv c n : digit c = Some n -> n <= 9 /\ c = (48 + Z.of_nat n)%Z.
Proof.
  unfold digit. destruct ((48 <=? c) && (c <=? 57))%Z eqn:e; [|discriminate]. intros [= <-].
  apply andb_true_iff in e as [a b]. apply Z.leb_le in a, b. lia.
Qed.

Lemma groups_in_cons g k l : (forall n, k <> Group n) -> groups_in g (k :: l) <-> groups_in g l.
Proof. intros h. unfold groups_in. cbn. split; [auto|]. intros a j [e|i]; [destruct (h _ e)|auto]. Qed.
Lemma spells_check g l s : spells l s -> forall mx, check_rewrite g mx s = true <-> (mx <= g /\ groups_in g l).
Proof.
  induction 1 as [|c l s n _ IH|l s _ IH|k l s hk _ IH]; intros mx; cbn [check_rewrite].
  - rewrite Nat.leb_le. unfold groups_in. cbn. intuition.
  - destruct (Z.eqb_spec c BACKSLASH) as [->|_]; [unfold BACKSLASH in n; congruence|].
    rewrite IH, groups_in_cons by discriminate. reflexivity.
  - cbn. rewrite IH, groups_in_cons by discriminate. reflexivity.
  - replace (92 =? BACKSLASH)%Z with true by reflexivity.
    destruct (Z.eqb_spec (48 + Z.of_nat k) BACKSLASH) as [e|_]; [unfold BACKSLASH in e; lia|].
    rewrite (digit_ok _ hk), IH. unfold groups_in. cbn. split.
    + intros [a b]. split; [lia|]. intros j [e|i]; [injection e as <-; lia|auto].
    + intros [a b]. split; [|auto]. specialize (b k (or_introl eq_refl)). lia.
Qed.

Lemma check_spells g : forall s mx, check_rewrite g mx s = true -> exists l, spells l s.
Proof.
  assert (G : forall n s mx, length s <= n -> check_rewrite g mx s = true -> exists l, spells l s).
  { induction n as [|n IH]; intros [|c s] mx h e; cbn in h; try lia; [exists []; constructor|exists []; constructor|].
    cbn [check_rewrite] in e. destruct (Z.eqb_spec c BACKSLASH) as [->|ne].
    - destruct s as [|d s]; [discriminate|]. cbn in h. destruct (Z.eqb_spec d BACKSLASH) as [->|nd].
      + destruct (IH s mx ltac:(lia) e) as [l hl]. exists (Escaped :: l). constructor. exact hl.
      + destruct (digit d) as [k|] eqn:ed; [|discriminate]. apply digit_inv in ed as [hk ->].
        destruct (IH s _ ltac:(lia) e) as [l hl]. exists (Group k :: l). constructor; assumption.
    - destruct (IH s mx ltac:(lia) e) as [l hl]. exists (Char c :: l). constructor; assumption. }
  intros s mx. apply (G (length s)). lia.
Qed.

Lemma spells_rewrite sub n l s : spells l s -> (forall k, In (Group k) l -> k < n) -> Rewrite sub n s = Some (meaning sub l).
Proof.
  induction 1 as [|c l s nb _ IH|l s _ IH|k l s hk _ IH]; intros g; cbn [Rewrite].
  - reflexivity.
  - destruct (Z.eqb_spec c BACKSLASH) as [->|_]; [unfold BACKSLASH in nb; congruence|].
    rewrite IH; [reflexivity|]. intros j i. apply g. right. exact i.
  - cbn. rewrite IH; [reflexivity|]. intros j i. apply g. right. exact i.
  - replace (92 =? BACKSLASH)%Z with true by reflexivity. rewrite (digit_ok _ hk).
    replace (Nat.leb n k) with false by (symmetry; apply Nat.leb_gt, g; left; reflexivity).
    rewrite IH; [reflexivity|]. intros j i. apply g. right. exact i.
Qed.

Lemma group_le_9 l s : spells l s -> forall k, In (Group k) l -> k <= 9.
Proof. induction 1; cbn; intros j; [tauto|intros [e|i]; [discriminate|auto]..|intros [e|i]; [injection e as <-; assumption|auto]]. Qed.

Lemma check_meaning re s : CheckRewriteString re s = true <-> exists l, spells l s /\ groups_in (NumberOfCapturingGroups re) l.
Proof.
  unfold CheckRewriteString. split.
  - intros h. destruct (check_spells _ _ _ h) as [l hl]. exists l. split; [exact hl|]. apply (spells_check _ _ _ hl) in h. tauto.
  - intros (l & hl & g). apply (spells_check _ _ _ hl). split; [lia|exact g].
Qed.

Lemma rewrite_n re s l sub : spells l s -> groups_in (NumberOfCapturingGroups re) l ->
  Rewrite sub (S (Nat.min 9 (NumberOfCapturingGroups re))) s = Some (meaning sub l).
Proof.
  intros h g. apply spells_rewrite; [exact h|]. intros k i. pose proof (group_le_9 _ _ h _ i). pose proof (g _ i). lia.
Qed.
Lemma rewrite_all re s l sub : spells l s -> groups_in (NumberOfCapturingGroups re) l ->
  Rewrite sub (S (NumberOfCapturingGroups re)) s = Some (meaning sub l).
Proof. intros h g. apply spells_rewrite; [exact h|]. intros k i. pose proof (g _ i). lia. Qed.

(** ** Pieces *)
Lemma skipn_skipn {A} x y (l : list A) : skipn x (skipn y l) = skipn (x + y) l.
Proof.
  revert l. induction y as [|y IH]; intros l; [rewrite Nat.add_0_r; reflexivity|].
  destruct l as [|a l]; [rewrite !skipn_nil; reflexivity|]. rewrite Nat.add_succ_r. cbn. apply IH.
Qed.

Lemma split_at (t : text) a n : a + n <= length t ->
  t = firstn a t ++ firstn n (skipn a t) ++ skipn (a + n) t.
Proof.
  intros h. rewrite <- (firstn_skipn a t) at 1. f_equal.
  rewrite <- (firstn_skipn n (skipn a t)) at 1. f_equal. rewrite skipn_skipn. f_equal. lia.
Qed.

Lemma pieces_gap l t g : pieces_of l t -> pieces_of l (g ++ t).
Proof. intros h. destruct h; [constructor|]. rewrite app_assoc. constructor; assumption. Qed.

Lemma view_split t a n b k : a + n <= length t -> a <= b -> b + k <= a + n ->
  exists g1 g2, t = g1 ++ view t (mkPiece b k) ++ g2 ++ skipn (a + n) t.
Proof.
  intros h1 h2 h3. exists (firstn b t), (firstn (a + n - (b + k)) (skipn (b + k) t)).
  unfold view. cbn [at_ len]. rewrite (split_at t b k) at 1 by lia. do 2 f_equal.
  rewrite <- (firstn_skipn (a + n - (b + k)) (skipn (b + k) t)) at 1. f_equal.
  rewrite skipn_skipn. f_equal. lia.
Qed.

Lemma in_nth_some (l : list (option Piece)) k c : nth k l None = Some c -> In (Some c) l.
Proof.
  revert k. induction l as [|x l IH]; intros [|k]; cbn; try discriminate; [intros ->; left; reflexivity|intros h; right; exact (IH _ h)].
Qed.

Lemma submatch_split re t m j : search_ok re -> Search re t 0 = Some m -> submatch t m j <> [] ->
  exists g1 g2, t = g1 ++ submatch t m j ++ g2 ++ skipn (end_ m) t.
Proof.
  intros ok e ne. destruct (ok _ _ _ e) as (_ & h1 & _ & h2). unfold piece_in in h1. unfold end_. destruct j as [|j]; cbn [submatch] in *.
  - destruct (whole m) as [b k]. cbn [at_ len] in *. apply (view_split t b k b k); lia.
  - destruct (nth j (captures m) None) as [c|] eqn:ec; [|congruence]. apply in_nth_some in ec.
    destruct (h2 c ec) as [h3 h4]. destruct c as [b k]. cbn [at_ len] in *. apply view_split; lia.
Qed.

Lemma extract_loop_pieces re : search_ok re -> forall fuel t, length t < fuel ->
  exists l, extract_loop fuel re t = Some l /\ (NumberOfCapturingGroups re <= 1 -> pieces_of l t).
Proof.
  intros ok. induction fuel as [|fuel IH]; intros t h; [lia|]. cbn [extract_loop].
  destruct (Search re t 0) as [m|] eqn:e; [|exists []; split; [reflexivity|constructor]].
  destruct (ok _ _ _ e) as (_ & hw & _ & hc). unfold piece_in in hw.
  destruct (Nat.eqb_spec (len (whole m)) 0) as [z|nz].
  - destruct t as [|c t]; [exists []; split; [reflexivity|constructor]|]. cbn in h.
    destruct (IH t ltac:(lia)) as (l & h1 & h2). exists l. split; [exact h1|]. intros g. apply (pieces_gap l t [c]), h2, g.
  - set (r := skipn (at_ (whole m) + len (whole m)) t).
    assert (lr : length r < fuel) by (unfold r; rewrite skipn_length; lia).
    destruct (IH r lr) as (l & h1 & h2). fold r. rewrite h1.
    set (j := if Nat.eqb (NumberOfCapturingGroups re) 1 then 1 else 0).
    destruct (Nat.eqb (NumberOfCapturingGroups re) 1 && match submatch t m j with [] => true | _ => false end) eqn:eb.
    + exists l. split; [reflexivity|]. intros g.
      rewrite <- (firstn_skipn (at_ (whole m) + len (whole m)) t). apply pieces_gap, h2, g.
    + exists (submatch t m j :: l). split; [reflexivity|]. intros g.
      assert (ne : submatch t m j <> []).
      { unfold j in *. destruct (Nat.eqb (NumberOfCapturingGroups re) 1).
        - cbn [andb] in eb. destruct (submatch t m 1); [discriminate|discriminate].
        - cbn [submatch]. unfold view. intros ev.
          assert (lv : length (firstn (len (whole m)) (skipn (at_ (whole m)) t)) = len (whole m))
            by (rewrite firstn_length, skipn_length; lia).
          rewrite ev in lv. cbn in lv. lia. }
      destruct (submatch_split re t m j ok e ne) as (g1 & g2 & es). rewrite es at 2.
      constructor; [exact ne|]. apply pieces_gap. unfold end_. apply h2, g.
Qed.

(** ** Matches in context *)
Lemma view_shift t p q : view t (shift p q) = view (skipn p t) q.
Proof. unfold view. cbn. rewrite skipn_skipn. do 2 f_equal. lia. Qed.
Lemma submatch_shift t p m j : submatch t (shift_match p m) j = submatch (skipn p t) m j.
Proof.
  destruct j as [|j]; cbn [submatch shift_match whole captures]; [apply view_shift|].
  revert j. induction (captures m) as [|c l IH]; intros [|j]; cbn; try reflexivity; [|apply IH].
  destruct c; cbn; [apply view_shift|reflexivity].
Qed.

Definition keep (re : RE2) (x : text) : bool :=
  negb (Nat.eqb (NumberOfCapturingGroups re) 1 && match x with [] => true | _ => false end).

Lemma extract_loop_matches re t : search_ok re -> context_free re -> forall fuel p, p <= length t -> length t - p < fuel ->
  exists ms, matches re t p ms /\
    extract_loop fuel re (skipn p t) =
    Some (filter (keep re) (map (fun m => submatch t m (if Nat.eqb (NumberOfCapturingGroups re) 1 then 1 else 0)) ms)).
Proof.
  intros ok cf. induction fuel as [|fuel IH]; intros p hp h; [lia|]. cbn [extract_loop].
  pose proof (cf t p hp) as es. destruct (Search re (skipn p t) 0) as [m|] eqn:e; cbn [option_map] in es.
  2:{ exists []. split; [constructor; exact es|reflexivity]. }
  destruct (ok _ _ _ e) as (_ & hw & _ & _). unfold piece_in in hw. rewrite skipn_length in hw.
  destruct (Nat.eqb_spec (len (whole m)) 0) as [z|nz].
  - destruct (skipn p t) as [|c t'] eqn:et.
    + exists []. split; [|reflexivity]. eapply matches_end; [exact es|exact z|].
      assert (l0 : length (skipn p t) = 0) by (rewrite et; reflexivity). rewrite skipn_length in l0. lia.
    + assert (lp : p < length t).
      { assert (l0 : length (skipn p t) = S (length t')) by (rewrite et; reflexivity). rewrite skipn_length in l0. lia. }
      destruct (IH (S p) ltac:(lia) ltac:(lia)) as (ms & h1 & h2). exists ms. split.
      * eapply matches_skip; [exact es|exact z|exact lp|exact h1].
      * replace t' with (skipn (S p) t); [exact h2|].
        replace (S p) with (1 + p) by lia. rewrite <- skipn_skipn, et. reflexivity.
  - assert (en : end_ (shift_match p m) = p + (at_ (whole m) + len (whole m))) by (unfold end_; cbn; lia).
    destruct (IH (end_ (shift_match p m)) ltac:(lia) ltac:(lia)) as (ms & h1 & h2).
    rewrite skipn_skipn. replace (at_ (whole m) + len (whole m) + p) with (end_ (shift_match p m)) by lia. rewrite h2.
    exists (shift_match p m :: ms). split; [apply matches_one; assumption|]. cbn [map filter]. rewrite submatch_shift.
    match goal with |- context [keep re ?x] => change (keep re x) with
      (negb (Nat.eqb (NumberOfCapturingGroups re) 1 && match x with [] => true | _ => false end)) end.
    match goal with |- (if ?b then _ else _) = _ => destruct b; reflexivity end.
Qed.
