(* Lemmas about the string functions: finding, splitting, replacing. *)
From Coq Require Import ZArith String List Bool Lia ZifyBool.
From Verif Require Import Base M_Utf8 S_Utf8 L_Utf8 M_Strings L_Strings.
From Verif Require Import M_StrExt S_StrExt L_StrExt.
Import ListNotations.
Local Open Scope string_scope.
Open Scope list_scope.
Open Scope Z_scope.
Ltac Zify.zify_post_hook ::= idtac.

(** ** Slices *)
Lemma slice_mid a b c : slice (a ++ b ++ c) (length a) (length a + length b) = Val b.
Proof.
  unfold slice. rewrite !app_length.
  replace (Nat.leb (length a) (length a + length b)) with true by lia.
  replace (Nat.leb (length a + length b) (length a + (length b + length c))) with true by lia.
  cbn [andb]. rewrite skipn_app, skipn_all, Nat.sub_diag. cbn [app skipn].
  replace (length a + length b - length a)%nat with (length b) by lia.
  rewrite firstn_app, firstn_all, Nat.sub_diag. cbn [firstn]. rewrite app_nil_r. reflexivity.
Qed.
Lemma slice_end a b : slice (a ++ b) (length a) (length (a ++ b)) = Val b.
Proof. rewrite app_length. rewrite <- (app_nil_r b) at 1. apply slice_mid. Qed.
Lemma slice_text pre p rest : slice (encode (pre ++ p ++ rest)) (length (encode pre)) (length (encode (pre ++ p))) = Val (encode p).
Proof. rewrite !encode_app, app_length. apply slice_mid. Qed.
Lemma slice_text_end pre p : slice (encode (pre ++ p)) (length (encode pre)) (length (encode (pre ++ p))) = Val (encode p).
Proof. rewrite !encode_app. apply slice_end. Qed.
Lemma slices_app s l1 : forall l2 a b, slices s l1 = Val a -> slices s l2 = Val b -> slices s (l1 ++ l2) = Val (a ++ b).
Proof.
  induction l1 as [|[x y] l1 IH]; intros l2 a b A B; cbn [slices app] in *.
  - injection A as <-. exact B.
  - destruct (slice s x y) as [w|e|]; cbn [obind] in *; try discriminate.
    destruct (slices s l1) as [r|e|] eqn:E; cbn [obind] in *; try discriminate.
    injection A as <-. rewrite (IH _ _ _ eq_refl B). reflexivity.
Qed.
Lemma slices_one s b e x : slice s b e = Val x -> slices s [(b, e)] = Val [x].
Proof. intros H. cbn [slices]. rewrite H. reflexivity. Qed.

(** ** Instances of the readers *)
Lemma flat_dec v c s : reads (fun s => s) (fun _ : list Z => True) v (c :: s) -> Utf8Decode v = Val (c, length (utf8 c)).
Proof. intros [_ [F ->]]. rewrite encode_cons. apply decode_utf8. exact (proj1 (Forall_tl _ _ _ F)). Qed.
Lemma flat_drop_ok v c s : reads (fun s => s) (fun _ : list Z => True) v (c :: s) ->
  exists v', flat_drop (length (utf8 c)) v = Val v' /\ reads (fun s => s) (fun _ => True) v' s.
Proof.
  intros [_ [F ->]]. rewrite encode_cons. unfold flat_drop. rewrite app_length.
  replace (Nat.leb (length (utf8 c)) (length (utf8 c) + length (encode s))) with true by lia.
  eexists. split; [reflexivity|]. split; [exact I|]. split; [exact (proj2 (Forall_tl _ _ _ F))|].
  rewrite skipn_app, skipn_all, Nat.sub_diag. reflexivity.
Qed.
Lemma cord_dec v c s : reads (@concat Z) good_cord v (c :: s) -> Utf8Decode_cord v = Val (c, length (utf8 c)).
Proof.
  intros [G [F E]]. rewrite decode_cord.
  - rewrite E, encode_cons. apply decode_utf8. exact (proj1 (Forall_tl _ _ _ F)).
  - exact G.
  - intros ->. symmetry in E. apply encode_nil_inv in E. discriminate.
  - rewrite E. apply encode_bytes, F.
Qed.
Lemma cord_drop_ok v c s : reads (@concat Z) good_cord v (c :: s) ->
  exists v', cord_drop (length (utf8 c)) v = Val v' /\ reads (@concat Z) good_cord v' s.
Proof.
  intros [G [F E]]. unfold cord_drop. rewrite E, encode_cons, app_length.
  replace (Nat.leb (length (utf8 c)) (length (utf8 c) + length (encode s))) with true by lia.
  eexists. split; [reflexivity|]. split; [apply cord_advance_good, G|]. split; [exact (proj2 (Forall_tl _ _ _ F))|].
  rewrite cord_advance_concat, E, encode_cons, skipn_app, skipn_all, Nat.sub_diag. reflexivity.
Qed.

Lemma holds_flat x s : holds (Flat x) s -> reads (fun s => s) (fun _ : list Z => True) x s.
Proof. intros [[F E] _]. split; [exact I|]. split; [exact F|exact E]. Qed.
Lemma holds_cord x s : holds (Large x) s -> reads (@concat Z) good_cord x s.
Proof. intros [[F E] G]. split; [exact G|]. split; [exact F|exact E]. Qed.
Lemma holds_content t s : holds t s -> content t = encode s.
Proof. intros [[_ E] _]. exact E. Qed.
Lemma holds_scalar t s : holds t s -> Forall scalar s.
Proof. intros [[F _] _]. exact F. Qed.
Lemma holds_fuel t s : holds t s -> (length s < fuel_of t)%nat.
Proof. intros H. unfold fuel_of, size. rewrite (holds_content _ _ H). pose proof (encode_len s). lia. Qed.

(* to prove something of a loop run by [visit] prove it for any reader *)
Lemma visit_ok {A} (f : forall V, (V -> list Z) -> (V -> out (Z * nat)) -> (nat -> V -> out V) -> V -> out A)
  (P : out A -> Prop) t s : holds t s ->
  (forall V (b : V -> list Z) d r (good : V -> Prop) v,
     (forall v c s, reads b good v (c :: s) -> d v = Val (c, length (utf8 c))) ->
     (forall v c s, reads b good v (c :: s) -> exists v', r (length (utf8 c)) v = Val v' /\ reads b good v' s) ->
     reads b good v s -> P (f V b d r v)) -> P (visit f t).
Proof.
  intros H K. destruct t as [x|x]; cbn [visit].
  - eapply K; [exact flat_dec|exact flat_drop_ok|apply holds_flat, H].
  - eapply K; [exact cord_dec|exact cord_drop_ok|apply holds_cord, H].
Qed.

(** ** Finding bytes *)
Definition occ (s n : list Z) (j : nat) : Prop := exists a b, s = a ++ n ++ b /\ length a = j.
Definition first_occ (s n : list Z) (pos : nat) (o : option nat) : Prop :=
  match o with
  | Some j => (pos <= j)%nat /\ occ s n j /\ forall i, (pos <= i < j)%nat -> ~ occ s n i
  | None => forall i, (pos <= i)%nat -> ~ occ s n i
  end.
Lemma occ_len s n j : occ s n j -> (j + length n <= length s)%nat.
Proof. intros [a [b [-> <-]]]. rewrite !app_length. lia. Qed.
Lemma occ_skip s n pos j : (pos <= length s)%nat -> occ s n (pos + j) <-> occ (skipn pos s) n j.
Proof.
  intros L. split.
  - intros [a [b [E La]]]. exists (skipn pos a), b. subst s. rewrite skipn_app.
    replace (pos - length a)%nat with O by lia. split; [reflexivity|]. rewrite skipn_length. lia.
  - intros [a [b [E La]]]. exists (firstn pos s ++ a), b. rewrite <- app_assoc, <- E, firstn_skipn.
    split; [reflexivity|]. rewrite app_length, firstn_length. lia.
Qed.
Lemma sv_find_first s n pos : first_occ s n pos (sv_find s n pos).
Proof.
  unfold sv_find. destruct (Nat.ltb (length s) pos) eqn:E.
  - apply Nat.ltb_lt in E. intros i Hi O. apply occ_len in O. lia.
  - apply Nat.ltb_ge in E. pose proof (find_at_spec n (skipn pos s) pos) as F.
    destruct (find_at pos (skipn pos s) n) as [j|]; cbn [first_occ].
    + destruct F as [L [[a [b [Es La]]] M]]. split; [exact L|]. split.
      * replace j with (pos + length a)%nat by lia. apply occ_skip; [exact E|]. exists a, b. auto.
      * intros i Hi O. replace i with (pos + (i - pos))%nat in O by lia. apply occ_skip in O; [|exact E].
        destruct O as [a' [b' [Es' La']]]. specialize (M _ _ Es'). lia.
    + intros i Hi O. replace i with (pos + (i - pos))%nat in O by lia. apply occ_skip in O; [|exact E].
      destruct O as [a' [b' [Es' _]]]. exact (F _ _ Es').
Qed.
Lemma first_occ_unique s n pos o1 o2 : first_occ s n pos o1 -> first_occ s n pos o2 -> o1 = o2.
Proof.
  destruct o1 as [i|], o2 as [j|]; cbn [first_occ]; intros A B; [|exfalso; eapply B; [|apply A]; apply A|exfalso; eapply A; [|apply B]; apply B|reflexivity].
  destruct A as [Ai [Oi Mi]], B as [Aj [Oj Mj]]. f_equal.
  destruct (lt_eq_lt_dec i j) as [[H| ->]|H]; [destruct (Mj i ltac:(lia) Oi)|reflexivity|destruct (Mi j ltac:(lia) Oj)].
Qed.
Lemma Find_fragmented_ok lhs c r : c ++ r <> [] -> (length (c ++ r) <= length lhs)%nat ->
  forall fuel cur, (cur <= length lhs)%nat -> (length lhs - cur < fuel)%nat ->
  Find_fragmented fuel lhs c r cur = Val (sv_find lhs (c ++ r) cur).
Proof.
  intros Ne Ln. assert (Ln0 : (0 < length (c ++ r))%nat) by (destruct (c ++ r); [congruence|cbn; lia]).
  rewrite app_length in *.
  assert (W : forall i, occ lhs (c ++ r) i -> occ lhs c i).
  { intros i [a [b [E La]]]. exists a, (r ++ b). rewrite E, <- app_assoc. auto. }
  induction fuel as [|fuel IH]; intros cur Lc Lf; [lia|]. cbn [Find_fragmented].
  pose proof (sv_find_first lhs c cur) as F. pose proof (sv_find_first lhs (c ++ r) cur) as G.
  destruct (sv_find lhs c cur) as [f|]; cbn [first_occ] in F.
  2:{ f_equal. eapply first_occ_unique; [|exact G]. intros i Hi O. exact (F i Hi (W _ O)). }
  destruct F as [Lcf [Of Mf]].
  assert (Min : forall i, (cur <= i)%nat -> occ lhs (c ++ r) i -> (f <= i)%nat).
  { intros i Hi O. destruct (le_lt_dec f i) as [|Hlt]; [assumption|]. destruct (Mf i ltac:(lia) (W _ O)). }
  destruct (Nat.ltb (length lhs - (length c + length r)) f) eqn:E1.
  { apply Nat.ltb_lt in E1. f_equal. eapply first_occ_unique; [|exact G]. intros i Hi O.
    pose proof (Min i Hi O). apply occ_len in O. rewrite app_length in O. lia. }
  apply Nat.ltb_ge in E1. destruct (starts_with (skipn (f + length c) lhs) r) eqn:E2.
  - f_equal. eapply first_occ_unique; [|exact G]. cbn [first_occ]. split; [lia|]. split.
    + destruct Of as [a [b [E La]]]. apply starts_with_iff in E2. destruct E2 as [t E2].
      subst lhs. rewrite <- La in E2. rewrite app_assoc, skipn_app, app_length in E2. rewrite skipn_all2 in E2 by (rewrite app_length; lia).
      rewrite Nat.sub_diag in E2. cbn [app skipn] in E2. subst b. exists a, t. rewrite <- !app_assoc. auto.
    + intros i Hi O. pose proof (Min i ltac:(lia) O). lia.
  - rewrite IH by lia. f_equal. eapply first_occ_unique; [|exact G].
    pose proof (sv_find_first lhs (c ++ r) (S f)) as F'.
    assert (Nf : ~ occ lhs (c ++ r) f).
    { intros [a [b [E La]]]. assert (X : starts_with (skipn (f + length c) lhs) r = true); [|congruence].
      apply starts_with_iff. exists b. subst lhs f. rewrite <- app_assoc, app_assoc, skipn_app, app_length.
      rewrite skipn_all2 by (rewrite app_length; lia). rewrite Nat.sub_diag. reflexivity. }
    destruct (sv_find lhs (c ++ r) (S f)) as [j|]; cbn [first_occ] in *.
    + destruct F' as [A [O M]]. split; [lia|]. split; [exact O|]. intros i Hi Oi.
      pose proof (Min i ltac:(lia) Oi). destruct (Nat.eq_dec i f) as [->|N]; [auto|]. apply (M i); [lia|exact Oi].
    + intros i Hi Oi. pose proof (Min i Hi Oi). destruct (Nat.eq_dec i f) as [->|N]; [auto|]. apply (F' i); [lia|exact Oi].
Qed.
Lemma find_at_shift n s : forall k, find_at k s n = option_map (Nat.add k) (find_at O s n).
Proof.
  induction s as [|x s IH]; intros k; cbn [find_at].
  - destruct (starts_with [] n); cbn; [f_equal; lia|reflexivity].
  - destruct (starts_with (x :: s) n); cbn; [f_equal; lia|].
    rewrite IH. rewrite (IH 1%nat). destruct (find_at O s n); cbn; [f_equal; lia|reflexivity].
Qed.
Lemma Find_ok t n pos : content n <> [] -> (match n with Flat _ => True | Large c => good_cord c end) ->
  (pos <= size t)%nat -> Find t n pos = Val (sv_find (content t) (content n) pos).
Proof.
  intros Ne G L. unfold Find. replace (Nat.ltb (size t) pos) with false by lia.
  destruct t as [s|s].
  - destruct n as [n|[|c [|c' n]]]; cbn [content concat] in *; rewrite ?app_nil_r in *; try reflexivity.
    unfold size in L. cbn [content] in L.
    set (r := c' ++ concat n) in *. rewrite app_length.
    assert (Nz : Nat.eqb (length c + length r) 0 = false).
    { apply Nat.eqb_neq. rewrite <- app_length. destruct (c ++ r); [congruence|cbn; lia]. }
    destruct (Nat.ltb (length s) (pos + (length c + length r))) eqn:E.
    + apply Nat.ltb_lt in E. f_equal. eapply first_occ_unique; [|apply sv_find_first].
      intros i Hi O. apply occ_len in O. rewrite app_length in O. lia.
    + apply Nat.ltb_ge in E. rewrite Nz. apply Find_fragmented_ok; [exact Ne|rewrite app_length; lia|lia|lia].
  - cbn [content]. set (h := concat s) in *. unfold size in L. cbn [content] in L. fold h in L.
    unfold sv_find. replace (Nat.ltb (length h) pos) with false by lia.
    replace (Nat.ltb (length (skipn pos h)) 0) with false by lia.
    change (skipn 0 (skipn pos h)) with (skipn pos h).
    rewrite (find_at_shift _ _ pos). pose proof (find_at_spec (content n) (skipn pos h) 0) as F.
    destruct (find_at O (skipn pos h) (content n)) as [i|]; cbn [option_map]; [|reflexivity].
    destruct F as [_ [[a [b [E La]]] _]].
    assert (length (content n) <> 0)%nat by (destruct (content n); [congruence|cbn; lia]).
    replace (Nat.eqb i (length (skipn pos h))) with false; [reflexivity|].
    symmetry. apply Nat.eqb_neq. rewrite E, !app_length. lia.
Qed.

(* finding a text from a character boundary on *)
Lemma enc_prefix_len a b : (length a < length b)%nat -> (exists x y, a ++ x = b ++ y) ->
  (length (encode a) < length (encode b))%nat.
Proof.
  intros L [x [y E]]. assert (P : exists z, b = a ++ z).
  { exists (skipn (length a) b). rewrite <- (firstn_skipn (length a) b) at 1. f_equal.
    apply (f_equal (firstn (length a))) in E. rewrite firstn_app, firstn_all, Nat.sub_diag in E. cbn [firstn] in E.
    rewrite app_nil_r in E. rewrite firstn_app in E. replace (length a - length b)%nat with O in E by lia.
    cbn [firstn] in E. rewrite app_nil_r in E. symmetry. exact E. }
  destruct P as [z ->]. rewrite app_length in L. rewrite encode_app, app_length.
  pose proof (encode_len z). lia.
Qed.
Definition leftmost (n p : list Z) : Prop := forall k, occurs n (p ++ n) k -> k = Z.of_nat (length p).
Lemma find_text n pre s : n <> [] -> Forall scalar n -> Forall scalar (pre ++ s) ->
  match sv_find (encode (pre ++ s)) (encode n) (length (encode pre)) with
  | Some j => exists p rest, s = p ++ n ++ rest /\ j = length (encode (pre ++ p)) /\ leftmost n p
  | None => forall k, ~ occurs n s k
  end.
Proof.
  intros Ne Sn Sh. unfold sv_find. rewrite encode_app, app_length.
  replace (Nat.ltb (length (encode pre) + length (encode s)) (length (encode pre))) with false by lia.
  rewrite skipn_app, skipn_all, Nat.sub_diag. cbn [app skipn].
  apply Forall_app in Sh. destruct Sh as [_ Ss].
  pose proof (find_at_spec (encode n) (encode s) (length (encode pre))) as F.
  destruct (find_at (length (encode pre)) (encode s) (encode n)) as [j|].
  - destruct F as [L [[a [b [E La]]] M]]. destruct (occurrence n Ne Sn s a b Ss E) as [p [rest [-> [-> ->]]]].
    exists p, rest. split; [reflexivity|]. split; [rewrite encode_app, app_length; lia|].
    intros k [x [y [Exy <-]]]. f_equal.
    assert (Ex : p ++ n ++ rest = x ++ n ++ (y ++ rest)) by (rewrite app_assoc, Exy, <- !app_assoc; reflexivity).
    assert (Le : (length x <= length p)%nat) by (apply (f_equal (@List.length Z)) in Exy; rewrite !app_length in Exy; lia).
    destruct (le_lt_dec (length p) (length x)); [lia|]. exfalso.
    assert (H := enc_prefix_len x p ltac:(lia) (ex_intro _ _ (ex_intro _ _ (eq_sym Ex)))).
    rewrite Ex, !encode_app in M. specialize (M _ _ eq_refl). lia.
  - intros k [x [y [-> _]]]. apply (F (encode x) (encode y)). rewrite !encode_app. reflexivity.
Qed.

(** ** Splitting *)
Definition with_sep (n : list Z) (front : list (list Z)) : list Z := flat_map (fun p => p ++ n) front.
Lemma joined_front n front last : joined n (front ++ [last]) = with_sep n front ++ last.
Proof.
  induction front as [|p front IH]; [reflexivity|]. cbn [app joined with_sep flat_map].
  destruct (front ++ [last]) eqn:E; [destruct front; discriminate|]. rewrite IH. unfold with_sep. rewrite <- !app_assoc. reflexivity.
Qed.

Lemma Split_loop_ok t n h tn : holds t h -> holds tn n -> n <> [] ->
  forall fuel s pre splits ps limit, h = pre ++ s -> (length s < fuel)%nat ->
  slices (encode h) splits = Val (map encode ps) ->
  exists front last splits' limit',
    Split_loop fuel t tn splits (length (encode pre)) limit =
      Val (splits', length (encode (pre ++ with_sep n front)), limit') /\
    slices (encode h) splits' = Val (map encode (ps ++ front)) /\
    s = with_sep n front ++ last /\ Forall (leftmost n) front /\
    limit' = limit - Z.of_nat (length front) /\ (limit' <= 1 \/ forall k, ~ occurs n last k) /\
    (limit' <> limit -> 1 <= limit').
Proof.
  intros Ht Hn Ne. induction fuel as [|fuel IH]; intros s pre splits ps limit -> Lf Sl; [lia|].
  cbn [Split_loop].
  assert (Stop : exists front last splits' limit',
     (Val (splits, length (encode pre), limit) : out (list (nat * nat) * nat * Z)) =
      Val (splits', length (encode (pre ++ with_sep n front)), limit') /\
     slices (encode (pre ++ s)) splits' = Val (map encode (ps ++ front)) /\
     s = with_sep n front ++ last /\ Forall (leftmost n) front /\
     limit' = limit - Z.of_nat (length front) /\ last = s /\ limit' = limit).
  { exists [], s, splits, limit. cbn [with_sep flat_map app length map]. rewrite !app_nil_r.
    repeat split; [exact Sl|constructor|lia]. }
  destruct (Nat.ltb (length (encode pre)) (size t) && (limit >? 1))%bool eqn:C.
  2:{ destruct Stop as [f [l [sp [li [E [A [B [D [F [G K]]]]]]]]]]. exists f, l, sp, li.
      do 5 (split; [assumption|]). split; [|congruence]. subst l.
      unfold size in C. rewrite (holds_content _ _ Ht), encode_app, app_length in C.
      destruct (limit >? 1) eqn:L1; [|left; lia]. right. intros k O.
      assert (s = []). { apply encode_nil_inv. destruct (encode s); [reflexivity|cbn [length] in C; lia]. }
      subst s. destruct O as [x [y [O _]]]. destruct x; [destruct n; [congruence|discriminate]|discriminate]. }
  apply andb_true_iff in C. destruct C as [C1 C2].
  rewrite Find_ok.
  2:{ rewrite (holds_content _ _ Hn). apply encode_ne, Ne. }
  2:{ exact (proj2 Hn). }
  2:{ lia. }
  cbn [obind]. rewrite (holds_content _ _ Ht), (holds_content _ _ Hn).
  pose proof (find_text n pre s Ne (holds_scalar _ _ Hn) (holds_scalar _ _ Ht)) as F.
  destruct (sv_find (encode (pre ++ s)) (encode n) (length (encode pre))) as [j|].
  2:{ destruct Stop as [f [l [sp [li [E [A [B [D [G [K M]]]]]]]]]]. exists f, l, sp, li.
      do 5 (split; [assumption|]). split; [subst l; right; exact F|congruence]. }
  destruct F as [p [rest [-> [-> Lm]]]].
  destruct (IH rest (pre ++ p ++ n) (splits ++ [(length (encode pre), length (encode (pre ++ p)))]) (ps ++ [p]) (limit - 1))
    as [front [last [sp [li [E [A [B [D [G [K M]]]]]]]]]].
  { rewrite <- !app_assoc. reflexivity. }
  { rewrite !app_length in Lf. destruct n; [congruence|]. cbn [length] in Lf. lia. }
  { rewrite map_app. apply slices_app; [exact Sl|]. apply slices_one. apply slice_text. }
  replace (length (encode (pre ++ p)) + size tn)%nat with (length (encode (pre ++ p ++ n)))
    by (unfold size; rewrite (holds_content _ _ Hn), !encode_app, !app_length; lia).
  rewrite E. exists (p :: front), last, sp, li.
  split; [cbn [with_sep flat_map]; rewrite <- !app_assoc; reflexivity|].
  split; [rewrite A, <- app_assoc; reflexivity|].
  split; [rewrite B; cbn [with_sep flat_map]; rewrite <- !app_assoc; reflexivity|].
  split; [constructor; assumption|]. split; [cbn [length]; lia|]. split; [exact K|].
  intros _. destruct (Z.eq_dec li (limit - 1)); [lia|apply M; assumption].
Qed.

Lemma Replace_loop_ok t n h tn repl : holds t h -> holds tn n -> n <> [] ->
  forall fuel s pre acc limit, h = pre ++ s -> (length s < fuel)%nat -> 0 <= limit ->
  exists front last,
    Replace_loop fuel t tn (encode repl) (encode acc) (length (encode pre)) limit =
      Val (encode (acc ++ with_sep repl front), length (encode (pre ++ with_sep n front))) /\
    s = with_sep n front ++ last /\ Forall (leftmost n) front /\
    Z.of_nat (length front) <= limit /\ (Z.of_nat (length front) = limit \/ forall k, ~ occurs n last k).
Proof.
  intros Ht Hn Ne. induction fuel as [|fuel IH]; intros s pre acc limit -> Lf Ll; [lia|].
  cbn [Replace_loop].
  assert (Stop : (Val (encode acc, length (encode pre)) : out (list Z * nat)) =
     Val (encode (acc ++ with_sep repl []), length (encode (pre ++ with_sep n []))))
   by (cbn [with_sep flat_map]; rewrite !app_nil_r; reflexivity).
  destruct (Nat.ltb (length (encode pre)) (size t) && (limit >? 0))%bool eqn:C.
  2:{ exists [], s. split; [exact Stop|]. split; [reflexivity|]. split; [constructor|]. cbn [length]. split; [lia|].
      unfold size in C. rewrite (holds_content _ _ Ht), encode_app, app_length in C.
      destruct (limit >? 0) eqn:L1; [|left; lia]. right. intros k O.
      assert (s = []). { apply encode_nil_inv. destruct (encode s); [reflexivity|cbn [length] in C; lia]. }
      subst s. destruct O as [x [y [O _]]]. destruct x; [destruct n; [congruence|discriminate]|discriminate]. }
  apply andb_true_iff in C. destruct C as [C1 C2].
  rewrite Find_ok.
  2:{ rewrite (holds_content _ _ Hn). apply encode_ne, Ne. }
  2:{ exact (proj2 Hn). }
  2:{ lia. }
  cbn [obind]. rewrite (holds_content _ _ Ht), (holds_content _ _ Hn).
  pose proof (find_text n pre s Ne (holds_scalar _ _ Hn) (holds_scalar _ _ Ht)) as F.
  destruct (sv_find (encode (pre ++ s)) (encode n) (length (encode pre))) as [j|].
  2:{ exists [], s. split; [exact Stop|]. split; [reflexivity|]. split; [constructor|]. cbn [length]. split; [lia|].
      right. exact F. }
  destruct F as [p [rest [-> [-> Lm]]]]. rewrite slice_text. cbn [obind].
  destruct (IH rest (pre ++ p ++ n) (acc ++ p ++ repl) (limit - 1))
    as [front [last [E [B [D [G K]]]]]].
  { rewrite <- !app_assoc. reflexivity. }
  { rewrite !app_length in Lf. destruct n; [congruence|]. cbn [length] in Lf. lia. }
  { lia. }
  replace (length (encode (pre ++ p)) + size tn)%nat with (length (encode (pre ++ p ++ n)))
    by (unfold size; rewrite (holds_content _ _ Hn), !encode_app, !app_length; lia).
  rewrite <- !encode_app. rewrite E. exists (p :: front), last.
  split; [cbn [with_sep flat_map]; rewrite <- !app_assoc; reflexivity|].
  split; [rewrite B; cbn [with_sep flat_map]; rewrite <- !app_assoc; reflexivity|].
  split; [constructor; assumption|]. cbn [length]. split; [lia|]. destruct K as [K|K]; [left; lia|right; exact K].
Qed.

Section Chars.
  Context {V : Type}.
  Variable bytes_of : V -> list Z.
  Variable decode : V -> out (Z * nat).
  Variable drop : nat -> V -> out V.
  Variable good : V -> Prop.
  Notation reads := (reads bytes_of good).
  Hypothesis Hdec : forall v c s, reads v (c :: s) -> decode v = Val (c, length (utf8 c)).
  Hypothesis Hdrop : forall v c s, reads v (c :: s) ->
    exists v', drop (length (utf8 c)) v = Val v' /\ reads v' s.

  Lemma Split_chars_ok : forall s fuel pre splits ps limit v, reads v s -> (length s < fuel)%nat ->
    slices (encode (pre ++ s)) splits = Val (map encode ps) ->
    exists front last splits' limit',
      Split_chars_loop bytes_of decode drop fuel splits (length (encode pre)) limit v =
        Val (splits', length (encode (pre ++ front)), limit') /\
      slices (encode (pre ++ s)) splits' = Val (map encode (ps ++ map (fun c => [c]) front)) /\
      length splits' = (length splits + length front)%nat /\
      s = front ++ last /\ limit' = limit - Z.of_nat (length front) /\ (limit' <= 1 \/ last = []) /\
      (limit' <> limit -> 1 <= limit').
  Proof.
    induction s as [|c s IH]; intros [|fuel] pre splits ps limit v R L Sl; cbn [length] in L; try lia; cbn [Split_chars_loop].
    - rewrite (proj2 (proj2 R)). cbn [encode flat_map]. exists [], [], splits, limit. cbn [length map]. rewrite !app_nil_r in *.
      repeat split; try assumption; try lia. right; reflexivity.
    - rewrite (nonempty_bytes _ _ _ _ _ _ _ R). destruct (limit >? 1) eqn:E.
      2:{ exists [], (c :: s), splits, limit. cbn [length map]. rewrite !app_nil_r.
          repeat split; try assumption; try lia. }
      rewrite (Hdec _ _ _ R). cbn [obind fst snd]. destruct (Hdrop _ _ _ R) as [v' [-> R']]. cbn [obind].
      replace (length (encode pre) + length (utf8 c))%nat with (length (encode (pre ++ [c])))
        by (rewrite encode_app, app_length, encode_cons; cbn [encode flat_map]; rewrite app_nil_r; reflexivity).
      destruct (IH fuel (pre ++ [c]) (splits ++ [(length (encode pre), length (encode (pre ++ [c])))]) (ps ++ [[c]]) (limit - 1) v' R' ltac:(lia))
        as [front [last [sp [li [X [A [B [D [G [K M]]]]]]]]]].
      { rewrite map_app, <- app_assoc. apply slices_app; [exact Sl|]. apply slices_one. exact (slice_text pre [c] s). }
      rewrite X. exists (c :: front), last, sp, li. rewrite <- !app_assoc in *. cbn [app] in *.
      split; [reflexivity|]. split; [exact A|].
      split; [rewrite B, app_length; cbn [length]; lia|].
      split; [rewrite D; reflexivity|]. split; [cbn [length]; lia|]. split; [exact K|].
      intros _. destruct (Z.eq_dec li (limit - 1)); [lia|apply M; assumption].
  Qed.

  Lemma Replace_chars_ok repl : forall s fuel pre acc limit v, reads v s -> (length s < fuel)%nat -> 0 <= limit ->
    exists front last,
      Replace_chars_loop bytes_of decode drop fuel (encode (pre ++ s)) (encode repl) (encode acc) (length (encode pre)) limit v =
        Val (encode (acc ++ flat_map (fun c => repl ++ [c]) front), length (encode (pre ++ front)),
             limit - Z.of_nat (length front)) /\
      s = front ++ last /\ Z.of_nat (length front) <= limit /\ (Z.of_nat (length front) = limit \/ last = []).
  Proof.
    induction s as [|c s IH]; intros [|fuel] pre acc limit v R L Ll; cbn [length] in L; try lia; cbn [Replace_chars_loop].
    - rewrite (proj2 (proj2 R)). cbn [encode flat_map]. exists [], []. cbn [length flat_map]. rewrite !app_nil_r, Z.sub_0_r in *.
      repeat split; try assumption; try lia. right; reflexivity.
    - rewrite (nonempty_bytes _ _ _ _ _ _ _ R). destruct (limit >? 0) eqn:E.
      2:{ exists [], (c :: s). cbn [length flat_map]. rewrite !app_nil_r, Z.sub_0_r.
          repeat split; try assumption; try lia. }
      rewrite (Hdec _ _ _ R). cbn [obind fst snd]. destruct (Hdrop _ _ _ R) as [v' [-> R']].
      replace (length (encode pre) + length (utf8 c))%nat with (length (encode (pre ++ [c])))
        by (rewrite encode_app, app_length, encode_cons; cbn [encode flat_map]; rewrite app_nil_r; reflexivity).
      pose proof (slice_text pre [c] s) as SL. cbn [app] in SL. rewrite SL. cbn [obind].
      destruct (IH fuel (pre ++ [c]) (acc ++ repl ++ [c]) (limit - 1) v' R' ltac:(lia) ltac:(lia))
        as [front [last [X [D [G K]]]]].
      rewrite <- !encode_app. rewrite <- !app_assoc in X. cbn [app] in X. rewrite X. exists (c :: front), last.
      split. { cbn [flat_map length]. rewrite <- !app_assoc. cbn [app]. do 2 f_equal. lia. }
      split; [rewrite D; reflexivity|]. cbn [length]. split; [lia|]. destruct K as [K|K]; [left; lia|right; exact K].
  Qed.
End Chars.
