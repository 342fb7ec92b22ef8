(* Lemmas about the string functions. *)
From Coq Require Import ZArith String List Bool Lia ZifyBool.
From Verif Require Import Base M_Utf8 S_Utf8 L_Utf8 M_Strings L_Strings.
From Verif Require Import M_StrExt S_StrExt.
Import ListNotations.
Local Open Scope string_scope.
Open Scope list_scope.
Open Scope Z_scope.
Ltac Zify.zify_post_hook ::= idtac.

(** ** Bytes *)
Lemma starts_with_iff s : forall p, starts_with s p = true <-> exists t, s = p ++ t.
Proof.
  induction s as [|b s IH]; intros [|a p]; cbn [starts_with app].
  - split; [intros _; exists []; reflexivity|reflexivity].
  - split; [discriminate|intros [t H]; discriminate].
  - split; [intros _; eexists; reflexivity|reflexivity].
  - rewrite andb_true_iff, Z.eqb_eq, IH. split.
    + intros [-> [t ->]]. eauto.
    + intros [t H]. injection H as -> ->. eauto.
Qed.

Lemma find_at_spec n : forall s k,
  match find_at k s n with
  | Some j => (k <= j)%nat /\ (exists a b, s = a ++ n ++ b /\ (length a + k = j)%nat) /\
              (forall a b, s = a ++ n ++ b -> (j <= length a + k)%nat)
  | None => forall a b, s <> a ++ n ++ b
  end.
Proof.
  induction s as [|x s IH]; intros k; cbn [find_at].
  - destruct (starts_with [] n) eqn:E.
    + apply starts_with_iff in E. destruct E as [t E]. split; [lia|]. split.
      * exists [], t. split; [exact E|reflexivity].
      * intros; lia.
    + intros a b H. destruct a; [|discriminate]. cbn [app] in H.
      assert (X : starts_with [] n = true) by (apply starts_with_iff; eauto). congruence.
  - destruct (starts_with (x :: s) n) eqn:E.
    + apply starts_with_iff in E. destruct E as [t E]. split; [lia|]. split.
      * exists [], t. split; [exact E|reflexivity].
      * intros; lia.
    + specialize (IH (S k)). destruct (find_at (S k) s n) as [j|].
      * destruct IH as [L [[a [b [-> La]]] M]]. split; [lia|]. split.
        -- exists (x :: a), b. split; [reflexivity|cbn [length]; lia].
        -- intros [|y a'] b' H.
           ++ cbn [app] in H. assert (X : starts_with (x :: a ++ n ++ b) n = true)
                by (apply starts_with_iff; eauto). congruence.
           ++ injection H as <- H. specialize (M _ _ H). cbn [length]. lia.
      * intros [|y a'] b' H.
        -- cbn [app] in H. assert (X : starts_with (x :: s) n = true) by (apply starts_with_iff; eauto). congruence.
        -- injection H as <- H. exact (IH _ _ H).
Qed.

(** ** Texts and their encodings *)
Lemma encode_app a b : encode (a ++ b) = encode a ++ encode b.
Proof. apply flat_map_app. Qed.
Lemma encode_cons c s : encode (c :: s) = utf8 c ++ encode s.
Proof. reflexivity. Qed.
Lemma utf8_ne c : utf8 c <> [].
Proof. pose proof (utf8_len c). destruct (utf8 c); [cbn in *; lia|discriminate]. Qed.
Lemma encode_nil_inv s : encode s = [] -> s = [].
Proof. destruct s as [|c s]; [reflexivity|]. rewrite encode_cons. intros H. apply app_eq_nil in H. destruct H as [H _]. destruct (utf8_ne c H). Qed.
Lemma encode_ne s : s <> [] -> encode s <> [].
Proof. intros H E. apply H, encode_nil_inv, E. Qed.
Lemma encode_inj a : forall b, Forall scalar a -> Forall scalar b -> encode a = encode b -> a = b.
Proof.
  intros b A B E. exact (spells_unique (encode a) a b (conj A eq_refl) (conj B E)).
Qed.
Lemma encode_prefix a : forall b t, Forall scalar a -> Forall scalar b -> encode b = encode a ++ t ->
  exists r, b = a ++ r /\ t = encode r.
Proof.
  induction a as [|x a IH]; intros b t A B E.
  - exists b. split; [reflexivity|symmetry; exact E].
  - rewrite encode_cons, <- app_assoc in E. destruct b as [|y b].
    + symmetry in E. apply app_eq_nil in E. destruct E as [E _]. destruct (utf8_ne x E).
    + rewrite encode_cons in E. apply Forall_inv in A as Hx. apply Forall_inv_tail in A.
      apply Forall_inv in B as Hy. apply Forall_inv_tail in B.
      apply utf8_inj_app in E; [|assumption..]. destruct E as [-> E].
      destruct (IH _ _ A B E) as [r [-> ->]]. exists r. split; reflexivity.
Qed.
Lemma starts_with_text h n : Forall scalar h -> Forall scalar n ->
  starts_with (encode h) (encode n) = true <-> exists r, h = n ++ r.
Proof.
  intros H N. rewrite starts_with_iff. split.
  - intros [t E]. destruct (encode_prefix _ _ _ N H E) as [r [-> _]]. eauto.
  - intros [r ->]. rewrite encode_app. eauto.
Qed.
(* a character's first byte is no continuation byte, its others are *)
Lemma utf8_shape c : scalar c -> exists b t, utf8 c = b :: t /\ Z.land b 192 <> 128 /\
  Forall (fun x => Z.land x 192 = 128) t.
Proof.
  intros S. unfold utf8.
  assert (L : forall x, 128 <= x <= 191 -> Z.land x 192 = 128).
  { intros x Hx. replace x with (128 + (x - 128)) by lia. set (y := x - 128). assert (0 <= y < 64) by lia.
    assert (D : y = Z.of_nat (Z.to_nat y)) by lia. rewrite D. clear - H.
    assert (Z.to_nat y < 64)%nat by lia. set (n := Z.to_nat y) in *. clearbody n. clear - H0.
    do 64 (destruct n as [|n]; [reflexivity|]). lia. }
  assert (M : forall x, (0 <= x <= 127 \/ 192 <= x <= 255) -> Z.land x 192 <> 128).
  { intros x Hx. assert (D : x = Z.of_nat (Z.to_nat x)) by lia. rewrite D.
    assert (Hn : (Z.to_nat x < 128 \/ 192 <= Z.to_nat x < 256)%nat) by lia.
    set (n := Z.to_nat x) in *. clearbody n. clear - Hn.
    intros E. do 256 (destruct n as [|n]; [first [discriminate E|lia]|]). lia. }
  unfold scalar in S.
  assert (m1 : forall x, 0 <= x mod 64 < 64) by (intros; apply Z.mod_pos_bound; lia).
  destruct (c <? 128) eqn:A.
  { exists c, []. split; [reflexivity|]. split; [apply M; lia|constructor]. }
  destruct (c <? 2048) eqn:B.
  { assert (0 <= c / 64 < 32) by (split; [apply Z.div_pos; lia|apply Z.div_lt_upper_bound; lia]).
    eexists _, _. split; [reflexivity|]. split; [apply M; lia|].
    repeat constructor; apply L; pose proof (m1 c); lia. }
  destruct (c <? 65536) eqn:C.
  { assert (0 <= c / 4096 < 16) by (split; [apply Z.div_pos; lia|apply Z.div_lt_upper_bound; lia]).
    eexists _, _. split; [reflexivity|]. split; [apply M; lia|].
    repeat constructor; apply L; [pose proof (m1 (c / 64))|pose proof (m1 c)]; lia. }
  assert (0 <= c / 262144 < 8) by (split; [apply Z.div_pos; lia|apply Z.div_lt_upper_bound; lia]).
  eexists _, _. split; [reflexivity|]. split; [apply M; lia|].
  repeat constructor; apply L; [pose proof (m1 (c / 4096))|pose proof (m1 (c / 64))|pose proof (m1 c)]; lia.
Qed.

(* an occurrence of the bytes of a text in the bytes of another is an occurrence
   of the text: UTF-8 is self-synchronising *)
Lemma occurrence n : n <> [] -> Forall scalar n -> forall h x y, Forall scalar h ->
  encode h = x ++ encode n ++ y -> exists a b, h = a ++ n ++ b /\ x = encode a /\ y = encode b.
Proof.
  intros Nn Sn. induction h as [|c h IH]; intros x y Sh E.
  - symmetry in E. apply app_eq_nil in E. destruct E as [_ E]. apply app_eq_nil in E.
    destruct E as [E _]. destruct (Nn (encode_nil_inv _ E)).
  - destruct x as [|b x].
    + cbn [app] in E. destruct (encode_prefix _ _ _ Sn Sh E) as [r [-> ->]]. exists [], r. auto.
    + rewrite encode_cons in E. apply Forall_inv in Sh as Sc. apply Forall_inv_tail in Sh.
      destruct (le_lt_dec (length (utf8 c)) (length (b :: x))) as [Le|Lt].
      * assert (P : b :: x = utf8 c ++ skipn (length (utf8 c)) (b :: x)).
        { rewrite <- (firstn_skipn (length (utf8 c)) (b :: x)) at 1. f_equal.
          apply (f_equal (firstn (length (utf8 c)))) in E.
          rewrite firstn_app, firstn_all, Nat.sub_diag in E. cbn [firstn] in E. rewrite app_nil_r in E.
          rewrite firstn_app in E. replace (length (utf8 c) - length (b :: x))%nat with O in E by lia.
          cbn [firstn] in E. rewrite app_nil_r in E. symmetry. exact E. }
        rewrite P, <- app_assoc in E. apply app_inv_head in E.
        destruct (IH _ _ Sh E) as [a [b' [-> [Ex ->]]]]. exists (c :: a), b'.
        split; [reflexivity|]. split; [|reflexivity]. rewrite P, Ex. reflexivity.
      * exfalso. destruct n as [|d n]; [congruence|]. apply Forall_inv in Sn as Sd.
        destruct (utf8_shape d Sd) as [l [t [Ed [Nc _]]]].
        destruct (utf8_shape c Sc) as [l' [t' [Ec [_ Cont]]]].
        rewrite encode_cons, Ed in E. rewrite Ec in E, Lt. cbn [app length] in E, Lt.
        injection E as <- E.
        assert (I : nth_error (t' ++ encode h) (length x) = Some l)
          by (rewrite E, nth_error_app2, Nat.sub_diag by lia; reflexivity).
        rewrite nth_error_app1 in I by lia. apply nth_error_In in I.
        rewrite Forall_forall in Cont. exact (Nc (Cont _ I)).
Qed.

Lemma occurs_nonneg n h k : occurs n h k -> 0 <= k <= Z.of_nat (length h).
Proof. intros [a [b [-> <-]]]. rewrite app_length. lia. Qed.
Lemma occurs_skip n h (k : nat) : occurs n h (Z.of_nat k) <-> exists r, skipn k h = n ++ r /\ (k <= length h)%nat.
Proof.
  split.
  - intros [a [b [-> E]]]. apply Nat2Z.inj in E. subst k. exists b. rewrite skipn_app, skipn_all, Nat.sub_diag.
    cbn. split; [reflexivity|rewrite app_length; lia].
  - intros [r [E L]]. exists (firstn k h), r. rewrite <- E, firstn_skipn. split; [reflexivity|].
    rewrite firstn_length. lia.
Qed.
Lemma occurs_0 n s : occurs n s 0 <-> exists r, s = n ++ r.
Proof.
  split.
  - intros [a [b [-> E]]]. destruct a; [exists b; reflexivity|cbn in E; lia].
  - intros [r ->]. exists [], r. auto.
Qed.
Lemma occurs_S n c s k : occurs n s k -> occurs n (c :: s) (k + 1).
Proof. intros [a [b [-> <-]]]. exists (c :: a), b. split; [reflexivity|cbn [length]; lia]. Qed.
Lemma occurs_inv n c s k : occurs n (c :: s) k -> k = 0 \/ occurs n s (k - 1).
Proof.
  intros [a [b [E <-]]]. destruct a as [|x a]; [left; reflexivity|right].
  injection E as -> ->. exists a, b. split; [reflexivity|cbn [length]; lia].
Qed.
Lemma occurs_short n s k : occurs n s k -> (length (encode n) <= length (encode s))%nat.
Proof. intros [a [b [-> _]]]. rewrite !encode_app, !app_length. lia. Qed.
Lemma occurs_same n s k : occurs n s k -> length (encode n) = length (encode s) -> k = 0.
Proof.
  intros [a [b [-> <-]]]. rewrite !encode_app, !app_length. intros L.
  assert (E : encode a = []) by (destruct (encode a); [reflexivity|cbn in L; lia]).
  apply encode_nil_inv in E. subst a. reflexivity.
Qed.
Lemma encode_len s : (length s <= length (encode s))%nat.
Proof.
  induction s as [|c s IH]; [cbn; lia|]. rewrite encode_cons, app_length. pose proof (utf8_len c). cbn [length]. lia.
Qed.
Lemma Forall_tl {A} (P : A -> Prop) x l : Forall P (x :: l) -> P x /\ Forall P l.
Proof. intros H. inversion H; auto. Qed.

(** ** The loops, over a reader that yields the characters of a text *)
Section Loops.
  Context {V : Type}.
  Variable bytes_of : V -> list Z.
  Variable decode : V -> out (Z * nat).
  Variable drop : nat -> V -> out V.
  Variable good : V -> Prop.
  Definition reads (v : V) (s : list Z) : Prop := good v /\ Forall scalar s /\ bytes_of v = encode s.
  Hypothesis Hdec : forall v c s, reads v (c :: s) -> decode v = Val (c, length (utf8 c)).
  Hypothesis Hdrop : forall v c s, reads v (c :: s) ->
    exists v', drop (length (utf8 c)) v = Val v' /\ reads v' s.

  Ltac step R :=
    rewrite (Hdec _ _ _ R); cbn [obind fst snd];
    let v' := fresh "v'" in let E := fresh "E" in let R' := fresh "R'" in
    destruct (Hdrop _ _ _ R) as [v' [E R']]; rewrite ?E; cbn [obind].
  Ltac front R :=
    let B := fresh "B" in
    pose proof (proj2 (proj2 R)) as B.
  Lemma nonempty_bytes {A} v c s (x y : A) : reads v (c :: s) ->
    match bytes_of v with [] => x | _ => y end = y.
  Proof. intros R. front R. rewrite B. destruct (encode (c :: s)) eqn:E; [|reflexivity]. apply encode_nil_inv in E. discriminate. Qed.

  Lemma IndexOf_loop_ok n : Forall scalar n -> forall s fuel cp v, reads v s -> (length s < fuel)%nat ->
    exists o, IndexOf_loop bytes_of decode drop fuel (encode n) cp v = Val o /\
      match o with
      | Some r => occurs n s (r - cp) /\ forall j, j < r - cp -> ~ occurs n s j
      | None => forall j, ~ occurs n s j
      end.
  Proof.
    intros Sn. induction s as [|c s IH]; intros [|fuel] cp v R L; cbn [length] in L; try lia; cbn [IndexOf_loop];
      front R; rewrite B.
    - destruct n as [|d n].
      { cbn. exists (Some cp). split; [reflexivity|]. rewrite Z.sub_diag. split; [apply occurs_0; exists []; reflexivity|].
        intros j Hj O. apply occurs_nonneg in O. lia. }
      exists None. split.
      { pose proof (encode_ne (d :: n) ltac:(discriminate)). destruct (encode (d :: n)); [congruence|reflexivity]. }
      intros j [a [b [E _]]]. destruct a; discriminate.
    - destruct (Nat.ltb _ _) eqn:L1.
      { apply Nat.ltb_lt in L1. exists None. split; [reflexivity|]. intros j O. apply occurs_short in O. lia. }
      pose proof (proj1 (proj2 R)) as Ss.
      destruct (starts_with (encode (c :: s)) (encode n)) eqn:E.
      { apply starts_with_text in E; [|assumption..]. exists (Some cp). split; [reflexivity|].
        rewrite Z.sub_diag. split; [apply occurs_0; exact E|]. intros j Hj O. apply occurs_nonneg in O. lia. }
      assert (N0 : ~ occurs n (c :: s) 0).
      { intros O. apply occurs_0 in O. apply starts_with_text in O; [congruence|assumption..]. }
      destruct (Nat.eqb _ _) eqn:L2.
      { apply Nat.eqb_eq in L2. exists None. split; [reflexivity|]. intros j O.
        pose proof (occurs_same _ _ _ O ltac:(lia)). subst j. auto. }
      step R. destruct (IH fuel (cp + 1) v' R' ltac:(lia)) as [o [-> H]]. exists o. split; [reflexivity|].
      destruct o as [r|].
      + destruct H as [O M]. split.
        * replace (r - cp) with (r - (cp + 1) + 1) by lia. apply occurs_S, O.
        * intros j Hj Oj. destruct (occurs_inv _ _ _ _ Oj) as [->|Oj']; [auto|]. apply (M (j - 1)); [lia|exact Oj'].
      + intros j O. destruct (occurs_inv _ _ _ _ O) as [->|O']; [auto|exact (H _ O')].
  Qed.

  Lemma IndexOf_from_loop_ok n pos : Forall scalar n -> forall s fuel cp v, reads v s -> (length s < fuel)%nat ->
    exists o, IndexOf_from_loop bytes_of decode drop fuel (encode n) pos cp v = Val o /\
      match o with
      | Some r => pos <= r /\ occurs n s (r - cp) /\ forall j, pos <= cp + j -> j < r - cp -> ~ occurs n s j
      | None => forall j, pos <= cp + j -> ~ occurs n s j
      end.
  Proof.
    intros Sn. induction s as [|c s IH]; intros [|fuel] cp v R L; cbn [length] in L; try lia; cbn [IndexOf_from_loop];
      front R; rewrite B.
    - destruct n as [|d n].
      { cbn [encode flat_map length Nat.ltb Nat.leb starts_with Nat.eqb]. rewrite andb_true_r. destruct (cp >=? pos) eqn:P.
        - exists (Some cp). split; [reflexivity|]. rewrite Z.sub_diag. split; [lia|]. split; [apply occurs_0; exists []; reflexivity|].
          intros j _ Hj O. apply occurs_nonneg in O. lia.
        - exists None. split; [reflexivity|]. intros j Hj O. apply occurs_nonneg in O. cbn in O. lia. }
      exists None. split.
      { pose proof (encode_ne (d :: n) ltac:(discriminate)). destruct (encode (d :: n)); [congruence|reflexivity]. }
      intros j _ [a [b [E _]]]. destruct a; discriminate.
    - destruct (Nat.ltb _ _) eqn:L1.
      { apply Nat.ltb_lt in L1. exists None. split; [reflexivity|]. intros j _ O. apply occurs_short in O. lia. }
      pose proof (proj1 (proj2 R)) as Ss.
      destruct ((cp >=? pos) && starts_with (encode (c :: s)) (encode n)) eqn:E.
      { apply andb_true_iff in E. destruct E as [P E].
        apply starts_with_text in E; [|assumption..]. exists (Some cp). split; [reflexivity|].
        rewrite Z.sub_diag. split; [lia|]. split; [apply occurs_0; exact E|]. intros j _ Hj O. apply occurs_nonneg in O. lia. }
      assert (N0 : pos <= cp -> ~ occurs n (c :: s) 0).
      { intros P O. apply occurs_0 in O. apply starts_with_text in O; [|assumption..].
        rewrite O, andb_true_r in E. lia. }
      destruct (Nat.eqb _ _) eqn:L2.
      { apply Nat.eqb_eq in L2. exists None. split; [reflexivity|]. intros j P O.
        pose proof (occurs_same _ _ _ O ltac:(lia)). subst j. apply N0; [lia|exact O]. }
      step R. destruct (IH fuel (cp + 1) v' R' ltac:(lia)) as [o [-> H]]. exists o. split; [reflexivity|].
      destruct o as [r|].
      + destruct H as [Hp [O M]]. split; [exact Hp|]. split.
        * replace (r - cp) with (r - (cp + 1) + 1) by lia. apply occurs_S, O.
        * intros j Pj Hj Oj. destruct (occurs_inv _ _ _ _ Oj) as [->|Oj']; [apply N0; [lia|exact Oj]|].
          apply (M (j - 1)); [lia|lia|exact Oj'].
      + intros j P O. destruct (occurs_inv _ _ _ _ O) as [->|O']; [apply N0; [lia|exact O]|].
        apply (H (j - 1)); [lia|exact O'].
  Qed.

  (* the last occurrence with index up to m in s, or the one known before *)
  Definition last_result (n s : list Z) (cp last : Z) (m : Z) (o : option Z) : Prop :=
    (exists r, o = Some r /\ r - cp <= m /\ occurs n s (r - cp) /\ forall j, r - cp < j <= m -> ~ occurs n s j) \/
    (o = (if last <? 0 then None else Some last) /\ forall j, j <= m -> ~ occurs n s j).

  Lemma LastIndexOf_loop_ok n : Forall scalar n -> forall s fuel last cp v, reads v s -> (length s < fuel)%nat -> 0 <= cp ->
    exists o, LastIndexOf_loop bytes_of decode drop fuel (encode n) last cp v = Val o /\
      last_result n s cp last (Z.of_nat (length s)) o.
  Proof.
    intros Sn. induction s as [|c s IH]; intros [|fuel] last cp v R L C; cbn [length] in L; try lia; cbn [LastIndexOf_loop];
      front R; rewrite B.
    - destruct n as [|d n].
      { cbn. exists (Some cp). split; [destruct (cp <? 0) eqn:Q; [lia|reflexivity]|]. left. exists cp. rewrite Z.sub_diag.
        split; [reflexivity|]. split; [lia|].  split; [apply occurs_0; exists []; reflexivity|]. intros; lia. }
      eexists. split.
      { pose proof (encode_ne (d :: n) ltac:(discriminate)). destruct (encode (d :: n)); [congruence|reflexivity]. }
      right. split; [reflexivity|]. intros j _ [a [b [E _]]]. destruct a; discriminate.
    - destruct (Nat.ltb _ _) eqn:L1.
      { apply Nat.ltb_lt in L1. eexists. split; [reflexivity|]. right. split; [reflexivity|].
        intros j _ O. apply occurs_short in O. lia. }
      pose proof (proj1 (proj2 R)) as Ss.
      destruct (starts_with (encode (c :: s)) (encode n)) eqn:E.
      + apply starts_with_text in E; [|assumption..]. apply occurs_0 in E.
        assert (K : (if cp <? 0 then None else Some cp) = Some cp) by (destruct (cp <? 0) eqn:Q; [lia|reflexivity]).
        destruct (Nat.eqb _ _) eqn:L2.
        { apply Nat.eqb_eq in L2. rewrite K. eexists. split; [reflexivity|]. left. exists cp. split; [reflexivity|].
          rewrite Z.sub_diag. split; [lia|]. split; [exact E|]. intros j Hj O.
          pose proof (occurs_same _ _ _ O ltac:(lia)). lia. }
        step R. destruct (IH fuel cp (cp + 1) v' R' ltac:(lia) ltac:(lia)) as [o [-> H]]. exists o. split; [reflexivity|].
        left. destruct H as [[r [-> [Rm [O M]]]]|[-> M]].
        * exists r. split; [reflexivity|]. cbn [length]. split; [lia|]. split.
          -- replace (r - cp) with (r - (cp + 1) + 1) by lia. apply occurs_S, O.
          -- intros j Hj Oj. destruct (occurs_inv _ _ _ _ Oj) as [->|Oj'].
             ++ apply occurs_nonneg in O. lia.
             ++ apply (M (j - 1)); [lia|exact Oj'].
        * rewrite K. exists cp. split; [reflexivity|]. rewrite Z.sub_diag. cbn [length]. split; [lia|]. split; [exact E|].
          intros j Hj Oj. destruct (occurs_inv _ _ _ _ Oj) as [->|Oj']; [lia|]. apply (M (j - 1)); [lia|exact Oj'].
      + assert (N0 : ~ occurs n (c :: s) 0).
        { intros O. apply occurs_0 in O. apply starts_with_text in O; [congruence|assumption..]. }
        destruct (Nat.eqb _ _) eqn:L2.
        { apply Nat.eqb_eq in L2. eexists. split; [reflexivity|]. right. split; [reflexivity|]. intros j _ O.
          pose proof (occurs_same _ _ _ O ltac:(lia)). subst j. auto. }
        step R. destruct (IH fuel last (cp + 1) v' R' ltac:(lia) ltac:(lia)) as [o [-> H]]. exists o. split; [reflexivity|].
        destruct H as [[r [-> [Rm [O M]]]]|[-> M]].
        * left. exists r. split; [reflexivity|]. cbn [length]. split; [lia|]. split.
          -- replace (r - cp) with (r - (cp + 1) + 1) by lia. apply occurs_S, O.
          -- intros j Hj Oj. destruct (occurs_inv _ _ _ _ Oj) as [->|Oj']; [auto|]. apply (M (j - 1)); [lia|exact Oj'].
        * right. split; [reflexivity|]. intros j Hj Oj. cbn [length] in Hj.
          destruct (occurs_inv _ _ _ _ Oj) as [->|Oj']; [auto|]. apply (M (j - 1)); [lia|exact Oj'].
  Qed.

  Lemma LastIndexOf_from_loop_ok n pos : Forall scalar n -> forall s fuel last cp v, reads v s -> (length s < fuel)%nat ->
    0 <= cp <= pos ->
    exists o, LastIndexOf_from_loop bytes_of decode drop fuel (encode n) pos last cp v = Val o /\
      last_result n s cp last (pos - cp) o.
  Proof.
    intros Sn. induction s as [|c s IH]; intros [|fuel] last cp v R L C; cbn [length] in L; try lia; cbn [LastIndexOf_from_loop];
      front R; rewrite B.
    - destruct n as [|d n].
      { cbn [encode flat_map length Nat.ltb Nat.leb starts_with Nat.eqb]. rewrite orb_true_r.
        exists (Some cp). split; [destruct (cp <? 0) eqn:Q; [lia|reflexivity]|]. left. exists cp. rewrite Z.sub_diag.
        split; [reflexivity|]. split; [lia|].  split; [apply occurs_0; exists []; reflexivity|].
        intros j Hj O. apply occurs_nonneg in O. cbn in O. lia. }
      eexists. split.
      { pose proof (encode_ne (d :: n) ltac:(discriminate)). destruct (encode (d :: n)); [congruence|reflexivity]. }
      right. split; [reflexivity|]. intros j _ [a [b [E _]]]. destruct a; discriminate.
    - destruct (Nat.ltb _ _) eqn:L1.
      { apply Nat.ltb_lt in L1. eexists. split; [reflexivity|]. right. split; [reflexivity|].
        intros j _ O. apply occurs_short in O. lia. }
      pose proof (proj1 (proj2 R)) as Ss.
      destruct (starts_with (encode (c :: s)) (encode n)) eqn:E.
      + apply starts_with_text in E; [|assumption..]. apply occurs_0 in E.
        assert (K : (if cp <? 0 then None else Some cp) = Some cp) by (destruct (cp <? 0) eqn:Q; [lia|reflexivity]).
        destruct ((cp >=? pos) || Nat.eqb _ _)%bool eqn:L2.
        { rewrite K. eexists. split; [reflexivity|]. left. exists cp. split; [reflexivity|].
          rewrite Z.sub_diag. split; [lia|]. split; [exact E|]. intros j Hj O.
          destruct (cp >=? pos) eqn:P; [lia|]. cbn [orb] in L2. apply Nat.eqb_eq in L2.
          pose proof (occurs_same _ _ _ O ltac:(lia)). lia. }
        apply orb_false_iff in L2. destruct L2 as [P L2].
        step R. destruct (IH fuel cp (cp + 1) v' R' ltac:(lia) ltac:(lia)) as [o [-> H]]. exists o. split; [reflexivity|].
        left. destruct H as [[r [-> [Rm [O M]]]]|[-> M]].
        * exists r. split; [reflexivity|]. split; [lia|]. split.
          -- replace (r - cp) with (r - (cp + 1) + 1) by lia. apply occurs_S, O.
          -- intros j Hj Oj. destruct (occurs_inv _ _ _ _ Oj) as [->|Oj'].
             ++ apply occurs_nonneg in O. lia.
             ++ apply (M (j - 1)); [lia|exact Oj'].
        * rewrite K. exists cp. split; [reflexivity|]. rewrite Z.sub_diag. split; [lia|]. split; [exact E|].
          intros j Hj Oj. destruct (occurs_inv _ _ _ _ Oj) as [->|Oj']; [lia|]. apply (M (j - 1)); [lia|exact Oj'].
      + assert (N0 : ~ occurs n (c :: s) 0).
        { intros O. apply occurs_0 in O. apply starts_with_text in O; [congruence|assumption..]. }
        destruct ((cp >=? pos) || Nat.eqb _ _)%bool eqn:L2.
        { eexists. split; [reflexivity|]. right. split; [reflexivity|]. intros j Hj O.
          assert (j = 0).
          { destruct (cp >=? pos) eqn:P; [apply occurs_nonneg in O; lia|]. cbn [orb] in L2. apply Nat.eqb_eq in L2.
            apply (occurs_same _ _ _ O). lia. }
          subst j. auto. }
        apply orb_false_iff in L2. destruct L2 as [P L2].
        step R. destruct (IH fuel last (cp + 1) v' R' ltac:(lia) ltac:(lia)) as [o [-> H]]. exists o. split; [reflexivity|].
        destruct H as [[r [-> [Rm [O M]]]]|[-> M]].
        * left. exists r. split; [reflexivity|]. split; [lia|]. split.
          -- replace (r - cp) with (r - (cp + 1) + 1) by lia. apply occurs_S, O.
          -- intros j Hj Oj. destruct (occurs_inv _ _ _ _ Oj) as [->|Oj']; [auto|]. apply (M (j - 1)); [lia|exact Oj'].
        * right. split; [reflexivity|]. intros j Hj Oj.
          destruct (occurs_inv _ _ _ _ Oj) as [->|Oj']; [auto|]. apply (M (j - 1)); [lia|exact Oj'].
  Qed.

  Ltac nonempty R := rewrite (nonempty_bytes _ _ _ _ _ R).
  Ltac empty_ R := rewrite (proj2 (proj2 R)); cbn [encode flat_map].

  (* the bytes before the k-th character *)
  Definition off (s : list Z) (k : nat) : nat := length (encode (firstn k s)).
  Lemma off_S c s k : off (c :: s) (S k) = (length (utf8 c) + off s k)%nat.
  Proof. unfold off. cbn [firstn]. rewrite encode_cons, app_length. reflexivity. Qed.

  Lemma Substring_loop_ok start : forall s fuel cp u v, reads v s -> (length s < fuel)%nat -> cp <= start ->
    Substring_loop bytes_of decode drop fuel start cp u v =
      Val (if start - cp <? Z.of_nat (length s) then Some (true, (u + off s (Z.to_nat (start - cp)))%nat)
           else if start - cp =? Z.of_nat (length s) then Some (false, (u + length (encode s))%nat) else None).
  Proof.
    induction s as [|c s IH]; intros [|fuel] cp u v R L C; cbn [length] in L; try lia; cbn [Substring_loop].
    - empty_ R. cbn [length]. rewrite Nat.add_0_r.
      replace (start - cp <? Z.of_nat 0) with false by lia.
      replace (start - cp =? Z.of_nat 0) with (cp =? start) by lia. reflexivity.
    - nonempty R. step R. destruct (cp =? start) eqn:E1.
      + replace (start - cp) with 0 by lia. cbn [length].
        replace (0 <? Z.of_nat (S (length s))) with true by lia. cbn. rewrite Nat.add_0_r. reflexivity.
      + rewrite IH by (assumption || lia). cbn [length].
        replace (start - (cp + 1) <? Z.of_nat (length s)) with (start - cp <? Z.of_nat (S (length s))) by lia.
        replace (start - (cp + 1) =? Z.of_nat (length s)) with (start - cp =? Z.of_nat (S (length s))) by lia.
        replace (Z.to_nat (start - cp)) with (S (Z.to_nat (start - (cp + 1)))) by lia.
        rewrite off_S, encode_cons, app_length. rewrite !Nat.add_assoc. reflexivity.
  Qed.

  Lemma Substring_range_loop_ok start end_ : forall s fuel cp u b v, reads v s -> (length s < fuel)%nat ->
    cp <= end_ -> start <= end_ -> (start < cp -> b <> None) ->
    Substring_range_loop bytes_of decode drop fuel start end_ cp u b v =
      Val (if end_ - cp <? Z.of_nat (length s)
           then Some (match b with
                      | Some x => if cp <=? start then (u + off s (Z.to_nat (start - cp)))%nat else x
                      | None => (u + off s (Z.to_nat (start - cp)))%nat
                      end, (u + off s (Z.to_nat (end_ - cp)))%nat)
           else if (end_ - cp =? Z.of_nat (length s)) && (start =? end_)
                then Some (u + length (encode s), u + length (encode s))%nat else None).
  Proof.
    induction s as [|c s IH]; intros [|fuel] cp u b v R L C SE Hb; cbn [length] in L; try lia; cbn [Substring_range_loop].
    - empty_ R. cbn [length]. rewrite Nat.add_0_r.
      replace (end_ - cp <? Z.of_nat 0) with false by lia.
      replace ((end_ - cp =? Z.of_nat 0) && (start =? end_)) with ((cp =? start) && (start =? end_)) by lia.
      reflexivity.
    - nonempty R.
      destruct (cp =? end_) eqn:E1.
      + replace (end_ - cp) with 0 by lia. cbn [length].
        replace (0 <? Z.of_nat (S (length s))) with true by lia.
        change (off (c :: s) (Z.to_nat 0)) with 0%nat. rewrite Nat.add_0_r.
        destruct (cp =? start) eqn:E2.
        * replace (start - cp) with 0 by lia. replace (cp <=? start) with true by lia.
          change (off (c :: s) (Z.to_nat 0)) with 0%nat. rewrite Nat.add_0_r. destruct b; reflexivity.
        * destruct b as [x|]; [|exfalso; apply Hb; [lia|reflexivity]].
          replace (cp <=? start) with false by lia. reflexivity.
      + step R. rewrite IH.
        2:exact R'. 2:lia. 2:lia. 2:lia. 2:{ destruct (cp =? start) eqn:E2; [discriminate|]. intros H. apply Hb. lia. }
        cbn [length].
        replace (end_ - (cp + 1) <? Z.of_nat (length s)) with (end_ - cp <? Z.of_nat (S (length s))) by lia.
        replace (end_ - (cp + 1) =? Z.of_nat (length s)) with (end_ - cp =? Z.of_nat (S (length s))) by lia.
        replace (Z.to_nat (end_ - cp)) with (S (Z.to_nat (end_ - (cp + 1)))) by lia.
        rewrite off_S, encode_cons, app_length. rewrite !Nat.add_assoc.
        destruct (end_ - cp <? Z.of_nat (S (length s))); [|reflexivity]. do 3 f_equal.
        destruct (cp =? start) eqn:E2.
        * replace (cp + 1 <=? start) with false by lia. replace (start - cp) with 0 by lia.
          replace (cp <=? start) with true by lia. change (off (c :: s) (Z.to_nat 0)) with 0%nat.
          rewrite Nat.add_0_r. destruct b; reflexivity.
        * destruct b as [x|].
          -- replace (cp + 1 <=? start) with (cp <=? start) by lia. destruct (cp <=? start) eqn:E3; [|reflexivity].
             replace (Z.to_nat (start - cp)) with (S (Z.to_nat (start - (cp + 1)))) by lia.
             rewrite off_S, !Nat.add_assoc. reflexivity.
          -- assert (start > cp). { destruct (Z.ltb_spec start cp) as [H|]; [destruct (Hb H); reflexivity|lia]. }
             replace (Z.to_nat (start - cp)) with (S (Z.to_nat (start - (cp + 1)))) by lia.
             rewrite off_S, !Nat.add_assoc. reflexivity.
  Qed.

  Lemma CharAt_loop_ok : forall s fuel pos v, reads v s -> (length s < fuel)%nat -> 0 <= pos ->
    CharAt_loop bytes_of decode drop fuel pos v =
      match nth_error s (Z.to_nat pos) with
      | Some c => Val (utf8 c)
      | None => if pos =? Z.of_nat (length s) then Val [] else
          Err (invalid "<string>.charAt(<pos>): <pos> is greater than <string>.size()")
      end.
  Proof.
    induction s as [|c s IH]; intros [|fuel] pos v R L P; cbn [length] in L; try lia; cbn [CharAt_loop].
    - empty_ R. cbn [length]. change (Z.of_nat 0) with 0. destruct (Z.to_nat pos); reflexivity.
    - nonempty R. step R. destruct (pos =? 0) eqn:E1.
      + replace pos with 0 by lia. cbn. f_equal. apply Utf8Encode_valid.
        exact (proj1 (Forall_tl _ _ _ (proj1 (proj2 R)))).
      + rewrite IH by (assumption || lia). replace (Z.to_nat pos) with (S (Z.to_nat (pos - 1))) by lia.
        cbn [nth_error length]. replace (pos - 1 =? Z.of_nat (length s)) with (pos =? Z.of_nat (S (length s))) by lia.
        reflexivity.
  Qed.

  Definition quoted (c : Z) : list Z := AppendQuoteCodePoint c.
  Lemma Quote_loop_ok : forall s fuel acc v, reads v s -> (length s < fuel)%nat ->
    Quote_loop bytes_of decode drop fuel acc v = Val (acc ++ flat_map AppendQuoteCodePoint s).
  Proof.
    induction s as [|c s IH]; intros [|fuel] acc v R L; cbn [length] in L; try lia; cbn [Quote_loop].
    - empty_ R. rewrite app_nil_r. reflexivity.
    - nonempty R. step R. rewrite IH by (assumption || lia). cbn [flat_map]. rewrite app_assoc. reflexivity.
  Qed.
  Lemma collect_loop_ok : forall s fuel acc v, reads v s -> (length s < fuel)%nat ->
    collect_loop bytes_of decode drop fuel acc v = Val (acc ++ s).
  Proof.
    induction s as [|c s IH]; intros [|fuel] acc v R L; cbn [length] in L; try lia; cbn [collect_loop].
    - empty_ R. rewrite app_nil_r. reflexivity.
    - nonempty R. step R. rewrite IH by (assumption || lia). rewrite <- app_assoc. reflexivity.
  Qed.

  Lemma left_trim_ok : forall s fuel acc v, reads v s -> (length s < fuel)%nat ->
    exists l r, s = l ++ r /\ Forall (fun c => IsUnicodeWhitespace c = true) l /\
      (forall c u, r = c :: u -> IsUnicodeWhitespace c = false) /\
      left_trim_loop bytes_of decode drop fuel acc v = Val (acc + length (encode l))%nat.
  Proof.
    induction s as [|c s IH]; intros [|fuel] acc v R L; cbn [length] in L; try lia; cbn [left_trim_loop].
    - empty_ R. exists [], []. split; [reflexivity|]. split; [constructor|]. split; [discriminate|].
      cbn. rewrite Nat.add_0_r. reflexivity.
    - nonempty R. step R. destruct (IsUnicodeWhitespace c) eqn:W; cbn [negb].
      + destruct (IH fuel (acc + length (utf8 c))%nat v' R' ltac:(lia)) as [l [r [-> [F [N ->]]]]].
        exists (c :: l), r. split; [reflexivity|]. split; [constructor; assumption|]. split; [exact N|].
        rewrite encode_cons, app_length, Nat.add_assoc. reflexivity.
      + exists [], (c :: s). split; [reflexivity|]. split; [constructor|]. split.
        * intros c' u [= <- <-]. exact W.
        * cbn. rewrite Nat.add_0_r. reflexivity.
  Qed.
  Lemma right_trim_ok : forall s fuel last cur v, reads v s -> (length s < fuel)%nat ->
    exists l r, s = l ++ r /\ Forall (fun c => IsUnicodeWhitespace c = true) r /\
      (forall c u, l = u ++ [c] -> IsUnicodeWhitespace c = false) /\
      right_trim_loop bytes_of decode drop fuel last cur v =
        Val (match l with [] => last | _ => (cur + length (encode l))%nat end).
  Proof.
    induction s as [|c s IH]; intros [|fuel] last cur v R L; cbn [length] in L; try lia; cbn [right_trim_loop].
    - empty_ R. exists [], []. split; [reflexivity|]. split; [constructor|]. split; [intros ? u H; destruct u; discriminate|].
      reflexivity.
    - nonempty R. step R.
      destruct (IH fuel (if negb (IsUnicodeWhitespace c) then (cur + length (utf8 c))%nat else last)
                  (cur + length (utf8 c))%nat v' R' ltac:(lia)) as [l [r [-> [F [N ->]]]]].
      destruct l as [|x l].
      + destruct (IsUnicodeWhitespace c) eqn:W; cbn [negb].
        * exists [], (c :: r). split; [reflexivity|]. split; [constructor; assumption|].
          split; [intros ? u H; destruct u; discriminate|reflexivity].
        * exists [c], r. split; [reflexivity|]. split; [exact F|]. split.
          -- intros c' u H. destruct u as [|? [|? ?]]; [injection H as <-; exact W|discriminate..].
          -- rewrite encode_cons. cbn [encode flat_map]. rewrite app_nil_r. reflexivity.
      + exists (c :: x :: l), r. split; [reflexivity|]. split; [exact F|]. split.
        * intros c' u H. destruct u as [|y u]; [discriminate|]. injection H as _ H. exact (N _ _ H).
        * f_equal. rewrite (encode_cons c), app_length. lia.
  Qed.
End Loops.
