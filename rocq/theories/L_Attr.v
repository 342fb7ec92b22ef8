(* Lemmas on attributes, patterns and attribute sets. *)
From Coq Require Import ZArith List Bool Lia ZifyBool Sorting.Sorted.
From Verif Require Import Base M_Attr M_Value S_Attr M_Logic.
Import ListNotations.
Open Scope Z_scope.
Ltac Zify.zify_post_hook ::= idtac.

Lemma abytes_eqb_eq a : forall b, bytes_eqb a b = true <-> a = b.
Proof.
  induction a as [|x a IH]; intros [|y b]; cbn; split; try discriminate; auto.
  - intros H. apply andb_prop in H as [H1 H2]. apply IH in H2. f_equal; auto. lia.
  - intros [= -> ->]. rewrite Z.eqb_refl. now apply IH.
Qed.
Lemma bytes_ltb_irrefl a : bytes_ltb a a = false.
Proof. induction a as [|x a IH]; cbn; auto. rewrite Z.ltb_irrefl. auto. Qed.
Lemma bytes_ltb_trans a : forall b c, bytes_ltb a b = true -> bytes_ltb b c = true -> bytes_ltb a c = true.
Proof.
  induction a as [|x a IH]; intros [|y b] [|z c]; cbn; try discriminate; auto.
  destruct (Z.ltb_spec x y), (Z.ltb_spec y x), (Z.ltb_spec y z), (Z.ltb_spec z y),
    (Z.ltb_spec x z), (Z.ltb_spec z x); intros; try discriminate; try lia; eauto.
Qed.
Lemma bytes_ltb_total a : forall b, bytes_ltb a b = true \/ a = b \/ bytes_ltb b a = true.
Proof.
  induction a as [|x a IH]; intros [|y b]; cbn; auto.
  destruct (Z.ltb_spec x y), (Z.ltb_spec y x); auto; try lia.
  assert (x = y) by lia. subst. destruct (IH b) as [|[->|]]; auto.
Qed.

Lemma qual_eqb_eq a b : qual_eqb a b = true <-> a = b /\ a <> QInvalid.
Proof.
  destruct a, b; cbn; split; try discriminate; try (intros [[=] ?]; fail); try (intros [_ []]; auto; fail).
  - intros H. split; [f_equal; lia|discriminate].
  - intros [[= ->] _]. apply Z.eqb_refl.
  - intros H. split; [f_equal; lia|discriminate].
  - intros [[= ->] _]. apply Z.eqb_refl.
  - intros H. apply abytes_eqb_eq in H. split; [f_equal; auto|discriminate].
  - intros [[= ->] _]. now apply abytes_eqb_eq.
  - intros H. apply eqb_prop in H. split; [f_equal; auto|discriminate].
  - intros [[= ->] _]. apply eqb_reflx.
Qed.
Lemma qual_ltb_irrefl a : qual_ltb a a = false.
Proof. destruct a as [| | | |[]]; cbn; auto using Z.ltb_irrefl, bytes_ltb_irrefl. Qed.
Lemma qual_ltb_trans a b c : qual_ltb a b = true -> qual_ltb b c = true -> qual_ltb a c = true.
Proof.
  destruct a, b; cbn; try discriminate; destruct c; cbn; try discriminate; auto; try lia.
  - apply bytes_ltb_trans.
  - destruct b0, b, b1; cbn; auto.
Qed.
Lemma qual_ltb_total a b : a <> QInvalid -> b <> QInvalid ->
  qual_ltb a b = true \/ a = b \/ qual_ltb b a = true.
Proof.
  destruct a, b; cbn; intros; auto; try congruence.
  - destruct (Z.lt_trichotomy i i0) as [|[->|]]; auto; [left|right; right]; lia.
  - destruct (Z.lt_trichotomy u u0) as [|[->|]]; auto; [left|right; right]; lia.
  - destruct (bytes_ltb_total s s0) as [|[->|]]; auto.
  - destruct b0, b; auto.
Qed.

Lemma attr_ltb_irrefl a : attr_ltb a a = false.
Proof.
  unfold attr_ltb. destruct a as [v p]. cbn [a_var a_path]. induction p as [|q p IH]; cbn.
  - apply bytes_ltb_irrefl.
  - rewrite qual_ltb_irrefl. destruct (qual_eqb q q); auto.
Qed.
Lemma attr_loop_trans va vb vc a : forall b c,
  attr_ltb_loop va vb a b = true -> attr_ltb_loop vb vc b c = true -> attr_ltb_loop va vc a c = true.
Proof.
  induction a as [|x a IH]; intros [|y b] [|z c]; cbn; try discriminate; auto.
  - apply bytes_ltb_trans.
  - destruct (qual_ltb x y) eqn:L1.
    + intros _. destruct (qual_ltb y z) eqn:L2.
      * now rewrite (qual_ltb_trans _ _ _ L1 L2).
      * destruct (qual_eqb y z) eqn:E; cbn; [|discriminate]. apply qual_eqb_eq in E as [-> _].
        now rewrite L1.
    + destruct (qual_eqb x y) eqn:E; cbn; [|discriminate]. apply qual_eqb_eq in E as [-> V].
      destruct (qual_ltb y z) eqn:L2; auto.
      destruct (qual_eqb y z) eqn:E2; cbn; [|discriminate]. eauto.
Qed.
Lemma attr_ltb_trans a b c : attr_ltb a b = true -> attr_ltb b c = true -> attr_ltb a c = true.
Proof. apply attr_loop_trans. Qed.
Lemma attr_ltb_total a b : valid_attr a -> valid_attr b ->
  attr_ltb a b = true \/ a = b \/ attr_ltb b a = true.
Proof.
  unfold valid_attr, attr_ltb. destruct a as [va pa], b as [vb pb]. cbn [a_var a_path].
  intros Va. revert pb. induction Va as [|x pa Vx Va IH]; intros [|y pb] Vb; cbn; auto.
  - destruct (bytes_ltb_total va vb) as [|[->|]]; auto.
  - apply Forall_cons_iff in Vb as [Vy Vb].
    destruct (qual_ltb_total x y Vx Vy) as [L|[->|L]].
    + rewrite L. auto.
    + rewrite qual_ltb_irrefl, (proj2 (qual_eqb_eq y y)) by auto. cbn.
      destruct (IH pb Vb) as [|[[= -> ->]|]]; auto.
    + rewrite L. auto.
Qed.

(* ---- sets ---- *)

Definition set_ok (s : attr_set) : Prop :=
  StronglySorted (fun a b => attr_ltb a b = true) s /\ Forall valid_attr s.

Lemma set_ok_nil : set_ok [].
Proof. split; constructor. Qed.
Lemma set_insert_in a s : set_ok s -> valid_attr a ->
  set_ok (set_insert a s) /\ forall x, In x (set_insert a s) <-> x = a \/ In x s.
Proof.
  intros [S V] Va. induction S as [|y s S IH F]; cbn.
  - split; [split; repeat constructor; auto|]. intros x. split; intros [|]; subst; auto; contradiction.
  - apply Forall_cons_iff in V as [Vy V]. destruct (attr_ltb a y) eqn:L.
    + split; [|intros x; cbn; intuition]. split; [|repeat constructor; auto].
      constructor; [constructor; auto|]. constructor; auto.
      eapply Forall_impl; [|exact F]. intros z Hz. eapply attr_ltb_trans; eauto.
    + destruct (attr_ltb y a) eqn:L2.
      * destruct (IH V) as [[S' V'] I]. split; [|intros x; cbn; rewrite I; intuition].
        split; [|constructor; auto]. constructor; auto. apply Forall_forall. intros x Hx.
        apply I in Hx as [->|Hx]; auto. rewrite Forall_forall in F. auto.
      * assert (a = y). { destruct (attr_ltb_total a y Va Vy) as [|[|]]; congruence. } subst.
        split; [split; constructor; auto|]. intros x. cbn. intuition.
Qed.
Lemma set_add_all_in t : forall s, set_ok s -> Forall valid_attr t ->
  set_ok (set_add_all s t) /\ forall x, In x (set_add_all s t) <-> In x s \/ In x t.
Proof.
  unfold set_add_all. induction t as [|a t IH]; intros s Hs Vt; cbn.
  - split; auto. intuition.
  - apply Forall_cons_iff in Vt as [Va Vt]. destruct (set_insert_in a s Hs Va) as [H1 I1].
    destruct (IH _ H1 Vt) as [H2 I2]. split; auto. intros x. rewrite I2, I1. intuition.
Qed.
(* sets with the same elements are the same *)
Lemma set_ext s : forall t, set_ok s -> set_ok t -> (forall x, In x s <-> In x t) -> s = t.
Proof.
  induction s as [|a s IH]; intros [|b t] [Ss Vs] [St Vt] E; auto.
  - exfalso. apply (E b). now left.
  - exfalso. apply (E a). now left.
  - apply StronglySorted_inv in Ss as [Ss Fs]. apply StronglySorted_inv in St as [St Ft].
    apply Forall_cons_iff in Vs as [Va Vs]. apply Forall_cons_iff in Vt as [Vb Vt].
    rewrite Forall_forall in Fs, Ft.
    assert (Irr : forall x y, attr_ltb x y = true -> attr_ltb y x = true -> False).
    { intros x y H1 H2. pose proof (attr_ltb_trans _ _ _ H1 H2). rewrite attr_ltb_irrefl in H. discriminate. }
    assert (a = b).
    { destruct (proj1 (E a) (or_introl eq_refl)) as [|Ia]; auto.
      destruct (proj2 (E b) (or_introl eq_refl)) as [|Ib]; auto.
      exfalso. eapply Irr; eauto. }
    subst. f_equal. apply IH; [split; auto|split; auto|]. intros x. split; intros I.
    + destruct (proj1 (E x) (or_intror I)); auto. subst. exfalso. specialize (Fs _ I).
      rewrite attr_ltb_irrefl in Fs. discriminate.
    + destruct (proj2 (E x) (or_intror I)); auto. subst. exfalso. specialize (Ft _ I).
      rewrite attr_ltb_irrefl in Ft. discriminate.
Qed.

(* ---- patterns ---- *)

Lemma qpattern_match_iff p q : qpattern_match p q = true <-> accepts p q.
Proof.
  destruct p as [x|]; cbn; [|tauto]. rewrite qual_eqb_eq. intuition congruence.
Qed.
Lemma pattern_loop_iff n : forall ps qs, (n <= length ps)%nat -> (n <= length qs)%nat ->
  (pattern_loop n ps qs = true <-> Forall2 accepts (firstn n ps) (firstn n qs)).
Proof.
  induction n as [|n IH]; intros ps qs Hp Hq; cbn.
  - split; auto.
  - destruct ps as [|p ps]; [cbn in Hp; lia|]. destruct qs as [|q qs]; [cbn in Hq; lia|].
    cbn in Hp, Hq. destruct (qpattern_match p q) eqn:M; cbn [negb].
    + rewrite IH by lia. apply qpattern_match_iff in M. split.
      * intros. constructor; auto.
      * intros H. inversion H. auto.
    + split; [discriminate|]. intros H. inversion H as [|? ? ? ? A]. subst.
      apply qpattern_match_iff in A. congruence.
Qed.

Lemma Forall2_length' {A B} (R : A -> B -> Prop) l m : Forall2 R l m -> length l = length m.
Proof. induction 1; cbn; auto. Qed.

Lemma IsMatch_full p a : IsMatch p a = MFull <-> full_match p a.
Proof.
  unfold IsMatch, full_match. destruct (bytes_eqb (a_var a) (p_var p)) eqn:V; cbn [negb].
  2: { split; [discriminate|]. intros [E _]. apply abytes_eqb_eq in E. congruence. }
  apply abytes_eqb_eq in V.
  destruct (Nat.ltb_spec (length (a_path a)) (length (p_path p))).
  - split.
    + destruct (pattern_loop _ _ _); discriminate.
    + intros (_ & pre & rest & E & F). apply Forall2_length' in F. rewrite E, app_length in H. lia.
  - destruct (pattern_loop _ _ _) eqn:L.
    + split; auto. intros _. split; auto. apply pattern_loop_iff in L; [|lia|lia].
      rewrite firstn_all in L. exists (firstn (length (p_path p)) (a_path a)), (skipn (length (p_path p)) (a_path a)).
      split; auto. symmetry. apply firstn_skipn.
    + split; [discriminate|]. intros (_ & pre & rest & E & F).
      assert (pattern_loop (length (p_path p)) (p_path p) (a_path a) = true); [|congruence].
      apply pattern_loop_iff; [lia|lia|]. rewrite firstn_all, E.
      rewrite (Forall2_length' _ _ _ F), firstn_app, firstn_all, Nat.sub_diag. cbn. now rewrite app_nil_r.
Qed.
(* a longer pattern whose first qualifiers accept the whole path *)
Definition partial_spec (p : pattern) (a : attribute) : Prop :=
  a_var a = p_var p /\ exists pp p0 ps, p_path p = pp ++ p0 :: ps /\ Forall2 accepts pp (a_path a).
Lemma IsMatch_partial p a : IsMatch p a = MPartial <-> partial_spec p a.
Proof.
  unfold IsMatch, partial_spec. destruct (bytes_eqb (a_var a) (p_var p)) eqn:V; cbn [negb].
  2: { split; [discriminate|]. intros [E _]. apply abytes_eqb_eq in E. congruence. }
  apply abytes_eqb_eq in V.
  destruct (Nat.ltb_spec (length (a_path a)) (length (p_path p))).
  - destruct (pattern_loop _ _ _) eqn:L.
    + split; auto. intros _. split; auto. apply pattern_loop_iff in L; [|lia|lia].
      rewrite firstn_all in L.
      assert (length (skipn (length (a_path a)) (p_path p)) <> 0)%nat by (rewrite skipn_length; lia).
      destruct (skipn (length (a_path a)) (p_path p)) as [|p0 ps] eqn:K; [now destruct H0|].
      exists (firstn (length (a_path a)) (p_path p)), p0, ps. split; auto. rewrite <- K. symmetry. apply firstn_skipn.
    + split; [discriminate|]. intros (_ & pp & p0 & ps & E & F).
      assert (pattern_loop (length (a_path a)) (p_path p) (a_path a) = true); [|congruence].
      apply pattern_loop_iff; [lia|lia|]. rewrite firstn_all, E.
      rewrite <- (Forall2_length' _ _ _ F), firstn_app, firstn_all, Nat.sub_diag. cbn. now rewrite app_nil_r.
  - split.
    + destruct (pattern_loop _ _ _); discriminate.
    + intros (_ & pp & p0 & ps & E & F). apply Forall2_length' in F.
      apply (f_equal (@length _)) in E. rewrite app_length in E. cbn in E. lia.
Qed.

(* a qualifier some pattern qualifier accepts *)
Definition witness (p : qpattern) : qualifier := match p with Some q => q | None => QBool true end.
Lemma witness_ok ps : Forall (fun q => q <> Some QInvalid) ps -> Forall2 accepts ps (map witness ps).
Proof.
  induction 1 as [|p ps H F IH]; cbn; constructor; auto. destruct p as [q|]; cbn; auto.
  split; auto. congruence.
Qed.
Lemma partial_iff_descendant p a : valid_pattern p ->
  (partial_spec p a <-> ~ full_match p a /\ exists b, descendant a b /\ full_match p b).
Proof.
  intros V. unfold partial_spec, full_match, descendant. split.
  - intros (E & pp & p0 & ps & Ep & F). split.
    + intros (_ & pre & rest & E1 & F1). apply Forall2_length' in F, F1.
      apply (f_equal (@length _)) in E1, Ep. rewrite app_length in *. cbn in *. lia.
    + assert (V2 : Forall (fun q => q <> Some QInvalid) (p0 :: ps)).
      { unfold valid_pattern in V. rewrite Ep in V. apply Forall_app in V. apply V. }
      exists (mkAttr (a_var a) (a_path a ++ map witness (p0 :: ps))). cbn [a_var a_path]. split.
      * split; auto. exists (witness p0), (map witness ps). auto.
      * split; auto. exists (a_path a ++ map witness (p0 :: ps)), []. rewrite app_nil_r. split; auto.
        rewrite Ep. apply Forall2_app; auto. now apply witness_ok.
  - intros (N & b & (Eb & q & rest & Pb) & (Ev & pre & rest' & Pb' & F)).
    split; [congruence|]. rewrite Pb in Pb'.
    assert (L : (length (a_path a) < length pre)%nat).
    { destruct (le_lt_dec (length pre) (length (a_path a))) as [L|L]; auto. exfalso. apply N.
      split; [congruence|]. exists pre, (skipn (length pre) (a_path a)). split; auto.
      assert (H : firstn (length pre) (a_path a ++ q :: rest) = pre).
      { rewrite Pb', firstn_app, firstn_all, Nat.sub_diag. cbn. apply app_nil_r. }
      rewrite firstn_app in H. replace (length pre - length (a_path a))%nat with 0%nat in H by lia.
      cbn in H. rewrite app_nil_r in H. rewrite <- H at 1. symmetry. apply firstn_skipn. }
    assert (Q : firstn (length (a_path a)) pre = a_path a).
    { assert (H : firstn (length (a_path a)) (pre ++ rest') = a_path a).
      { rewrite <- Pb', firstn_app, firstn_all, Nat.sub_diag. cbn. apply app_nil_r. }
      rewrite firstn_app in H. replace (length (a_path a) - length pre)%nat with 0%nat in H by lia.
      cbn in H. now rewrite app_nil_r in H. }
    pose proof (Forall2_length' _ _ _ F) as Lp.
    rewrite <- (firstn_skipn (length (a_path a)) pre) in F.
    apply Forall2_app_inv_r in F as (l1 & l2 & F1 & F2 & E). rewrite Q in F1.
    destruct l2 as [|p0 ps].
    + exfalso. apply Forall2_length' in F1. rewrite E, app_nil_r in Lp. lia.
    + exists l1, p0, ps. auto.
Qed.

Lemma full_match_extend p a q : full_match p a -> full_match p (mkAttr (a_var a) (a_path a ++ [q])).
Proof.
  intros (E & pre & rest & P & F). split; auto. exists pre, (rest ++ [q]). cbn. rewrite P, app_assoc. auto.
Qed.

Lemma MatchAgainst_spec ps a :
  (MatchAgainstPatterns ps a = MFull <-> exists p, In p ps /\ IsMatch p a = MFull) /\
  (MatchAgainstPatterns ps a = MPartial <->
     (forall p, In p ps -> IsMatch p a <> MFull) /\ exists p, In p ps /\ IsMatch p a = MPartial).
Proof.
  unfold MatchAgainstPatterns.
  enough (G : forall r, r <> MFull ->
    (MatchAgainstPatterns_loop r ps a = MFull <-> exists p, In p ps /\ IsMatch p a = MFull) /\
    (MatchAgainstPatterns_loop r ps a = MPartial <->
     (forall p, In p ps -> IsMatch p a <> MFull) /\ (r = MPartial \/ exists p, In p ps /\ IsMatch p a = MPartial))).
  { destruct (G MNone) as [A B]; [discriminate|]. split; [exact A|]. rewrite B.
    intuition discriminate. }
  induction ps as [|p ps IH]; intros r Hr; cbn.
  - split; split; try congruence; try (intros [? [[] _]]).
    + intros ->. split; auto.
    + intros [_ [|[? [[] _]]]]; auto.
  - destruct (IsMatch p a) eqn:M.
    + destruct (IH r Hr) as [A B]. rewrite A, B. split.
      * split; [intros (p' & I & E); eauto|]. intros (p' & [->|I] & E); [congruence|eauto].
      * split.
        -- intros [H1 H2]. split.
           ++ intros p' [<-|I]; [congruence|auto].
           ++ destruct H2 as [|(p' & I & E)]; eauto.
        -- intros [H1 H2]. split; auto. destruct H2 as [|(p' & [<-|I] & E)]; eauto. congruence.
    + destruct (IH MPartial) as [A B]; [discriminate|]. rewrite A, B. split.
      * split; [intros (p' & I & E); eauto|]. intros (p' & [->|I] & E); [congruence|eauto].
      * split.
        -- intros [H1 H2]. split; eauto. intros p' [<-|I]; [congruence|auto].
        -- intros [H1 H2]. split; auto.
    + split; split; try congruence; eauto. intros [H1 _]. exfalso. apply (H1 p); auto.
Qed.

(* ---- unknown sets of operands ---- *)

Lemma MergeUnknowns_spec args : forall r,
  (forall s, r = Some s -> set_ok s) ->
  (forall s, In (VUnknown s) args -> Forall valid_attr s) ->
  match MergeUnknowns_loop r args with
  | None => r = None /\ forall s, ~ In (VUnknown s) args
  | Some u => set_ok u /\ (r <> None \/ exists s, In (VUnknown s) args) /\
      forall x, In x u <-> (exists s, r = Some s /\ In x s) \/ exists s, In (VUnknown s) args /\ In x s
  end.
Proof.
  induction args as [|v args IH]; intros r Hr Hv; cbn.
  - destruct r as [u|]; [|split; auto]. split; auto. split; [left; discriminate|].
    intros x. split; [eauto|]. intros [(s & [= <-] & I)|(s & [] & _)]; auto.
  - assert (Skip : (forall s, v <> VUnknown s) ->
      match MergeUnknowns_loop r args with
      | None => r = None /\ forall s, ~ In (VUnknown s) (v :: args)
      | Some u => set_ok u /\ (r <> None \/ exists s, In (VUnknown s) (v :: args)) /\
          forall x, In x u <-> (exists s, r = Some s /\ In x s) \/ exists s, In (VUnknown s) (v :: args) /\ In x s
      end).
    { intros N. specialize (IH r Hr (fun s I => Hv s (or_intror I))). destruct (MergeUnknowns_loop r args).
      - destruct IH as (A & B & C). split; auto. split. { destruct B as [|(s & I)]; eauto. right. exists s. now right. }
        intros x. rewrite C. split; (intros [H|(s & I & X)]; [auto|]); right; exists s; split; auto.
        + now right.
        + destruct I as [E|I]; auto. exfalso. eapply N; eauto.
      - destruct IH as [A B]. split; auto. intros s [E|I]; [eapply N; eauto|eapply B; eauto]. }
    destruct v as [| | | | | | | | | | | | | |s]; try (apply Skip; discriminate).
    set (r0 := match r with Some r0 => r0 | None => [] end).
    assert (Hr0 : set_ok r0). { destruct r; [now apply Hr|apply set_ok_nil]. }
    destruct (set_add_all_in s r0 Hr0) as [O I0]. { apply Hv. now left. }
    specialize (IH (Some (set_add_all r0 s))).
    destruct (MergeUnknowns_loop (Some (set_add_all r0 s)) args).
    + destruct IH as (A & _ & C); [intros ? [= <-]; auto|intros; apply Hv; now right|].
      split; auto. split. { right. exists s. now left. }
      intros x. rewrite C. split.
      * intros [(s' & [= <-] & I)|(s' & I & X)].
        -- apply I0 in I as [I|I]; [|right; exists s; split; auto; now left].
           left. destruct r as [r1|]; cbn in r0; [exists r1; auto|destruct I].
        -- right. exists s'. split; [now right|exact X].
      * intros [(s' & E & X)|(s' & [E|I] & X)].
        -- left. exists (set_add_all r0 s). split; auto. apply I0. left. subst. auto.
        -- injection E as <-. left. exists (set_add_all r0 s). split; auto. apply I0. auto.
        -- right. eauto.
    + destruct IH as [A _]; [intros ? [= <-]; auto|intros; apply Hv; now right|]. discriminate.
Qed.

Lemma CheckForUnknowns_spec pats partial trails : forall s, set_ok s ->
  (forall a, In (Some a) trails -> valid_attr a) ->
  set_ok (CheckForUnknowns_loop pats s trails partial) /\
  forall x, In x (CheckForUnknowns_loop pats s trails partial) <->
    In x s \/ (In (Some x) trails /\ CheckForUnknown pats (Some x) partial = true).
Proof.
  induction trails as [|t ts IH]; intros s Hs Hv; cbn [CheckForUnknowns_loop].
  - split; auto. intros x. cbn. tauto.
  - assert (Hv' : forall a, In (Some a) ts -> valid_attr a) by (intros; apply Hv; now right).
    destruct t as [a|].
    + destruct (CheckForUnknown pats (Some a) partial) eqn:C.
      * destruct (set_insert_in a s Hs) as [O I0]. { apply Hv. now left. }
        destruct (IH _ O Hv') as [A B]. split; auto. intros x. rewrite B, I0. split.
        -- intros [[->|I]|[I Cx]]; auto; right; split; auto; [now left|now right].
        -- intros [I|[[[= ->]|I] Cx]]; auto.
      * destruct (IH _ Hs Hv') as [A B]. split; auto. intros x. rewrite B. split.
        -- intros [I|[I Cx]]; auto. right. split; auto. now right.
        -- intros [I|[[[= ->]|I] Cx]]; auto. congruence.
    + cbn. destruct (IH _ Hs Hv') as [A B]. split; auto. intros x. rewrite B. split.
      * intros [I|[I Cx]]; auto. 
      * intros [I|[[[=]|I] Cx]]; auto.
Qed.
