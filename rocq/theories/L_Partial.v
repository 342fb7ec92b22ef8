(* Results found with unknown attributes hold for all values of those (C32). *)
From Coq Require Import ZArith List Bool String Ascii Lia.
From Verif Require Import Base M_Overflow M_Number M_Attr M_Value M_Logic M_Expr M_Plan M_Machine
  S_Value S_Attr S_Eval S_Short L_Attr L_Value L_Meaning L_Short.
From Verif Require Import S_Partial.
Import ListNotations.
Open Scope list_scope.
Open Scope Z_scope.

(* ---- attributes ---- *)
Lemma below_match p a b : descendant a b -> full_match p b -> full_match p a \/ partial_spec p a.
Proof.
  intros (Eb & q & rest & Pb) (Ev & pre & rest' & Pb' & F). rewrite Pb in Pb'.
  destruct (app_eq_app _ _ _ _ Pb') as (l & [[E1 E2]|[E1 E2]]).
  - left. split; [congruence|]. exists pre, l. auto.
  - destruct l as [|q' l].
    + left. split; [congruence|]. exists pre, []. rewrite app_nil_r in *. auto.
    + right. split; [congruence|]. subst pre. apply Forall2_app_inv_r in F. destruct F as (l1 & l2 & F1 & F2 & E).
      inversion F2 as [|p0 ? ps ? _ F3]; subst. exists l1, p0, ps. auto.
Qed.
Lemma marked_check P a : marked P a <-> CheckForUnknown P (Some a) false = true.
Proof.
  unfold CheckForUnknown. destruct (MatchAgainst_spec P a) as [H1 _]. split.
  - intros (p & Hp & Hf). rewrite (proj2 H1); [reflexivity|]. exists p. now rewrite IsMatch_full.
  - destruct (MatchAgainstPatterns P a); try discriminate. intros _.
    destruct (proj1 H1 eq_refl) as (p & Hp & Hf). exists p. now rewrite <- IsMatch_full.
Qed.
Lemma marked_dec P a : {marked P a} + {~ marked P a}.
Proof.
  destruct (CheckForUnknown P (Some a) false) eqn:E.
  - left. now apply marked_check.
  - right. intros H. apply marked_check in H. congruence.
Qed.
Lemma check_partial P a p : In p P -> full_match p a \/ partial_spec p a -> CheckForUnknown P (Some a) true = true.
Proof.
  intros Hp H. unfold CheckForUnknown. destruct (MatchAgainst_spec P a) as [H1 H2].
  destruct (MatchAgainstPatterns P a) eqn:E; auto.
  destruct H as [H|H].
  - assert (MNone = MFull) as K; [|discriminate K]. apply H1. exists p. now rewrite IsMatch_full.
  - assert (MNone = MPartial) as K; [|discriminate K]. apply H2. split.
    + intros p' Hp' Hf. assert (MNone = MFull) as K; [|discriminate K]. apply H1. eauto.
    + exists p. now rewrite IsMatch_partial.
Qed.
Lemma below_check P a : marked_below P a -> CheckForUnknown P (Some a) true = true.
Proof. intros (b & Hb & p & Hp & Hf). eapply check_partial; [exact Hp|]. eapply below_match; eauto. Qed.
Lemma marked_check_partial P a : marked P a -> CheckForUnknown P (Some a) true = true.
Proof. intros (p & Hp & Hf). eapply check_partial; eauto. Qed.
Lemma child_below P a q : marked P (child a q) -> CheckForUnknown P (Some a) true = true.
Proof.
  intros H. apply below_check. exists (child a q). split; [|exact H]. split; [reflexivity|].
  exists q, []. reflexivity.
Qed.

(* attributes the patterns do not tell apart, nor what is below them *)
Fixpoint extend (a : attribute) (l : list qualifier) : attribute :=
  match l with [] => a | q :: l' => extend (child a q) l' end.
Lemma extend_path l : forall a, extend a l = mkAttr (a_var a) (a_path a ++ l).
Proof.
  induction l as [|q l IH]; intros a; cbn [extend].
  - rewrite app_nil_r. now destruct a.
  - rewrite IH. unfold child. cbn [a_var a_path]. now rewrite <- app_assoc.
Qed.
Definition alike (P : list pattern) (a b : attribute) : Prop :=
  forall l, marked P (extend a l) <-> marked P (extend b l).
Lemma alike_child P a b q : alike P a b -> alike P (child a q) (child b q).
Proof. intros H l. apply (H (q :: l)). Qed.
Lemma alike_below P a b : alike P a b -> marked_below P a -> marked_below P b.
Proof.
  intros H (c & (Hv & q & rest & Hp) & Hc). exists (extend b (q :: rest)). split.
  - rewrite extend_path. split; [reflexivity|]. exists q, rest. reflexivity.
  - apply H. rewrite extend_path, <- Hv, <- Hp. now destruct c.
Qed.
Lemma alike_sym P a b : alike P a b -> alike P b a.
Proof. intros H l. symmetry. apply H. Qed.
Lemma agree_alike P a v w : agree P a v w -> forall b, alike P a b -> agree P b v w.
Proof.
  induction 1 as [a v|a l m Hb Hl Hs Hc IH|a l m Hb Hn Hc IH|a v w H IH]; intros b Hab.
  - constructor.
  - apply agree_list; auto; [eapply alike_below; eauto|]. intros i v w Hm Hv Hw.
    apply (IH i v w); auto using alike_child. intros Hx. apply Hm. apply (alike_child _ _ _ _ Hab []). exact Hx.
  - assert (Hk : forall k, ~ marked P (child b (qualifier_of (value_of_key k))) ->
                           ~ marked P (child a (qualifier_of (value_of_key k)))).
    { intros k Hm Hx. apply Hm. apply (alike_child _ _ _ _ Hab []). exact Hx. }
    apply agree_map; [eapply alike_below; eauto| |].
    + intros k Hm. apply Hn. auto.
    + intros k v w Hm Hv Hw. apply (IH k v w); auto using alike_child.
  - apply agree_optional. auto.
Qed.
Definition number_qualifier (q : qualifier) : Prop :=
  match q with QInt _ | QUint _ | QInvalid => True | _ => False end.
Lemma accepts_number p q q' : match p with Some (QInt _) | Some (QUint _) => False | _ => True end ->
  number_qualifier q -> number_qualifier q' -> accepts p q -> accepts p q'.
Proof.
  destruct p as [[]|]; cbn; try tauto; intros _ Hq Hq' [E N]; subst q; cbn in Hq; tauto.
Qed.
Lemma alike_number P a q q' : no_numbers P -> number_qualifier q -> number_qualifier q' ->
  alike P (child a q) (child a q').
Proof.
  intros HP Hq Hq'.
  assert (G : forall q q', number_qualifier q -> number_qualifier q' ->
            forall l, marked P (extend (child a q) l) -> marked P (extend (child a q') l)).
  { clear q q' Hq Hq'. intros q q' Hq Hq' l (p & Hp & Hv & pre & rest & E & F). exists p. split; [exact Hp|].
    rewrite extend_path in *. unfold child in *. cbn [a_var a_path] in *.
    rewrite <- app_assoc in *. cbn [app] in *. split; [exact Hv|].
    unfold no_numbers in HP. rewrite Forall_forall in HP. specialize (HP p Hp).
    cbn [a_path]. destruct (app_eq_app _ _ _ _ E) as (k & [[E1 E2]|[E1 E2]]).
    - exists pre, (k ++ q' :: l). rewrite E1, <- app_assoc. auto.
    - destruct k as [|q0 k].
      + rewrite app_nil_r in E1. exists (a_path a), (q' :: l). subst pre. auto.
      + cbn [app] in E2. injection E2 as E2 E3. subst q0 l.
        exists (a_path a ++ q' :: k), rest. split; [now rewrite <- app_assoc|]. subst pre.
        apply Forall2_app_inv_r in F. destruct F as (p1 & p2 & F1 & F2 & Ep).
        inversion F2 as [|p0 ? ps ? Fa F3]; subst. rewrite Ep in *. apply Forall2_app; [exact F1|].
        constructor; [|exact F3]. apply Forall_app in HP. destruct HP as [_ HP].
        exact (accepts_number p0 q q' (Forall_inv HP) Hq Hq' Fa). }
  intros l. split; apply G; auto.
Qed.

(* ---- values ---- *)
Lemma agree_equal P a v w : agree P a v w -> CheckForUnknown P (Some a) true = false -> v = w.
Proof.
  induction 1 as [a v|a l m Hb|a l m Hb|a v w H IH]; intros E; auto;
    try (rewrite (below_check _ _ Hb) in E; discriminate E).
  now rewrite IH.
Qed.
Lemma agree_kind P a v w : agree P a v w -> kind_of v = kind_of w.
Proof. destruct 1; reflexivity. Qed.
Lemma agree_scalar P a v w : agree P a v w -> is_container v = false -> v = w.
Proof. destruct 1; cbn; congruence. Qed.
Lemma agree_container P a v w : agree P a v w -> v = w \/ (is_container v = true /\ is_container w = true).
Proof. destruct 1; auto. Qed.
Lemma agree_error P a v w : agree P a v w -> is_error v = is_error w.
Proof. destruct 1; reflexivity. Qed.
Lemma agree_unknown P a v w : agree P a v w -> is_unknown v = is_unknown w.
Proof. destruct 1; reflexivity. Qed.
Definition agree_t (P : list pattern) (t : trail) (v w : value) : Prop :=
  match t with None => v = w | Some a => agree P a v w end.
Lemma agree_t_same P t v : agree_t P t v v.
Proof. destruct t; [constructor|reflexivity]. Qed.
Lemma agree_t_scalar P t v w : agree_t P t v w -> is_container v = false -> v = w.
Proof. destruct t; [apply agree_scalar|auto]. Qed.
Lemma agree_t_container P t v w : agree_t P t v w -> v = w \/ (is_container v = true /\ is_container w = true).
Proof. destruct t; [apply agree_container|auto]. Qed.
Lemma agree_t_equal P t v w : agree_t P t v w -> CheckForUnknown P t true = false -> v = w.
Proof. destruct t; [apply agree_equal|auto]. Qed.
Lemma agree_t_error P t v w : agree_t P t v w -> is_error v = is_error w.
Proof. destruct t; [apply agree_error|cbn; congruence]. Qed.
Lemma agree_t_optional P t v w : agree_t P t v w -> agree_t P t (VOptional (Some v)) (VOptional (Some w)).
Proof. destruct t; cbn; [apply agree_optional|congruence]. Qed.

(* ---- container access ---- *)
Section Lookup.
  Variable P : list pattern.
  Variable h : bool.
  Hypothesis Hn : h = false \/ no_numbers P.
  Variable a : attribute.
  (* what the two containers give for the same key *)
  Definition found (q : qualifier) (o o' : option value) : Prop :=
    match o, o' with
    | None, None => True
    | Some v, Some w => agree P (child a q) v w
    | _, _ => False
    end.
  Lemma found_key l m k : marked_below P a ->
    (forall k, ~ marked P (child a (qualifier_of (value_of_key k))) ->
       find_key k l = None <-> find_key k m = None) ->
    (forall k v w, ~ marked P (child a (qualifier_of (value_of_key k))) ->
       find_key k l = Some v -> find_key k m = Some w ->
       agree P (child a (qualifier_of (value_of_key k))) v w) ->
    ~ marked P (child a (qualifier_of (value_of_key k))) ->
    found (qualifier_of (value_of_key k)) (find_key k l) (find_key k m).
  Proof.
    intros Hb H1 H2 Hm. specialize (H1 k Hm). pose proof (H2 k) as H3. unfold found.
    destruct (find_key k l), (find_key k m); auto; destruct H1 as [H1 H1'];
      [specialize (H1' eq_refl)|specialize (H1 eq_refl)]; discriminate.
  Qed.
  Lemma found_alike q q' o o' : alike P (child a q) (child a q') -> found q o o' -> found q' o o'.
  Proof. intros H. unfold found. destruct o, o'; auto. intros G. eapply agree_alike; eauto. Qed.
  Lemma number_of k n : NumberFromValue k = Some n -> number_qualifier (qualifier_of k).
  Proof. destruct k; try discriminate; intros _; exact I. Qed.
  Lemma key_value k q : key_of_value k = Some q -> value_of_key q = k.
  Proof. destruct k; try discriminate; intros [= <-]; reflexivity. Qed.

  Lemma lookup_list l m k r r' : agree P a (VList l) (VList m) ->
    ~ marked P (child a (qualifier_of k)) ->
    LookupInList h l k = Val r -> LookupInList h m k = Val r' -> agree P (child a (qualifier_of k)) r r'.
  Proof.
    intros Ha Hm E E'. inversion Ha as [? ?|? ? ? Hb Hl Hs Hc| |]; subst.
    { rewrite E in E'. apply Val_inj in E'. subst. constructor. }
    unfold LookupInList in E, E'.
    assert (Hi : forall i, (if h then
            match NumberFromValue k with
            | Some n =>
                obind (LosslessConvertibleToInt n) (fun b =>
                if b : bool then obind (AsInt n) (fun i => Val (Some i)) else Val None)
            | None => Val None
            end
          else match k with VInt i => Val (Some i) | _ => Val None end) = Val (Some i) ->
          alike P (child a (qualifier_of k)) (child a (QInt i))).
    { intros i Ei. destruct h.
      - destruct Hn as [Hn'|Hn']; [discriminate|]. destruct (NumberFromValue k) eqn:En; [|discriminate].
        apply number_of in En. apply alike_number; auto. exact I.
      - destruct k; try discriminate. injection Ei as ->. intros x. reflexivity. }
    destruct (if h then _ else _) as [[i|]|?|]; cbn [obind] in E, E'; try discriminate.
    - specialize (Hi i eq_refl). rewrite <- Hl in E'. destruct ((i <? 0) || _) eqn:Er.
      + apply Val_inj in E, E'. subst. constructor.
      + apply orb_false_iff in Er. destruct Er as [Er1 Er2]. apply Z.ltb_ge in Er1.
        destruct (nth_error l (Z.to_nat i)) eqn:E1; [|discriminate].
        destruct (nth_error m (Z.to_nat i)) eqn:E2; [|discriminate].
        apply Val_inj in E, E'. subst. pose proof (Hc (Z.to_nat i) v v0) as H.
        rewrite Z2Nat.id in H by exact Er1. eapply agree_alike; [|apply alike_sym; exact Hi].
        apply H; auto. intros Hx. apply Hm. apply (Hi []). exact Hx.
    - apply Val_inj in E, E'. subst. constructor.
  Qed.
  Lemma lookup_map l m k r r' : agree P a (VMap l) (VMap m) ->
    ~ marked P (child a (qualifier_of k)) ->
    LookupInMap h l k = Val r -> LookupInMap h m k = Val r' -> agree P (child a (qualifier_of k)) r r'.
  Proof.
    intros Ha Hm E E'. inversion Ha as [? ?| |? ? ? Hb H1 H2|]; subst.
    { rewrite E in E'. apply Val_inj in E'. subst. constructor. }
    unfold LookupInMap in E, E'.
    destruct (if h then NumberFromValue k else None) as [n|] eqn:En.
    - assert (Hk : no_numbers P /\ number_qualifier (qualifier_of k)).
      { destruct h; [|discriminate]. destruct Hn as [|Hn']; [discriminate|].
        split; [exact Hn'|]. now apply number_of in En. }
      destruct Hk as [Hp Hk].
      assert (Hf : forall q, number_qualifier (qualifier_of (value_of_key q)) ->
                found (qualifier_of k) (find_key q l) (find_key q m)).
      { intros q Hq. pose proof (alike_number P a _ _ Hp Hq Hk) as Hal. eapply found_alike; [exact Hal|].
        apply found_key; auto. intros Hx. apply Hm. apply (Hal []). exact Hx. }
      assert (H0 : found (qualifier_of k) (match k with VUint _ => MapFind l k | _ => None end)
                     (match k with VUint _ => MapFind m k | _ => None end)).
      { destruct k; try exact I. apply (Hf (KUint u)). exact I. }
      destruct (match k with VUint _ => MapFind l k | _ => None end) as [v|],
               (match k with VUint _ => MapFind m k | _ => None end) as [w|]; try contradiction.
      { apply Val_inj in E, E'. subst. exact H0. }
      unfold find_int, find_uint in E, E'. destruct (LosslessConvertibleToInt n) as [bi|?|]; cbn [obind] in E, E'; try discriminate.
      assert (G2 : forall E E', obind (obind (LosslessConvertibleToUint n) (fun b : bool => if b then
                    obind (AsUint n) (fun u => Val (MapFind l (VUint u))) else Val None))
                   (fun r2 => match r2 with Some v => Val v | None => Val (VError no_such_key) end) = Val E ->
                  obind (obind (LosslessConvertibleToUint n) (fun b : bool => if b then
                    obind (AsUint n) (fun u => Val (MapFind m (VUint u))) else Val None))
                   (fun r2 => match r2 with Some v => Val v | None => Val (VError no_such_key) end) = Val E' ->
                  agree P (child a (qualifier_of k)) E E').
      { clear E E'. intros E E'. destruct (LosslessConvertibleToUint n) as [[]|?|]; cbn [obind]; try discriminate.
        - destruct (AsUint n) as [u|?|]; cbn [obind]; try discriminate. cbn [MapFind key_of_value].
          pose proof (Hf (KUint u) I) as G. unfold found in G.
          destruct (find_key (KUint u) l), (find_key (KUint u) m); try contradiction;
            intros F F'; apply Val_inj in F, F'; subst; [exact G|constructor].
        - intros F F'. apply Val_inj in F, F'. subst. constructor. }
      destruct bi; cbn [obind] in E, E'; [|exact (G2 _ _ E E')].
      destruct (AsInt n) as [i|?|]; cbn [obind] in E, E'; try discriminate. cbn [MapFind key_of_value] in E, E'.
      pose proof (Hf (KInt i) I) as G. unfold found in G.
      destruct (find_key (KInt i) l), (find_key (KInt i) m); try contradiction; [|exact (G2 _ _ E E')].
      apply Val_inj in E, E'. subst. exact G.
    - destruct (key_of_value k) as [q|] eqn:Eq; [|apply Val_inj in E, E'; subst; constructor].
      pose proof (key_value k q Eq) as Ek. subst k. apply Val_inj in E, E'. subst r r'.
      pose proof (found_key l m q Hb H1 H2 Hm) as G. unfold found in G.
      destruct q; cbn [MapGet value_of_key key_of_value] in *;
        destruct (find_key _ l), (find_key _ m); try contradiction; auto; constructor.
  Qed.
  (* keys that differ only at unknown attributes are containers *)
  Definition same_key (k k' : value) : Prop := k = k' \/ (is_container k = true /\ is_container k' = true).
  Lemma lookup_agree c c' k k' r r' : agree P a c c' -> same_key k k' ->
    ~ marked P (child a (qualifier_of k)) ->
    LookupInContainer h c k = Val r -> LookupInContainer h c' k' = Val r' ->
    agree P (child a (qualifier_of k)) r r'.
  Proof.
    intros Ha [Hk|[Hk Hk']] Hm E E'.
    - subst k'. inversion Ha; subst; cbn [LookupInContainer] in *.
      + rewrite E in E'. apply Val_inj in E'. subst. constructor.
      + exact (lookup_list _ _ _ _ _ Ha Hm E E').
      + exact (lookup_map _ _ _ _ _ Ha Hm E E').
      + apply Val_inj in E, E'. subst. constructor.
    - assert (G : forall k c r, is_container k = true -> LookupInContainer h c k = Val r ->
               r = VError (match c with VMap _ => invalid_map_key | VList _ => index_type_error
                                      | _ => invalid_container end)).
      { clear. intros k c r Hk E. assert (E1 : key_of_value k = None /\ NumberFromValue k = None)
          by (destruct k as [| | | | | | | | | | | |[]| |]; try discriminate Hk; auto).
        destruct E1 as [E1 E2]. destruct c; cbn [LookupInContainer] in E; unfold LookupInList, LookupInMap in E;
          rewrite ?E1, ?E2 in E; try (injection E as <-; reflexivity).
        - destruct h; [injection E as <-; reflexivity|].
          destruct k as [| | | | | | | | | | | |[]| |]; try discriminate Hk; injection E as <-; reflexivity.
        - destruct h; injection E as <-; reflexivity. }
      rewrite (G _ _ _ Hk E), (G _ _ _ Hk' E'). destruct Ha; constructor.
  Qed.
End Lookup.

(* ---- operations ---- *)
Section Partial.
  Variable C : config.
  Variable R : registry.
  Variable vars' : string -> out (option value).
  Notation P := (cf_pats C).
  Notation D := (completed C vars').
  Variables index optional : bool.
  Hypothesis Hu : o_unknowns (cf_opts C) = true.
  Hypothesis Hs : o_short_circuiting (cf_opts C) = true.
  Hypothesis Hf : o_fast_builtins (cf_opts C) = true.
  Hypothesis HV : completes P (cf_vars C) vars'.
  Hypothesis HK : host_known D R.
  Hypothesis HR : all_strict R.
  Hypothesis Hi : index = true -> o_heterogeneous (cf_opts C) = false \/ no_numbers P.
  Hypothesis Ho : optional = true -> o_optional_types (cf_opts C) = false.

  Lemma unk_on : unk C = true. Proof. exact Hu. Qed.
  Lemma unk_off : unk D = false. Proof. reflexivity. Qed.
  Lemma exact_cases a : (marked P a /\ unknown_exact C (Some a) = Some (VUnknown [a])) \/
    (~ marked P a /\ unknown_exact C (Some a) = None).
  Proof.
    unfold unknown_exact. rewrite unk_on. cbn [andb]. destruct (CheckForUnknown P (Some a) false) eqn:E.
    - left. split; [now apply marked_check|reflexivity].
    - right. split; [|reflexivity]. intros H. apply marked_check in H. congruence.
  Qed.
  Lemma partial_cases t : (CheckForUnknown P t true = true /\ exists a, t = Some a /\ unknown_partial C t = Some (VUnknown [a])) \/
    (CheckForUnknown P t true = false /\ unknown_partial C t = None).
  Proof.
    unfold unknown_partial. rewrite unk_on. cbn [andb]. destruct (CheckForUnknown P t true) eqn:E; auto.
    left. split; [reflexivity|]. destruct t as [a|]; [eauto|discriminate].
  Qed.

  Definition covers (x y : vt) : Prop :=
    is_unknown (fst x) = true \/
    (is_error (fst x) = true /\ is_error (fst y) = true) \/
    agree_t P (snd x) (fst x) (fst y).
  Lemma cov_unknown s t y : covers (VUnknown s, t) y. Proof. now left. Qed.
  Lemma cov_errors s t y : is_error (fst y) = true -> covers (VError s, t) y. Proof. right. left. auto. Qed.
  Lemma cov_same v t t' : covers (v, t) (v, t'). Proof. right. right. apply agree_t_same. Qed.
  Lemma cov_error x y : covers x y -> is_error (fst x) = true -> is_error (fst y) = true.
  Proof.
    intros [H|[[_ H]|H]] E; auto; [destruct (fst x); discriminate|]. now rewrite <- (agree_t_error _ _ _ _ H).
  Qed.
  (* neither unknown nor an error: the same but for unknown attributes *)
  Lemma cov_plain x y : covers x y -> is_unknown (fst x) = false -> is_error (fst x) = false ->
    agree_t P (snd x) (fst x) (fst y).
  Proof. intros [H|[[H _]|H]] E1 E2; congruence. Qed.
  Lemma cov_equal x y : covers x y -> is_unknown (fst x) = false -> is_error (fst x) = false ->
    CheckForUnknown P (snd x) true = false -> fst x = fst y.
  Proof. intros H E1 E2 E3. eapply agree_t_equal; [|exact E3]. now apply cov_plain. Qed.
  Lemma cov_bool x y b : covers x y -> fst x = VBool b -> fst y = VBool b.
  Proof.
    intros H E. symmetry. rewrite <- E. eapply agree_t_scalar; [apply cov_plain; [exact H| |]|]; now rewrite E.
  Qed.
  Lemma cov_key x y : covers x y -> is_unknown (fst x) = false -> is_error (fst x) = false ->
    same_key (fst x) (fst y).
  Proof. intros H E1 E2. exact (agree_t_container _ _ _ _ (cov_plain _ _ H E1 E2)). Qed.

  Lemma select_cov f t a b x y : covers a b -> SelectStep C f t a = Val x -> SelectStep D f t b = Val y ->
    covers x y.
  Proof.
    destruct a as [v tr], b as [w tr']. intros H Ex Ey.
    destruct (is_unknown v) eqn:U.
    { destruct v; try discriminate U. injection Ex as <-. apply cov_unknown. }
    destruct (is_error v) eqn:Ev.
    { pose proof (cov_error _ _ H Ev) as Ew. cbn [fst] in Ew. destruct v; try discriminate Ev.
      destruct w; try discriminate Ew. injection Ex as <-. injection Ey as <-. now apply cov_errors. }
    pose proof (cov_plain _ _ H U Ev) as Ha. cbn [fst snd] in Ha.
    unfold SelectStep in Ex, Ey. rewrite unk_on in Ex. rewrite unk_off in Ey.
    change (unknown_exact D None) with (@None value) in Ey.
    set (fb := bytes_of_string f) in *.
    assert (Hmap : forall m m' x y, agree_t P tr (VMap m) (VMap m') ->
      match unknown_exact C (trail_step tr (QString fb)) with
      | Some u => Val (u, trail_step tr (QString fb))
      | None => if t then Val (MapHas m (VString fb), None) else Val (MapGet m (VString fb), trail_step tr (QString fb))
      end = Val x ->
      (if t then Val (MapHas m' (VString fb), None) else Val (MapGet m' (VString fb), None)) = Val y ->
      covers x y).
    { clear Ex Ey. intros m m' x1 y1 Hm Ex Ey. destruct tr as [a|].
      - cbn [agree_t trail_step] in *. fold (child a (QString fb)) in *.
        destruct (exact_cases (child a (QString fb))) as [[Hk E]|[Hk E]]; rewrite E in Ex.
        { injection Ex as <-. apply cov_unknown. }
        assert (G : found P a (QString fb) (find_key (KString fb) m) (find_key (KString fb) m')).
        { inversion Hm as [| |? ? ? Hb H1 H2|]; subst.
          - unfold found. destruct (find_key (KString fb) m'); constructor.
          - exact (found_key P a m m' (KString fb) Hb H1 H2 Hk). }
        cbn [MapHas MapGet key_of_value] in Ex, Ey. unfold found in G.
        destruct t; apply Val_inj in Ex, Ey; subst x1 y1;
          destruct (find_key (KString fb) m), (find_key (KString fb) m'); try contradiction; try apply cov_same.
        right. right. exact G.
      - cbn [agree_t] in Hm. injection Hm as <-. cbn [trail_step] in Ex.
        change (unknown_exact C None) with (if unk C && false then @None value else None) in Ex.
        rewrite andb_false_r in Ex. destruct t; apply Val_inj in Ex, Ey; subst; apply cov_same. }
    destruct (agree_t_container _ _ _ _ Ha) as [<-|[Kv Kw]].
    - destruct v; try discriminate; try (apply Val_inj in Ex, Ey; subst; apply cov_same).
      + exact (Hmap m m x y Ha Ex Ey).
      + cbn [completed cf_opts o_optional_types] in Ey. destruct (o_optional_types (cf_opts C)); [|apply Val_inj in Ex, Ey; subst; apply cov_same].
        destruct (unknown_exact C (trail_step tr (QString fb))) as [u|] eqn:Eu.
        { apply Val_inj in Ex. subst x. unfold unknown_exact in Eu. destruct (_ && _); [|discriminate].
          destruct (trail_step tr _); [|discriminate]. injection Eu as <-. apply cov_unknown. }
        destruct o as [w|].
        * destruct w; try discriminate. destruct t; apply Val_inj in Ex, Ey; subst; apply cov_same.
        * destruct t; apply Val_inj in Ex, Ey; subst; apply cov_same.
    - destruct v as [| | | | | | | | | | l|m|[v|]| |]; try discriminate Kv;
        (destruct tr as [a|]; [|cbn [agree_t] in Ha; subst w]).
      + inversion Ha; subst; apply Val_inj in Ex, Ey; subst; apply cov_same.
      + apply Val_inj in Ex, Ey; subst; apply cov_same.
      + assert (Hw : exists m', w = VMap m') by (inversion Ha; eauto). destruct Hw as [m' ->].
        exact (Hmap m m' x y Ha Ex Ey).
      + exact (Hmap m m x y eq_refl Ex Ey).
      + assert (Hw : exists w', w = VOptional (Some w') /\ agree P a v w').
        { inversion Ha; subst; eexists; (split; [reflexivity|]); auto. constructor. }
        destruct Hw as (w' & -> & Hw). cbn [completed cf_opts o_optional_types] in Ey.
        destruct (o_optional_types (cf_opts C)); [|apply Val_inj in Ex, Ey; subst; apply cov_same].
        cbn [trail_step] in Ex. fold (child a (QString fb)) in Ex.
        destruct (exact_cases (child a (QString fb))) as [[Hk E]|[Hk E]]; rewrite E in Ex.
        { injection Ex as <-. apply cov_unknown. }
        destruct v; try discriminate. destruct w'; try discriminate.
        assert (G : found P a (QString fb) (find_key (KString fb) m) (find_key (KString fb) m0)).
        { inversion Hw as [| |? ? ? Hb H1 H2|]; subst.
          - unfold found. destruct (find_key (KString fb) m0); constructor.
          - exact (found_key P a m m0 (KString fb) Hb H1 H2 Hk). }
        cbn [MapHas MapFind key_of_value] in Ex, Ey. unfold found in G.
        destruct t; apply Val_inj in Ex, Ey; subst;
          destruct (find_key (KString fb) m), (find_key (KString fb) m0); try contradiction; try apply cov_same.
        right. right. cbn [fst snd agree_t]. now apply agree_optional.
      + cbn [completed cf_opts o_optional_types] in Ey. destruct (o_optional_types (cf_opts C)); [|apply Val_inj in Ex, Ey; subst; apply cov_same].
        cbn [trail_step] in Ex. change (unknown_exact C None) with (if unk C && false then @None value else None) in Ex.
        rewrite andb_false_r in Ex. destruct v; try discriminate.
        destruct t; apply Val_inj in Ex, Ey; subst; apply cov_same.
  Qed.

  Lemma perform_cov t h opt c c' k k' r r' :
    (h = false \/ no_numbers P) ->
    is_error c = false -> is_error k = false -> is_unknown c = false -> is_unknown k = false ->
    agree_t P t c c' -> same_key k k' -> is_error k' = false ->
    (forall a, t = Some a -> ~ marked P (child a (qualifier_of k))) ->
    PerformLookup h opt c k = Val r -> PerformLookup h opt c' k' = Val r' ->
    agree_t P (trail_step t (qualifier_of k)) r r'.
  Proof.
    intros Hh Ec Ek Uc Uk Ha Hk Ek' Hm E E'.
    assert (G : forall c c' r r', agree_t P t c c' -> LookupInContainer h c k = Val r ->
              LookupInContainer h c' k' = Val r' -> agree_t P (trail_step t (qualifier_of k)) r r').
    { clear - Hh Hk Hm. intros c c' r r' Ha E E'. destruct t as [a|]; cbn [agree_t trail_step] in *.
      - eapply lookup_agree; eauto.
      - subst c'. destruct Hk as [<-|[K1 K2]]; [congruence|].
        assert (N : forall k, is_container k = true -> key_of_value k = None /\ NumberFromValue k = None)
          by (intros q K; destruct q as [| | | | | | | | | | | |[]| |]; try discriminate K; auto).
        destruct (N k K1) as [N1 N2], (N k' K2) as [N3 N4].
        destruct c; cbn [LookupInContainer] in *; try congruence; unfold LookupInList, LookupInMap in *;
          rewrite ?N1, ?N2, ?N3, ?N4 in *; destruct h; try congruence.
        destruct k as [| | | | | | | | | | | |[]| |]; try discriminate K1;
        destruct k' as [| | | | | | | | | | | |[]| |]; try discriminate K2; congruence. }
    assert (Ec' : is_error c' = false) by now rewrite <- (agree_t_error _ _ _ _ Ha).
    assert (Fix : forall c k, is_error c = false -> is_error k = false -> PerformLookup h opt c k =
              match (if opt then match c with VOptional o => Some o | _ => None end else None) with
              | Some None => Val (VOptional None)
              | Some (Some c0) => obind (LookupInContainer h c0 k) (fun r => match r with
                  | VError s => if IsNoSuchKey s then Val (VOptional None) else Val (VOptional (Some r))
                  | _ => Val (VOptional (Some r)) end)
              | None => LookupInContainer h c k
              end).
    { clear. intros c k H1 H2. destruct c, k; try discriminate; cbn [PerformLookup]; destruct opt; try reflexivity;
        destruct o; reflexivity. }
    rewrite Fix in E by auto. rewrite Fix in E' by auto. destruct opt; [|exact (G _ _ _ _ Ha E E')].
    destruct (match c with VOptional o => Some o | _ => None end) as [o|] eqn:Eo.
    2: { assert (Eo' : match c' with VOptional o => Some o | _ => None end = None).
         { destruct (agree_t_container _ _ _ _ Ha) as [<-|[K1 K2]]; auto.
           destruct t as [a|]; [|cbn [agree_t] in Ha; subst; auto]. inversion Ha; subst; auto. discriminate Eo. }
         rewrite Eo' in E'. exact (G _ _ _ _ Ha E E'). }
    destruct c; try discriminate Eo. injection Eo as <-.
    assert (Hc : (o0 = None /\ c' = VOptional None) \/
                 exists u u', o0 = Some u /\ c' = VOptional (Some u') /\ agree_t P t u u').
    { destruct t as [a|]; cbn [agree_t] in *.
      - inversion Ha; subst; [destruct o0 as [u|]; [right; exists u, u; repeat split; constructor|now left]|].
        right. eauto.
      - subst c'. destruct o0 as [u|]; [right; eauto|now left]. }
    destruct Hc as [[-> ->]|(u & u' & -> & -> & Hu')].
    - apply Val_inj in E, E'. subst. apply agree_t_same.
    - destruct (LookupInContainer h u k) as [q|?|] eqn:Eq; cbn [obind] in E; try discriminate.
      destruct (LookupInContainer h u' k') as [q'|?|] eqn:Eq'; cbn [obind] in E'; try discriminate.
      pose proof (G _ _ _ _ Hu' Eq Eq') as Hq. pose proof (agree_t_error _ _ _ _ Hq) as He.
      destruct (is_error q) eqn:Q.
      + destruct q; try discriminate Q. destruct q'; try discriminate He.
        assert (s = s0) by (apply agree_t_scalar in Hq; [congruence|reflexivity]). subst s0.
        destruct (IsNoSuchKey s); apply Val_inj in E, E'; subst; apply agree_t_same.
      + assert (E1 : r = VOptional (Some q)) by (destruct q; try discriminate Q; apply Val_inj in E; auto).
        assert (E2 : r' = VOptional (Some q')) by (destruct q'; try discriminate He; apply Val_inj in E'; auto).
        subst. now apply agree_t_optional.
  Qed.
  Lemma acc_two a b : acc_IsEmpty (acc_MaybeAdd (acc_MaybeAdd acc_new a) b) =
    negb (is_unknown a) && negb (is_unknown b).
  Proof. destruct a, b; cbn; rewrite ?andb_false_r; reflexivity. Qed.
  Lemma index_cov a b a' b' x y : index = true -> covers a a' -> covers b b' -> kx a' -> kx b' ->
    IndexStep C a b = Val x -> IndexStep D a' b' = Val y -> covers x y.
  Proof.
    intros Hidx Ha Hb Ka Kb Ex Ey. unfold IndexStep in Ex, Ey. rewrite unk_on, acc_two in Ex.
    rewrite unk_off in Ey. cbn [andb] in Ex, Ey.
    change (unknown_exact D None) with (@None value) in Ey.
    destruct (is_unknown (fst a)) eqn:Ua; cbn [negb andb] in Ex; [injection Ex as <-; apply cov_unknown|].
    destruct (is_unknown (fst b)) eqn:Ub; cbn [negb andb] in Ex; [injection Ex as <-; apply cov_unknown|].
    cbv iota in Ey. binds Ey. apply Val_inj in Ey. subst y. cbn [completed cf_opts o_heterogeneous o_optional_types] in Heqo.
    set (t := trail_step (snd a) (qualifier_of (fst b))) in *.
    assert (Hex : (exists u, unknown_exact C t = Some (VUnknown u)) \/
              (unknown_exact C t = None /\ forall q, snd a = Some q -> ~ marked P (child q (qualifier_of (fst b))))).
    { unfold t. destruct (snd a) as [q|]; cbn [trail_step].
      - fold (child q (qualifier_of (fst b))). destruct (exact_cases (child q (qualifier_of (fst b)))) as [[H E]|[H E]].
        + left. eauto.
        + right. split; [exact E|]. intros q' [= <-]. exact H.
      - right. split; [|discriminate]. unfold unknown_exact. cbn [CheckForUnknown]. now rewrite andb_false_r. }
    destruct Hex as [[u Eu]|[Eu Hm]]; rewrite Eu in Ex; [injection Ex as <-; apply cov_unknown|].
    binds Ex. apply Val_inj in Ex. subst x.
    destruct (is_error (fst a)) eqn:Ea.
    { pose proof (cov_error _ _ Ha Ea) as Ea'. destruct (fst a); try discriminate Ea. destruct (fst a'); try discriminate Ea'.
      cbn [PerformLookup] in *. apply Val_inj in Heqo, Heqo0. subst. now apply cov_errors. }
    assert (Ea' : is_error (fst a') = false).
    { rewrite <- (agree_t_error _ _ _ _ (cov_plain _ _ Ha Ua Ea)). exact Ea. }
    destruct (is_error (fst b)) eqn:Eb.
    { pose proof (cov_error _ _ Hb Eb) as Eb'. destruct (fst b); try discriminate Eb. destruct (fst b'); try discriminate Eb'.
      assert (E1 : forall c s, is_error c = false -> PerformLookup (o_heterogeneous (cf_opts C))
                 (o_optional_types (cf_opts C)) c (VError s) = Val (VError s))
        by (intros c s' Hc; destruct c; try discriminate Hc; reflexivity).
      rewrite E1 in Heqo, Heqo0 by auto. apply Val_inj in Heqo, Heqo0. subst. now apply cov_errors. }
    assert (Eb' : is_error (fst b') = false).
    { rewrite <- (agree_t_error _ _ _ _ (cov_plain _ _ Hb Ub Eb)). exact Eb. }
    right. right. cbn [fst snd]. unfold t.
    apply (perform_cov (snd a) (o_heterogeneous (cf_opts C)) (o_optional_types (cf_opts C)) (fst a) (fst a') (fst b) (fst b'));
      auto using cov_plain, cov_key.
  Qed.
  Lemma not_cov a b : covers a b -> covers (NotStepT C a) (NotStepT D b).
  Proof.
    intros H. unfold NotStepT. change (unknown_partial D (snd b)) with (@None value). rewrite unk_on, unk_off.
    destruct (partial_cases (snd a)) as [[Hp (q & Eq & E)]|[Hp E]]; rewrite E.
    - left. cbn [fst]. unfold NotStep. rewrite Hp, Eq. reflexivity.
    - unfold NotStep. rewrite Hp. cbn [andb].
      destruct (is_unknown (fst a)) eqn:U; [left; destruct (fst a); try discriminate U; reflexivity|].
      destruct (is_error (fst a)) eqn:Ea.
      { pose proof (cov_error _ _ H Ea) as Eb. destruct (fst a); try discriminate Ea.
        destruct (fst b); try discriminate Eb. now apply cov_errors. }
      rewrite (cov_equal _ _ H U Ea Hp). destruct (fst b); apply cov_same.
  Qed.

  Lemma pair_cases a b : (exists s, pair_unknowns C a b = Some (VUnknown s)) \/
    (pair_unknowns C a b = None /\ is_unknown (fst a) = false /\ is_unknown (fst b) = false /\
     CheckForUnknown P (snd a) true = false /\ CheckForUnknown P (snd b) true = false).
  Proof.
    unfold pair_unknowns. rewrite unk_on. cbv zeta.
    assert (G : forall acc v t, acc_IsEmpty (acc_MaybeAddTrail P acc v t) = true ->
              acc_IsEmpty acc = true /\ is_unknown v = false /\ CheckForUnknown P t true = false).
    { clear. intros [s p] v t. unfold acc_MaybeAddTrail, acc_IsEmpty. cbn [acc_set acc_present].
      destruct v; try discriminate; cbn [is_unknown];
        (destruct (CheckForUnknown P t true) eqn:E; [|auto]); (destruct t as [a|]; [|discriminate E]);
        cbn [acc_set acc_present];
        (destruct (set_insert a s) eqn:K; [|rewrite andb_false_r; discriminate]);
        destruct s as [|z s]; cbn [set_insert] in K; try discriminate K;
        (destruct (attr_ltb a z); [discriminate K|destruct (attr_ltb z a); discriminate K]). }
    destruct (acc_IsEmpty _) eqn:E; [right|left; eexists; reflexivity].
    split; [reflexivity|]. apply G in E. destruct E as (E & H1 & H2). apply G in E. tauto.
  Qed.
  (* equality and membership *)
  Lemma binary_cov (f : value -> value -> out value) a b a' b' x y :
    covers a a' -> covers b b' ->
    (if is_error (fst a) then Val (fst a, None)
     else if is_error (fst b) then Val (fst b, None)
     else match pair_unknowns C a b with
          | Some u => Val (u, None)
          | None => obind (f (fst a) (fst b)) (fun r => Val (r, None))
          end) = Val x ->
    (if is_error (fst a') then Val (fst a', None)
     else if is_error (fst b') then Val (fst b', None)
     else match pair_unknowns D a' b' with
          | Some u => Val (u, None)
          | None => obind (f (fst a') (fst b')) (fun r => Val (r, None))
          end) = Val y -> covers x y.
  Proof.
    intros Ha Hb Ex Ey. change (pair_unknowns D a' b') with (@None value) in Ey.
    destruct (is_error (fst a)) eqn:Ea.
    { apply Val_inj in Ex. subst x. pose proof (cov_error _ _ Ha Ea) as Ea'. rewrite Ea' in Ey.
      apply Val_inj in Ey. subst y. right. left. auto. }
    destruct (is_error (fst b)) eqn:Eb.
    { apply Val_inj in Ex. subst x. pose proof (cov_error _ _ Hb Eb) as Eb'. rewrite Eb' in Ey.
      destruct (is_error (fst a')) eqn:Ea'; apply Val_inj in Ey; subst y; right; left; auto. }
    destruct (pair_cases a b) as [[s Es]|(Es & U1 & U2 & C1 & C2)]; rewrite Es in Ex.
    { apply Val_inj in Ex. subst x. apply cov_unknown. }
    rewrite <- (cov_equal _ _ Ha U1 Ea C1), <- (cov_equal _ _ Hb U2 Eb C2), Ea, Eb in Ey.
    destruct (f (fst a) (fst b)); cbn [obind] in *; try discriminate. apply Val_inj in Ex, Ey. subst. apply cov_same.
  Qed.

  Lemma cov_find l l' : Forall2 covers l l' -> find is_error (map fst l) <> None ->
    find is_error (map fst l') <> None.
  Proof.
    induction 1 as [|x y l l' H Hl IH]; cbn [map find]; [auto|]. intros E.
    destruct (is_error (fst x)) eqn:Ex; [rewrite (cov_error _ _ H Ex); discriminate|].
    destruct (is_error (fst y)); [discriminate|auto].
  Qed.
  Lemma find_is_error l e : find is_error l = Some e -> is_error e = true.
  Proof. intros H. now apply find_some in H. Qed.
  Lemma merge_unknown l : forall r, (r <> None \/ existsb is_unknown l = true) -> MergeUnknowns_loop r l <> None.
  Proof.
    induction l as [|v l IH]; intros r H; cbn [MergeUnknowns_loop].
    - destruct H as [H|H]; [exact H|discriminate].
    - destruct v; try (apply IH; exact H). apply IH. left. discriminate.
  Qed.
  Lemma check_unknowns_none l : forall s, CheckForUnknowns_loop P s l true = [] ->
    s = [] /\ Forall (fun t => CheckForUnknown P t true = false) l.
  Proof.
    induction l as [|t l IH]; intros s H; cbn [CheckForUnknowns_loop] in H; [auto|].
    apply IH in H. destruct H as [H Hl]. destruct (CheckForUnknown P t true) eqn:E; [|auto].
    destruct t as [a|]; [|discriminate E]. destruct s as [|z s]; cbn [set_insert] in H; try discriminate H.
    destruct (attr_ltb a z); [discriminate H|]. destruct (attr_ltb z a); discriminate H.
  Qed.
  Lemma literal_cases l : (exists s, literal_unknowns C l = Some s) \/
    (literal_unknowns C l = None /\ existsb is_unknown (map fst l) = false /\
     Forall (fun t => CheckForUnknown P t true = false) (map snd l)).
  Proof.
    unfold literal_unknowns. rewrite unk_on. unfold IdentifyAndMergeUnknowns, CheckForUnknowns, MergeUnknowns.
    destruct (CheckForUnknowns_loop P [] (map snd l) true) eqn:E.
    - apply check_unknowns_none in E. destruct E as [_ E]. destruct (MergeUnknowns_loop None (map fst l)) eqn:M; [eauto|].
      right. split; [reflexivity|]. split; [|exact E]. destruct (existsb is_unknown (map fst l)) eqn:X; [|reflexivity].
      exfalso. revert M. apply merge_unknown. now right.
    - destruct (MergeUnknowns_loop None (map fst l)); eauto.
  Qed.
  Lemma cov_values l l' : Forall2 covers l l' -> find is_error (map fst l) = None ->
    existsb is_unknown (map fst l) = false -> Forall (fun t => CheckForUnknown P t true = false) (map snd l) ->
    map fst l = map fst l'.
  Proof.
    induction 1 as [|x y l l' H Hl IH]; cbn [map find existsb]; [auto|]. intros E U T.
    destruct (is_error (fst x)) eqn:Ex; [discriminate|]. apply orb_false_iff in U. destruct U as [U1 U2].
    inversion T; subst. rewrite (cov_equal _ _ H U1 Ex) by auto. f_equal. auto.
  Qed.
  Lemma literal_cov (f : list value -> out value) l l' x y : Forall2 covers l l' ->
    match find is_error (map fst l) with
    | Some e => Val (e, None)
    | None => match literal_unknowns C l with
              | Some s => Val (VUnknown s, None)
              | None => obind (f (map fst l)) (fun r => Val (r, None))
              end
    end = Val x ->
    match find is_error (map fst l') with
    | Some e => Val (e, None)
    | None => match literal_unknowns D l' with
              | Some s => Val (VUnknown s, None)
              | None => obind (f (map fst l')) (fun r => Val (r, None))
              end
    end = Val y -> covers x y.
  Proof.
    intros H Ex Ey. change (literal_unknowns D l') with (@None attr_set) in Ey.
    destruct (find is_error (map fst l)) as [e|] eqn:E.
    - apply Val_inj in Ex. subst x. pose proof (cov_find _ _ H) as G. rewrite E in G.
      destruct (find is_error (map fst l')) as [e'|] eqn:E'; [|exfalso; apply G; [discriminate|reflexivity]].
      apply Val_inj in Ey. subst y. right. left. split; eapply find_is_error; eauto.
    - destruct (literal_cases l) as [[s Es]|(Es & U & T)]; rewrite Es in Ex.
      + apply Val_inj in Ex. subst x. apply cov_unknown.
      + rewrite <- (cov_values _ _ H E U T), E in Ey.
        destruct (f (map fst l)); cbn [obind] in *; try discriminate. apply Val_inj in Ex, Ey. subst. apply cov_same.
  Qed.

  (* calls *)
  Lemma input_cov l l' : Forall2 covers l l' ->
    let input := call_args true P l in
    (find is_error input <> None -> find is_error (map fst l') <> None) /\
    (find is_error input = None -> existsb is_unknown input = false -> input = map fst l').
  Proof.
    cbv zeta. cbn [call_args]. induction 1 as [|x y l l' H Hl [IH1 IH2]]; cbn [CheckForPartialUnknowns map find existsb].
    - split; auto.
    - fold (CheckForPartialUnknowns P l).
      destruct (CheckForUnknown P (snd x) true) eqn:Cx.
      + destruct (snd x) as [q|]; [|discriminate Cx]. cbn [is_error is_unknown orb]. split; [|discriminate].
        intros E. destruct (is_error (fst y)); [discriminate|auto].
      + destruct (is_error (fst x)) eqn:Ex.
        * rewrite (cov_error _ _ H Ex). split; [discriminate|discriminate].
        * split.
          -- intros E. destruct (is_error (fst y)); [discriminate|auto].
          -- intros E U. apply orb_false_iff in U. destruct U as [U1 U2].
             rewrite (cov_equal _ _ H U1 Ex Cx). f_equal. auto.
  Qed.
  Lemma refused ovs l : (forall o, In o ovs -> ov_strict o = true) ->
    existsb (fun a => is_unknown a || is_error a) l = true -> accepted ovs l = None.
  Proof.
    intros Hst He. unfold accepted, ResolveStatic. destruct (find _ ovs) as [o|] eqn:E; [|reflexivity].
    apply find_some in E. unfold ShouldAcceptOverload. rewrite He, (Hst o) by tauto. reflexivity.
  Qed.
  Lemma find_exists l : find is_error l <> None -> existsb (fun a => is_unknown a || is_error a) l = true.
  Proof.
    induction l as [|v l IH]; cbn [find existsb]; [congruence|]. destruct (is_error v); [now rewrite orb_true_r|].
    intros H. rewrite (IH H). apply orb_true_r.
  Qed.
  Lemma unknown_exists l : existsb is_unknown l = true -> existsb (fun a => is_unknown a || is_error a) l = true.
  Proof.
    induction l as [|v l IH]; cbn [existsb]; [congruence|]. destruct (is_unknown v); [reflexivity|]. cbn [orb].
    intros H. rewrite (IH H). apply orb_true_r.
  Qed.
  Lemma call_cov name rcv ovs l l' v w : incl ovs R -> Forall2 covers l l' ->
    CallFunction (unk C) P name rcv ovs l = Val v -> CallFunction (unk D) (cf_pats D) name rcv ovs l' = Val w ->
    covers (v, None) (w, None).
  Proof.
    intros Hov H. rewrite unk_on, unk_off. unfold CallFunction. destruct (input_cov _ _ H) as [H1 H2].
    cbn [call_args] in *. intros Ev Ew.
    assert (Hst : forall o, In o ovs -> ov_strict o = true).
    { intros o Hin. unfold all_strict in HR. rewrite Forall_forall in HR. apply HR, Hov, Hin. }
    destruct (find is_error (CheckForPartialUnknowns P l)) as [e|] eqn:E.
    - assert (N : find is_error (map fst l') <> None) by (apply H1; discriminate).
      rewrite refused in Ev by (auto; apply find_exists; congruence).
      rewrite refused in Ew by (auto; now apply find_exists).
      apply Val_inj in Ev, Ew. subst. unfold NoOverloadResult. rewrite E.
      destruct (find is_error (map fst l')) as [e'|] eqn:E'; [|congruence].
      right. left. split; eapply find_is_error; eauto.
    - destruct (existsb is_unknown (CheckForPartialUnknowns P l)) eqn:U.
      + rewrite refused in Ev by (auto; now apply unknown_exists). apply Val_inj in Ev. subst v.
        unfold NoOverloadResult. rewrite E. unfold MergeUnknowns.
        destruct (MergeUnknowns_loop None _) eqn:M; [apply cov_unknown|].
        exfalso. revert M. apply merge_unknown. now right.
      + rewrite <- (H2 eq_refl eq_refl) in Ew. destruct (accepted ovs _) as [o|].
        * replace w with v by congruence. apply cov_same.
        * apply Val_inj in Ev, Ew. subst. unfold NoOverloadResult. rewrite E. unfold MergeUnknowns.
          assert (M : MergeUnknowns_loop None (CheckForPartialUnknowns P l) = None).
          { revert U. generalize (CheckForPartialUnknowns P l). clear. induction l as [|v l IH]; [reflexivity|].
            cbn [existsb]. destruct v; try discriminate; cbn [is_unknown orb MergeUnknowns_loop]; exact IH. }
          rewrite M. apply cov_same.
  Qed.

  Definition op_ok (op : sop) : Prop :=
    match op with
    | OCall _ _ ovs => incl ovs R
    | OIndex => index = true
    | ONotStrictlyFalse => False
    | _ => True
    end.
  Lemma apply_cov op l l' x y : op_ok op -> Forall2 covers l l' -> Forall kx l' ->
    apply_op C op l = Val x -> apply_op D op l' = Val y -> covers x y.
  Proof.
    intros Hop H Hk. destruct op; cbn [op_ok] in Hop; try contradiction.
    1-5: destruct H as [|a a' l l' Ha Hl]; [discriminate|]; destruct Hl as [|b b' l l' Hb Hl];
      [try discriminate|try (cbn [apply_op]; discriminate)];
      try (destruct Hl as [|? ? ? ? _ _]; [|discriminate]).
    - cbn [apply_op]. now apply select_cov.
    - cbn [apply_op]. exact (index_cov _ _ _ _ _ _ Hop Ha Hb (Forall_inv Hk) (Forall_inv (Forall_inv_tail Hk))).
    - cbn [apply_op]. intros Ex Ey. apply Val_inj in Ex, Ey. subst. now apply not_cov.
    - cbn [apply_op]. now apply (binary_cov (EvaluateEquality negation)).
    - cbn [apply_op]. now apply (binary_cov EvaluateIn).
    - cbn [apply_op]. intros Ex Ey. binds Ex. binds Ey. apply Val_inj in Ex, Ey. subst. eapply call_cov; eauto.
    - cbn [apply_op]. apply (literal_cov (fun l => list_loop opts l [])). exact H.
    - cbn [apply_op]. unfold MapStep. change (cf_reorder D) with (cf_reorder C).
      apply (literal_cov (fun l => map_loop (cf_reorder C) opts l [])). exact H.
  Qed.

  (* ---- expressions ---- *)
  Definition kn (o : out vt) : Prop := forall y, o = Val y -> kx y.
  Definition cov (o o' : out vt) : Prop := kn o' /\ forall x y, o = Val x -> o' = Val y -> covers x y.
  Definition ecov (rho rho' : env) : Prop :=
    forall z, match rho z, rho' z with
              | None, None => True
              | Some o, Some o' => cov o o'
              | _, _ => False
              end.
  Lemma cov_val x y : covers x y -> kx y -> cov (Val x) (Val y).
  Proof.
    intros H K. split; [intros b Eb; apply Val_inj in Eb; now subst|].
    intros a b Ea Eb. apply Val_inj in Ea, Eb. now subst.
  Qed.
  Lemma cov_bind o o' k k' : cov o o' -> (forall x y, covers x y -> kx y -> cov (k x) (k' y)) ->
    cov (obind o k) (obind o' k').
  Proof.
    intros [H1 H2] Hk. split.
    - intros y Ey. destruct o' as [b|?|]; cbn [obind] in Ey; try discriminate.
      exact (proj1 (Hk (VUnknown [], None) b (cov_unknown _ _ _) (H1 b eq_refl)) y Ey).
    - intros x y Ex Ey. destruct o as [a|?|]; cbn [obind] in Ex; try discriminate.
      destruct o' as [b|?|]; cbn [obind] in Ey; try discriminate.
      exact (proj2 (Hk a b (H2 a b eq_refl eq_refl) (H1 b eq_refl)) x y Ex Ey).
  Qed.
  Lemma ecov_bind z o o' rho rho' : cov o o' -> ecov rho rho' -> ecov (bind_local z o rho) (bind_local z o' rho').
  Proof. intros H Hr q. unfold bind_local. destruct (String.eqb z q); [exact H|apply Hr]. Qed.
  Lemma cov_ub o : cov o UB.
  Proof. split; [intros y E; discriminate E|]. intros x y _ E. discriminate E. Qed.

  Lemma kn_sequence l : Forall kn l -> forall ys, sequence l = Val ys -> Forall kx ys.
  Proof.
    induction 1 as [|o l H Hl IH]; intros ys Ey; cbn [sequence] in *.
    - apply Val_inj in Ey. subst. constructor.
    - destruct o as [y|?|]; cbn [obind] in Ey; try discriminate.
      destruct (sequence l) as [ws|?|]; cbn [obind] in Ey; try discriminate.
      apply Val_inj in Ey. subst. constructor; auto.
  Qed.
  Lemma cov_sequence l l' : Forall2 cov l l' -> forall xs ys, sequence l = Val xs -> sequence l' = Val ys ->
    Forall2 covers xs ys.
  Proof.
    induction 1 as [|o o' l l' H Hl IH]; intros xs ys Ex Ey; cbn [sequence] in *.
    - apply Val_inj in Ex, Ey. subst. auto.
    - destruct o as [x|?|]; cbn [obind] in Ex; try discriminate.
      destruct o' as [y|?|]; cbn [obind] in Ey; try discriminate.
      destruct (sequence l) as [vs|?|]; cbn [obind] in Ex; try discriminate.
      destruct (sequence l') as [ws|?|]; cbn [obind] in Ey; try discriminate.
      apply Val_inj in Ex, Ey. subst. constructor; auto. now apply H.
  Qed.
  Lemma cov_kn l l' : Forall2 cov l l' -> Forall kn l'.
  Proof. induction 1 as [|? ? ? ? [H _]]; constructor; auto. Qed.
  Lemma op_ok_reg op : op_ok op -> op_reg R op.
  Proof. destruct op; cbn; auto. Qed.
  Lemma cov_step op l l' : op_ok op -> Forall2 cov l l' ->
    cov (obind (sequence l) (apply_op C op)) (obind (sequence l') (apply_op D op)).
  Proof.
    intros Hop Hl. pose proof (kn_sequence _ (cov_kn _ _ Hl)) as K. split.
    - intros y Ey. destruct (sequence l') as [ys|?|] eqn:E'; cbn [obind] in Ey; try discriminate.
      exact (apply_known D R unk_off HK op ys y (op_ok_reg op Hop) (K ys eq_refl) Ey).
    - intros x y Ex Ey. destruct (sequence l) as [xs|?|] eqn:E; cbn [obind] in Ex; try discriminate.
      destruct (sequence l') as [ys|?|] eqn:E'; cbn [obind] in Ey; try discriminate.
      exact (apply_cov op xs ys x y Hop (cov_sequence _ _ Hl xs ys E E') (K ys eq_refl) Ex Ey).
  Qed.

  (* the operands of the logical operators *)
  Definition other (v : value) : bool :=
    match v with VBool _ | VError _ | VUnknown _ => false | _ => true end.
  Lemma cov_class x y : covers x y -> kx y ->
    is_unknown (fst x) = true \/ (exists b, fst x = VBool b /\ fst y = VBool b) \/
    (is_error (fst x) = true /\ is_error (fst y) = true) \/ (other (fst x) = true /\ other (fst y) = true).
  Proof.
    intros H K. apply known_top in K. destruct (is_unknown (fst x)) eqn:U; [auto|].
    destruct (is_error (fst x)) eqn:E; [right; right; left; split; auto; eapply cov_error; eauto|].
    destruct (agree_t_container _ _ _ _ (cov_plain _ _ H U E)) as [Eq|[K1 K2]].
    - rewrite <- Eq. destruct (fst x); try discriminate; eauto 6.
    - right. right. right. destruct (fst x) as [| | | | | | | | | | | |[]| |]; try discriminate K1;
        destruct (fst y) as [| | | | | | | | | | | |[]| |]; try discriminate K2; auto.
  Qed.
  Lemma decides_value op v : M_Logic.decides op v = true -> v = VBool (shortcircuit op).
  Proof. destruct v as [|[]| | | | | | | | | | | | |], op; try discriminate; reflexivity. Qed.
  Lemma calc_right u op a b : M_Logic.decides op b = true -> Calculate u op a b = VBool (shortcircuit op).
  Proof.
    intros H. apply decides_value in H. subst b. destruct op, a as [|[]| | | | | | | | | | | | |]; reflexivity.
  Qed.
  Lemma calc_left u op a b : M_Logic.decides op a = true -> Calculate u op a b = VBool (shortcircuit op).
  Proof. intros H. apply decides_value in H. subst a. destruct op; reflexivity. Qed.
  Lemma calc_unknown op a b : is_unknown a = true \/ is_unknown b = true -> M_Logic.decides op a = false ->
    M_Logic.decides op b = false -> is_unknown (Calculate true op a b) = true.
  Proof.
    intros H. destruct a as [|[]| | | | | | | | | | | | |], b as [|[]| | | | | | | | | | | | |];
      destruct H as [H|H]; try discriminate H; destruct op; try discriminate; reflexivity.
  Qed.
  Lemma calc_error u op a b : is_unknown a = false -> is_unknown b = false -> M_Logic.decides op a = false ->
    M_Logic.decides op b = false -> (is_error a || other a || is_error b || other b) = true ->
    is_error (Calculate u op a b) = true.
  Proof.
    destruct a as [|[]| | | | | | | | | | | | |]; intros H; try discriminate H;
    destruct b as [|[]| | | | | | | | | | | | |]; intros H'; try discriminate H';
      destruct op, u; try discriminate; reflexivity.
  Qed.
  Lemma calc_bools u u' op a b : Calculate u op (VBool a) (VBool b) = Calculate u' op (VBool a) (VBool b).
  Proof. destruct op, a, b; reflexivity. Qed.
  Lemma calc_cov op x y x2 y2 t : covers x y -> covers x2 y2 -> kx y -> kx y2 ->
    covers (Calculate true op (fst x) (fst x2), None) (Calculate false op (fst y) (fst y2), t).
  Proof.
    intros H H2 K K2.
    assert (D2 : M_Logic.decides op (fst x) = true -> M_Logic.decides op (fst y) = true).
    { intros E. pose proof (decides_value _ _ E) as E'. rewrite (cov_bool _ _ _ H E'), <- E'. exact E. }
    assert (D3 : M_Logic.decides op (fst x2) = true -> M_Logic.decides op (fst y2) = true).
    { intros E. pose proof (decides_value _ _ E) as E'. rewrite (cov_bool _ _ _ H2 E'), <- E'. exact E. }
    destruct (M_Logic.decides op (fst x)) eqn:E.
    { rewrite (calc_left true) by exact E. rewrite (calc_left false) by auto. apply cov_same. }
    destruct (M_Logic.decides op (fst x2)) eqn:E2.
    { rewrite (calc_right true) by exact E2. rewrite (calc_right false) by auto. apply cov_same. }
    destruct (is_unknown (fst x)) eqn:U; [left; apply calc_unknown; auto|].
    destruct (is_unknown (fst x2)) eqn:U2; [left; apply calc_unknown; auto|].
    pose proof (known_top _ K) as Ky. pose proof (known_top _ K2) as Ky2.
    assert (F : M_Logic.decides op (fst y) = false /\ M_Logic.decides op (fst y2) = false).
    { clear D2 D3. split.
      - destruct (M_Logic.decides op (fst y)) eqn:Ey; [|reflexivity]. apply decides_value in Ey.
        destruct (cov_class _ _ H K) as [G|[(b & G1 & G2)|[[G1 G2]|[G1 G2]]]]; try congruence;
          rewrite Ey in G2; try discriminate G2. injection G2 as <-. rewrite G1 in E. destruct op; discriminate E.
      - destruct (M_Logic.decides op (fst y2)) eqn:Ey; [|reflexivity]. apply decides_value in Ey.
        destruct (cov_class _ _ H2 K2) as [G|[(b & G1 & G2)|[[G1 G2]|[G1 G2]]]]; try congruence;
          rewrite Ey in G2; try discriminate G2. injection G2 as <-. rewrite G1 in E2. destruct op; discriminate E2. }
    destruct F as [F F2].
    destruct (cov_class _ _ H K) as [G|[(b & G1 & G2)|[[G1 G2]|[G1 G2]]]]; [congruence| | |].
    - destruct (cov_class _ _ H2 K2) as [G|[(b2 & G3 & G4)|[[G3 G4]|[G3 G4]]]]; [congruence| | |].
      + rewrite G1, G2, G3, G4, (calc_bools true false). apply cov_same.
      + right. left. split; cbn [fst]; apply calc_error; auto; rewrite ?G3, ?G4, ?orb_true_r; reflexivity.
      + right. left. split; cbn [fst]; apply calc_error; auto; rewrite ?G3, ?G4, ?orb_true_r; reflexivity.
    - right. left. split; cbn [fst]; apply calc_error; auto; rewrite ?G1, ?G2, ?orb_true_r; reflexivity.
    - right. left. split; cbn [fst]; apply calc_error; auto; rewrite ?G1, ?G2, ?orb_true_r; reflexivity.
  Qed.
  Lemma calc_off_known op a b : known (Calculate false op a b) \/ is_unknown a = true \/ is_unknown b = true.
  Proof.
    destruct (is_unknown a) eqn:U; [auto|]. destruct (is_unknown b) eqn:U2; [auto|]. left.
    destruct a as [|[]| | | | | | | | | | | | |]; try discriminate U;
    destruct b as [|[]| | | | | | | | | | | | |]; try discriminate U2; destruct op;
      try apply known_bool; apply known_error.
  Qed.
  Lemma cov_logic op a a' b b' : cov a a' -> cov b b' -> cov (logic_outcome C op a b) (logic_outcome D op a' b').
  Proof.
    intros Ha Hb. unfold logic_outcome. change (sc D) with (sc C). unfold sc. rewrite Hs, unk_on, unk_off. cbn [andb].
    apply cov_bind; [exact Ha|]. intros x y H K.
    destruct (M_Logic.decides op (fst x)) eqn:E.
    { pose proof (decides_value _ _ E) as E'. rewrite (cov_bool _ _ _ H E'). rewrite <- E', E. now apply cov_val. }
    destruct (M_Logic.decides op (fst y)) eqn:E2.
    - split; [intros w Ew; apply Val_inj in Ew; now subst|].
      intros z w Ez Ew. apply Val_inj in Ew. subst w.
      assert (U : is_unknown (fst x) = true).
      { pose proof (decides_value _ _ E2) as Ey.
        destruct (cov_class _ _ H K) as [G|[(c & G1 & G2)|[[G1 G2]|[G1 G2]]]]; auto;
          try (rewrite Ey in G2; discriminate G2). rewrite G1, <- G2, E2 in E. discriminate E. }
      destruct b as [q|?|]; cbn [obind] in Ez; try discriminate. apply Val_inj in Ez. subst z.
      destruct (M_Logic.decides op (fst q)) eqn:Eq.
      + rewrite calc_right by exact Eq. right. right. cbn [fst snd agree_t]. symmetry. now apply decides_value.
      + left. cbn [fst]. apply calc_unknown; auto.
    - apply cov_bind; [exact Hb|]. intros x2 y2 H2 K2. apply cov_val; [now apply calc_cov|].
      unfold kx. cbn [fst]. apply calc_known; assumption.
  Qed.
  Lemma cov_chain op l l' : Forall2 cov l l' -> forall a a', cov a a' ->
    cov (fold_left (logic_outcome C op) l a) (fold_left (logic_outcome D op) l' a').
  Proof.
    induction 1 as [|b b' l l' Hb Hl IH]; intros a a' Ha; cbn [fold_left]; [exact Ha|].
    apply IH. now apply cov_logic.
  Qed.
  Lemma cov_cond c c' a a' b b' : cov c c' -> cov a a' -> cov b b' ->
    cov (obind c (fun x => match BoolCheck x with Some r => Val r | None => if is_true (fst x) then a else b end))
        (obind c' (fun x => match BoolCheck x with Some r => Val r | None => if is_true (fst x) then a' else b' end)).
  Proof.
    intros Hc Ha Hb. apply cov_bind; [exact Hc|]. intros x y H K.
    destruct (cov_class _ _ H K) as [G|[(q & G1 & G2)|[[G1 G2]|[G1 G2]]]].
    - split.
      + intros w Ew. unfold BoolCheck in Ew. destruct (fst y) eqn:Ey;
          try (apply Val_inj in Ew; subst w; unfold kx; cbn [fst]; rewrite ?Ey; apply known_error).
        * destruct (is_true _); [exact (proj1 Ha w Ew)|exact (proj1 Hb w Ew)].
        * apply known_top in K. rewrite Ey in K. discriminate K.
      + intros z w Ez Ew. unfold BoolCheck in Ez. destruct (fst x) eqn:Ex; try discriminate G.
        apply Val_inj in Ez. subst z. left. now rewrite Ex.
    - unfold BoolCheck. rewrite G1, G2. destruct (is_true (VBool q)); assumption.
    - unfold BoolCheck. destruct (fst x) eqn:Ex; try discriminate G1. destruct (fst y) eqn:Ey; try discriminate G2.
      apply cov_val; [|exact K]. right. left. now rewrite Ex, Ey.
    - unfold BoolCheck. destruct (fst x); try discriminate G1; destruct (fst y); try discriminate G2;
        (apply cov_val; [apply cov_same|apply known_error]).
  Qed.
  Lemma cov_call fn rcv l l' : is_nsf_name fn = false ->
    (String.eqb fn "_[_]" = true -> index = true) ->
    (String.eqb fn "or" || String.eqb fn "orValue" = true -> optional = true) ->
    Forall2 cov l l' -> cov (call_outcome C R fn rcv l) (call_outcome D R fn rcv l').
  Proof.
    intros Hnsf Hidx Hor H.
    assert (Hlen : List.length l = List.length l') by (clear - H; induction H; cbn; auto).
    unfold call_outcome. change (sc D) with (sc C). unfold sc. rewrite Hs. cbv zeta.
    change (fast_equality (cf_opts D) R) with (fast_equality (cf_opts C) R).
    cbn [completed cf_opts o_optional_types o_fast_builtins o_heterogeneous]. rewrite Hlen.
    destruct (String.eqb fn "_&&_"). { destruct H; [apply cov_ub|]. now apply cov_chain. }
    destruct (String.eqb fn "_||_"). { destruct H; [apply cov_ub|]. now apply cov_chain. }
    destruct (String.eqb fn "_?_:_").
    { destruct H as [|c c' l l' Hc Hl]; [apply cov_ub|]. destruct Hl as [|a a' l l' Ha Hl]; [apply cov_ub|].
      destruct Hl as [|b b' l l' Hb Hl]; [apply cov_ub|]. destruct Hl; [|apply cov_ub]. now apply cov_cond. }
    destruct (String.eqb fn "_[_]"). { apply cov_step; [apply Hidx; reflexivity|exact H]. }
    destruct (String.eqb fn "or" || String.eqb fn "orValue").
    { rewrite (Ho (Hor eq_refl)). cbn [andb].
      rewrite Hnsf, andb_false_r.
      destruct (_ && String.eqb fn "!_"); [now apply cov_step|].
      destruct (_ && is_in_name fn); [now apply cov_step|].
      destruct (_ && String.eqb fn "_==_"); [now apply cov_step|].
      destruct (_ && String.eqb fn "_!=_"); [now apply cov_step|].
      apply cov_step; [|exact H]. cbn [op_ok]. apply by_arity. }
    rewrite !andb_false_r. rewrite Hnsf, andb_false_r.
    destruct (_ && String.eqb fn "!_"); [now apply cov_step|].
    destruct (_ && is_in_name fn); [now apply cov_step|].
    destruct (_ && String.eqb fn "_==_"); [now apply cov_step|].
    destruct (_ && String.eqb fn "_!=_"); [now apply cov_step|].
    apply cov_step; [|exact H]. cbn [op_ok]. apply by_arity.
  Qed.

  (* ---- loops ---- *)
  Definition item (t : trail) (kv kv' : value * value) : Prop :=
    fst kv = fst kv' /\ known (fst kv') /\ known (snd kv') /\
    match t with
    | None => snd kv = snd kv'
    | Some a => ~ marked P (child a (qualifier_of (fst kv))) ->
                agree P (child a (qualifier_of (fst kv))) (snd kv) (snd kv')
    end.
  Lemma item_same t kv : known (fst kv) -> known (snd kv) -> item t kv kv.
  Proof. intros H1 H2. unfold item. split; [reflexivity|]. split; [exact H1|]. split; [exact H2|]. destruct t; auto. constructor. Qed.
  Lemma list_items_same t l : Forall known l -> forall i, Forall2 (item t) (list_items i l) (list_items i l).
  Proof.
    induction 1; intros i; cbn [list_items]; constructor; auto. apply item_same; [apply known_int|assumption].
  Qed.
  Lemma list_items_agree a l : forall m i, List.length l = List.length m -> 0 <= i ->
    i + Z.of_nat (List.length l) < 2 ^ 63 -> Forall known m ->
    (forall j v w, ~ marked P (child a (QInt (i + Z.of_nat j))) ->
       nth_error l j = Some v -> nth_error m j = Some w -> agree P (child a (QInt (i + Z.of_nat j))) v w) ->
    Forall2 (item (Some a)) (list_items i l) (list_items i m).
  Proof.
    induction l as [|v l IH]; intros [|w m] i Hlen H0 H1 Hk H; try discriminate; cbn [list_items]; [constructor|].
    apply Forall_cons_iff in Hk. destruct Hk as [Hk1 Hk2]. cbn [List.length] in *. constructor.
    - assert (Ei : index_value i = VInt i).
      { unfold index_value. f_equal. rewrite Z.mod_small; lia. }
      unfold item. cbn [fst snd]. rewrite Ei. split; [reflexivity|]. split; [apply known_int|]. split; [exact Hk1|]. cbn [qualifier_of]. intros Hm.
      pose proof (H 0%nat v w) as G. rewrite Z.add_0_r in G. now apply G.
    - apply IH; auto; try lia. intros j v' w' Hm Hv Hw.
      replace (i + 1 + Z.of_nat j) with (i + Z.of_nat (S j)) in * by lia. now apply (H (S j)).
  Qed.
  Lemma init_cov r r' : covers r r' -> kx r' ->
    (exists q, comp_init C r = inl q /\ is_unknown (fst q) = true /\
       forall q', comp_init D r' = inl q' -> kx q') \/
    (exists q q', comp_init C r = inl q /\ comp_init D r' = inl q' /\ covers q q' /\ kx q') \/
    (exists b items items', comp_init C r = inr (b, items) /\ comp_init D r' = inr (b, items') /\
       Forall2 (item (snd r)) items items').
  Proof.
    intros H K.
    assert (Kq : forall q', comp_init D r' = inl q' -> kx q').
    { intros q'. unfold comp_init. change (unknown_partial D (snd r')) with (@None value).
      destruct (fst r') eqn:Er; try discriminate; intros [= <-]; try apply known_error; exact K. }
    destruct r as [v t], r' as [v' t']. cbn [fst snd] in *.
    destruct (is_unknown v) eqn:U.
    { left. exists (v, t). destruct v; try discriminate U. auto. }
    destruct (is_error v) eqn:Ev.
    { right. left. pose proof (cov_error _ _ H Ev) as Ev'. cbn [fst] in Ev'. exists (v, t), (v', t').
      destruct v; try discriminate Ev. destruct v'; try discriminate Ev'.
      split; [reflexivity|]. split; [reflexivity|]. split; [now apply cov_errors|exact K]. }
    pose proof (cov_plain _ _ H U Ev) as Ha. cbn [fst snd] in Ha.
    assert (Hother : comp_init C (v, t) = inl (VError (no_matching_overload "<iter_range>"), None) ->
      comp_init D (v', t') = inl (VError (no_matching_overload "<iter_range>"), None) ->
      exists q q', comp_init C (v, t) = inl q /\ comp_init D (v', t') = inl q' /\ covers q q' /\ kx q').
    { intros E1 E2. eexists. eexists. split; [exact E1|]. split; [exact E2|].
      split; [apply cov_same|apply known_error]. }
    destruct (agree_t_container _ _ _ _ Ha) as [<-|[K1 K2]].
    - destruct v; try discriminate; try (right; left; apply Hother; reflexivity).
      + right. right. exists false, (list_items 0 l), (list_items 0 l). split; [reflexivity|]. split; [reflexivity|].
        apply list_items_same. now apply known_list.
      + destruct (partial_cases t) as [[Hp (a & Et & E)]|[Hp E]].
        * left. eexists. unfold comp_init at 1. cbn [fst snd]. rewrite E. split; [reflexivity|]. auto.
        * right. right. exists true, (map_items m), (map_items m). unfold comp_init at 1. cbn [fst snd]. rewrite E.
          split; [reflexivity|]. split; [reflexivity|]. apply known_map in K. clear - K.
          unfold map_items. induction K; cbn [map]; constructor; auto. apply item_same; [apply known_key|assumption].
    - destruct v as [| | | | | | | | | |l|m|[v|]| |]; try discriminate K1.
      + right. right. destruct t as [a|].
        * assert (Hv' : exists l', v' = VList l') by (inversion Ha; eauto). destruct Hv' as [l' ->].
          exists false, (list_items 0 l), (list_items 0 l'). split; [reflexivity|]. split; [reflexivity|].
          apply known_list in K. inversion Ha as [|? ? ? Hb Hl Hs' Hc| |]; subst; [now apply list_items_same|].
          apply list_items_agree; auto; lia.
        * cbn [agree_t] in Ha. subst v'. exists false, (list_items 0 l), (list_items 0 l).
          split; [reflexivity|]. split; [reflexivity|]. apply list_items_same. now apply known_list.
      + destruct (partial_cases t) as [[Hp (a & Et & E)]|[Hp E]].
        * left. eexists. unfold comp_init at 1. cbn [fst snd]. rewrite E. split; [reflexivity|]. auto.
        * pose proof (agree_t_equal _ _ _ _ Ha Hp) as <-.
          right. right. exists true, (map_items m), (map_items m). unfold comp_init at 1. cbn [fst snd]. rewrite E.
          split; [reflexivity|]. split; [reflexivity|]. apply known_map in K. clear - K.
          unfold map_items. induction K; cbn [map]; constructor; auto. apply item_same; [apply known_key|assumption].
      + right. left. apply Hother; [reflexivity|].
        destruct v' as [| | | | | | | | | |l|m|[w|]| |]; try discriminate K2; try reflexivity;
          (destruct t; [inversion Ha|discriminate Ha]).
  Qed.

  Lemma env_cov x x2 y b t t' kv kv' a a' rho rho' : ecov rho rho' -> item t kv kv' ->
    covers a a' -> kx a' -> ecov (loop_env C x x2 y b t kv a rho) (loop_env D x x2 y b t' kv' a' rho').
  Proof.
    intros Hr (E1 & K1 & K2 & Hsnd) Ha Ka. unfold loop_env, iter_one, iter_two. rewrite unk_on, unk_off.
    assert (Hitem : cov (Val (match unknown_exact C (trail_step t (qualifier_of (fst kv))) with
                              | Some u => (u, trail_step t (qualifier_of (fst kv)))
                              | None => (snd kv, trail_step t (qualifier_of (fst kv))) end)) (Val (snd kv', None))).
    { apply cov_val; [|exact K2]. destruct t as [q|]; cbn [trail_step].
      - fold (child q (qualifier_of (fst kv))).
        destruct (exact_cases (child q (qualifier_of (fst kv)))) as [[Hm E]|[Hm E]]; rewrite E; [apply cov_unknown|].
        right. right. cbn [fst snd agree_t]. auto.
      - unfold unknown_exact. cbn [CheckForUnknown]. rewrite andb_false_r. rewrite Hsnd. apply cov_same. }
    assert (Hkey : forall q, cov (Val (fst kv, q)) (Val (fst kv', None))).
    { intros q. apply cov_val; [|exact K1]. rewrite E1. apply cov_same. }
    destruct (String.eqb x2 "").
    - apply ecov_bind; [|apply ecov_bind; [now apply cov_val|exact Hr]]. destruct b.
      + destruct (unknown_exact C (trail_step t (qualifier_of (fst kv)))) as [u|] eqn:E; [|apply Hkey].
        apply cov_val; [|exact K1]. left. cbn [fst]. unfold unknown_exact in E. destruct (_ && _); [|discriminate].
        destruct (trail_step t _); [|discriminate]. injection E as <-. reflexivity.
      + exact Hitem.
    - cbn [fst snd]. apply ecov_bind; [apply Hkey|]. apply ecov_bind; [exact Hitem|].
      apply ecov_bind; [now apply cov_val|exact Hr].
  Qed.

  Section Loop.
    Variables cond cond' step step' : value * value -> vt -> out vt.
    Variables res res' : vt -> out vt.
    Variable t : trail.
    (* what the completed accumulators are like *)
    Variable G : vt -> Prop.
    (* the accumulator of a completed loop that ended early, and those the
       partial loop can still have *)
    Variable early : Prop.
    Variable s : value.
    Definition late (v : value) : Prop := early /\ (is_unknown v = true \/ v = s).
    Hypothesis Hcond : forall kv kv' a a' c c', item t kv kv' -> covers a a' -> kx a' -> G a' ->
      cond kv a = Val c -> cond' kv' a' = Val c' ->
      covers c c' \/ (fst c = VBool true /\ fst c' = VBool false /\ late (fst a) /\ fst a' = s).
    Hypothesis Kcond : forall kv' a', known (fst kv') -> known (snd kv') -> kx a' -> kn (cond' kv' a').
    Hypothesis Hstep : forall kv kv' a a', item t kv kv' -> covers a a' -> kx a' -> cov (step kv a) (step' kv' a').
    Hypothesis Gstep : forall kv' a' b', G a' -> step' kv' a' = Val b' -> G b'.
    Hypothesis Hres : forall a a', covers a a' -> kx a' -> cov (res a) (res' a').
    Hypothesis Lcond : forall kv a c, late (fst a) -> cond kv a = Val c -> exists b, fst c = VBool b.
    Hypothesis Lstep : forall kv a b, late (fst a) -> step kv a = Val b -> late (fst b).

    Lemma late_loop items : forall a x, late (fst a) -> eval_loop true cond step res items a = Val x ->
      exists b, late (fst b) /\ res b = Val x.
    Proof.
      induction items as [|kv items IH]; intros a x Ha E; cbn [eval_loop] in E; [eauto|].
      destruct (cond kv a) as [c|?|] eqn:Ec; cbn [obind] in E; try discriminate.
      destruct (Lcond kv a c Ha Ec) as [b Eb]. unfold loop_condition in E. rewrite Eb in E.
      destruct b; cbn [negb andb] in E; [|eauto].
      destruct (step kv a) as [b|?|] eqn:Es; cbn [obind] in E; try discriminate. eauto.
    Qed.
    Lemma kn_loop items : Forall (fun kv => known (fst kv) /\ known (snd kv)) items -> forall a, kx a ->
      kn (eval_loop true cond' step' res' items a).
    Proof.
      induction 1 as [|kv items [K1 K2] Hi' IH]; intros a Ka; cbn [eval_loop].
      - exact (proj1 (Hres (VUnknown [], None) a (cov_unknown _ _ _) Ka)).
      - intros y E. destruct (cond' kv a) as [c|?|] eqn:Ec; cbn [obind] in E; try discriminate.
        pose proof (Kcond kv a K1 K2 Ka c Ec) as Kc.
        destruct (loop_condition c) as [r|g] eqn:El.
        + apply Val_inj in E. subst y. unfold loop_condition in El. unfold kx in *.
          destruct (fst c) eqn:F; try discriminate El; injection El as <-; cbn [fst]; rewrite ?F; auto using known_error.
        + destruct (negb g && true).
          * exact (proj1 (Hres (VUnknown [], None) a (cov_unknown _ _ _) Ka) y E).
          * destruct (step' kv a) as [b|?|] eqn:Es; cbn [obind] in E; try discriminate.
            refine (IH b _ y E).
            exact (proj1 (Hstep kv kv (VUnknown [], None) a (item_same _ _ K1 K2) (cov_unknown _ _ _) Ka) b Es).
    Qed.
    Lemma cov_loop items items' : Forall2 (item t) items items' -> forall a a', covers a a' -> kx a' -> G a' ->
      cov (eval_loop true cond step res items a) (eval_loop true cond' step' res' items' a').
    Proof.
      intros H a a' Ha Ka Ga. split.
      { apply kn_loop; [|exact Ka]. clear - H. induction H as [|? ? ? ? (_ & H1 & H2 & _)]; constructor; auto. }
      revert a a' Ha Ka Ga. induction H as [|kv kv' items items' Hkv Hit IH]; intros a a' Ha Ka Ga; cbn [eval_loop].
      { exact (proj2 (Hres a a' Ha Ka)). }
      intros x y Ex Ey.
      destruct (cond kv a) as [c|?|] eqn:Ec; cbn [obind] in Ex; try discriminate.
      destruct (cond' kv' a') as [c'|?|] eqn:Ec'; cbn [obind] in Ey; try discriminate.
      assert (Kc : kx c') by (destruct Hkv as (_ & K1 & K2 & _); exact (Kcond kv' a' K1 K2 Ka c' Ec')).
      destruct (Hcond kv kv' a a' c c' Hkv Ha Ka Ga Ec Ec') as [Hc|(E1 & E2 & L & Es)].
      - destruct (cov_class _ _ Hc Kc) as [U|[(g & G1 & G2)|[[G1 G2]|[G1 G2]]]].
        + unfold loop_condition in Ex. destruct (fst c) eqn:F; try discriminate U. apply Val_inj in Ex. subst x.
          left. now rewrite F.
        + unfold loop_condition in Ex, Ey. rewrite G1 in Ex. rewrite G2 in Ey. destruct (negb g && true).
          * exact (proj2 (Hres a a' Ha Ka) x y Ex Ey).
          * destruct (Hstep kv kv' a a' Hkv Ha Ka) as [S1 S2].
            destruct (step kv a) as [b|?|] eqn:Eb; cbn [obind] in Ex; try discriminate.
            destruct (step' kv' a') as [b'|?|] eqn:Eb'; cbn [obind] in Ey; try discriminate.
            exact (IH b b' (S2 b b' eq_refl eq_refl) (S1 b' eq_refl) (Gstep kv' a' b' Ga Eb') x y Ex Ey).
        + unfold loop_condition in Ex, Ey. destruct (fst c) eqn:F; try discriminate G1.
          destruct (fst c') eqn:F'; try discriminate G2. apply Val_inj in Ex, Ey. subst x y.
          right. left. now rewrite F, F'.
        + unfold loop_condition in Ex, Ey. destruct (fst c); try discriminate G1; destruct (fst c'); try discriminate G2;
            apply Val_inj in Ex, Ey; subst x y; apply cov_same.
      - unfold loop_condition in Ex, Ey. rewrite E1 in Ex. rewrite E2 in Ey. cbn [negb andb] in Ex, Ey.
        destruct (step kv a) as [b|?|] eqn:Eb; cbn [obind] in Ex; try discriminate.
        destruct (late_loop items b x (Lstep kv a b L Eb) Ex) as (b2 & L2 & Er).
        refine (proj2 (Hres b2 a' _ Ka) x y Er Ey). destruct L2 as [_ [L2|L2]]; [now left|].
        right. right. rewrite Es, <- L2. apply agree_t_same.
    Qed.
  End Loop.

  (* the conditions and steps of the macros *)
  Lemma nsf_eval X f (a : vt) : o_fast_builtins (cf_opts X) = true -> is_nsf_name f = true ->
    call_outcome X R f false [Val a] = Val (NotStrictlyFalseStepT a).
  Proof.
    intros HX. unfold is_nsf_name. intros H. apply orb_true_iff in H.
    destruct H as [H|H]; apply String.eqb_eq in H; subst f; unfold call_outcome;
      cbn [andb String.eqb Ascii.eqb Bool.eqb]; rewrite !andb_false_r, HX; reflexivity.
  Qed.
  Lemma not_eval X (a : vt) : o_fast_builtins (cf_opts X) = true ->
    call_outcome X R "!_" false [Val a] = Val (NotStepT X a).
  Proof.
    intros HX. unfold call_outcome. cbn [andb String.eqb Ascii.eqb Bool.eqb is_nsf_name orb].
    rewrite !andb_false_r, HX. reflexivity.
  Qed.
  Lemma name_eval X x x2 y a m t kv ac rho : local_name x x2 y = true -> is_name y a = true ->
    meaning X R a (loop_env X x x2 y m t kv ac rho) = Val ac.
  Proof.
    unfold local_name. intros H Ha. apply andb_true_iff in H. destruct H as [H Hd].
    apply andb_true_iff in H. destruct H as [H1 H2]. apply negb_true_iff in H1, H2.
    destruct a; try discriminate. cbn [is_name] in Ha. apply String.eqb_eq in Ha. subst name.
    assert (E : loop_env X x x2 y m t kv ac rho y = Some (Val ac)).
    { unfold loop_env, bind_local. destruct (String.eqb x2 ""); rewrite H1, ?H2, String.eqb_refl; reflexivity. }
    cbn [meaning]. destruct y as [|ch y]; [now rewrite E|].
    destruct ch as [[] [] [] [] [] [] [] []]; try (now rewrite E). discriminate Hd.
  Qed.
  (* a settled loop is left by its condition either never or when its
     accumulator is the operator's deciding value *)
  Definition guard (op : op_type) (X : config) (a : vt) : vt :=
    NotStrictlyFalseStepT (match op with OpAnd => a | OpOr => NotStepT X a end).
  Lemma settled_cases x x2 y cond step : settled x x2 y cond step = true ->
    cond = EConst (VBool true) \/
    exists f a g b p op, cond = ECall f None [a] /\ step = ECall g None [b; p] /\
      forall X m t kv ac rho, o_fast_builtins (cf_opts X) = true ->
        meaning X R cond (loop_env X x x2 y m t kv ac rho) = Val (guard op X ac) /\
        meaning X R step (loop_env X x x2 y m t kv ac rho) =
          logic_outcome X op (Val ac) (meaning X R p (loop_env X x x2 y m t kv ac rho)).
  Proof.
    unfold settled. intros H.
    destruct cond as [[|[]| | | | | | | | | | | | |]| | |f [tg|] [|e [|? ?]]| | |]; try discriminate H; [now left|].
    right. apply andb_true_iff in H. destruct H as [H Hstep]. apply andb_true_iff in H. destruct H as [Hn Hl].
    destruct step as [| | |g [tg|] [|bb [|p [|? ?]]]| | |]; try discriminate Hstep.
    apply andb_true_iff in Hstep. destruct Hstep as [Hbb Hstep]. apply orb_true_iff in Hstep.
    exists f, e, g, bb, p. destruct Hstep as [Hstep|Hstep]; apply andb_true_iff in Hstep; destruct Hstep as [He Hg];
      apply String.eqb_eq in Hg; subst g.
    - exists OpAnd. split; [reflexivity|]. split; [reflexivity|]. intros X m t kv ac rho HX. split.
      + cbn [meaning map app]. rewrite (name_eval X x x2 y e m t kv ac rho Hl He). now rewrite nsf_eval.
      + cbn [meaning map app]. rewrite (name_eval X x x2 y bb m t kv ac rho Hl Hbb). reflexivity.
    - exists OpOr. split; [reflexivity|]. split; [reflexivity|]. intros X m t kv ac rho HX. split.
      + destruct e as [| | |nf [tg|] [|e' [|? ?]]| | |]; try discriminate He. cbn [is_not_name] in He.
        apply andb_true_iff in He. destruct He as [Hnf He]. apply String.eqb_eq in Hnf. subst nf.
        cbn [meaning map app]. rewrite (name_eval X x x2 y e' m t kv ac rho Hl He), (not_eval X ac HX).
        now rewrite nsf_eval.
      + cbn [meaning map app]. rewrite (name_eval X x x2 y bb m t kv ac rho Hl Hbb). reflexivity.
  Qed.
  Definition accu_ok (a : vt) : Prop := match fst a with VBool _ | VError _ => True | _ => False end.
  Lemma nsf_value a : fst (NotStrictlyFalseStepT a) = NotStrictlyFalseStep (fst a).
  Proof. unfold NotStrictlyFalseStepT. destruct (fst a) eqn:E; cbn [fst]; rewrite ?E; reflexivity. Qed.
  Lemma not_value X a : fst (NotStepT X a) = NotStep (unk X) (cf_pats X) (fst a) (snd a).
  Proof. unfold NotStepT. destruct (unknown_partial X (snd a)); [reflexivity|]. destruct (fst a); reflexivity. Qed.
  Lemma not_off a : fst (NotStepT D a) = match fst a with
      | VBool b => VBool (negb b) | VUnknown _ | VError _ => fst a | _ => VError (no_matching_overload "!_") end.
  Proof. now rewrite not_value. Qed.
  Lemma cov_true c c' : fst c = fst c' -> is_container (fst c) = false -> covers c c'.
  Proof. intros E _. right. right. rewrite E. apply agree_t_same. Qed.
  Lemma guard_cov op a a' : covers a a' -> kx a' -> accu_ok a' ->
    covers (guard op C a) (guard op D a') \/
    (fst (guard op C a) = VBool true /\ fst (guard op D a') = VBool false /\
     late True (VBool (shortcircuit op)) (fst a) /\ fst a' = VBool (shortcircuit op)).
  Proof.
    intros H K Hok. unfold accu_ok in Hok. unfold late.
    destruct op; unfold guard; cbn [shortcircuit].
    - destruct (cov_class _ _ H K) as [U|[(b & G1 & G2)|[[G1 G2]|[G1 G2]]]].
      + assert (E : fst (NotStrictlyFalseStepT a) = VBool true).
        { rewrite nsf_value. destruct (fst a); try discriminate U; reflexivity. }
        destruct (fst a') as [|[]| | | | | | | | | | | | |] eqn:Ea; try contradiction.
        * left. right. right. rewrite E, nsf_value, Ea. apply agree_t_same.
        * right. rewrite E, nsf_value, Ea. auto 10.
        * left. right. right. rewrite E, nsf_value, Ea. apply agree_t_same.
      + left. right. right. rewrite !nsf_value, G1, G2. apply agree_t_same.
      + left. right. right. rewrite !nsf_value. destruct (fst a); try discriminate G1.
        destruct (fst a'); try discriminate G2. apply agree_t_same.
      + destruct (fst a'); try discriminate G2; contradiction.
    - assert (E : fst (NotStrictlyFalseStepT (NotStepT C a)) = VBool true \/
                  (exists b, fst a = VBool b /\ fst (NotStrictlyFalseStepT (NotStepT C a)) = VBool (negb b)) \/
                  other (fst a) = true).
      { rewrite nsf_value, not_value. unfold NotStep. destruct (unk C && CheckForUnknown P (snd a) true) eqn:Ec.
        - destruct (snd a) as [q|]; [left; reflexivity|]. rewrite andb_false_r in Ec. discriminate Ec.
        - destruct (fst a) eqn:Ea; try (right; right; reflexivity); [right; left; eauto|left; reflexivity|left; reflexivity]. }
      assert (E' : fst (NotStrictlyFalseStepT (NotStepT D a')) =
                   match fst a' with VBool b => VBool (negb b) | _ => VBool true end).
      { rewrite nsf_value, not_off. destruct (fst a') as [|[]| | | | | | | | | | | | |]; try contradiction; reflexivity. }
      destruct (cov_class _ _ H K) as [U|[(b & G1 & G2)|[[G1 G2]|[G1 G2]]]].
      + destruct E as [E|[(b & E & _)|E]]; [|rewrite E in U; discriminate U|destruct (fst a); discriminate].
        destruct (fst a') as [|[]| | | | | | | | | | | | |] eqn:Ea; try contradiction.
        * right. rewrite E, E'. auto 10.
        * left. right. right. rewrite E, E'. apply agree_t_same.
        * left. right. right. rewrite E, E'. apply agree_t_same.
      + rewrite G2 in E'. destruct E as [E|[(b2 & E2 & E)|E]].
        * destruct b; [right; rewrite E, E'; auto 10|]. left. right. right. rewrite E, E'. apply agree_t_same.
        * rewrite G1 in E2. injection E2 as <-. left. right. right. rewrite E, E'. apply agree_t_same.
        * rewrite G1 in E. discriminate E.
      + destruct E as [E|[(b & E & _)|E]]; [|rewrite E in G1; discriminate G1|destruct (fst a); discriminate].
        left. right. right. rewrite E, E'. destruct (fst a'); try discriminate G2. apply agree_t_same.
      + destruct (fst a'); try discriminate G2; contradiction.
  Qed.
  Lemma guard_known op a : kx a -> kx (guard op D a).
  Proof.
    intros K. unfold guard, kx. rewrite nsf_value.
    assert (Hn : forall v, known v -> known (NotStrictlyFalseStep v)).
    { intros v Kv. destruct v; cbn [NotStrictlyFalseStep]; auto using known_error, known_bool. }
    apply Hn. destruct op; [exact K|]. rewrite not_off. destruct (fst a) eqn:E; unfold kx in K; rewrite ?E in K;
      auto using known_error, known_bool.
  Qed.
  Lemma guard_late op a : late True (VBool (shortcircuit op)) (fst a) -> exists b, fst (guard op C a) = VBool b.
  Proof.
    intros [_ H]. unfold guard. rewrite nsf_value. destruct op.
    - destruct H as [H|H]; [destruct (fst a); try discriminate H|rewrite H]; cbn [NotStrictlyFalseStep]; eauto.
    - rewrite not_value. unfold NotStep. destruct (if unk C && CheckForUnknown P (snd a) true then snd a else None); [cbn [NotStrictlyFalseStep]; eauto|].
      destruct H as [H|H]; [destruct (fst a); try discriminate H|rewrite H]; cbn [NotStrictlyFalseStep]; eauto.
  Qed.
  Lemma step_late op a p b : late True (VBool (shortcircuit op)) (fst a) ->
    logic_outcome C op (Val a) p = Val b -> late True (VBool (shortcircuit op)) (fst b).
  Proof.
    intros [_ H] E. split; [exact I|]. unfold logic_outcome in E. cbn [obind] in E. unfold sc in E.
    rewrite Hs, unk_on in E. cbn [andb] in E.
    destruct (M_Logic.decides op (fst a)) eqn:Ed; [apply Val_inj in E; now subst b|].
    destruct H as [H|H]; [|rewrite H in Ed; destruct op; discriminate Ed].
    destruct p as [q|?|]; cbn [obind] in E; try discriminate. apply Val_inj in E. subst b. cbn [fst].
    destruct (M_Logic.decides op (fst q)) eqn:Eq.
    - right. now apply calc_right.
    - left. apply calc_unknown; auto.
  Qed.
  Lemma step_ok op a p b : accu_ok a -> logic_outcome D op (Val a) p = Val b -> accu_ok b.
  Proof.
    intros H E. unfold logic_outcome in E. cbn [obind] in E. change (sc D) with (sc C) in E. unfold sc in E.
    rewrite Hs, unk_off in E. cbn [andb] in E.
    destruct (M_Logic.decides op (fst a)) eqn:Ed; [apply Val_inj in E; now subst b|].
    destruct p as [q|?|]; cbn [obind] in E; try discriminate. apply Val_inj in E. subst b. unfold accu_ok in *.
    cbn [fst]. destruct (fst a) as [|[]| | | | | | | | | | | | |]; try contradiction;
      destruct (fst q) as [|[]| | | | | | | | | | | | |]; destruct op; exact I.
  Qed.

  Lemma cov_ident z : cov (LookupIdent C z) (LookupIdent D z).
  Proof.
    unfold LookupIdent. rewrite unk_on, unk_off. change (unknown_exact D None) with (@None value). cbv iota.
    split.
    - intros y E. cbn [completed cf_vars] in E. destruct (vars' z) as [[v|]|?|] eqn:Ev; cbn [obind] in E; try discriminate;
        apply Val_inj in E; subst y; [|apply known_error]. destruct HK as (_ & Hv & _). exact (Hv z v Ev).
    - fold (root z). intros x y Ex Ey. destruct (exact_cases (root z)) as [[Hm E]|[Hm E]]; rewrite E in Ex.
      { apply Val_inj in Ex. subst x. apply cov_unknown. }
      specialize (HV z Hm). cbn [completed cf_vars] in Ey.
      destruct (cf_vars C z) as [[v|]|?|]; cbn [obind] in Ex; try discriminate;
      destruct (vars' z) as [[w|]|?|]; cbn [obind] in Ey; try discriminate; apply Val_inj in Ex, Ey; subst.
      + right. right. exact HV.
      + apply cov_same.
  Qed.

  Theorem cov_meaning e : constants_known e -> source index optional e = true ->
    forall rho rho', ecov rho rho' -> cov (meaning C R e rho) (meaning D R e rho').
  Proof.
    induction e using expr_ind'; intros Hc Hsrc rho rho' Hr; cbn [meaning constants_known source] in *.
    - apply cov_val; [apply cov_same|exact Hc].
    - assert (G : cov (match rho x with Some o => o | None => LookupIdent C x end)
                      (match rho' x with Some o => o | None => LookupIdent D x end)).
      { specialize (Hr x). destruct (rho x), (rho' x); try contradiction; [exact Hr|apply cov_ident]. }
      destruct x as [|ch x]; [exact G|]. destruct ch as [[] [] [] [] [] [] [] []]; try exact G. apply cov_ident.
    - pose proof (IHe Hc Hsrc rho rho' Hr) as G.
      pose proof (cov_step (OSelect f t) [meaning C R e rho] [meaning D R e rho'] I (Forall2_cons _ _ G (Forall2_nil _))) as K.
      cbn [sequence] in K. destruct (meaning C R e rho), (meaning D R e rho'); exact K.
    - rewrite !andb_true_iff in Hsrc. destruct Hsrc as ((((S1 & S2) & S3) & S4) & S5). destruct Hc as [Hc1 Hc2].
      apply negb_true_iff in S1. apply cov_call; auto.
      + intros E. rewrite E in S2. destruct index; auto.
      + intros E. rewrite E in S3. destruct optional; auto.
      + apply Forall2_app.
        * destruct t as [e|]; constructor; auto.
        * clear - H0 Hc2 S5 Hr. induction H0 as [|e l He Hl IH]; cbn [map]; constructor.
          -- apply andb_true_iff in S5. destruct Hc2. apply He; tauto.
          -- apply andb_true_iff in S5. destruct Hc2. apply IH; tauto.
    - apply (cov_step (OList (map fst l))); [exact I|].
      clear - H Hc Hsrc Hr. induction H as [|[q e] l He Hl IH]; cbn [map]; constructor; cbn [fst snd] in *;
        apply andb_true_iff in Hsrc; destruct Hc; [apply He|apply IH]; tauto.
    - apply (cov_step (OMap (map fst l))); [exact I|].
      clear - H Hc Hsrc Hr. induction H as [|[q [k v]] l [Hk Hv] Hl IH]; cbn [flat_map app]; [constructor|].
      cbn [fst snd] in *. destruct Hc as (Hc1 & Hc2 & Hc3). rewrite !andb_true_iff in Hsrc.
      constructor; [apply Hk; tauto|]. constructor; [apply Hv; tauto|]. apply IH; tauto.
    - rewrite !andb_true_iff in Hsrc. destruct Hsrc as ((S1 & S2) & S3).
      destruct Hc as (Hc1 & Hc2 & Hc3 & Hc4 & Hc5).
      destruct (IsBind x x2 e1 e3) eqn:EB.
      + apply IHe5; auto. apply ecov_bind; auto.
      + cbn [orb] in S3. rewrite !andb_true_iff in S3. destruct S3 as (((S3 & S4) & S5) & S6).
        assert (Hinit : e3 = EConst (VBool true) \/ exists bi, e2 = EConst (VBool bi)).
        { destruct (settled_cases _ _ _ _ _ S5) as [->|(f & a & g & bb & p & op & -> & _)]; [now left|].
          destruct e2 as [[]| | | | | |]; try discriminate S6. right. eauto. }
        assert (Main : forall b t t' items items', Forall2 (item t) items items' ->
          cov (obind (meaning C R e2 rho) (fun i => eval_loop true
                 (fun kv accu => meaning C R e3 (loop_env C x x2 y b t kv accu rho))
                 (fun kv accu => meaning C R e4 (loop_env C x x2 y b t kv accu rho))
                 (fun accu => meaning C R e5 (bind_local y (Val accu) rho)) items i))
              (obind (meaning D R e2 rho') (fun i => eval_loop true
                 (fun kv accu => meaning D R e3 (loop_env D x x2 y b t' kv accu rho'))
                 (fun kv accu => meaning D R e4 (loop_env D x x2 y b t' kv accu rho'))
                 (fun accu => meaning D R e5 (bind_local y (Val accu) rho')) items' i))).
        { intros b t t' items items' Hit.
          assert (Hst : forall kv kv' a a', item t kv kv' -> covers a a' -> kx a' ->
                    cov (meaning C R e4 (loop_env C x x2 y b t kv a rho)) (meaning D R e4 (loop_env D x x2 y b t' kv' a' rho'))).
          { intros kv kv' a a' H1 H2 H3. apply IHe4; auto. now apply env_cov. }
          assert (Hre : forall a a', covers a a' -> kx a' ->
                    cov (meaning C R e5 (bind_local y (Val a) rho)) (meaning D R e5 (bind_local y (Val a') rho'))).
          { intros a a' H1 H2. apply IHe5; auto. apply ecov_bind; auto. now apply cov_val. }
          destruct (settled_cases _ _ _ _ _ S5) as [->|(f & a0 & g & bb & p & op & E3 & E4 & Hm)].
          - apply cov_bind; [auto|]. intros i i' Hi1 Hi2.
            apply (cov_loop _ _ _ _ _ _ t (fun _ => True) False VNull); auto.
            + intros kv kv' a a' c c' _ _ _ _ Ec Ec'. cbn [meaning] in Ec, Ec'. apply Val_inj in Ec, Ec'. subst.
              left. apply cov_same.
            + intros kv' a' _ _ _ c Ec. cbn [meaning] in Ec. apply Val_inj in Ec. subst. apply known_bool.
            + intros kv a c [[] _].
            + intros kv a c [[] _].
          - destruct Hinit as [->|[bi ->]]; [discriminate E3|]. cbn [meaning obind].
            assert (HD : o_fast_builtins (cf_opts D) = true) by exact Hf.
            apply (cov_loop _ _ _ _ _ _ t accu_ok True (VBool (shortcircuit op))); auto.
            + intros kv kv' a a' c c' H1 H2 H3 H4 Ec Ec'.
              rewrite (proj1 (Hm C b t kv a rho Hf)) in Ec. rewrite (proj1 (Hm D b t' kv' a' rho' HD)) in Ec'.
              apply Val_inj in Ec, Ec'. subst c c'. now apply guard_cov.
            + intros kv' a' _ _ Ka c Ec. rewrite (proj1 (Hm D b t' kv' a' rho' HD)) in Ec. apply Val_inj in Ec.
              subst c. now apply guard_known.
            + intros kv' a' b' Ha Eb. rewrite (proj2 (Hm D b t' kv' a' rho' HD)) in Eb. eapply step_ok; eauto.
            + intros kv a c Ha Ec. rewrite (proj1 (Hm C b t kv a rho Hf)) in Ec. apply Val_inj in Ec.
              subst c. now apply guard_late.
            + intros kv a c Ha Ec. rewrite (proj2 (Hm C b t kv a rho Hf)) in Ec. eapply step_late; eauto.
            + apply cov_same.
            + exact I. }
        apply cov_bind; [auto|]. intros r r' Hx Kx. change (sc D) with (sc C). unfold sc. rewrite Hs.
        destruct (init_cov r r' Hx Kx) as [(q & E & U & Kq)|[(q & q' & E & E' & Hq & Kq)|(b & items & items' & E & E' & Hit)]];
          rewrite E.
        * split.
          -- intros w Ew. destruct (comp_init D r') as [q'|[b items']] eqn:E'.
             ++ apply Val_inj in Ew. subst w. now apply Kq.
             ++ assert (Hit : Forall2 (item None) items' items').
                { pose proof (items_known D unk_off (fst r') b items' (snd r') Kx) as Hk.
                  destruct r' as [v' t']. specialize (Hk E'). clear - Hk.
                  induction Hk as [|kv items [H1 H2] Hk IH]; constructor; auto. now apply item_same. }
                exact (proj1 (Main b None (snd r') items' items' Hit) w Ew).
          -- intros v w Ev Ew. apply Val_inj in Ev. subst v. now left.
        * rewrite E'. now apply cov_val.
        * rewrite E'. now apply Main.
  Qed.
End Partial.
