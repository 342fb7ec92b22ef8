(* Property theorems C19, C30, C31: logical operators, attribute patterns and
   unknown sets. *)
From Coq Require Import ZArith List Bool Lia ZifyBool String Sorting.Sorted.
From Verif Require Import Base M_Attr M_Value M_Logic S_Attr L_Attr.
Import ListNotations.
Local Open Scope string_scope.
Open Scope list_scope.
Open Scope Z_scope.

(* ------------------------------------------------------------------ C19 *)
(* In all theorems [unk] is whether unknown processing is on. *)
Theorem C19_and : forall unk a b,
  (a = VBool false \/ b = VBool false <-> Calculate unk OpAnd a b = VBool false) /\
  (a = VBool true /\ b = VBool true <-> Calculate unk OpAnd a b = VBool true) /\
  ((exists r, Calculate unk OpAnd a b = VBool r) \/ (exists s, Calculate unk OpAnd a b = VError s) \/
   (exists s, Calculate unk OpAnd a b = VUnknown s)).
Proof.
  intros unk a b.
  assert (H : (Calculate unk OpAnd a b = VBool false /\ (a = VBool false \/ b = VBool false)) \/
              (Calculate unk OpAnd a b = VBool true /\ a = VBool true /\ b = VBool true) \/
              (a <> VBool false /\ b <> VBool false /\ (a <> VBool true \/ b <> VBool true) /\
               ((exists s, Calculate unk OpAnd a b = VError s) \/ exists s, Calculate unk OpAnd a b = VUnknown s))).
  { destruct a as [|[]| | | | | | | | | | | | |], b as [|[]| | | | | | | | | | | | |], unk; cbn;
      first [ left; split; [reflexivity|]; auto; fail
            | right; left; split; [reflexivity|]; auto; fail
            | right; right; repeat split; try discriminate;
              [first [left; discriminate|right; discriminate]|eauto] ]. }
  destruct H as [(E & H)|[(E & Ha & Hb)|(Na & Nb & N & [(s & E)|(s & E)])]]; rewrite E.
  - split; [tauto|]. split; [|eauto]. split; [intros [-> ->]; destruct H; discriminate|discriminate].
  - split; [|split; [tauto|eauto]]. split; [|discriminate]. subst. intros [|]; discriminate.
  - split; [split; [tauto|discriminate]|]. split; [split; [tauto|discriminate]|eauto].
  - split; [split; [tauto|discriminate]|]. split; [split; [tauto|discriminate]|eauto].
Qed.
Print Assumptions C19_and.

Theorem C19_or : forall unk a b,
  (a = VBool true \/ b = VBool true <-> Calculate unk OpOr a b = VBool true) /\
  (a = VBool false /\ b = VBool false <-> Calculate unk OpOr a b = VBool false) /\
  ((exists r, Calculate unk OpOr a b = VBool r) \/ (exists s, Calculate unk OpOr a b = VError s) \/
   (exists s, Calculate unk OpOr a b = VUnknown s)).
Proof.
  intros unk a b.
  assert (H : (Calculate unk OpOr a b = VBool true /\ (a = VBool true \/ b = VBool true)) \/
              (Calculate unk OpOr a b = VBool false /\ a = VBool false /\ b = VBool false) \/
              (a <> VBool true /\ b <> VBool true /\ (a <> VBool false \/ b <> VBool false) /\
               ((exists s, Calculate unk OpOr a b = VError s) \/ exists s, Calculate unk OpOr a b = VUnknown s))).
  { destruct a as [|[]| | | | | | | | | | | | |], b as [|[]| | | | | | | | | | | | |], unk; cbn;
      first [ left; split; [reflexivity|]; auto; fail
            | right; left; split; [reflexivity|]; auto; fail
            | right; right; repeat split; try discriminate;
              [first [left; discriminate|right; discriminate]|eauto] ]. }
  destruct H as [(E & H)|[(E & Ha & Hb)|(Na & Nb & N & [(s & E)|(s & E)])]]; rewrite E.
  - split; [tauto|]. split; [|eauto]. split; [intros [-> ->]; destruct H; discriminate|discriminate].
  - split; [|split; [tauto|eauto]]. split; [|discriminate]. subst. intros [|]; discriminate.
  - split; [split; [tauto|discriminate]|]. split; [split; [tauto|discriminate]|eauto].
  - split; [split; [tauto|discriminate]|]. split; [split; [tauto|discriminate]|eauto].
Qed.
Print Assumptions C19_or.
Example C19_table_ex : Calculate true OpAnd (VError (no_matching_overload "f")) (VBool false) = VBool false /\
  Calculate true OpOr (VInt 3) (VBool true) = VBool true /\
  Calculate true OpAnd (VUnknown []) (VError (no_matching_overload "f")) = VUnknown [] /\
  Calculate false OpAnd (VBool true) (VError (no_matching_overload "f")) = VError (no_matching_overload "f").
Proof. repeat split. Qed.

(* When the result is not a boolean: the union of the unknowns if there is an
   unknown operand, otherwise the leftmost error, otherwise a type error. *)
Definition undecided (op : op_type) (a b : value) : Prop :=
  let stop := VBool (match op with OpAnd => false | OpOr => true end) in
  a <> stop /\ b <> stop /\ ~ (exists x y, a = VBool x /\ b = VBool y).
Theorem C19_undecided : forall unk op a b, undecided op a b ->
  (forall s, a = VUnknown s \/ b = VUnknown s -> set_ok s) ->
  (unk = true -> is_unknown a || is_unknown b = true ->
     exists u, Calculate unk op a b = VUnknown u /\ set_ok u /\
       forall x, In x u <-> exists s, (a = VUnknown s \/ b = VUnknown s) /\ In x s) /\
  (unk = false \/ is_unknown a || is_unknown b = false ->
     (is_error a = true -> Calculate unk op a b = a) /\
     (is_error a = false -> is_error b = true -> Calculate unk op a b = b) /\
     (is_error a = false -> is_error b = false ->
        Calculate unk op a b = VError (no_matching_overload (op_name op)))).
Proof.
  intros unk op a b (Ha & Hb & Hab) Hs.
  assert (E : Calculate unk op a b =
    match (if unk then MergeUnknowns [a; b] else None) with
    | Some s => VUnknown s
    | None => if is_error a then a else if is_error b then b
              else VError (no_matching_overload (op_name op)) end).
  { unfold Calculate. destruct op; cbn [shortcircuit];
    destruct a as [|[]| | | | | | | | | | | | |]; try congruence;
    destruct b as [|[]| | | | | | | | | | | | |]; try congruence; try reflexivity;
    exfalso; apply Hab; eauto. }
  rewrite E. pose proof (MergeUnknowns_spec [a; b] None ltac:(discriminate)) as M.
  fold (MergeUnknowns [a; b]) in M.
  assert (V : forall s, In (VUnknown s) [a; b] -> Forall valid_attr s).
  { intros s [->|[->|[]]]; apply Hs; auto. }
  specialize (M V). split.
  - intros -> U. destruct (MergeUnknowns [a; b]) as [u|].
    + destruct M as (O & _ & I). exists u. split; auto. split; auto. intros x. rewrite I. split.
      * intros [(s & [=] & _)|(s & [->|[->|[]]] & X)]; exists s; auto.
      * intros (s & [->| ->] & X); right; exists s; cbn; auto.
    + destruct M as [_ M]. exfalso. destruct a; try (eapply M; cbn; eauto; fail); destruct b; try discriminate;
        eapply M; cbn; eauto.
  - intros N. assert (Z : (if unk then MergeUnknowns [a; b] else None) = None).
    { destruct unk; auto. destruct N as [|N]; [discriminate|]. destruct (MergeUnknowns [a; b]); auto.
      destruct M as (_ & [[]|(s & [->|[->|[]]])] & _); auto; cbn in N; try discriminate.
      rewrite orb_true_r in N. discriminate. }
    rewrite Z. repeat split; intros; destruct (is_error a), (is_error b); congruence.
Qed.
Print Assumptions C19_undecided.
Example C19_undecided_ex : undecided OpAnd (VBool true) (VUnknown [mkAttr [120] []]) /\
  set_ok [mkAttr [120] []] /\
  Calculate true OpAnd (VBool true) (VUnknown [mkAttr [120] []]) = VUnknown [mkAttr [120] []].
Proof.
  split. { repeat split; try discriminate. intros (x & y & _ & [=]). }
  split; [|reflexivity]. split; repeat constructor.
Qed.

(* Operand order does not matter for a boolean or unknown result. *)
Theorem C19_commute : forall unk op a b,
  (forall s, a = VUnknown s \/ b = VUnknown s -> set_ok s) ->
  (forall r, Calculate unk op a b = VBool r -> Calculate unk op b a = VBool r) /\
  (forall s, Calculate unk op a b = VUnknown s -> Calculate unk op b a = VUnknown s).
Proof.
  intros unk op a b Hs. split.
  - intros r. destruct op, r.
    + intros H. apply (C19_and unk a b) in H as [-> ->]. now apply C19_and.
    + intros H. apply (C19_and unk a b) in H. apply C19_and. tauto.
    + intros H. apply (C19_or unk a b) in H. apply C19_or. tauto.
    + intros H. apply (C19_or unk a b) in H as [-> ->]. now apply C19_or.
  - intros s H.
    assert (N : undecided op a b).
    { destruct op; split.
      - intros ->. assert (Calculate unk OpAnd (VBool false) b = VBool false) by (apply C19_and; auto). congruence.
      - split.
        + intros ->. assert (Calculate unk OpAnd a (VBool false) = VBool false) by (apply C19_and; auto). congruence.
        + intros (x & y & -> & ->). destruct x, y; discriminate.
      - intros ->. assert (Calculate unk OpOr (VBool true) b = VBool true) by (apply C19_or; auto). congruence.
      - split.
        + intros ->. assert (Calculate unk OpOr a (VBool true) = VBool true) by (apply C19_or; auto). congruence.
        + intros (x & y & -> & ->). destruct x, y; discriminate. }
    assert (N' : undecided op b a).
    { destruct N as (A & B & C). repeat split; auto. intros (x & y & Ex & Ey). apply C. eauto. }
    destruct (C19_undecided unk op a b N Hs) as [U1 U2].
    destruct (C19_undecided unk op b a N' ltac:(intros t [|]; apply Hs; auto)) as [V1 V2].
    destruct unk.
    + destruct (is_unknown a || is_unknown b) eqn:Q.
      * destruct (U1 eq_refl eq_refl) as (u & E & O & I). rewrite E in H. injection H as <-.
        destruct (V1 eq_refl ltac:(rewrite orb_comm; auto)) as (u' & E' & O' & I'). rewrite E'. f_equal.
        apply set_ext; auto. intros x. rewrite I, I'. split; intros (t & [|] & X); exists t; auto.
      * exfalso. destruct (U2 (or_intror eq_refl)) as (A & B & C).
        destruct (is_error a) eqn:Ea; [rewrite (A eq_refl) in H; subst; discriminate|].
        destruct (is_error b) eqn:Eb; [rewrite (B eq_refl eq_refl) in H; subst; discriminate|].
        rewrite (C eq_refl eq_refl) in H. discriminate.
    + exfalso. destruct (U2 (or_introl eq_refl)) as (A & B & C).
      destruct (is_error a) eqn:Ea; [rewrite (A eq_refl) in H; subst; discriminate|].
      destruct (is_error b) eqn:Eb; [rewrite (B eq_refl eq_refl) in H; subst; discriminate|].
      rewrite (C eq_refl eq_refl) in H. discriminate.
Qed.
Print Assumptions C19_commute.

(* !(a && b) and !a || !b are the same boolean when either is one, and the
   same outcome when no operand is of a wrong type. *)
Definition logical (v : value) : Prop :=
  match v with VBool _ | VError _ | VUnknown _ => True | _ => False end.
Definition vnot (v : value) : value := NotStep false [] v None.
Theorem C19_de_morgan : forall unk a b,
  (forall r, vnot (Calculate unk OpAnd a b) = VBool r <-> Calculate unk OpOr (vnot a) (vnot b) = VBool r) /\
  (forall r, vnot (Calculate unk OpOr a b) = VBool r <-> Calculate unk OpAnd (vnot a) (vnot b) = VBool r) /\
  (logical a -> logical b -> (unk = false -> is_unknown a || is_unknown b = false) ->
     vnot (Calculate unk OpAnd a b) = Calculate unk OpOr (vnot a) (vnot b) /\
     vnot (Calculate unk OpOr a b) = Calculate unk OpAnd (vnot a) (vnot b)).
Proof.
  intros unk a b. split; [|split].
  - destruct unk, a as [|[]| | | | | | | | | | | | |], b as [|[]| | | | | | | | | | | | |]; cbn; split; congruence.
  - destruct unk, a as [|[]| | | | | | | | | | | | |], b as [|[]| | | | | | | | | | | | |]; cbn; split; congruence.
  - intros La Lb U. destruct a as [|[]| | | | | | | | | | | | |]; try destruct La;
      destruct b as [|[]| | | | | | | | | | | | |]; try destruct Lb; destruct unk; cbn in *; try tauto;
      try (specialize (U eq_refl); discriminate).
Qed.
Print Assumptions C19_de_morgan.
Example C19_de_morgan_ex : logical (VError (no_matching_overload "f")) /\
  vnot (Calculate true OpAnd (VError (no_matching_overload "f")) (VBool false)) = VBool true /\
  Calculate true OpOr (vnot (VError (no_matching_overload "f"))) (vnot (VBool false)) = VBool true.
Proof. repeat split. Qed.

(* The recursive evaluator's operators, short-circuiting or not, give the same
   value as the iterative ones. *)
Theorem C19_direct_agrees : forall unk op a b,
  (forall s, a = VUnknown s \/ b = VUnknown s -> set_ok s) ->
  DirectLogic unk op a b = Calculate unk op a b.
Proof.
  intros unk op a b Hs.
  assert (Id : forall s, set_ok s -> set_add_all [] s = s).
  { intros s [S V]. destruct (set_add_all_in s [] set_ok_nil V) as [O I]. apply set_ext; auto.
    - split; auto.
    - intros x. rewrite I. cbn. tauto. }
  unfold DirectLogic, Calculate, ReturnLogicResult.
  destruct a as [|[]| | | | | | | | | | | | |sa], b as [|[]| | | | | | | | | | | | |sb], op, unk; try reflexivity;
    cbn; rewrite ?Id by (apply Hs; auto); reflexivity.
Qed.
Print Assumptions C19_direct_agrees.

(* What a comprehension's loop condition makes of a predicate value: it stops
   the loop only for false or a value of a wrong type. *)
Theorem C19_not_strictly_false : forall v,
  (NotStrictlyFalseStep v = VBool false <-> v = VBool false) /\
  (NotStrictlyFalseStep v = VBool true <-> v = VBool true \/ is_error v || is_unknown v = true) /\
  (NotStrictlyFalseStep v = NotStrictlyFalseImpl v \/
   (exists s, NotStrictlyFalseStep v = VError s) /\ exists s, NotStrictlyFalseImpl v = VError s).
Proof.
  intros v. destruct v; cbn; split; try (split; congruence);
    (split; [split; [try congruence; auto|intros [|]; congruence]|eauto]).
Qed.
Print Assumptions C19_not_strictly_false.

(* ------------------------------------------------------------------ C30 *)
Theorem C30_full_match : forall p a, IsMatch p a = MFull <-> full_match p a.
Proof. exact IsMatch_full. Qed.
Print Assumptions C30_full_match.
Theorem C30_partial_match : forall p a, valid_pattern p ->
  (IsMatch p a = MPartial <-> ~ full_match p a /\ exists b, descendant a b /\ full_match p b).
Proof. intros p a V. rewrite IsMatch_partial. now apply partial_iff_descendant. Qed.
Print Assumptions C30_partial_match.
Theorem C30_extension_keeps_full : forall p a b, IsMatch p a = MFull -> descendant a b -> IsMatch p b = MFull.
Proof.
  intros p a b H (E & q & rest & P). apply IsMatch_full. apply IsMatch_full in H as (Ev & pre & r & Pa & F).
  split; [congruence|]. exists pre, (r ++ q :: rest). rewrite P, Pa, <- app_assoc. auto.
Qed.
Print Assumptions C30_extension_keeps_full.
(* Matching against several patterns: full if some pattern matches fully,
   otherwise partial if some pattern matches partially. *)
Theorem C30_several_patterns : forall ps a,
  (MatchAgainstPatterns ps a = MFull <-> exists p, In p ps /\ full_match p a) /\
  (MatchAgainstPatterns ps a = MNone <-> forall p, In p ps -> IsMatch p a = MNone) /\
  (forall t, t = Some a ->
     (CheckForUnknown ps t false = true <-> exists p, In p ps /\ full_match p a) /\
     (CheckForUnknown ps t true = true <-> exists p, In p ps /\ IsMatch p a <> MNone)).
Proof.
  intros ps a. destruct (MatchAgainst_spec ps a) as [F P].
  assert (F' : MatchAgainstPatterns ps a = MFull <-> exists p, In p ps /\ full_match p a).
  { rewrite F. split; intros (p & I & M); exists p; split; auto; now apply IsMatch_full. }
  assert (N : MatchAgainstPatterns ps a = MNone <-> forall p, In p ps -> IsMatch p a = MNone).
  { split.
    - intros E p I. destruct (IsMatch p a) eqn:M; auto.
      + destruct (MatchAgainstPatterns ps a) eqn:Q; try congruence.
        exfalso. assert (~ exists p, In p ps /\ IsMatch p a = MFull) by (intros X; apply F in X; congruence).
        assert (MNone = MPartial); [|discriminate]. apply P. split; eauto.
      + assert (MatchAgainstPatterns ps a = MFull) by (apply F; eauto). congruence.
    - intros H. destruct (MatchAgainstPatterns ps a) eqn:Q; auto.
      + destruct (proj1 P eq_refl) as (_ & p & I & M). rewrite (H p I) in M. discriminate.
      + destruct (proj1 F eq_refl) as (p & I & M). rewrite (H p I) in M. discriminate. }
  split; auto. split; auto. intros t ->. cbn. split.
  - rewrite <- F'. destruct (MatchAgainstPatterns ps a); split; congruence.
  - split.
    + intros E. destruct (MatchAgainstPatterns ps a) eqn:Q; try discriminate.
      * destruct (proj1 P eq_refl) as (_ & p & I & M). exists p. split; auto. congruence.
      * destruct (proj1 F eq_refl) as (p & I & M). exists p. split; auto. congruence.
    + intros (p & I & M). destruct (MatchAgainstPatterns ps a) eqn:Q; auto.
      exfalso. apply M. apply N; auto.
Qed.
Print Assumptions C30_several_patterns.
(* pattern x[*].y *)
Definition sample_pattern : pattern := mkPattern [120] [None; Some (QString [121])].
Example C30_example : valid_pattern sample_pattern /\
  IsMatch sample_pattern (mkAttr [120] [QInt 3; QString [121]; QBool true]) = MFull /\
  IsMatch sample_pattern (mkAttr [120] [QInvalid; QString [121]]) = MFull /\
  IsMatch sample_pattern (mkAttr [120] [QInt 3]) = MPartial /\
  IsMatch sample_pattern (mkAttr [120] [QInt 3; QString [122]]) = MNone /\
  IsMatch sample_pattern (mkAttr [119] [QInt 3]) = MNone.
Proof. split; [repeat constructor; discriminate|]. repeat split. Qed.

(* ------------------------------------------------------------------ C31 *)
(* Merging is union, for sets of attributes whose qualifiers were made from
   values of a key kind. *)
Theorem C31_merge_is_union_partial : forall s t, set_ok s -> set_ok t ->
  set_ok (set_merge s t) /\ (forall x, In x (set_merge s t) <-> In x s \/ In x t) /\
  set_merge s t = set_merge t s /\ set_merge s s = s /\
  (forall r, set_ok r -> set_merge (set_merge s t) r = set_merge s (set_merge t r)).
Proof.
  intros s t Hs Ht. unfold set_merge.
  assert (U : forall a b, set_ok a -> set_ok b ->
    set_ok (set_add_all a b) /\ forall x, In x (set_add_all a b) <-> In x a \/ In x b).
  { intros a b Ha Hb. apply set_add_all_in; auto. apply Hb. }
  destruct (U s t Hs Ht) as [O1 I1]. destruct (U t s Ht Hs) as [O2 I2]. destruct (U s s Hs Hs) as [O3 I3].
  split; auto. split; auto. split; [|split].
  - apply set_ext; auto. intros x. rewrite I1, I2. tauto.
  - apply set_ext; auto. intros x. rewrite I3. tauto.
  - intros r Hr. destruct (U t r Ht Hr) as [O4 I4]. destruct (U _ _ O1 Hr) as [O5 I5].
    destruct (U _ _ Hs O4) as [O6 I6]. apply set_ext; auto. intros x. rewrite I5, I6, I1, I4. tauto.
Qed.
Print Assumptions C31_merge_is_union_partial.
(* every set that is ever built is of that form *)
Theorem C31_sets_well_formed_partial : forall l, Forall valid_attr l ->
  set_ok (set_of_list l) /\ forall x, In x (set_of_list l) <-> In x l.
Proof.
  intros l V. destruct (set_add_all_in l [] set_ok_nil V) as [O I]. split; auto.
  intros x. unfold set_of_list. rewrite I. cbn. tauto.
Qed.
Print Assumptions C31_sets_well_formed_partial.

(* The unknown set of a call: none exactly when no operand is unknown and no
   operand attribute matches; otherwise the union. *)
Theorem C31_call_unknowns_partial : forall pats args trails use_partial,
  (forall s, In (VUnknown s) args -> set_ok s) ->
  (forall a, In (Some a) trails -> valid_attr a) ->
  match IdentifyAndMergeUnknowns pats args trails use_partial with
  | None => (forall s, ~ In (VUnknown s) args) /\
            forall a, In (Some a) trails -> CheckForUnknown pats (Some a) use_partial = false
  | Some u => set_ok u /\
      ((exists s, In (VUnknown s) args) \/
       exists a, In (Some a) trails /\ CheckForUnknown pats (Some a) use_partial = true) /\
      forall x, In x u <->
        (exists s, In (VUnknown s) args /\ In x s) \/
        (In (Some x) trails /\ CheckForUnknown pats (Some x) use_partial = true)
  end.
Proof.
  intros pats args trails up Hs Ht. unfold IdentifyAndMergeUnknowns.
  pose proof (MergeUnknowns_spec args None ltac:(discriminate) ltac:(intros; apply Hs; auto)) as M.
  fold (MergeUnknowns args) in M.
  destruct (CheckForUnknowns_spec pats up trails [] set_ok_nil Ht) as [O I].
  fold (CheckForUnknowns pats trails up) in O, I. cbn [In] in I.
  destruct (CheckForUnknowns pats trails up) as [|c cs] eqn:C.
  - assert (NC : forall a, In (Some a) trails -> CheckForUnknown pats (Some a) up = false).
    { intros a Ia. destruct (CheckForUnknown pats (Some a) up) eqn:Q; auto. exfalso. apply (I a). auto. }
    destruct (MergeUnknowns args) as [u|].
    + destruct M as (Ou & [[]|Ex] & Iu); auto. split; auto. split; auto. intros x. rewrite Iu. split.
      * intros [(s & [=] & _)|H]; auto.
      * intros [H|[Ix Cx]]; auto. rewrite (NC _ Ix) in Cx. discriminate.
    + destruct M as [_ M]. split; auto.
  - assert (Ex : exists a, In (Some a) trails /\ CheckForUnknown pats (Some a) up = true).
    { exists c. destruct (proj1 (I c) (or_introl eq_refl)) as [[]|H]; auto. }
    destruct (MergeUnknowns args) as [u|].
    + destruct M as (Ou & _ & Iu).
      destruct (set_add_all_in u (c :: cs) O (proj2 Ou)) as [O2 I2]. split; auto. split; auto.
      intros x. rewrite I2, Iu, I. split.
      * intros [[[]|H]|[(s & [=] & _)|H]]; auto.
      * intros [H|H]; auto.
    + destruct M as [_ M]. split; auto. split; auto. intros x. rewrite I. split.
      * intros [[]|H]; auto.
      * intros [(s & Is & _)|H]; auto. exfalso. eapply M; eauto.
Qed.
Print Assumptions C31_call_unknowns_partial.
Example C31_example : 
  IdentifyAndMergeUnknowns [mkPattern [120] [Some (QInt 1)]]
    [VUnknown [mkAttr [121] []]; VNull; VNull] [None; Some (mkAttr [120] []); Some (mkAttr [122] [])] true
  = Some [mkAttr [120] []; mkAttr [121] []] /\
  IdentifyAndMergeUnknowns [mkPattern [120] [Some (QInt 1)]]
    [VUnknown [mkAttr [121] []]; VNull] [None; Some (mkAttr [120] [])] false
  = Some [mkAttr [121] []].
Proof. split; reflexivity. Qed.

(* Aggregates (list, map and message literals) accumulate their unknowns in a
   sequence of steps: none exactly when nothing was unknown, otherwise the
   union; an operand that is itself unknown hides its own attribute. *)
Definition acc_all (pats : list pattern) (ops : list (value * trail)) : accumulator :=
  fold_left (fun a vt => acc_MaybeAddTrail pats a (fst vt) (snd vt)) ops acc_new.
Definition acc_new_attr (pats : list pattern) (ops : list (value * trail)) (x : attribute) : Prop :=
  exists v, In (v, Some x) ops /\ is_unknown v = false /\ CheckForUnknown pats (Some x) true = true.
Theorem C31_aggregate_unknowns_partial : forall pats ops,
  (forall s t, In (VUnknown s, t) ops -> set_ok s) ->
  (forall v a, In (v, Some a) ops -> valid_attr a) ->
  (acc_IsEmpty (acc_all pats ops) = true <->
     (forall s t, ~ In (VUnknown s, t) ops) /\ forall x, ~ acc_new_attr pats ops x) /\
  exists u, acc_Build (acc_all pats ops) = VUnknown u /\ set_ok u /\
    forall x, In x u <-> (exists s t, In (VUnknown s, t) ops /\ In x s) \/ acc_new_attr pats ops x.
Proof.
  intros pats ops. unfold acc_all.
  enough (G : forall a, set_ok (acc_set a) ->
    (forall s t, In (VUnknown s, t) ops -> set_ok s) ->
    (forall v a, In (v, Some a) ops -> valid_attr a) ->
    let r := fold_left (fun a vt => acc_MaybeAddTrail pats a (fst vt) (snd vt)) ops a in
    set_ok (acc_set r) /\
    (acc_present r = true <-> acc_present a = true \/ exists s t, In (VUnknown s, t) ops) /\
    (forall x, In x (acc_set r) <-> In x (acc_set a) \/ (exists s t, In (VUnknown s, t) ops /\ In x s) \/
       acc_new_attr pats ops x)).
  { intros Hs Ha. destruct (G acc_new set_ok_nil Hs Ha) as (O & P & I). cbv zeta in *.
    set (r := fold_left (fun a vt => acc_MaybeAddTrail pats a (fst vt) (snd vt)) ops acc_new) in *. cbn [acc_new acc_present acc_set] in P, I. cbn [In] in I. split.
    - unfold acc_IsEmpty. destruct (acc_present r) eqn:Q; cbn [negb andb].
      + split; [discriminate|]. intros [N _]. destruct (proj1 P eq_refl) as [[=]|(s & t & X)]. exfalso. eapply N; eauto.
      + assert (NU : forall s t, ~ In (VUnknown s, t) ops).
        { intros s t X. assert (false = true); [|discriminate]. apply P. eauto. }
        destruct (acc_set r) as [|c cs] eqn:C.
        * split; auto. intros _. split; auto. intros x X. apply (I x). auto.
        * split; [discriminate|]. intros [_ N]. exfalso.
          destruct (proj1 (I c) (or_introl eq_refl)) as [[]|[(s & t & X & _)|X]].
          -- eapply NU; eauto.
          -- eapply N; eauto.
    - exists (acc_set r). split; auto. split; auto. intros x. rewrite I. tauto. }
  induction ops as [|[v t] ops IH]; intros a Oa Hs Ha; cbn [fold_left fst snd]; cbv zeta.
  - split; auto. split.
    + split; auto. intros [|(s & t & [])]; auto.
    + intros x. split; auto. intros [|[(s & t & [] & _)|(v & [] & _)]]; auto.
  - assert (Hs' : forall s t, In (VUnknown s, t) ops -> set_ok s) by (intros; eapply Hs; right; eauto).
    assert (Ha' : forall v a, In (v, Some a) ops -> valid_attr a) by (intros; eapply Ha; right; eauto).
    destruct (is_unknown v) eqn:Uv.
    + destruct v as [| | | | | | | | | | | | | |s]; try discriminate. cbn [acc_MaybeAddTrail].
      destruct (set_add_all_in s (acc_set a) Oa) as [O1 I1]. { eapply (Hs s t). now left. }
      destruct (IH (mkAcc (set_add_all (acc_set a) s) true) O1 Hs' Ha') as (O & P & I). cbv zeta in *.
      split; auto. split.
      * rewrite P. cbn. split; eauto.
      * intros x. rewrite I. cbn [acc_set]. rewrite I1. split.
        -- intros [[H|H]|[(s' & t' & H & X)|(v & H & X)]]; auto.
           ++ right. left. exists s, t. split; auto. now left.
           ++ right. left. exists s', t'. split; auto. now right.
           ++ right. right. exists v. split; auto. now right.
        -- intros [H|[(s' & t' & [[= <- <-]|H] & X)|(v & [[= <- <-]|H] & U & X)]]; auto.
           ++ right. left. eauto.
           ++ discriminate.
           ++ right. right. exists v. auto.
    + assert (E : acc_MaybeAddTrail pats a v t =
        if CheckForUnknown pats t true
        then match t with Some at_ => mkAcc (set_insert at_ (acc_set a)) (acc_present a) | None => a end
        else a) by (destruct v; try discriminate; reflexivity).
      rewrite E. clear E.
      assert (NV : forall s, v <> VUnknown s) by (intros s ->; discriminate).
      destruct (CheckForUnknown pats t true) eqn:C; [destruct t as [at_|]; [|discriminate]|].
      * destruct (set_insert_in at_ (acc_set a) Oa) as [O1 I1]. { eapply Ha. left. reflexivity. }
        destruct (IH (mkAcc (set_insert at_ (acc_set a)) (acc_present a)) O1 Hs' Ha') as (O & P & I). cbv zeta in *.
        split; auto. split.
        -- rewrite P. cbn [acc_present]. split; intros [H|(s & t & H)]; auto.
           ++ right. exists s, t. now right.
           ++ destruct H as [[= H1 _]|H]; [exfalso; eapply NV; eauto|eauto].
        -- intros x. rewrite I. cbn [acc_set]. rewrite I1. split.
           ++ intros [[->|H]|[(s' & t' & H & X)|(v' & H & X)]]; auto.
              ** right. right. exists v. split; [now left|auto].
              ** right. left. exists s', t'. split; [now right|auto].
              ** right. right. exists v'. split; [now right|auto].
           ++ intros [H|[(s' & t' & [[= H _]|H] & X)|(v' & [[= <- <-]|H] & U & X)]]; auto.
              ** exfalso; eapply NV; eauto.
              ** right. left. eauto.
              ** right. right. exists v'. auto.
      * destruct (IH a Oa Hs' Ha') as (O & P & I). cbv zeta in *. split; auto. split.
        -- rewrite P. split; intros [H|(s & t' & H)]; auto.
           ++ right. exists s, t'. now right.
           ++ destruct H as [[= H1 _]|H]; [exfalso; eapply NV; eauto|eauto].
        -- intros x. rewrite I. split.
           ++ intros [H|[(s' & t' & H & X)|(v' & H & X)]]; auto.
              ** right. left. exists s', t'. split; [now right|auto].
              ** right. right. exists v'. split; [now right|auto].
           ++ intros [H|[(s' & t' & [[= H _]|H] & X)|(v' & [[= <- ->]|H] & U & X)]]; auto.
              ** exfalso; eapply NV; eauto.
              ** right. left. eauto.
              ** congruence.
              ** right. right. exists v'. auto.
Qed.
Print Assumptions C31_aggregate_unknowns_partial.

(* A wildcard pattern makes a[1.0] and b[1.0] unknown; their qualifier is not a
   key, and the second one added is dropped. *)
Theorem C31_merge_refuted : exists a b, 
  CheckForUnknown [mkPattern [97] [None]; mkPattern [98] [None]] (Some a) false = true /\
  CheckForUnknown [mkPattern [97] [None]; mkPattern [98] [None]] (Some b) false = true /\
  a <> b /\ set_merge [a] [b] = [a].
Proof.
  exists (mkAttr [97] [QInvalid]), (mkAttr [98] [QInvalid]). repeat split. discriminate.
Qed.
Print Assumptions C31_merge_refuted.
