(* Lemmas on registration and overload resolution. *)
From Coq Require Import ZArith List Bool String Ascii Lia Permutation.
From Verif Require Import Base M_Overflow M_Number M_Attr M_Value M_Logic M_Expr M_Plan M_Machine
  M_Registry S_Func S_Eval L_Seval L_Alloc L_Meaning.
Import ListNotations.
Open Scope list_scope.

Lemma kind_eqb_spec a b : kind_eqb a b = true <-> a = b.
Proof. split; [destruct a, b; cbn; congruence|intros ->; now destruct b]. Qed.
Lemma kinds_match_spec ks : forall args, kinds_match ks args = true <->
  Forall2 (fun d k => d = None \/ d = Some k) ks (map kind_of args).
Proof.
  induction ks as [|d ks IH]; intros [|a args]; cbn [kinds_match map].
  - split; auto.
  - split; [discriminate|inversion 1].
  - split; [discriminate|inversion 1].
  - split.
    + intros H. destruct d as [k|].
      * destruct (kind_eqb (kind_of a) k) eqn:E; [|discriminate]. apply kind_eqb_spec in E. subst k.
        constructor; [auto|now apply IH].
      * constructor; [auto|now apply IH].
    + intros H. inversion H as [|? ? ? ? H1 H2]; subst. apply IH in H2. destruct H1 as [->| ->]; auto.
      assert (E : kind_eqb (kind_of a) (kind_of a) = true) by now apply kind_eqb_spec. now rewrite E.
Qed.
Lemma compatible_spec a : forall b, kinds_compatible a b = true <->
  exists ks, Forall2 (fun d k => d = None \/ d = Some k) a ks /\
             Forall2 (fun d k => d = None \/ d = Some k) b ks.
Proof.
  induction a as [|d a IH]; intros [|e b]; cbn [kinds_compatible].
  - split; eauto.
  - split; [discriminate|]. intros (ks & H1 & H2). inversion H1; subst. inversion H2.
  - split; [discriminate|]. intros (ks & H1 & H2). inversion H2; subst. inversion H1.
  - split.
    + intros H. destruct (kind_compatible d e) eqn:E; [|discriminate]. apply IH in H.
      destruct H as (ks & H1 & H2).
      assert (G : exists k, (d = None \/ d = Some k) /\ (e = None \/ e = Some k)).
      { destruct d as [k|], e as [k'|]; cbn [kind_compatible] in E.
        - apply kind_eqb_spec in E. subst k'. exists k. auto.
        - exists k. auto.
        - exists k'. auto.
        - exists kNullT. auto. }
      destruct G as (k & G1 & G2). exists (k :: ks). split; constructor; auto.
    + intros (ks & H1 & H2). inversion H1 as [|? k ? ks' G1 G2]; subst. inversion H2 as [|? ? ? ? G3 G4]; subst.
      assert (E : kind_compatible d e = true).
      { destruct G1 as [->| ->], G3 as [->| ->]; try reflexivity. cbn. now apply kind_eqb_spec. }
      rewrite E. apply IH. eauto.
Qed.
Lemma shape_spec o d : ov_name o = ov_name d ->
  ShapeMatches o (ov_receiver d) (ov_kinds d) = true <-> ambiguous o d.
Proof.
  intros Hn. unfold ShapeMatches, ambiguous, accepts. split.
  - destruct (Bool.eqb (ov_receiver o) (ov_receiver d)) eqn:E; cbn [negb]; [|discriminate].
    apply Bool.eqb_prop in E. intros H. apply compatible_spec in H. destruct H as (ks & H1 & H2).
    exists (ov_name d), (ov_receiver d), ks. auto.
  - intros (n & r & ks & (H1 & H2 & H3) & (G1 & G2 & G3)). rewrite H2, G2, Bool.eqb_reflx. cbn [negb].
    apply compatible_spec. eauto.
Qed.
Lemma ambiguous_name o d : ambiguous o d -> ov_name o = ov_name d.
Proof. intros (n & r & ks & (H1 & _) & (H2 & _)). congruence. Qed.
Lemma ambiguous_sym o d : ambiguous o d -> ambiguous d o.
Proof. intros (n & r & ks & H1 & H2). exists n, r, ks. auto. Qed.

(* what a registry rejects *)
Definition clash (x y : reg_entry) : Prop :=
  ambiguous (re_desc x) (re_desc y) \/ strictness_conflict (re_desc x) (re_desc y).
Lemma clash_sym x y : clash x y -> clash y x.
Proof.
  intros [H|[H1 H2]]; [left; now apply ambiguous_sym|right]. split; [congruence|tauto].
Qed.

(* pairwise without clashes *)
Inductive tidy : full_registry -> Prop :=
| tidy_nil : tidy []
| tidy_snoc r x : tidy r -> (forall y, In y r -> ~ clash y x) -> tidy (r ++ [x]).

Lemma in_named r n x : In x (entries_named r n) <-> In x r /\ ov_name (re_desc x) = n.
Proof. unfold entries_named. rewrite filter_In, String.eqb_eq. reflexivity. Qed.
Lemma registered_spec r d : FullDescriptorRegistered r d = true <->
  exists y, In y r /\ ambiguous (re_desc y) d.
Proof.
  unfold FullDescriptorRegistered, static_overloads, lazy_overloads.
  rewrite orb_true_iff, !existsb_exists. split.
  - intros [(o & H1 & H2)|(o & H1 & H2)]; apply in_map_iff in H1; destruct H1 as (y & <- & H1);
      apply filter_In in H1; destruct H1 as [H1 _]; apply in_named in H1; destruct H1 as [H1 H3];
      exists y; (split; [exact H1|]); now apply shape_spec in H2.
  - intros (y & H1 & H2). pose proof (ambiguous_name _ _ H2) as Hn. apply shape_spec in H2; [|exact Hn].
    assert (Hy : In y (entries_named r (ov_name d))) by (apply in_named; auto).
    destruct (re_lazy y) eqn:E; [right|left]; exists (re_desc y); (split; [|exact H2]);
      apply in_map, filter_In; now rewrite E.
Qed.
Lemma tidy_all r : tidy r -> forall x y, In x r -> In y r -> x = y \/ ~ clash x y.
Proof.
  induction 1 as [|r z Hr IH Hz]; intros x y Hx Hy; [destruct Hx|].
  apply in_app_iff in Hx, Hy. cbn [In] in Hx, Hy.
  destruct Hx as [Hx|[<-|[]]], Hy as [Hy|[<-|[]]]; auto.
  right. intros Hc. apply (Hz y Hy). now apply clash_sym.
Qed.

(* the strictness check looks at the first overload of each list only, which is
   enough in a tidy registry *)
Lemma nonstrict_spec r d : tidy r -> FullValidateNonStrict r d = true <->
  forall y, In y r -> ~ strictness_conflict (re_desc y) d.
Proof.
  intros Ht. unfold FullValidateNonStrict.
  assert (Hst : forall (f : reg_entry -> bool) o rest, map re_desc (filter f (entries_named r (ov_name d))) = o :: rest ->
            exists y, In y r /\ re_desc y = o /\ ov_name o = ov_name d /\ f y = true).
  { intros f o rest E. assert (Ho : In o (map re_desc (filter f (entries_named r (ov_name d))))) by (rewrite E; now left).
    apply in_map_iff in Ho. destruct Ho as (y & <- & Hy). apply filter_In in Hy. destruct Hy as [Hy Hf].
    apply in_named in Hy. exists y. tauto. }
  destruct (entries_named r (ov_name d)) as [|y0 l0] eqn:E.
  - split; [|auto]. intros _ y Hy [H1 _]. assert (In y (entries_named r (ov_name d))) by (apply in_named; auto).
    rewrite E in H. destruct H.
  - rewrite <- E in *.
    assert (Hy0 : In y0 r /\ ov_name (re_desc y0) = ov_name d) by (apply in_named; rewrite E; now left).
    destruct (ov_strict d) eqn:Ed; cbn [negb].
    + assert (Hgen : forall (f : reg_entry -> bool),
                match map re_desc (filter f (entries_named r (ov_name d))) with [] => true | o :: _ => ov_strict o end = true <->
                forall y, In y r -> f y = true -> ov_name (re_desc y) = ov_name d -> ov_strict (re_desc y) = true).
      { intros f. destruct (map re_desc (filter f (entries_named r (ov_name d)))) as [|o rest] eqn:Em.
        - split; [|auto]. intros _ y Hy Hf Hn.
          assert (Hi : In (re_desc y) (map re_desc (filter f (entries_named r (ov_name d)))))
            by (apply in_map, filter_In; split; [apply in_named; auto|exact Hf]).
          rewrite Em in Hi. destruct Hi.
        - destruct (Hst f o rest Em) as (z & Hz & <- & Hzn & Hzf). split.
          + intros Hs y Hy Hf Hn. destruct (tidy_all r Ht z y Hz Hy) as [->|Hc]; [exact Hs|].
            destruct (ov_strict (re_desc y)) eqn:Es; [reflexivity|]. exfalso. apply Hc. right.
            split; [congruence|auto].
          + intros Hall. now apply Hall. }
      unfold static_overloads, lazy_overloads. rewrite andb_true_iff, !Hgen. split.
      * intros [H1 H2] y Hy [Hn [Hs|Hs]]; [|congruence].
        destruct (re_lazy y) eqn:El; [rewrite H2 in Hs|rewrite H1 in Hs]; auto; try congruence. now rewrite El.
      * intros H. split; intros y Hy _ Hn; destruct (ov_strict (re_desc y)) eqn:Es; auto;
          elim (H y Hy); split; auto.
    + split; [discriminate|]. intros H. elim (H y0 (proj1 Hy0)). split; [tauto|auto].
Qed.
Lemma register_spec r x : tidy r ->
  (snd (register x r) = r ++ [x] /\ fst (register x r) = None /\ forall y, In y r -> ~ clash y x) \/
  (snd (register x r) = r /\ fst (register x r) <> None /\ exists y, In y r /\ clash y x).
Proof.
  intros Ht. unfold register.
  destruct (FullDescriptorRegistered r (re_desc x)) eqn:E1.
  - right. cbn [fst snd]. repeat split; [discriminate|]. apply registered_spec in E1.
    destruct E1 as (y & H1 & H2). exists y. split; [exact H1|now left].
  - destruct (FullValidateNonStrict r (re_desc x)) eqn:E2; cbn [negb].
    + left. cbn [fst snd]. repeat split. intros y Hy [Hc|Hc].
      * assert (H : FullDescriptorRegistered r (re_desc x) = true) by (apply registered_spec; eauto). congruence.
      * exact (proj1 (nonstrict_spec r (re_desc x) Ht) E2 y Hy Hc).
    + right. cbn [fst snd]. repeat split; [discriminate|].
      destruct (List.find (fun y => String.eqb (ov_name (re_desc y)) (ov_name (re_desc x)) &&
                 (negb (ov_strict (re_desc y)) || negb (ov_strict (re_desc x)))) r) as [y|] eqn:Ef.
      * apply find_some in Ef. destruct Ef as [Hy Hf]. exists y. split; [exact Hy|right].
        apply andb_true_iff in Hf. destruct Hf as [H1 H2]. apply String.eqb_eq in H1. split; [exact H1|].
        apply orb_true_iff in H2. rewrite !negb_true_iff in H2. exact H2.
      * exfalso. assert (H : FullValidateNonStrict r (re_desc x) = true); [|congruence].
        apply nonstrict_spec; [exact Ht|]. intros y Hy [H1 H2].
        pose proof (find_none _ _ Ef y Hy) as Hn. cbn beta in Hn. apply String.eqb_eq in H1. rewrite H1 in Hn.
        destruct H2 as [->| ->] in Hn; cbn in Hn; rewrite ?orb_true_r in Hn; discriminate.
Qed.
Lemma register_tidy r x : tidy r -> tidy (snd (register x r)).
Proof.
  intros Ht. destruct (register_spec r x Ht) as [(-> & _ & H)|(-> & _)]; [|exact Ht]. now constructor.
Qed.
Lemma attempts_tidy l : forall r, tidy r -> tidy (attempts l r).
Proof.
  induction l as [|x l IH]; intros r Ht; cbn [attempts fold_left]; [exact Ht|].
  apply IH. now apply register_tidy.
Qed.

(* at most one overload accepts a call *)
Lemma accept_unique r : tidy r -> forall name rcv ks x y, In x r -> In y r ->
  accepts (re_desc x) name rcv ks -> accepts (re_desc y) name rcv ks -> x = y.
Proof.
  intros Ht name rcv ks x y Hx Hy Ax Ay. destruct (tidy_all r Ht x y Hx Hy) as [H|H]; [exact H|].
  elim H. left. exists name, rcv, ks. auto.
Qed.
Lemma self_clash x : clash x x.
Proof.
  left. exists (ov_name (re_desc x)), (ov_receiver (re_desc x)),
    (map (fun d => match d with Some k => k | None => kNullT end) (ov_kinds (re_desc x))).
  assert (H : Forall2 (fun d k => d = None \/ d = Some k) (ov_kinds (re_desc x))
     (map (fun d => match d with Some k => k | None => kNullT end) (ov_kinds (re_desc x)))).
  { induction (ov_kinds (re_desc x)) as [|d l IH]; cbn [map]; constructor; auto. destruct d; auto. }
  unfold accepts. auto.
Qed.
Lemma resolve_in_unique l l' args :
  (forall o p, In o l -> In p l -> kinds_match (ov_kinds o) args = true ->
               kinds_match (ov_kinds p) args = true -> o = p) ->
  (forall o, In o l <-> In o l') -> ResolveStatic l args = ResolveStatic l' args.
Proof.
  intros Hu Hin. unfold ResolveStatic.
  destruct (List.find _ l) as [o|] eqn:E1, (List.find _ l') as [p|] eqn:E2; auto.
  - apply find_some in E1, E2. f_equal. apply Hu; try tauto. now apply Hin.
  - apply find_some in E1. pose proof (find_none _ _ E2 o (proj1 (Hin o) (proj1 E1))). cbn beta in H.
    destruct E1. congruence.
  - apply find_some in E2. pose proof (find_none _ _ E1 p (proj2 (Hin p) (proj1 E2))). cbn beta in H.
    destruct E2. congruence.
Qed.
Lemma in_static r name rcv n o : In o (FindStatic r name rcv n) <->
  exists x, In x r /\ re_lazy x = false /\ re_desc x = o /\ ov_name o = name /\
            ov_receiver o = rcv /\ List.length (ov_kinds o) = n.
Proof.
  unfold FindStatic, by_arity, static_overloads. rewrite filter_In, in_map_iff. split.
  - intros ((x & <- & Hx) & H). apply filter_In in Hx. destruct Hx as [Hx Hl]. apply in_named in Hx.
    apply andb_true_iff in H. destruct H as [H1 H2]. apply Bool.eqb_prop in H1. apply Nat.eqb_eq in H2.
    apply negb_true_iff in Hl. exists x. tauto.
  - intros (x & Hx & Hl & <- & H1 & H2 & H3). split.
    + exists x. split; [reflexivity|]. apply filter_In. split; [apply in_named; auto|now rewrite Hl].
    + rewrite H2, H3, Bool.eqb_reflx, Nat.eqb_refl. reflexivity.
Qed.
Inductive pairs : list reg_entry -> Prop :=
| pairs_nil : pairs []
| pairs_cons x l : (forall y, In y l -> ~ clash x y) -> pairs l -> pairs (x :: l).
Lemma pairs_perm l l' : Permutation l l' -> pairs l -> pairs l'.
Proof.
  induction 1 as [|x l l' Hp IH|x y l|l1 l2 l3 H1 IH1 H2 IH2]; intros H; auto.
  - inversion H as [|? ? Hx Hl]; subst. constructor; [|auto]. intros y Hy. apply Hx.
    eapply Permutation_in; [apply Permutation_sym|]; eauto.
  - inversion H as [|? ? Hy Hl]; subst. inversion Hl as [|? ? Hx Hl']; subst.
    constructor; [|constructor; auto].
    + intros z [<-|Hz]; [|auto]. intros Hc. apply (Hy x); [now left|]. now apply clash_sym.
    + intros z Hz. apply Hy. now right.
Qed.
Lemma pairs_snoc l x : pairs (l ++ [x]) <-> pairs l /\ forall y, In y l -> ~ clash y x.
Proof.
  induction l as [|z l IH]; cbn [app].
  - split; [|intros; constructor; [intros y []|constructor]]. intros _. split; [constructor|intros y []].
  - split.
    + intros H. inversion H as [|? ? Hz Hl]; subst. apply IH in Hl. destruct Hl as [H1 H2]. split.
      * constructor; auto. intros y Hy. apply Hz, in_app_iff. auto.
      * intros y [<-|Hy]; [|auto]. apply Hz, in_app_iff. right. now left.
    + intros [H1 H2]. inversion H1 as [|? ? Hz Hl]; subst. constructor.
      * intros y Hy. apply in_app_iff in Hy. destruct Hy as [Hy|[<-|[]]]; [auto|]. apply H2. now left.
      * apply IH. split; [exact Hl|]. intros y Hy. apply H2. now right.
Qed.
Lemma pairs_tidy l : pairs l <-> tidy l.
Proof.
  split.
  - induction l as [|x l IH] using rev_ind; intros H; [constructor|].
    apply pairs_snoc in H. destruct H. constructor; auto.
  - induction 1 as [|r x H1 IH H2]; [constructor|]. apply pairs_snoc. auto.
Qed.
Lemma attempts_snoc l x r : attempts (l ++ [x]) r = snd (register x (attempts l r)).
Proof. unfold attempts. now rewrite fold_left_app. Qed.
Lemma attempts_le l : forall r, (List.length (attempts l r) <= List.length r + List.length l)%nat.
Proof.
  induction l as [|x l IH]; intros r; cbn [attempts fold_left]; [cbn; lia|].
  fold (attempts l (snd (register x r))). specialize (IH (snd (register x r))).
  assert (H : (List.length (snd (register x r)) <= List.length r + 1)%nat).
  { unfold register. destruct (FullDescriptorRegistered _ _); cbn [snd]; [lia|].
    destruct (negb _); cbn [snd]; [lia|]. rewrite app_length. cbn. lia. }
  cbn [List.length]. lia.
Qed.
Lemma succeed_pairs l : attempts l [] = l <-> pairs l.
Proof.
  rewrite pairs_tidy. split.
  - intros H. rewrite <- H. apply attempts_tidy. constructor.
  - induction l as [|x l IH] using rev_ind; intros H; [reflexivity|].
    rewrite attempts_snoc. apply pairs_tidy, pairs_snoc in H. destruct H as [H1 H2]. apply pairs_tidy in H1.
    rewrite (IH H1). destruct (register_spec l x H1) as [(-> & _)|(_ & _ & y & Hy & Hc)]; [reflexivity|].
    elim (H2 y Hy Hc).
Qed.

(* ---- the evaluator's registry ---- *)
Lemma in_by_arity R fn rcv n o : In o (FindStaticOverloadsByArity R fn rcv n) <->
  In o R /\ ov_name o = fn /\ ov_receiver o = rcv /\ List.length (ov_kinds o) = n.
Proof.
  unfold FindStaticOverloadsByArity, named. rewrite !filter_In, andb_true_iff, String.eqb_eq, Nat.eqb_eq.
  split; [intros ((?&?)&?&?)|intros (?&?&<-&?)]; repeat split; auto.
  - now apply Bool.eqb_prop.
  - apply Bool.eqb_reflx.
Qed.
Definition one_accepts (R : registry) : Prop := forall name rcv ks o p, In o R -> In p R ->
  accepts o name rcv ks -> accepts p name rcv ks -> o = p.
Lemma static_tidy h : one_accepts (static_overloads (attempts h [])).
Proof.
  intros name rcv ks o p Ho Hq Ao Ap. unfold static_overloads in *. apply in_map_iff in Ho, Hq.
  destruct Ho as (x & <- & Hx), Hq as (y & <- & Hy). apply filter_In in Hx, Hy. f_equal.
  apply (accept_unique (attempts h []) (attempts_tidy h [] tidy_nil) name rcv ks); tauto.
Qed.
Lemma forall2_len {A B} (Q : A -> B -> Prop) l l' : Forall2 Q l l' -> List.length l = List.length l'.
Proof. induction 1; cbn [List.length]; auto. Qed.
Lemma resolve_unique R fn rcv input o : one_accepts R -> In o R ->
  accepts o fn rcv (map kind_of input) ->
  ResolveStatic (FindStaticOverloadsByArity R fn rcv (List.length input)) input = Some o.
Proof.
  intros Hu Ho Ha. unfold ResolveStatic.
  destruct (List.find _ _) as [p|] eqn:E.
  - apply find_some in E. destruct E as [E1 E2]. apply in_by_arity in E1. f_equal.
    eapply Hu; eauto; [tauto|]. split; [tauto|]. split; [tauto|]. now apply kinds_match_spec.
  - destruct Ha as (H1 & H2 & H3). pose proof (forall2_len _ _ _ H3) as Hl. rewrite map_length in Hl.
    assert (Hi : In o (FindStaticOverloadsByArity R fn rcv (List.length input))) by (apply in_by_arity; auto).
    pose proof (find_none _ _ E o Hi) as Hn. cbn beta in Hn.
    apply kinds_match_spec in H3. congruence.
Qed.
Lemma find_app_none before s after :
  forallb (fun v => negb (is_error v)) before = true ->
  List.find is_error (before ++ VError s :: after) = Some (VError s).
Proof.
  induction before as [|v l IH]; cbn [app List.find forallb]; [reflexivity|].
  intros H. apply andb_true_iff in H. destruct H as [H1 H2]. apply negb_true_iff in H1. rewrite H1. auto.
Qed.

Lemma merge_none l : (forall v, In v l -> is_unknown v = false) -> MergeUnknowns l = None.
Proof.
  unfold MergeUnknowns. induction l as [|v l IH]; intros H; [reflexivity|].
  cbn [MergeUnknowns_loop]. assert (H1 := H v (or_introl eq_refl)).
  assert (H2 : MergeUnknowns_loop None l = None) by (apply IH; intros w Hw; apply H; now right).
  destruct v; auto. discriminate.
Qed.

(* what a planned call invokes *)
Lemma invokes_proper C R op args : planned_op R op (List.length args) ->
  Forall (proper_invocation R) (op_invokes C op args).
Proof.
  intros Hq. destruct op; cbn [op_invokes]; try constructor. cbn [planned_op] in Hq. subst ovs.
  set (input := call_args (unk C) (cf_pats C) args).
  destruct (accepted _ input) as [o|] eqn:E; [|constructor]. constructor; [|constructor].
  unfold accepted in E. destruct (ResolveStatic _ input) as [p|] eqn:Er; [|discriminate].
  destruct (ShouldAcceptOverload p input) eqn:Es; [|discriminate]. injection E as <-.
  unfold ResolveStatic in Er. apply find_some in Er. destruct Er as [H1 H2]. apply in_by_arity in H1.
  exists p, receiver. cbn [fst snd]. split; [tauto|]. split.
  - split; [tauto|]. split; [tauto|]. now apply kinds_match_spec.
  - intros Hst a Ha. unfold ShouldAcceptOverload in Es.
    destruct (existsb _ input) eqn:Ex; [rewrite Hst in Es; discriminate|].
    assert (Hn : is_unknown a || is_error a = false).
    { destruct (is_unknown a || is_error a) eqn:Ea; [|reflexivity].
      rewrite <- Ex. symmetry. apply existsb_exists. eauto. }
    apply orb_false_iff in Hn. tauto.
Qed.

Lemma plan_ordinary O R fn rcv args : ~ In fn operator_names ->
  plan_call O R fn rcv args = resolved_call O R fn rcv args.
Proof.
  intros H. unfold plan_call.
  assert (N : forall s, In s operator_names -> String.eqb fn s = false).
  { intros s Hs. apply String.eqb_neq. intros ->. now apply H. }
  unfold is_nsf_name, is_in_name.
  rewrite !N by (unfold operator_names; cbn [In]; tauto). cbn [orb].
  rewrite !andb_false_r. reflexivity.
Qed.

(* a call on leaf operands *)
Lemma operand_core C R e v k : o_unknowns (cf_opts C) = false -> operand_value C e v ->
  elaborate (cf_opts C) R e = Val k ->
  forall s, exists r, alloc false [] k s = (r, s) /\
    forall lz t, seval C r lz t = RVal (v, None) t.
Proof.
  intros Hu Hv Hk s. destruct e; try now destruct Hv.
  - cbn [operand_value] in Hv. subst v0. injection Hk as <-. exists (RConst v). auto.
  - destruct Hv as (H1 & H2 & H3). cbn [elaborate] in Hk. unfold plan_ident in Hk.
    destruct name as [|c rest]; [congruence|].
    destruct (Ascii.eqb c "."%char) eqn:E.
    + apply Ascii.eqb_eq in E. subst c. elim H2. reflexivity.
    + injection Hk as <-. exists (RVar (String c rest)). split; [reflexivity|].
      intros lz t. cbn [seval]. unfold LookupIdent, unknown_exact, unk. rewrite Hu. cbn [andb].
      rewrite H3. reflexivity.
Qed.
Lemma operands_core C R es vs : o_unknowns (cf_opts C) = false -> Forall2 (operand_value C) es vs ->
  forall ks, map_out (elaborate (cf_opts C) R) es = Val ks ->
  forall s, exists rs, alloc_list false [] ks s = (rs, s) /\ List.length ks = List.length vs /\
    forall lz t, seval_list (fun x => seval C x lz) rs t = RVal (map (fun v => (v, None)) vs) t.
Proof.
  intros Hu H. induction H as [|e v es vs He Hes IH]; intros ks Hk s.
  - injection Hk as <-. exists []. auto.
  - cbn [map_out] in Hk. fold (map_out (elaborate (cf_opts C) R)) in Hk.
    destruct (elaborate (cf_opts C) R e) as [k|?|] eqn:Ek; cbn [obind] in Hk; try discriminate.
    destruct (map_out _ es) as [ks'|?|] eqn:Eks; cbn [obind] in Hk; try discriminate.
    injection Hk as <-.
    destruct (operand_core C R e v k Hu He Ek s) as (r & Hr1 & Hr2).
    destruct (IH ks' eq_refl s) as (rs & Hs1 & Hs2 & Hs3).
    exists (r :: rs). cbn [alloc_list]. fold (alloc_list false []). rewrite Hr1, Hs1. split; [reflexivity|].
    split; [cbn [List.length]; auto|]. intros lz t. cbn [seval_list]. rewrite Hr2. cbn [rbind].
    fold (seval_list (fun x => seval C x lz)). rewrite Hs3. reflexivity.
Qed.
Lemma map_out_app {A B} (f : A -> out B) l l' ks ks' :
  map_out f l = Val ks -> map_out f l' = Val ks' -> map_out f (l ++ l') = Val (ks ++ ks').
Proof.
  revert ks. induction l as [|x l IH]; intros ks H H'; cbn [map_out app] in *.
  - injection H as <-. exact H'.
  - fold (map_out f) in *. destruct (f x); cbn [obind] in *; try discriminate.
    destruct (map_out f l); cbn [obind] in *; try discriminate. injection H as <-.
    rewrite (IH _ eq_refl H'). reflexivity.
Qed.
Lemma call_seval C R fn target args input k : ~ In fn operator_names ->
  o_unknowns (cf_opts C) = false ->
  Forall2 (operand_value C) (call_operands target args) input ->
  elaborate (cf_opts C) R (ECall fn target args) = Val k ->
  exists vs, map fst vs = input /\
    seval C (resolved k) no_lazy est_init =
    do_op C (OCall fn (is_method target)
               (FindStaticOverloadsByArity R fn (is_method target) (List.length vs))) vs est_init.
Proof.
  intros Hfn Hu Hin Hk. cbn [elaborate] in Hk.
  assert (Hks : exists ks, map_out (elaborate (cf_opts C) R) (call_operands target args) = Val ks /\
            plan_call (cf_opts C) R fn (is_method target) ks = Val k).
  { unfold call_operands, is_method. destruct target as [x|].
    - destruct (elaborate (cf_opts C) R x) as [a|?|] eqn:Ea; cbn [obind] in Hk; try discriminate.
      destruct (map_out _ args) as [cs|?|] eqn:Ec; cbn [obind] in Hk; try discriminate.
      exists ([a] ++ cs). split; [|exact Hk]. apply map_out_app; [|exact Ec]. cbn [map_out]. now rewrite Ea.
    - cbn [obind] in Hk. destruct (map_out _ args) as [cs|?|] eqn:Ec; cbn [obind] in Hk; try discriminate.
      exists cs. split; [exact Ec|exact Hk]. }
  clear Hk. destruct Hks as (ks & Hks & Hk). rewrite plan_ordinary in Hk by exact Hfn.
  destruct (operands_core C R _ _ Hu Hin ks Hks (mkAlloc 0 0 [])) as (rs & H1 & H2 & H3).
  exists (map (fun v => (v, None)) input). split; [now rewrite map_map, map_id|].
  assert (Hk' : k = KApp (OCall fn (is_method target)
                            (FindStaticOverloadsByArity R fn (is_method target) (List.length ks))) ks).
  { unfold resolved_call in Hk. destruct (FindStaticOverloadsByArity _ _ _ _).
    - destruct (o_fail_on_warnings _); [discriminate|]. injection Hk as <-. reflexivity.
    - injection Hk as <-. reflexivity. }
  subst k. unfold resolved. rewrite alloc_app, H1. cbn [fst seval].
  fold (seval_list (fun x => seval C x no_lazy)). rewrite H3. cbn [rbind]. rewrite map_length, H2. reflexivity.
Qed.
