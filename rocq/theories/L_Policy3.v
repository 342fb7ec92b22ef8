(* Well-formed policies, unnesting and heights. *)
From Coq Require Import ZArith List Bool String Ascii Lia DecimalString.
From Verif Require Import Base M_Overflow M_Number M_Attr M_Value M_Logic M_Expr M_Machine M_Macro M_Registry
  S_Eval S_Macro S_Func L_Core L_Meaning L_Macro P_Macro2.
From Verif Require Import M_Policy S_Policy L_Policy L_Policy2.
Import ListNotations.
Local Open Scope string_scope.
Open Scope list_scope.
Open Scope Z_scope.
Local Open Scope out_scope.

(* ---- structure ---- *)
Definition checked (r : rule) : Prop :=
  (CheckMatchStructure r = true <-> well_formed r) /\
  (well_formed r -> (IsExhaustive r = true <-> always_outputs r)).

Lemma uncond_iff c : unconditional c = true <-> IsTriviallyTrueCondition c = true.
Proof. now rewrite trivial_eq. Qed.
Lemma default_iff m : on_nested checked m -> structure m = true ->
  (is_default m = true <-> unconditional (fst m) = true /\ match snd m with inl _ => True | inr r => always_outputs r end).
Proof.
  destruct m as [c [e|r]]; unfold is_default, structure, on_nested; cbn [fst snd exhaustive_production];
    intros Hr Hs; rewrite trivial_eq, andb_true_iff; [tauto|]. destruct Hr as [H1 H2]. rewrite (H2 (proj1 H1 Hs)). tauto.
Qed.
Lemma always_last_nil : ~ always_last [].
Proof. intros H. inversion H. Qed.
Lemma matches_checked l : Forall (on_nested checked) l -> (struct_ok l <-> wf_matches l) /\
  (wf_matches l -> (exh_go false l = true <-> always_last l)).
Proof.
  induction 1 as [|m l Hm Hl [IH1 IH2]].
  { split; [split; intros; [constructor|exact I]|]. intros _. cbn [exh_go]. split; [discriminate|].
    intros H. now apply always_last_nil in H. }
  assert (E : struct_ok (m :: l) <-> wf_matches (m :: l)).
  { cbn [struct_ok]. destruct m as [c [e|r]].
    - rewrite IH1. split.
      + intros (H1 & _ & H2). constructor; auto. destruct H1 as [H1|H1]; auto. right.
        unfold is_default in H1. cbn in H1. rewrite andb_true_r in H1. now rewrite trivial_eq.
      + intros H. inversion H as [|? ? ? H1 H2|]; subst. split; [|auto]. destruct H1 as [H1|H1]; auto. right.
        unfold is_default. cbn. rewrite <- trivial_eq, H1. reflexivity.
    - rewrite IH1. assert (D := default_iff (c, inr r) Hm). destruct Hm as [Hc He]. unfold structure in *. cbn [fst snd] in *. split.
      + intros (H1 & H2 & H3). apply wf_nested; [|now apply Hc|exact H3]. destruct H1 as [H1|H1]; auto. right.
        destruct (unconditional c) eqn:Eu; auto. right. intros Ha.
        rewrite (proj2 (D H2) (conj eq_refl Ha)) in H1. discriminate.
      + intros H. inversion H as [| |? ? ? H1 H2 H3]; subst. split; [|split; [now apply Hc|exact H3]].
        destruct H1 as [H1|H1]; auto. right.
        apply not_true_iff_false. intros Ed. apply D in Ed; [|now apply Hc].
        destruct Ed as [E1 E2]. destruct H1; [congruence|contradiction]. }
  split; [exact E|]. intros Hw. assert (Hst := proj2 E Hw). cbn [struct_ok] in Hst. destruct Hst as (Hd & Hs & Hst).
  assert (D := default_iff m Hm Hs). destruct l as [|m' l].
  - rewrite exh_last, D. destruct m as [c [e|r]]; cbn [fst snd]; split.
    + intros [H _]. now constructor.
    + intros H. inversion H as [| |? ? ? H1| |]; subst; auto. now apply always_last_nil in H1.
    + intros [H1 H2]. now apply last_rule.
    + intros H. inversion H as [| | |? ? ? H1 H2|? ? ? H1 H2]; subst; auto; now apply always_last_nil in H2.
  - destruct Hd as [Hd|Hd]; [discriminate|].
    assert (IH2' := IH2 (proj1 IH1 Hst)). destruct m as [c [e|r]]; split.
    + intros H. destruct (exh_cons _ _ Hd H) as [H1 _]. apply skip_output. now apply IH2'.
    + intros H. unfold is_default in Hd. cbn in Hd. rewrite andb_true_r in Hd. inversion H as [? ? ? H1| |? ? ? H1| |]; subst.
      * rewrite trivial_eq in H1. congruence.
      * change (exh_go false ((c, inl e) :: m' :: l)) with
          (if negb (IsTriviallyTrueCondition c) && negb true then false
           else exh_go (false || IsTriviallyTrueCondition c && true) (m' :: l)).
        rewrite Hd. cbn [negb andb orb]. now apply IH2'.
    + intros H. destruct (exh_cons _ _ Hd H) as [H1 H2]. cbn [fst snd exhaustive_production] in H2.
      destruct (unconditional c) eqn:Eu; [apply skip_optional; [exact Eu|now apply IH2']|].
      apply skip_rule; [|now apply IH2']. rewrite trivial_eq in Eu. rewrite Eu in H2. cbn [negb] in H2.
      destruct Hm as [Hc He]. apply He; auto. apply Hc. exact Hs.
    + intros H. unfold is_default in Hd. cbn [fst snd exhaustive_production] in Hd. destruct Hm as [Hc He].
      unfold structure in Hs. cbn [snd] in Hs. assert (Hwr := proj1 Hc Hs).
      assert (G : negb (IsTriviallyTrueCondition c) && negb (IsExhaustive r) = false -> always_last (m' :: l) ->
                  exh_go false ((c, inr r) :: m' :: l) = true).
      { intros G1 G2. change (exh_go false ((c, inr r) :: m' :: l)) with
          (if negb (IsTriviallyTrueCondition c) && negb (IsExhaustive r) then false
           else exh_go (false || IsTriviallyTrueCondition c && IsExhaustive r) (m' :: l)).
        rewrite Hd, G1. cbn [orb]. now apply IH2'. }
      inversion H as [|? ? ? H1 H2| |? ? ? H1 H2|? ? ? H1 H2]; subst.
      * apply (He Hwr) in H2. rewrite trivial_eq in H1. rewrite H1, H2 in Hd. discriminate.
      * apply G; auto. rewrite trivial_eq in H1. now rewrite H1.
      * apply G; auto. apply (He Hwr) in H1. rewrite H1. apply andb_false_r.
Qed.
Lemma rule_checked r : checked r.
Proof.
  induction r as [vars ms H] using rule_ind'. destruct (matches_checked ms H) as [H1 H2]. split.
  - rewrite CheckMatchStructure_eq. destruct ms as [|m ms].
    + split; [discriminate|]. intros G. inversion G; subst. congruence.
    + rewrite struct_go_ok, H1. split; intros G; [constructor; [discriminate|exact G]|now inversion G].
  - intros G. inversion G; subst. rewrite IsExhaustive_eq, H2 by assumption.
    split; intros K; [now constructor|now inversion K].
Qed.

Scheme always_outputs_min := Minimality for always_outputs Sort Prop
  with always_last_min := Minimality for always_last Sort Prop.
(* a rule that always has an output never comes out without *)
Lemma always_decides C R r : always_outputs r -> forall rho, decide C R r rho <> Val NoMatch.
Proof.
  apply (always_outputs_min (fun r => forall rho, decide C R r rho <> Val NoMatch)
           (fun l => forall rho, decide_go C R rho l <> Val NoMatch)).
  - intros vars ms _ IH rho. rewrite decide_eq. apply IH.
  - intros c e l Hc rho. cbn [decide_go production_of]. rewrite Hc.
    destruct (meaning C R e rho) as [[v t]| |]; cbn [obind fst]; try discriminate. destruct v; discriminate.
  - intros c r0 l Hc _ IH rho. cbn [decide_go production_of]. rewrite Hc. specialize (IH rho).
    destruct (decide C R r0 rho) as [[]| |]; cbn [obind]; congruence.
  - intros c e l _ IH rho. cbn [decide_go production_of].
    assert (P : (x <- meaning C R e rho;; Val match fst x with VError s => Failure (VError s) | v => Output v end) <> Val NoMatch).
    { destruct (meaning C R e rho) as [[v t]| |]; cbn [obind fst]; try discriminate. destruct v; discriminate. }
    destruct (unconditional c).
    + destruct (meaning C R e rho) as [[v t]| |]; cbn [obind fst]; try discriminate. destruct v; discriminate.
    + destruct (match c with Some _ => _ | None => _ end) as [[v t]| |]; cbn [obind fst]; try discriminate.
      destruct v; try discriminate. destruct b; auto.
  - intros c r0 l Hc _ IH rho. cbn [decide_go production_of]. rewrite Hc.
    destruct (decide C R r0 rho) as [[]| |]; cbn [obind]; try discriminate. apply IH.
  - intros c r0 l _ IHr _ IH rho. cbn [decide_go production_of]. specialize (IHr rho).
    destruct (unconditional c).
    + destruct (decide C R r0 rho) as [[]| |]; cbn [obind]; try discriminate. apply IH.
    + destruct (match c with Some _ => _ | None => _ end) as [[v t]| |]; cbn [obind fst]; try discriminate.
      destruct v; try discriminate. destruct b; auto.
Qed.

(* ---- unnesting ---- *)
Lemma map_state_id {A S} (f : A -> S -> A * S) l : Forall (fun a => forall s, f a s = (a, s)) l ->
  forall s, map_state f l s = (l, s).
Proof. induction 1 as [|a l Ha _ IH]; intros s; cbn [map_state]; [reflexivity|]. now rewrite Ha, IH. Qed.

Lemma slice_id h e : has_cut h e = false -> forall init, slice h e init = (e, init).
Proof.
  induction e using expr_ind'; intros Hc init; cbn [slice has_cut] in *; apply orb_false_iff in Hc as [Ha Hc]; rewrite ?Ha.
  - reflexivity.
  - reflexivity.
  - now rewrite (IHe Hc).
  - apply orb_false_iff in Hc as [Ht Hl].
    assert (E : match t with Some a => let (a', i1) := slice h a init in (Some a', i1) | None => (None, init) end = (t, init)).
    { destruct t as [a|]; [|reflexivity]. now rewrite (H Ht). }
    rewrite E. rewrite map_state_id; [reflexivity|].
    rewrite Forall_forall in *. intros a Hin s. apply H0; auto.
    destruct (has_cut h a) eqn:Ec; auto. rewrite <- Hl. symmetry. apply existsb_exists. eauto.
  - rewrite map_state_id; [reflexivity|]. rewrite Forall_forall in *. intros [o a] Hin s. cbn [fst snd].
    rewrite (H _ Hin); [reflexivity|]. destruct (has_cut h (snd (o, a))) eqn:Ec; auto.
    rewrite <- Hc. symmetry. apply existsb_exists. eauto.
  - rewrite map_state_id; [reflexivity|]. rewrite Forall_forall in *. intros [o [k v]] Hin s. cbn [fst snd].
    destruct (H _ Hin) as [H1 H2]. cbn [fst snd] in *.
    assert (G : has_cut h k || has_cut h v = false).
    { destruct (has_cut h k || has_cut h v) eqn:Ec; auto. rewrite <- Hc. symmetry. apply existsb_exists. eauto. }
    apply orb_false_iff in G as [G1 G2]. now rewrite H1, H2.
  - apply orb_false_iff in Hc as [Hc H5]. apply orb_false_iff in Hc as [Hc H4].
    apply orb_false_iff in Hc as [Hc H3]. apply orb_false_iff in Hc as [H1 H2].
    now rewrite IHe1, IHe2, IHe3, IHe4, IHe5.
Qed.

Section Slice.
  Variables (C : config) (R : registry).
  Section Map.
    Context {A X : Type}.
    Variables (f : A -> list expr -> A * list expr) (good : nat -> A -> Prop) (means : A -> env -> X).
    Hypothesis mono : forall n m a, good n a -> (n <= m)%nat -> good m a.
    Definition sliced_to (a : A) (init new : list expr) (a' : A) : Prop :=
      f a init = (a', init ++ new) /\ in_order (List.length init) new /\ good (List.length (init ++ new)) a' /\
      forall rho, solves C R (init ++ new) rho -> means a' rho = means a rho.
    Lemma map_sliced l : Forall (fun a => forall init, good (List.length init) a -> exists new a', sliced_to a init new a') l ->
      forall init, Forall (good (List.length init)) l ->
      exists new l', map_state f l init = (l', init ++ new) /\ in_order (List.length init) new /\
        Forall (good (List.length (init ++ new))) l' /\
        forall rho, solves C R (init ++ new) rho -> map (fun a => means a rho) l' = map (fun a => means a rho) l.
    Proof.
      induction 1 as [|a l Ha _ IH]; intros init Hg; cbn [map_state].
      - exists [], []. rewrite app_nil_r. split; [reflexivity|]. split; [apply in_order_nil|]. split; [constructor|]. reflexivity.
      - inversion Hg as [|? ? G1 G2]; subst. destruct (Ha init G1) as (new & a' & E & Hi & Hg' & Hm).
        destruct (IH (init ++ new)) as (new2 & l' & E2 & Hi2 & Hg2 & Hm2).
        { eapply Forall_impl; [|exact G2]. intros x Hx. apply (mono _ _ _ Hx). rewrite app_length. lia. }
        rewrite E, E2. exists (new ++ new2), (a' :: l'). rewrite app_assoc. split; [reflexivity|].
        split; [|split].
        + apply in_order_app; auto. now rewrite app_length in Hi2.
        + constructor; auto. apply (mono _ _ _ Hg'). rewrite !app_length. lia.
        + intros rho Hr. cbn [map]. rewrite Hm2 by exact Hr. now rewrite (Hm rho (solves_app _ _ _ _ _ Hr)).
    Qed.
  End Map.

  Notation sliced h e := (forall init, closed (List.length init) e ->
    exists new e', @sliced_to expr (out vt) (slice h) closed (meaning C R) e init new e').

  (* the node itself may be cut off *)
  Lemma cut_node h e init new e' :
    in_order (List.length init) new -> closed (List.length (init ++ new)) e' ->
    (forall rho, solves C R (init ++ new) rho -> meaning C R e' rho = meaning C R e rho) ->
    exists new2 e2,
      (if at_cut h e then (EIdent (index_name (List.length (init ++ new))), (init ++ new) ++ [e']) else (e', init ++ new))
      = (e2, init ++ new2) /\
      in_order (List.length init) new2 /\ closed (List.length (init ++ new2)) e2 /\
      forall rho, solves C R (init ++ new2) rho -> meaning C R e2 rho = meaning C R e rho.
  Proof.
    intros Hi Hc Hm. destruct (at_cut h e); [|now exists new, e'].
    exists (new ++ [e']), (EIdent (index_name (List.length (init ++ new)))). rewrite app_assoc.
    split; [reflexivity|]. split; [|split].
    - apply in_order_app; auto. apply in_order_one. now rewrite app_length in Hc.
    - intros i. cbn [free]. rewrite String.eqb_eq. intros E. apply index_inj in E. subst i. rewrite !app_length. cbn. lia.
    - intros rho Hr. assert (E : nth_error ((init ++ new) ++ [e']) (List.length (init ++ new)) = Some e').
      { rewrite nth_error_app2, Nat.sub_diag by lia. reflexivity. }
      apply Hr in E. rewrite <- (Hm rho (solves_app _ _ _ _ _ Hr)).
      set (n := List.length (init ++ new)) in *.
      assert (Ei : index_name n = String "@" (String.append "index" (NilEmpty.string_of_uint (Nat.to_uint n)))) by reflexivity.
      rewrite Ei in *. cbn [meaning]. now rewrite E.
  Qed.

  Lemma closed_ecall n fn t args : closed n (ECall fn t args) <->
    match t with Some a => closed n a | None => True end /\ Forall (closed n) args.
  Proof.
    unfold closed. split.
    - intros H. split.
      + destruct t as [a|]; [|exact I]. intros i Hi. apply H. cbn [free]. now rewrite Hi.
      + rewrite Forall_forall. intros a Ha i Hi. apply H. cbn [free]. apply orb_true_iff. right.
        induction args as [|b l IH]; [destruct Ha|]. apply orb_true_iff. destruct Ha as [->|Ha]; auto.
        right. apply IH; auto. intros j Hj. apply H. cbn [free] in *. apply orb_true_iff in Hj as [Hj|Hj]; [now rewrite Hj|].
        rewrite Hj. now rewrite !orb_true_r.
    - intros [Ht Ha] i. cbn [free]. rewrite orb_true_iff. intros [Hi|Hi].
      + destruct t; [auto|discriminate].
      + induction Ha as [|a l Ha Hl IH]; [discriminate|]. apply orb_true_iff in Hi as [Hi|Hi]; auto.
  Qed.
  Lemma closed_list n l : closed n (EList l) <-> Forall (fun p => closed n (snd p)) l.
  Proof.
    unfold closed. split.
    - intros H. induction l as [|[o a] l IH]; constructor.
      + intros i Hi. apply H. cbn [free snd] in *. now rewrite Hi.
      + apply IH. intros i Hi. apply H. cbn [free] in *. now rewrite Hi, orb_true_r.
    - intros H. induction H as [|[o a] l Ha Hl IH]; intros i Hi; [discriminate|].
      cbn [free] in *. apply orb_true_iff in Hi as [Hi|Hi]; [now apply Ha|now apply IH].
  Qed.
  Lemma closed_map n l : closed n (EMap l) <-> Forall (fun p => closed n (fst (snd p)) /\ closed n (snd (snd p))) l.
  Proof.
    unfold closed. split.
    - intros H. induction l as [|[o [k v]] l IH]; constructor.
      + split; intros i Hi; apply H; cbn [free fst snd] in *; rewrite Hi; now rewrite ?orb_true_r.
      + apply IH. intros i Hi. apply H. cbn [free] in *. now rewrite Hi, orb_true_r.
    - intros H. induction H as [|[o [k v]] l [Hk Hv] Hl IH]; intros i Hi; [discriminate|].
      cbn [free] in *. apply orb_true_iff in Hi as [Hi|Hi]; [|now apply IH].
      apply orb_true_iff in Hi as [Hi|Hi]; [now apply Hk|now apply Hv].
  Qed.
  Lemma existsb_none {A} (p : A -> bool) l a : existsb p l = false -> In a l -> p a = false.
  Proof. intros H Hi. destruct (p a) eqn:E; auto. rewrite <- H. symmetry. apply existsb_exists. eauto. Qed.

  Lemma slice_ok h e : cut_in_comprehension h e = false -> sliced h e.
  Proof.
    induction e using expr_ind'; intros Hc init Hcl.
    - assert (G := cut_node h (EConst v) init [] (EConst v)). rewrite app_nil_r in G. unfold sliced_to. cbn [slice].
      apply G; auto. apply in_order_nil.
    - assert (G := cut_node h (EIdent x) init [] (EIdent x)). rewrite app_nil_r in G. unfold sliced_to. cbn [slice].
      apply G; auto. apply in_order_nil.
    - cbn [cut_in_comprehension] in Hc. destruct (IHe Hc init Hcl) as (new & a' & E & Hi & Hc' & Hm).
      unfold sliced_to. cbn [slice]. rewrite E. apply (cut_node h (ESelect e f t) init new (ESelect a' f t)); auto.
      intros rho Hr. cbn [meaning]. now rewrite Hm.
    - cbn [cut_in_comprehension] in Hc. apply orb_false_iff in Hc as [Ht Hl].
      apply closed_ecall in Hcl as [Ct Ca].
      assert (E : exists new1 t', match t with Some a => let (a', i1) := slice h a init in (Some a', i1) | None => (None, init) end
                    = (t', init ++ new1) /\ in_order (List.length init) new1 /\
                      match t' with Some a => closed (List.length (init ++ new1)) a | None => True end /\
                      forall rho, solves C R (init ++ new1) rho ->
                      option_map (fun a => meaning C R a rho) t' = option_map (fun a => meaning C R a rho) t).
      { destruct t as [a|].
        - destruct (H Ht init Ct) as (new & a' & E & Hi & Hc' & Hm). exists new, (Some a'). rewrite E.
          split; [reflexivity|]. split; [exact Hi|]. split; [exact Hc'|]. intros rho Hr. cbn [option_map]. now rewrite Hm.
        - exists [], None. rewrite app_nil_r. split; [reflexivity|]. split; [apply in_order_nil|]. now split. }
      destruct E as (new1 & t' & E1 & Hi1 & Hc1 & Hm1).
      destruct (map_sliced (slice h) closed (meaning C R) closed_le args) with (init := init ++ new1)
        as (new2 & args' & E2 & Hi2 & Hc2 & Hm2).
      { rewrite Forall_forall in *. intros a Ha. apply H0; auto. now apply (existsb_none _ _ _ Hl). }
      { eapply Forall_impl; [|exact Ca]. intros a Ha. apply (closed_le _ _ _ Ha). rewrite app_length. lia. }
      unfold sliced_to. cbn [slice]. rewrite E1, E2, <- app_assoc.
      rewrite <- app_assoc in Hc2, Hm2.
      apply (cut_node h (ECall fn t args) init (new1 ++ new2) (ECall fn t' args')).
      + apply in_order_app; auto. now rewrite app_length in Hi2.
      + apply closed_ecall. split; auto. destruct t'; auto. apply (closed_le _ _ _ Hc1). rewrite !app_length. lia.
      + intros rho Hr. cbn [meaning]. rewrite Hm2 by exact Hr.
        rewrite app_assoc in Hr. apply solves_app in Hr. specialize (Hm1 rho Hr).
        destruct t, t'; cbn [option_map] in Hm1; try discriminate; [|reflexivity]. now injection Hm1 as ->.
    - cbn [cut_in_comprehension] in Hc. apply closed_list in Hcl.
      destruct (map_sliced (fun (p : bool * expr) i => let (a, i1) := slice h (snd p) i in ((fst p, a), i1))
                  (fun n (p : bool * expr) => closed n (snd p)) (fun (p : bool * expr) rho => (fst p, meaning C R (snd p) rho))) with (l := l) (init := init)
        as (new & l' & E & Hi & Hc' & Hm); auto.
      { intros n m p Hp Hl. now apply (closed_le _ _ _ Hp). }
      { rewrite Forall_forall in *. intros [o a] Hin init' G. cbn [snd fst] in *.
        destruct (H _ Hin (existsb_none _ _ _ Hc Hin) init' G) as (new & a' & E & Hi & Hc' & Hm). cbn [snd] in *.
        exists new, (o, a'). unfold sliced_to. cbn [fst snd]. rewrite E. split; [reflexivity|]. split; [exact Hi|].
        split; [exact Hc'|]. intros rho Hr. now rewrite Hm. }
      unfold sliced_to. cbn [slice]. rewrite E. apply (cut_node h (EList l) init new (EList l')); auto.
      + now apply closed_list.
      + intros rho Hr. specialize (Hm rho Hr). cbn [meaning].
        assert (G1 : map fst l' = map fst l) by (apply (f_equal (map fst)) in Hm; now rewrite !map_map in Hm).
        assert (G2 : map (fun p => meaning C R (snd p) rho) l' = map (fun p => meaning C R (snd p) rho) l)
          by (apply (f_equal (map snd)) in Hm; now rewrite !map_map in Hm).
        now rewrite G1, G2.
    - cbn [cut_in_comprehension] in Hc. apply closed_map in Hcl.
      destruct (map_sliced (fun (p : bool * (expr * expr)) i =>
            let (k, i1) := slice h (fst (snd p)) i in
            let (v, i2) := slice h (snd (snd p)) i1 in ((fst p, (k, v)), i2))
                  (fun n (p : bool * (expr * expr)) => closed n (fst (snd p)) /\ closed n (snd (snd p)))
                  (fun (p : bool * (expr * expr)) rho => (fst p, (meaning C R (fst (snd p)) rho, meaning C R (snd (snd p)) rho)))) with (l := l) (init := init)
        as (new & l' & E & Hi & Hc' & Hm); auto.
      { intros n m p [Hp1 Hp2] Hl. split; [now apply (closed_le _ _ _ Hp1)|now apply (closed_le _ _ _ Hp2)]. }
      { rewrite Forall_forall in *. intros [o [k v]] Hin init' [Gk Gv]. cbn [snd fst] in *.
        assert (Hcc := existsb_none _ _ _ Hc Hin). cbn [fst snd] in Hcc. apply orb_false_iff in Hcc as [K1 K2].
        destruct (H _ Hin) as [IK IV]. cbn [fst snd] in *.
        destruct (IK K1 init' Gk) as (new & k' & E & Hi & Hck & Hm).
        destruct (IV K2 (init' ++ new)) as (new2 & v' & E2 & Hi2 & Hcv & Hm2).
        { apply (closed_le _ _ _ Gv). rewrite app_length. lia. }
        exists (new ++ new2), (o, (k', v')). unfold sliced_to. cbn [fst snd]. rewrite E, E2, app_assoc.
        split; [reflexivity|]. split; [|split; [split; [|exact Hcv]|]].
        - apply in_order_app; auto. now rewrite app_length in Hi2.
        - apply (closed_le _ _ _ Hck). rewrite !app_length. lia.
        - intros rho Hr. rewrite Hm2 by exact Hr. now rewrite (Hm rho (solves_app _ _ _ _ _ Hr)). }
      unfold sliced_to. cbn [slice]. rewrite E. apply (cut_node h (EMap l) init new (EMap l')); auto.
      + now apply closed_map.
      + intros rho Hr. specialize (Hm rho Hr). cbn [meaning].
        assert (G1 : map fst l' = map fst l) by (apply (f_equal (map fst)) in Hm; now rewrite !map_map in Hm).
        assert (G2 : flat_map (fun p => [meaning C R (fst (snd p)) rho; meaning C R (snd (snd p)) rho]) l' =
                     flat_map (fun p => [meaning C R (fst (snd p)) rho; meaning C R (snd (snd p)) rho]) l).
        { clear - Hm. revert l' Hm. induction l as [|p l IH]; intros [|p' l'] Hm; try discriminate; [reflexivity|].
          cbn [map flat_map] in *. injection Hm as _ -> -> Hm. now rewrite (IH l' Hm). }
        now rewrite G1, G2.
    - cbn [cut_in_comprehension] in Hc. exists [], (EComp x x2 y e1 e2 e3 e4 e5).
      unfold sliced_to. rewrite app_nil_r. rewrite slice_id by exact Hc.
      split; [reflexivity|]. split; [apply in_order_nil|]. split; [exact Hcl|reflexivity].
  Qed.
End Slice.

(* ---- heights ---- *)
Lemma max_of_le l k : 0 <= k -> (max_of l <= k <-> Forall (fun x => x <= k) l).
Proof.
  intros Hk. unfold max_of. induction l as [|x l IH]; cbn [fold_right].
  - split; intros; [constructor|lia].
  - split.
    + intros H. constructor; [lia|]. apply IH. lia.
    + intros H. inversion H; subst. apply IH in H3. lia.
Qed.
Lemma max_of_nonneg l : 0 <= max_of l.
Proof. unfold max_of. induction l; cbn [fold_right]; lia. Qed.
Lemma max_of_in l x : In x l -> x <= max_of l.
Proof. unfold max_of. induction l as [|y l IH]; cbn [fold_right In]; [tauto|]. intros [->|H]; [lia|]. apply IH in H. lia. Qed.
Lemma height_pos e : 1 <= height e.
Proof.
  induction e using expr_ind'; cbn [height]; try lia.
  - assert (G := max_of_nonneg (map height args)). lia.
  - assert (G := max_of_nonneg (map (fun p : bool * expr => height (snd p)) l)). lia.
  - assert (G := max_of_nonneg (map (fun p : bool * (expr * expr) => Z.max (height (fst (snd p))) (height (snd (snd p)))) l)). lia.
Qed.
Lemma at_cut_small h e : height e < h -> at_cut h e = false.
Proof.
  intros H. assert (P := height_pos e). unfold at_cut. rewrite Z.rem_small by lia. apply Z.eqb_neq. lia.
Qed.
Lemma existsb_all_false {A} (p : A -> bool) l : (forall a, In a l -> p a = false) -> existsb p l = false.
Proof. intros H. induction l as [|a l IH]; [reflexivity|]. cbn [existsb]. rewrite (H a (or_introl eq_refl)), IH; auto. intros b Hb. apply H. now right. Qed.
Lemma has_cut_small h e : height e < h -> has_cut h e = false.
Proof.
  induction e using expr_ind'; intros Hh; cbn [has_cut]; rewrite at_cut_small by exact Hh; cbn [orb]; auto; cbn [height] in Hh.
  - apply IHe. lia.
  - apply orb_false_iff. split.
    + destruct t as [a|]; [|reflexivity]. apply H. lia.
    + apply existsb_all_false. intros a Ha. rewrite Forall_forall in H0. apply H0; auto.
      assert (G := max_of_in _ _ (in_map height _ _ Ha)). lia.
  - apply existsb_all_false. intros p Hp. rewrite Forall_forall in H. apply H; auto.
    assert (G := max_of_in _ _ (in_map (fun p : bool * expr => height (snd p)) _ _ Hp)). cbv beta in G. lia.
  - apply existsb_all_false. intros p Hp. rewrite Forall_forall in H. destruct (H _ Hp) as [H1 H2].
    assert (G := max_of_in _ _ (in_map (fun p : bool * (expr * expr) => Z.max (height (fst (snd p))) (height (snd (snd p)))) _ _ Hp)).
    cbv beta in G. rewrite H1, H2 by lia. reflexivity.
  - rewrite IHe1, IHe2, IHe3, IHe4, IHe5 by lia. reflexivity.
Qed.
Lemma no_cut_no_comp h e : has_cut h e = false -> cut_in_comprehension h e = false.
Proof.
  induction e using expr_ind'; intros Hc; cbn [has_cut cut_in_comprehension] in *; auto;
    apply orb_false_iff in Hc as [Ha Hc].
  - auto.
  - apply orb_false_iff in Hc as [Ht Hl]. apply orb_false_iff. split.
    + destruct t; auto.
    + apply existsb_all_false. intros a Hin. rewrite Forall_forall in H0. apply H0; auto. now apply (existsb_none _ _ _ Hl).
  - apply existsb_all_false. intros a Hin. rewrite Forall_forall in H. apply H; auto. now apply (existsb_none _ _ _ Hc).
  - apply existsb_all_false. intros a Hin. rewrite Forall_forall in H. destruct (H _ Hin) as [H1 H2].
    assert (G := existsb_none _ _ _ Hc Hin). cbv beta in G. apply orb_false_iff in G as [G1 G2]. now rewrite H1, H2.
Qed.
Lemma rename_height f e : height (rename f e) = height e.
Proof.
  induction e using expr_ind'; cbn [rename height]; auto.
  - now rewrite IHe.
  - f_equal. f_equal.
    + destruct t; cbn [option_map]; auto.
    + f_equal. rewrite map_map. rewrite Forall_forall in H0. apply map_ext_in. auto.
  - f_equal. f_equal. rewrite map_map. cbn [snd]. rewrite Forall_forall in H. apply map_ext_in. auto.
  - f_equal. f_equal. rewrite map_map. cbn [fst snd]. rewrite Forall_forall in H. apply map_ext_in.
    intros p Hp. destruct (H p Hp) as [-> ->]. reflexivity.
  - now rewrite IHe1, IHe2, IHe3, IHe4, IHe5.
Qed.

(* c ? p : (c ? p : ...) with c and p of height at most s *)
Inductive chain (s : Z) : expr -> Prop :=
| chain_leaf e : height e <= s -> chain s e
| chain_cons c p rest : height c <= s -> height p <= s -> chain s rest -> chain s (NewCall "_?_:_" [c; p; rest]).

Lemma height_cond c p rest : height (NewCall "_?_:_" [c; p; rest]) = 1 + Z.max (height c) (Z.max (height p) (height rest)).
Proof.
  unfold NewCall. cbn [height map max_of fold_right]. assert (P := height_pos c). assert (Q := height_pos rest).
  unfold max_of. cbn [fold_right]. lia.
Qed.
Lemma chain_no_comp s h e : s < h -> chain s e -> cut_in_comprehension h e = false.
Proof.
  intros Hs. induction 1 as [e He|c p rest Hc Hp Hr IH].
  - apply no_cut_no_comp, has_cut_small. lia.
  - unfold NewCall. cbn [cut_in_comprehension existsb orb].
    rewrite (no_cut_no_comp h c), (no_cut_no_comp h p), IH by (apply has_cut_small; lia). reflexivity.
Qed.
Lemma slice_cond h c p rest init : height c < h -> height p < h ->
  slice h (NewCall "_?_:_" [c; p; rest]) init =
  let (rest', init') := slice h rest init in
  if at_cut h (NewCall "_?_:_" [c; p; rest])
  then (EIdent (index_name (List.length init')), init' ++ [NewCall "_?_:_" [c; p; rest']])
  else (NewCall "_?_:_" [c; p; rest'], init').
Proof.
  intros Hc Hp. unfold NewCall. cbn [slice map_state].
  rewrite (slice_id h c) by now apply has_cut_small. rewrite (slice_id h p) by now apply has_cut_small.
  destruct (slice h rest init). reflexivity.
Qed.
Lemma mod_pred H h : 0 < h -> H mod h = 0 /\ (H - 1) mod h = h - 1 \/ 0 < H mod h /\ (H - 1) mod h = H mod h - 1.
Proof.
  intros Hh. assert (M := Z.mod_pos_bound H h Hh). destruct (Z.eq_dec (H mod h) 0) as [Z0|Z0].
  - left. split; [exact Z0|]. apply Z.mod_divide in Z0; [|lia]. destruct Z0 as [q Hq].
    symmetry. apply Z.mod_unique with (q := q - 1); lia.
  - right. split; [lia|]. symmetry. apply Z.mod_unique with (q := H / h); [lia|].
    assert (X := Z.div_mod H h). lia.
Qed.
Lemma max_small a b c s : a <= s -> b <= s -> s < c -> Z.max a (Z.max b c) = c.
Proof. intros. rewrite (Z.max_r b c), Z.max_r; lia. Qed.
Lemma max_below a b c s k : a <= s -> b <= s -> c <= k -> s <= k -> Z.max a (Z.max b c) <= k.
Proof. intros. apply Z.max_lub; [lia|]. apply Z.max_lub; lia. Qed.
Lemma chain_step s h c p rest init new rest' : 1 <= s -> s < h -> height c <= s -> height p <= s ->
  slice h rest init = (rest', init ++ new) -> height rest' <= height rest mod h + s ->
  h <= height (NewCall "_?_:_" [c; p; rest]) ->
  height (NewCall "_?_:_" [c; p; rest']) <= 1 + (height (NewCall "_?_:_" [c; p; rest]) - 1) mod h + s.
Proof.
  intros H1 Hs Hc Hp E Hh Hl. rewrite height_cond in *. rewrite height_cond.
  replace (1 + Z.max (height c) (Z.max (height p) (height rest)) - 1)
    with (Z.max (height c) (Z.max (height p) (height rest))) by lia.
  destruct (Z_lt_le_dec s (height rest)) as [Hr|Hr].
  - rewrite (max_small _ _ _ s Hc Hp Hr) in *. destruct (Z_lt_le_dec (height rest) h) as [Hx|Hx].
    + rewrite slice_id in E by now apply has_cut_small. injection E as <- _.
      rewrite (max_small _ _ _ s Hc Hp Hr). rewrite Z.mod_small by (clear - Hr Hx H1; lia). clear - H1. lia.
    + assert (M := Z.mod_pos_bound (height rest) h ltac:(clear - H1 Hs; lia)).
      assert (B := max_below _ _ _ s (height rest mod h + s) Hc Hp Hh ltac:(clear - M; lia)). clear - B. lia.
  - assert (Hx : height rest < h) by (clear - Hr Hs; lia).
    rewrite slice_id in E by now apply has_cut_small. injection E as <- _.
    assert (B := max_below _ _ _ s s Hc Hp Hr (Z.le_refl s)).
    set (m := Z.max (height c) (Z.max (height p) (height rest))) in *.
    rewrite Z.mod_small by (clear - B Hl Hs H1; lia). clear - H1. lia.
Qed.
Lemma chain_slice s h e : 1 <= s -> s < h -> chain s e -> forall init,
  exists new e', slice h e init = (e', init ++ new) /\ Forall (fun x => height x <= h + s) new /\
    height e' <= height e mod h + s.
Proof.
  intros H1 Hs. induction 1 as [e He|c p rest Hc Hp Hr IH]; intros init.
  - exists [], e. rewrite app_nil_r, slice_id by (apply has_cut_small; lia). split; [reflexivity|]. split; [constructor|].
    assert (P := height_pos e). rewrite Z.mod_small by lia. lia.
  - destruct (Z_lt_le_dec (height (NewCall "_?_:_" [c; p; rest])) h) as [Hl|Hl].
    { exists [], (NewCall "_?_:_" [c; p; rest]). rewrite app_nil_r, slice_id by now apply has_cut_small.
      split; [reflexivity|]. split; [constructor|].
      assert (P := height_pos (NewCall "_?_:_" [c; p; rest])).
      rewrite Z.mod_small; [clear - H1; lia|clear - P Hl; lia]. }
    rewrite slice_cond; [|clear - Hc Hs; lia|clear - Hp Hs; lia]. destruct (IH init) as (new & rest' & E & Hn & Hh). rewrite E.
    assert (B := chain_step s h c p rest init new rest' H1 Hs Hc Hp E Hh Hl).
    assert (P := height_pos (NewCall "_?_:_" [c; p; rest])).
    unfold at_cut. remember (height (NewCall "_?_:_" [c; p; rest])) as H eqn:EqH. clear EqH.
    remember (NewCall "_?_:_" [c; p; rest']) as e2 eqn:Ee2. clear Ee2 E Hh Hc Hp Hr IH.
    rewrite Z.rem_mod_nonneg; [|clear - P; lia|clear - H1 Hs; lia].
    destruct (mod_pred H h ltac:(clear - H1 Hs; lia)) as [[D1 D2]|[D1 D2]]; rewrite D2 in B.
    + rewrite D1, Z.eqb_refl. rewrite <- app_assoc. eexists. eexists. split; [reflexivity|]. split.
      * apply Forall_app. split; [exact Hn|]. constructor; [clear - B; lia|constructor].
      * cbn [height]. clear - H1. lia.
    + destruct (Z.eqb_spec (H mod h) 0) as [D3|D3]; [clear - D1 D3; lia|].
      exists new, e2. split; [reflexivity|]. split; [exact Hn|]. clear - B. lia.
Qed.

Lemma variables_height k scopes vars : Forall (fun p : string * expr => height (snd p) <= k) vars -> forall s init s' init',
  ComposeRuleVariables scopes vars s init = (s', init') -> Forall (fun e => height e <= k) init ->
  Forall (fun e => height e <= k) init'.
Proof.
  induction 1 as [|[x e] vars He Hv IH]; intros s init s' init' E Hi; cbn [ComposeRuleVariables] in E.
  - injection E as _ <-. exact Hi.
  - apply IH in E; [exact E|]. apply Forall_app. split; [exact Hi|]. constructor; [|constructor].
    unfold MapVariables. now rewrite rename_height.
Qed.
Definition flat_match (k : Z) (m : mtch) : Prop :=
  match fst m with Some c => height c <= k | None => True end /\
  match snd m with inl e => height e <= k | inr _ => False end.
Lemma flat_chain k w scopes l : 1 <= k -> Forall (flat_match k) l -> forall init o init' e,
  compose_go w scopes l init = Val (o, (init', e)) -> init' = init /\ chain (k + 1) e.
Proof.
  intros Hk. induction 1 as [|[c p] l [Hc Hp] Hl IH]; intros init o init' e; cbn [compose_go].
  - intros [= _ <- <-]. split; [reflexivity|]. apply chain_leaf. cbn. lia.
  - cbn [fst snd] in *. destruct p as [x|r]; [|contradiction]. cbn [obind fst snd].
    set (e' := if w && negb false then NewCall "optional.of" [MapVariables scopes x] else MapVariables scopes x).
    assert (He' : height e' <= k + 1).
    { subst e'. assert (P := height_pos x). destruct (w && negb false).
      - unfold NewCall. cbn [height map]. unfold max_of. cbn [fold_right]. unfold MapVariables. rewrite rename_height. lia.
      - unfold MapVariables. rewrite rename_height. lia. }
    destruct (negb _ && _ && _); [discriminate|]. destruct (IsTriviallyTrueCondition c && _).
    + rewrite andb_false_r. intros [= _ <- <-]. split; [reflexivity|]. now apply chain_leaf.
    + destruct c as [c|]; [|discriminate]. destruct (negb (IsTriviallyTrueCondition (Some c))); [|discriminate].
      rewrite andb_false_r. destruct (compose_go w scopes l init) as [[o2 [i2 e2]]| |] eqn:E; try discriminate.
      cbn [obind fst snd]. intros [= _ <- <-]. destruct (IH _ _ _ _ E) as [-> H2]. split; [reflexivity|].
      apply chain_cons; auto. unfold MapVariables. rewrite rename_height. lia.
Qed.
Lemma cleanup_height b k : 0 <= k -> height (snd b) <= k -> Forall (fun e => height e <= k) (fst b) ->
  height (Cleanup b) <= k + 2.
Proof.
  intros Hk Hb Hl. destruct b as [[|x l] e]; cbn [fst snd] in *; unfold Cleanup; cbn [fst snd]; [lia|].
  set (l0 := x :: l) in *. cbn [height]. cbn [map]. unfold max_of at 1. cbn [fold_right height].
  rewrite map_map. cbn [snd]. assert (G : max_of (map (fun y => height y) l0) <= k).
  { apply max_of_le; [exact Hk|]. rewrite Forall_map. exact Hl. }
  unfold l0 in *. lia.
Qed.
