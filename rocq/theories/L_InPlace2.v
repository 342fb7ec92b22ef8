(* The same condition on the syntax tree; the standard macros meet it. *)
From Coq Require Import ZArith List Bool String Lia.
From Verif Require Import Base M_Overflow M_Number M_Attr M_Value M_Logic M_Expr M_Plan M_Machine M_Direct
  S_Direct S_Eval L_Seval L_Alloc L_InPlace L_Core L_Meaning.
Import ListNotations.
Local Open Scope string_scope.
Open Scope list_scope.
Open Scope Z_scope.

Section Elab.
  Variables (O : options) (R : registry).

  Lemma any_core_false f l : any_core f l = false <-> Forall (fun k => f k = false) l.
  Proof.
    induction l as [|x l IH]; cbn [any_core]; [split; auto|].
    rewrite orb_false_iff, Forall_cons_iff. tauto.
  Qed.
  Lemma all_core_true f l : all_core f l = true <-> Forall (fun k => f k = true) l.
  Proof.
    induction l as [|x l IH]; cbn [all_core]; [split; auto|].
    rewrite andb_true_iff, Forall_cons_iff. tauto.
  Qed.

  (* a predicate of expressions that carries over to their parts and from the
     parts' cores to the core *)
  Section Carry.
    Variables (P : expr -> Prop) (Q : core -> Prop).
    Hypothesis Hconst : forall v, Q (KConst v).
    Hypothesis Hvar : forall x, P (EIdent x) -> Q (KVar x).
    Hypothesis Hglobal : forall x, Q (KGlobal x).
    Hypothesis Hlogic : forall op a b, Q a -> Q b -> Q (KLogic op a b).
    Hypothesis Hor : forall op a b, Q a -> Q b -> Q (KOr op a b).
    Hypothesis Hcond : forall c a b, Q c -> Q a -> Q b -> Q (KCond c a b).
    Hypothesis Happ : forall op l, Forall Q l -> Q (KApp op l).
    Hypothesis Pselect : forall a f t, P (ESelect a f t) -> P a.
    Hypothesis Pcall : forall fn t args, P (ECall fn t args) ->
      match t with Some a => P a | None => True end /\ Forall P args.
    Hypothesis Plist : forall l, P (EList l) -> Forall (fun p => P (snd p)) l.
    Hypothesis Pmap : forall l, P (EMap l) -> Forall (fun p => P (fst (snd p)) /\ P (snd (snd p))) l.
    Hypothesis Hcomp : forall x x2 y r i c s b k, P (EComp x x2 y r i c s b) ->
      (forall k, P r -> elaborate O R r = Val k -> Q k) ->
      (forall k, P i -> elaborate O R i = Val k -> Q k) ->
      (forall k, P c -> elaborate O R c = Val k -> Q k) ->
      (forall k, P s -> elaborate O R s = Val k -> Q k) ->
      (forall k, P b -> elaborate O R b = Val k -> Q k) ->
      elaborate O R (EComp x x2 y r i c s b) = Val k -> Q k.
    Lemma carry e : P e -> forall k, elaborate O R e = Val k -> Q k.
    Proof.
      induction e using expr_ind'; intros HP k E; cbn [elaborate] in *.
      - injection E as <-. auto.
      - unfold plan_ident in E. destruct x as [|ch rest]; [discriminate|].
        destruct (Ascii.eqb ch _); injection E as <-; auto.
      - destruct (String.eqb f ""); [discriminate|].
        destruct (elaborate O R e) as [k'|?|] eqn:E1; cbn [obind] in E; try discriminate.
        injection E as <-. apply Happ. constructor; eauto.
      - apply Pcall in HP. destruct HP as [HP1 HP2].
        assert (Ht : forall ts, match t with None => Val [] | Some x => obind (elaborate O R x) (fun a => Val [a]) end = Val ts -> Forall Q ts).
        { destruct t as [x|]; intros ts.
          - destruct (elaborate O R x) as [k'|?|] eqn:E1; cbn [obind]; try discriminate.
            intros [= <-]. constructor; auto.
          - intros [= <-]. constructor. }
        destruct (match t with None => Val [] | Some x => _ end) as [ts|?|]; cbn [obind] in E; try discriminate.
        destruct (map_out (elaborate O R) args) as [cs|?|] eqn:E1; cbn [obind] in E; try discriminate.
        apply (plan_call_pred O R Q) in E; auto. apply Forall_app. split; [auto|].
        clear - H0 HP2 E1. revert cs E1. induction H0 as [|p l Hp Hl IH]; intros cs E1.
        + cbn [map_out] in E1. injection E1 as <-. constructor.
        + apply map_out_cons in E1. destruct E1 as (k1 & cs' & E1 & E2 & ->).
          inversion HP2; subst. constructor; auto.
      - apply Plist in HP.
        destruct (map_out _ l) as [cs|?|] eqn:E1; cbn [obind] in E; try discriminate. injection E as <-.
        apply Happ. clear - H HP E1. revert cs E1. induction H as [|[o p] l Hp Hl IH]; intros cs E1.
        + cbn [map_out] in E1. injection E1 as <-. constructor.
        + apply map_out_cons in E1. destruct E1 as (k1 & cs' & E1 & E2 & ->).
          inversion HP; subst. constructor; auto.
      - apply Pmap in HP.
        destruct (map_out _ l) as [cs|?|] eqn:E1; cbn [obind] in E; try discriminate. injection E as <-.
        apply Happ. clear - H HP E1. revert cs E1. induction H as [|[o [p q]] l [H1 H2] Hl IH]; intros cs E1.
        + cbn [map_out] in E1. injection E1 as <-. constructor.
        + apply map_out_cons in E1. destruct E1 as (k1 & cs' & E1 & E2 & ->). cbn [fst snd] in *.
          inversion HP as [|? ? [HP1 HP2] HP3]; subst. cbn [fst snd] in *.
          destruct (elaborate O R p) as [kp|?|] eqn:F1; cbn [obind] in E1; try discriminate.
          destruct (elaborate O R q) as [kq|?|] eqn:F2; cbn [obind] in E1; try discriminate.
          injection E1 as <-. cbn [List.concat List.app]. repeat constructor; auto.
      - eapply (Hcomp x x2 y e1 e2 e3 e4 e5); eauto.
    Qed.
  End Carry.

  Lemma comp_cases x x2 y r i c s b k : elaborate O R (EComp x x2 y r i c s b) = Val k ->
    if IsBind x x2 r c
    then exists ki kb, elaborate O R i = Val ki /\ elaborate O R b = Val kb /\ k = KBind y ki kb
    else exists kr ki kc ks kb, elaborate O R r = Val kr /\ elaborate O R i = Val ki /\
           elaborate O R c = Val kc /\ elaborate O R s = Val ks /\ elaborate O R b = Val kb /\
           k = KComp x x2 y kr ki kc ks kb.
  Proof.
    cbn [elaborate]. destruct (check_comprehension x x2 y); cbn [obind]; try discriminate.
    destruct (IsBind x x2 r c); intros E.
    - destruct (elaborate O R i) as [k1|?|] eqn:E1; cbn [obind] in E; try discriminate.
      destruct (elaborate O R b) as [k2|?|] eqn:E2; cbn [obind] in E; try discriminate.
      injection E as <-. eauto 6.
    - destruct (elaborate O R r) as [k0|?|] eqn:E0; cbn [obind] in E; try discriminate.
      destruct (elaborate O R i) as [k1|?|] eqn:E1; cbn [obind] in E; try discriminate.
      destruct (elaborate O R c) as [k2|?|] eqn:E2; cbn [obind] in E; try discriminate.
      destruct (elaborate O R s) as [k3|?|] eqn:E3; cbn [obind] in E; try discriminate.
      destruct (elaborate O R b) as [k4|?|] eqn:E4; cbn [obind] in E; try discriminate.
      injection E as <-. eauto 12.
  Qed.
  Lemma any_expr_false f l : any_expr f l = false <-> Forall (fun k => f k = false) l.
  Proof.
    induction l as [|x l IH]; cbn [any_expr]; [split; auto|].
    rewrite orb_false_iff, Forall_cons_iff. tauto.
  Qed.
  Lemma all_expr_true f l : all_expr f l = true <-> Forall (fun k => f k = true) l.
  Proof.
    induction l as [|x l IH]; cbn [all_expr]; [split; auto|].
    rewrite andb_true_iff, Forall_cons_iff. tauto.
  Qed.

  Lemma elab_reads z e k : mentions z e = false -> elaborate O R e = Val k -> reads z k = false.
  Proof.
    intros HP. revert k.
    apply (carry (fun e => mentions z e = false) (fun k => reads z k = false)); auto.
    - intros op a b Ha Hb. cbn [reads]. now rewrite Ha, Hb.
    - intros op a b Ha Hb. cbn [reads]. now rewrite Ha, Hb.
    - intros c a b Hc Ha Hb. cbn [reads]. now rewrite Hc, Ha, Hb.
    - intros op l Hl. rewrite reads_app. now apply any_core_false.
    - intros fn t args H. cbn [mentions] in H. apply orb_false_iff in H. destruct H as [H1 H2].
      split; [destruct t; auto|]. now apply any_expr_false.
    - intros l H. cbn [mentions] in H. induction l as [|[o a] l IH]; [constructor|].
      apply orb_false_iff in H. destruct H. constructor; auto.
    - intros l H. cbn [mentions] in H. induction l as [|[o [a b]] l IH]; [constructor|].
      rewrite !orb_false_iff in H. destruct H as [[H1 H2] H3]. constructor; auto.
    - intros x x2 y r i c s b k H Hr Hi Hc Hs Hb E. cbn [mentions] in H.
      rewrite !orb_false_iff in H. destruct H as [[[H1 H2] H3] H4].
      apply comp_cases in E. destruct (IsBind x x2 r c).
      + destruct E as (ki & kb & E1 & E2 & ->). cbn [reads]. rewrite (Hi _ H2 E1). cbn [orb].
        destruct (String.eqb y z); [reflexivity|]. exact (Hb _ H4 E2).
      + destruct E as (kr & ki & kc & ks & kb & E1 & E2 & E3 & E4 & E5 & ->). cbn [reads].
        fold (loop_binds x x2 y z). rewrite (Hr _ H1 E1), (Hi _ H2 E2). cbn [orb].
        destruct (loop_binds x x2 y z) eqn:El; cbn [negb andb orb] in *.
        * destruct (String.eqb y z); [reflexivity|]. exact (Hb _ H4 E5).
        * apply orb_false_iff in H3. destruct H3 as [H5 H6]. rewrite (Hc _ H5 E3), (Hs _ H6 E4).
          destruct (String.eqb y z); [reflexivity|]. exact (Hb _ H4 E5).
  Qed.
  Lemma elab_hides z e k : bound_from z e = false -> elaborate O R e = Val k -> khides z k = false.
  Proof.
    intros HP. revert k.
    apply (carry (fun e => bound_from z e = false) (fun k => khides z k = false)); auto.
    - intros op a b Ha Hb. cbn [khides]. now rewrite Ha, Hb.
    - intros op a b Ha Hb. cbn [khides]. now rewrite Ha, Hb.
    - intros c a b Hc Ha Hb. cbn [khides]. now rewrite Hc, Ha, Hb.
    - intros op l Hl. cbn [khides]. now apply any_core_false.
    - intros fn t args H. cbn [bound_from] in H. apply orb_false_iff in H. destruct H as [H1 H2].
      split; [destruct t; auto|]. now apply any_expr_false.
    - intros l H. cbn [bound_from] in H. induction l as [|[o a] l IH]; [constructor|].
      apply orb_false_iff in H. destruct H. constructor; auto.
    - intros l H. cbn [bound_from] in H. induction l as [|[o [a b]] l IH]; [constructor|].
      rewrite !orb_false_iff in H. destruct H as [[H1 H2] H3]. constructor; auto.
    - intros x x2 y r i c s b k H Hr Hi Hc Hs Hb E. cbn [bound_from] in H.
      rewrite !orb_false_iff in H. destruct H as [[[[H0 H1] H2] H3] H4].
      apply comp_cases in E. destruct (IsBind x x2 r c).
      + destruct E as (ki & kb & E1 & E2 & ->). cbn [khides]. rewrite (elab_reads z i ki H0 E1), (Hi _ H2 E1). cbn [orb].
        destruct (String.eqb y z); [reflexivity|]. exact (Hb _ H4 E2).
      + destruct E as (kr & ki & kc & ks & kb & E1 & E2 & E3 & E4 & E5 & ->). cbn [khides].
        change (shadows x x2 y z) with (loop_binds x x2 y z). rewrite (Hr _ H1 E1), (Hi _ H2 E2). cbn [orb].
        destruct (loop_binds x x2 y z) eqn:El; cbn [negb andb orb] in *.
        * destruct (String.eqb y z); [reflexivity|]. exact (Hb _ H4 E5).
        * apply orb_false_iff in H3. destruct H3 as [H5 H6]. rewrite (Hc _ H5 E3), (Hs _ H6 E4).
          destruct (String.eqb y z); [reflexivity|]. exact (Hb _ H4 E5).
  Qed.

  Lemma elab_reads_list z l : Forall (fun e => mentions z e = false) l ->
    forall cs, map_out (elaborate O R) l = Val cs -> Forall (fun k => reads z k = false) cs.
  Proof.
    induction 1 as [|x l Hx Hl IH]; intros cs E.
    - cbn [map_out] in E. injection E as <-. constructor.
    - apply map_out_cons in E. destruct E as (k1 & cs' & E1 & E2 & ->). constructor; [eapply elab_reads; eauto|auto].
  Qed.
  Lemma chain_in_place z op l : forall a, kin_place z a = true -> Forall (fun k => reads z k = false) l ->
    kin_place z (logic_chain op a l) = true.
  Proof.
    induction l as [|b l IH]; intros a Ha Hl; cbn [logic_chain]; [exact Ha|]. inversion Hl; subst.
    apply IH; auto. cbn [kin_place]. now rewrite Ha, H1.
  Qed.
  Lemma elab_into z e : into z e = true -> forall k, elaborate O R e = Val k -> kin_place z k = true.
  Proof.
    induction e using expr_ind'; intros HP k E.
    - cbn [elaborate] in E. injection E as <-. reflexivity.
    - cbn [elaborate] in E. unfold plan_ident in E. destruct x as [|ch rest]; [discriminate|].
      destruct (Ascii.eqb ch _); injection E as <-; auto.
    - cbn [elaborate] in E. destruct (String.eqb f ""); [discriminate|].
      destruct (elaborate O R e) as [k'|?|] eqn:E1; cbn [obind] in E; try discriminate.
      injection E as <-. cbn [kin_place all_core]. rewrite (IHe HP k') by reflexivity. reflexivity.
    - cbn [into] in HP. cbn [elaborate] in E.
      assert (Hfirst : writes_first fn = true -> forall ts cs, match t with None => Val [] | Some x => obind (elaborate O R x) (fun a => Val [a]) end = Val ts ->
         map_out (elaborate O R) args = Val cs ->
         match ts ++ cs with a :: l => kin_place z a = true /\ Forall (fun k => reads z k = false) l | [] => True end).
      { intros Hw ts cs Et Ec. rewrite Hw in HP. destruct t as [x|].
        - destruct (elaborate O R x) as [k'|?|] eqn:E1; cbn [obind] in Et; try discriminate.
          injection Et as <-. cbn [app]. apply andb_prop in HP. destruct HP as [HP1 HP2].
          apply negb_true_iff, any_expr_false in HP2. split; [auto|]. eapply elab_reads_list; eauto.
        - injection Et as <-. cbn [app]. destruct args as [|a args].
          + cbn [map_out] in Ec. injection Ec as <-. exact I.
          + apply map_out_cons in Ec. destruct Ec as (k1 & cs' & E1 & E2 & ->).
            apply andb_prop in HP. destruct HP as [HP1 HP2]. apply negb_true_iff, any_expr_false in HP2.
            inversion H0; subst. split; [auto|]. eapply elab_reads_list; eauto. }
      assert (Hall : all_expr (into z) args = true -> forall cs, map_out (elaborate O R) args = Val cs ->
                     Forall (fun k => kin_place z k = true) cs).
      { intros Ha cs Ec. apply all_expr_true in Ha. clear - Ha H0 Ec. revert cs Ec.
        induction H0 as [|p l Hp Hl IH]; intros cs E1.
        + cbn [map_out] in E1. injection E1 as <-. constructor.
        + apply map_out_cons in E1. destruct E1 as (k1 & cs' & E1 & E2 & ->).
          inversion Ha; subst. constructor; auto. }
      assert (Htl : match args with _ :: args' => all_expr (into z) args' | [] => true end = true ->
                    forall cs, map_out (elaborate O R) args = Val cs ->
                    match cs with _ :: cs' => Forall (fun k => kin_place z k = true) cs' | [] => True end).
      { intros Ha cs Ec. destruct args as [|a args].
        + cbn [map_out] in Ec. injection Ec as <-. exact I.
        + apply map_out_cons in Ec. destruct Ec as (k1 & cs' & E1 & E2 & ->).
          apply all_expr_true in Ha. inversion H0 as [|? ? _ H1]; subst. clear - Ha H1 E2. revert cs' E2.
          induction H1 as [|p l Hp Hl IH]; intros cs E1.
          * cbn [map_out] in E1. injection E1 as <-. constructor.
          * apply map_out_cons in E1. destruct E1 as (k1 & cs' & E1 & E2 & ->).
            inversion Ha; subst. constructor; auto. }
      destruct (match t with None => Val [] | Some x => _ end) as [ts|?|] eqn:Et; cbn [obind] in E; try discriminate.
      destruct (map_out (elaborate O R) args) as [cs|?|] eqn:Ec; cbn [obind] in E; try discriminate.
      specialize (fun Hw => Hfirst Hw ts cs eq_refl eq_refl). specialize (fun Ha => Hall Ha cs eq_refl).
      specialize (fun Ha => Htl Ha cs eq_refl).
      assert (Hts : t = None -> ts = []) by (intros ->; now injection Et as <-).
      unfold plan_call in E.
      destruct (String.eqb fn "_&&_" || String.eqb fn "_||_") eqn:Ef1.
      { assert (Hw : writes_first fn = true) by (unfold writes_first; now rewrite Ef1).
        specialize (Hfirst Hw). destruct t; [discriminate|]. destruct (ts ++ cs) as [|a [|b l]]; [discriminate..|].
        injection E as <-. destruct Hfirst as [F1 F2]. exact (chain_in_place z _ (b :: l) a F1 F2). }
      assert (HF : forall l (P : core -> Prop), Forall P l -> Forall P l) by auto.
      destruct (String.eqb fn "_?_:_") eqn:Ef2.
      { apply String.eqb_eq in Ef2. subst fn. destruct t; [discriminate|]. rewrite (Hts eq_refl) in E. cbn [app] in E.
        destruct cs as [|c [|a [|b [|d cs]]]]; try discriminate. injection E as <-.
        specialize (Htl HP). inversion Htl as [|? ? F1 F2]; subst. inversion F2 as [|? ? F3 _]; subst.
        cbn [kin_place]. now rewrite F1, F3. }
      destruct (o_optional_types O && _ && _ && _) eqn:Ef3.
      { rewrite !andb_true_iff in Ef3. destruct Ef3 as [_ Ef3].
        assert (Hw : writes_first fn = true).
        { unfold writes_first. apply orb_true_iff in Ef3. destruct Ef3 as [-> | ->]; rewrite ?orb_true_r; reflexivity. }
        specialize (Hfirst Hw). destruct (ts ++ cs) as [|a [|b [|c l]]]; try discriminate.
        injection E as <-. destruct Hfirst as [F1 F2]. inversion F2; subst. cbn [kin_place]. now rewrite F1, H3. }
      destruct (String.eqb fn "_[_]").
      { destruct (ts ++ cs) as [|a [|b [|c l]]]; try discriminate. injection E as <-. reflexivity. }
      destruct (o_fast_builtins O && is_nsf_name fn) eqn:Ef4.
      { apply andb_prop in Ef4. destruct Ef4 as [_ Ef4].
        assert (Hw : writes_first fn = false).
        { unfold is_nsf_name in Ef4. apply orb_true_iff in Ef4.
          destruct Ef4 as [Ef4|Ef4]; apply String.eqb_eq in Ef4; subst fn; reflexivity. }
        rewrite Hw, Ef4, orb_true_r in HP.
        destruct t; [discriminate|]. rewrite (Hts eq_refl) in E. cbn [app] in E.
        destruct cs as [|a [|b cs]]; try discriminate. injection E as <-.
        cbn [kin_place]. apply all_core_true. auto. }
      destruct (o_fast_builtins O && String.eqb fn "!_") eqn:Ef5.
      { apply andb_prop in Ef5. destruct Ef5 as [_ Ef5]. apply String.eqb_eq in Ef5. subst fn.
        destruct t; [discriminate|]. rewrite (Hts eq_refl) in E. cbn [app] in E.
        destruct cs as [|a [|b cs]]; try discriminate. injection E as <-.
        cbn [kin_place]. apply all_core_true. auto. }
      destruct (o_fast_builtins O && _ && is_in_name fn) eqn:Ef6.
      { apply andb_prop in Ef6. destruct Ef6 as [_ Ef6].
        assert (Hw : writes_first fn = true) by (unfold writes_first; now rewrite Ef6, orb_true_r).
        specialize (Hfirst Hw). destruct t; [discriminate|].
        destruct (ts ++ cs) as [|a [|b [|c l]]]; try discriminate. injection E as <-.
        destruct Hfirst as [F1 F2]. cbn [kin_place]. rewrite F1. cbn [andb]. apply negb_true_iff.
        now apply any_core_false. }
      destruct (fast_equality O R && _) eqn:Ef7.
      { apply andb_prop in Ef7. destruct Ef7 as [_ Ef7].
        assert (Hw : writes_first fn = true).
        { unfold writes_first. apply orb_true_iff in Ef7. destruct Ef7 as [-> | ->]; rewrite ?orb_true_r; reflexivity. }
        specialize (Hfirst Hw). destruct t; [discriminate|].
        destruct (ts ++ cs) as [|a [|b [|c l]]]; try discriminate. injection E as <-.
        destruct Hfirst as [F1 F2]. cbn [kin_place]. rewrite F1. cbn [andb]. apply negb_true_iff.
        now apply any_core_false. }
      unfold resolved_call in E. destruct (FindStaticOverloadsByArity _ _ _ _).
      + destruct (o_fail_on_warnings O); [discriminate|]. injection E as <-. destruct (ts ++ cs); reflexivity.
      + injection E as <-. destruct (ts ++ cs); reflexivity.
    - cbn [elaborate] in E. destruct (map_out _ l) as [cs|?|] eqn:E1; cbn [obind] in E; try discriminate.
      injection E as <-. destruct l as [|[o a] l].
      + cbn [map_out] in E1. injection E1 as <-. reflexivity.
      + apply map_out_cons in E1. destruct E1 as (k1 & cs' & E1 & E2 & ->). cbn [fst snd] in *.
        cbn [into] in HP. apply andb_prop in HP. destruct HP as [HP1 HP2].
        inversion H as [|? ? Ha _]; subst. cbn [snd] in Ha. cbn [kin_place]. rewrite (Ha HP1 _ E1). cbn [andb].
        apply negb_true_iff, any_core_false. apply negb_true_iff in HP2. clear - HP2 E2. revert cs' E2.
        induction l as [|[o p] l IH]; intros cs E.
        * cbn [map_out] in E. injection E as <-. constructor.
        * apply map_out_cons in E. destruct E as (k2 & cs2 & F1 & F2 & ->). cbn [existsb snd] in *.
          apply orb_false_iff in HP2. destruct HP2. constructor; [eapply elab_reads; eauto|auto].
    - cbn [elaborate] in E. destruct (map_out _ l) as [cs|?|] eqn:E1; cbn [obind] in E; try discriminate.
      injection E as <-. cbn [kin_place]. now destruct (List.concat cs).
    - apply comp_cases in E. cbn [into] in HP. destruct (IsBind x x2 e1 e3).
      + destruct E as (ki & kb & E1 & E2 & ->). cbn [kin_place].
        destruct (String.eqb y z); [reflexivity|]. cbn [orb] in *. auto.
      + destruct E as (kr & ki & kc & ks & kb & E1 & E2 & E3 & E4 & E5 & ->). cbn [kin_place].
        destruct (String.eqb y z); [reflexivity|]. cbn [orb] in *. auto.
  Qed.

  Lemma elab_steps e k : steps_in_place e = true -> elaborate O R e = Val k -> kalias_free k = true.
  Proof.
    intros HP. revert k.
    apply (carry (fun e => steps_in_place e = true) (fun k => kalias_free k = true)); auto.
    - intros op a b Ha Hb. cbn [kalias_free]. now rewrite Ha, Hb.
    - intros op a b Ha Hb. cbn [kalias_free]. now rewrite Ha, Hb.
    - intros c a b Hc Ha Hb. cbn [kalias_free]. now rewrite Hc, Ha, Hb.
    - intros op l Hl. cbn [kalias_free]. now apply all_core_true.
    - intros fn t args H. cbn [steps_in_place] in H. apply andb_prop in H. destruct H as [H1 H2].
      split; [destruct t; auto|]. now apply all_expr_true.
    - intros l H. cbn [steps_in_place] in H. induction l as [|[o a] l IH]; [constructor|].
      apply andb_prop in H. destruct H. constructor; auto.
    - intros l H. cbn [steps_in_place] in H. induction l as [|[o [a b]] l IH]; [constructor|].
      rewrite !andb_true_iff in H. destruct H as [[H1 H2] H3]. constructor; auto.
    - intros x x2 y r i c s b k H Hr Hi Hc Hs Hb E. cbn [steps_in_place] in H.
      rewrite !andb_true_iff in H. destruct H as (((((H0 & H1) & H2) & H3) & H4) & H5).
      apply comp_cases in E. destruct (IsBind x x2 r c).
      + destruct E as (ki & kb & E1 & E2 & ->). cbn [kalias_free]. now rewrite (Hi _ H2 E1), (Hb _ H5 E2).
      + destruct E as (kr & ki & kc & ks & kb & E1 & E2 & E3 & E4 & E5 & ->). cbn [kalias_free].
        cbn [orb] in H0. rewrite !andb_true_iff, !negb_true_iff in H0. destruct H0 as [[H6 H7] H8].
        rewrite (elab_hides y c kc H6 E3), (elab_hides y s ks H7 E4), (elab_into y s H8 ks E4).
        now rewrite (Hr _ H1 E1), (Hi _ H2 E2), (Hc _ H3 E3), (Hs _ H4 E4), (Hb _ H5 E5).
  Qed.
End Elab.

(* what reads no variable is bound from none *)
Lemma bound_from_mentions z e : mentions z e = false -> bound_from z e = false.
Proof.
  induction e using expr_ind'; cbn [mentions bound_from]; intros Hm; auto.
  - apply orb_false_iff in Hm. destruct Hm as [H1 H2]. apply orb_false_iff. split.
    + destruct t; auto.
    + apply any_expr_false. apply any_expr_false in H2. rewrite Forall_forall in *. auto.
  - induction l as [|[o a] l IH]; auto. apply Forall_cons_iff in H. destruct H as [Ha Hl].
    apply orb_false_iff in Hm. destruct Hm as [H1 H2]. apply orb_false_iff. split; [now apply Ha|now apply IH].
  - induction l as [|[o [a b]] l IH]; auto. apply Forall_cons_iff in H. destruct H as [[Ha Hb] Hl].
    apply orb_false_iff in Hm. destruct Hm as [H1 H2]. apply orb_false_iff in H1. destruct H1 as [H0 H1].
    apply orb_false_iff. split; [apply orb_false_iff; split; [now apply Ha|now apply Hb]|now apply IH].
  - rewrite !orb_false_iff in Hm. destruct Hm as [[[Hr Hi] Hcs] Hb].
    rewrite (IHe1 Hr), (IHe2 Hi), Hi, andb_false_r. cbn [orb].
    apply orb_false_iff. split.
    + destruct (loop_binds x x2 y z); [reflexivity|]. cbn [negb andb] in *. apply orb_false_iff in Hcs.
      destruct Hcs. rewrite IHe3, IHe4; auto.
    + destruct (String.eqb y z); [reflexivity|]. cbn [negb andb] in *. auto.
Qed.
