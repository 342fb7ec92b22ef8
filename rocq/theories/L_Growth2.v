(* A step that uses the accumulator once makes it larger by a constant. *)
From Coq Require Import ZArith String Ascii List Bool Arith Lia Permutation.
From Verif Require Import Base M_Overflow M_Number M_Attr M_Value M_Logic M_Expr M_Plan M_Machine
  S_Eval S_Macro L_Seval L_Core L_Meaning L_Macro.
From Verif Require Import M_Vulnerable S_Growth L_Growth.
Import ListNotations.
Open Scope list_scope.
Local Open Scope nat_scope.
Local Open Scope out_scope.

Lemma sequence_val l vs : sequence l = Val vs -> l = map Val vs.
Proof.
  revert vs. induction l as [|o l IH]; intros vs H; cbn [sequence] in H; [now injection H as <-|].
  outs H. injection H as <-. cbn [map]. f_equal. now apply IH.
Qed.

Section Bounds.
  Variables (C : config) (R : registry) (x : string).
  Hypothesis Hc : concatenating R.
  Hypothesis Hf : forall m, Permutation (cf_reorder C m) m.

  Definition agrees (rho0 rho : env) (v : value) (t : trail) : Prop :=
    rho x = Some (Val (v, t)) /\ forall z, z <> x -> rho z = rho0 z.
  Definition bounded (e : expr) : Prop := forall rho0, exists c, forall rho v t w,
    agrees rho0 rho v t -> meaning C R e rho = Val w -> size (fst w) <= refs e x * size v + c.

  Lemma same_meaning e rho0 rho v t : free x e = false -> agrees rho0 rho v t ->
    meaning C R e rho = meaning C R e rho0.
  Proof.
    intros He [_ Ha]. apply meaning_free. intros z Hz. apply Ha. intros ->. congruence.
  Qed.
  Definition outcome_size (o : out vt) : nat := match o with Val w => size (fst w) | _ => 0 end.
  Lemma closed_bounded e : free x e = false -> bounded e.
  Proof.
    intros He rho0. exists (outcome_size (meaning C R e rho0)). intros rho v t w Ha Hm.
    rewrite (same_meaning e rho0 rho v t He Ha) in Hm. rewrite Hm. cbn [outcome_size]. lia.
  Qed.
  Lemma ident_bounded name : bounded (EIdent name).
  Proof.
    destruct (String.eqb name x) eqn:E; [|apply closed_bounded; exact E].
    apply String.eqb_eq in E. subst name. intros rho0.
    assert (G : forall g, exists c, forall rho v t w, agrees rho0 rho v t -> LookupIdent C g = Val w ->
              size (fst w) <= refs (EIdent x) x * size v + c).
    { intros g. exists (outcome_size (LookupIdent C g)). intros rho v t w _ ->. cbn [outcome_size]. lia. }
    assert (L : exists c, forall rho v t w, agrees rho0 rho v t ->
              match rho x with Some o => o | None => LookupIdent C x end = Val w ->
              size (fst w) <= refs (EIdent x) x * size v + c).
    { exists 0. intros rho v t w [Hx _]. rewrite Hx. intros [= <-]. cbn [refs fst]. rewrite String.eqb_refl. lia. }
    cbn [meaning]. destruct x as [|c s]; [exact L|].
    destruct c as [[] [] [] [] [] [] [] []]; cbn beta iota; solve [exact L | apply G].
  Qed.

  Lemma seq_bounded es : Forall bounded es -> forall rho0, exists c, forall rho v t vs,
    agrees rho0 rho v t -> sequence (map (fun e => meaning C R e rho) es) = Val vs ->
    total (map fst vs) <= list_sum (map (fun e => refs e x) es) * size v + c.
  Proof.
    intros H rho0. induction H as [|e es He _ (c & IH)].
    - exists 0. intros rho v t vs _. cbn [map sequence]. intros [= <-]. cbn. lia.
    - destruct (He rho0) as (c0 & H0). exists (c0 + c). intros rho v t vs Ha H. cbn [map sequence] in H.
      outs H. injection H as <-. cbn [map]. rewrite total_cons. specialize (H0 _ _ _ _ Ha E).
      specialize (IH _ _ _ _ Ha E0). change (list_sum (refs e x :: map (fun e => refs e x) es)) with
        (refs e x + list_sum (map (fun e => refs e x) es)). lia.
  Qed.
  Lemma go_sum (l : list expr) : (fix go (l : list expr) : nat :=
           match l with [] => 0 | a :: l' => refs a x + go l' end) l = list_sum (map (fun e => refs e x) l).
  Proof. induction l as [|a l IH]; [reflexivity|]. cbn [map list_sum fold_right]. now rewrite IH. Qed.
  Lemma go_sum_elems (l : list (bool * expr)) : (fix go (l : list (bool * expr)) : nat :=
           match l with [] => 0 | (_, a) :: l' => refs a x + go l' end) l
           = list_sum (map (fun e => refs e x) (map snd l)).
  Proof. induction l as [|[o a] l IH]; [reflexivity|]. cbn [map list_sum fold_right snd]. now rewrite IH. Qed.

  Lemma entries_bounded l : Forall (fun p => free x (fst (snd p)) = false /\ bounded (snd (snd p))) l ->
    forall rho0, exists c, forall rho v t vs, agrees rho0 rho v t ->
    sequence (flat_map (fun p => [meaning C R (fst (snd p)) rho; meaning C R (snd (snd p)) rho]) l) = Val vs ->
    total (map fst vs) <= refs (EMap l) x * size v + c.
  Proof.
    intros H rho0. induction H as [|[o [k e]] es [Hk He] _ (c & IH)].
    - exists 0. intros rho v t vs _. cbn [flat_map sequence]. intros [= <-]. cbn. lia.
    - cbn [fst snd] in *. destruct (He rho0) as (c0 & H0).
      exists (outcome_size (meaning C R k rho0) + c0 + c). intros rho v t vs Ha H. cbn [flat_map app sequence] in H.
      cbn [fst snd] in H. outs H. injection H as <-. outs E0. injection E0 as <-. cbn [map]. rewrite !total_cons.
      rewrite (same_meaning k rho0 rho v t Hk Ha) in E. rewrite E. cbn [outcome_size].
      specialize (H0 _ _ _ _ Ha E1). specialize (IH _ _ _ _ Ha E2). cbn [refs] in IH |- *. lia.
  Qed.

  Lemma small_call fn rcv ops : ~ In fn ["_&&_"; "_||_"; "_?_:_"; "_[_]"; "or"; "orValue"]%string ->
    forall b, at_most R fn (fun _ => b) -> forall w, call_outcome C R fn rcv ops = Val w -> size (fst w) <= S b.
  Proof.
    intros Hn b Hb w H. unfold call_outcome in H. cbv zeta in H. cbn [In] in Hn.
    assert (N : forall s, fn <> s -> String.eqb fn s = false) by (intros s; apply String.eqb_neq).
    rewrite (N "_&&_"%string), (N "_||_"%string), (N "_?_:_"%string), (N "_[_]"%string),
      (N "or"%string), (N "orValue"%string) in H by (intros ->; tauto). cbn [orb] in H. rewrite andb_false_r in H.
    repeat match type of H with
    | (if ?c then _ else _) = _ => destruct c
    end; outs H.
    - unfold apply_op in H. destruct r as [|? []]; try discriminate. injection H as <-.
      unfold NotStrictlyFalseStepT. destruct (fst v) eqn:Ev; cbn [fst]; rewrite ?Ev; cbn; lia.
    - unfold apply_op in H. destruct r as [|? []]; try discriminate. injection H as <-.
      unfold NotStepT. cbv zeta. unfold NotStep.
      enough (G : size match (if unk C && CheckForUnknown (cf_pats C) (snd v) true then snd v else None) with
         | Some a => VUnknown [a]
         | None => match fst v with VBool b0 => VBool (negb b0) | VUnknown _ | VError _ => fst v
                   | _ => VError (no_matching_overload "!_") end end <= 1).
      { destruct (unknown_partial C (snd v)); cbn [fst]; [lia|]. destruct (fst v); cbn [fst]; lia. }
      destruct (if unk C && _ then _ else _); [cbn; lia|]. destruct (fst v); cbn; lia.
    - unfold apply_op in H. destruct r as [|? [|? []]]; try discriminate. apply InStep_size in H. lia.
    - unfold apply_op in H. destruct r as [|? [|? []]]; try discriminate. apply EqualityStep_size in H. lia.
    - unfold apply_op in H. destruct r as [|? [|? []]]; try discriminate. apply EqualityStep_size in H. lia.
    - unfold apply_op in H. apply (call_size C R fn rcv _ _ _ _ Hb) in H. lia.
  Qed.

  Lemma total_call fn args : at_most R fn total -> fn = "_+_"%string \/ fn = "dyn"%string ->
    forall rho w, meaning C R (ECall fn None args) rho = Val w ->
    exists vs, sequence (map (fun a => meaning C R a rho) args) = Val vs /\ size (fst w) <= S (total (map fst vs)).
  Proof.
    intros Hm Hn rho w H. cbn [meaning app] in H. unfold call_outcome in H. cbv zeta in H.
    assert (G : forall vs, apply_op C (OCall fn false
       (FindStaticOverloadsByArity R fn false (List.length (map (fun a => meaning C R a rho) args)))) vs = Val w ->
       size (fst w) <= S (total (map fst vs))).
    { intros vs Hv. unfold apply_op in Hv. apply (call_size C R fn _ _ _ _ _ Hm) in Hv.
      pose proof (call_args_total (unk C) (cf_pats C) vs). lia. }
    destruct Hn; subst fn; cbn [String.eqb Ascii.eqb Bool.eqb is_nsf_name is_in_name orb andb] in H;
      rewrite ?andb_false_r in H; outs H; exists r; split; auto; rewrite E; reflexivity.
  Qed.
  (* what a loop leaves does not depend on the result expression *)
  Lemma loop_split short cond step items : forall a,
    (exists o, forall res, eval_loop short cond step res items a = o) \/
    (exists a', forall res, eval_loop short cond step res items a = res a').
  Proof.
    induction items as [|kv items IH]; intros a; cbn [eval_loop]; [right; now exists a|].
    destruct (cond kv a) as [c|s|]; cbn [obind]; [|left; eauto|left; eauto].
    destruct (loop_condition c) as [r|g]; [left; eauto|]. destruct (negb g && short); [right; now exists a|].
    destruct (step kv a) as [a'|s|]; cbn [obind]; [apply IH|left; eauto|left; eauto].
  Qed.

  Lemma SelectTest_size f a w : SelectStep C f true a = Val w -> size (fst w) <= 1.
  Proof.
    destruct a as [v tr]. unfold SelectStep.
    destruct v as [| | | | | | | | | | |m|o| |]; cbv zeta; try (intros [= <-]; cbn [fst size] in *; lia).
    - cbn match. destruct (unknown_exact C _) eqn:E; [intros [= <-]; cbn [fst]; apply unknown_exact_size in E; lia|].
      pose proof (MapHas_size m (VString (bytes_of_string f))) as Hh.
      generalize dependent (MapHas m (VString (bytes_of_string f))). intros h Hh [= <-]. cbn [fst]. lia.
    - destruct (o_optional_types (cf_opts C)); [|intros [= <-]; cbn [fst size] in *; lia].
      destruct (unknown_exact C _) eqn:E; [intros [= <-]; cbn [fst]; apply unknown_exact_size in E; lia|].
      destruct o as [v|]; [|intros [= <-]; cbn [fst size] in *; lia].
      destruct v; try discriminate.
      pose proof (MapHas_size m (VString (bytes_of_string f))) as Hh.
      generalize dependent (MapHas m (VString (bytes_of_string f))). intros h Hh [= <-]. cbn [fst]. lia.
  Qed.

  Theorem use_bounded e : plain_use R x e -> bounded e.
  Proof.
    induction e using expr_ind'; intros Hu.
    - now apply closed_bounded.
    - apply ident_bounded.
    - inversion Hu as [? Hfr| |? ? ? Ha| | | | | | | | |]; subst; [now apply closed_bounded|].
      specialize (IHe Ha). intros rho0. destruct (IHe rho0) as (c & H). destruct t.
      + exists 1. intros rho v tr w Hag Hm. cbn [meaning] in Hm. outs Hm.
        apply SelectTest_size in Hm. cbn [refs]. lia.
      + exists c. intros rho v tr w Hag Hm. cbn [meaning] in Hm. outs Hm. apply SelectStep_size in Hm.
        specialize (H _ _ _ _ Hag E). cbn [refs]. lia.
    - (* calls *)
      inversion Hu as [? Hfr| | |c0 a b Ha Hb|args' Hargs|a k Ha|a Ha| | |fn' a b args' Hn|fn' t' args' Hn Hs|]; subst.
      + now apply closed_bounded.
      + inversion H0 as [|? ? _ H0']; subst. inversion H0' as [|? ? Ha' H0'']; subst.
        inversion H0'' as [|? ? Hb' _]; subst. specialize (Ha' Ha). specialize (Hb' Hb). intros rho0.
        destruct (Ha' rho0) as (ca & Ga). destruct (Hb' rho0) as (cb & Gb). exists (1 + ca + cb).
        intros rho v t w Hag Hm. cbn [meaning map app] in Hm. rewrite call_cond in Hm.
        cbn [refs String.eqb Ascii.eqb Bool.eqb andb List.length Nat.eqb].
        pose proof (Nat.mul_le_mono_r _ _ (size v) (Nat.le_max_l (refs a x) (refs b x))) as La.
        pose proof (Nat.mul_le_mono_r _ _ (size v) (Nat.le_max_r (refs a x) (refs b x))) as Lb.
        outs Hm. destruct (sc C).
        * unfold BoolCheck in Hm. destruct (fst r) eqn:Er; cbv match in Hm;
            try (injection Hm as <-; cbn [fst]; rewrite ?Er; cbn [size]; lia).
          destruct (is_true (VBool b0)); [specialize (Ga _ _ _ _ Hag Hm)|specialize (Gb _ _ _ _ Hag Hm)]; lia.
        * outs Hm. specialize (Ga _ _ _ _ Hag E0). specialize (Gb _ _ _ _ Hag E1). injection Hm as <-.
          unfold TernaryStep. destruct ((unk C && is_unknown (fst r)) || is_error (fst r)) eqn:Eu.
          -- enough (size (fst r) = 1) by lia. destruct (fst r); cbn in Eu |- *; try reflexivity;
               rewrite andb_false_r in Eu; discriminate Eu.
          -- destruct (fst r) as [|[]| | | | | | | | | | | | |]; cbn [fst size]; lia.
      + intros rho0. assert (Hb : Forall bounded args).
        { rewrite Forall_forall in *. auto. }
        destruct (seq_bounded args Hb rho0) as (c & G). exists (S c). intros rho v t w Hag Hm.
        apply total_call in Hm; [|apply Hc|auto]. destruct Hm as (vs & Hvs & Hw).
        specialize (G _ _ _ _ Hag Hvs). cbn [refs String.eqb Ascii.eqb Bool.eqb andb]. rewrite go_sum. lia.
      + intros rho0. inversion H0 as [|? ? Ha' _]; subst. specialize (Ha' Ha). destruct (Ha' rho0) as (c & G).
        exists c. intros rho v t w Hag Hm. cbn [meaning map app] in Hm.
        change (call_outcome C R "_[_]" false [meaning C R a rho; meaning C R k rho]) with
          (vs <- sequence [meaning C R a rho; meaning C R k rho] ;; apply_op C OIndex vs) in Hm.
        cbn [sequence] in Hm. outs Hm. outs E. outs E1. injection E1 as <-. injection E as <-.
        cbn [apply_op] in Hm. apply IndexStep_size in Hm. specialize (G _ _ _ _ Hag E0).
        cbn [refs String.eqb Ascii.eqb Bool.eqb andb orb List.length Nat.eqb]. lia.
      + intros rho0. inversion H0 as [|? ? Ha' _]; subst. specialize (Ha' Ha). destruct (Ha' rho0) as (c & G).
        exists (S c). intros rho v t w Hag Hm. apply total_call in Hm; [|apply Hc|auto]. destruct Hm as (vs & Hvs & Hw).
        cbn [map sequence] in Hvs. outs Hvs. injection Hvs as <-. specialize (G _ _ _ _ Hag E).
        unfold total in Hw. cbn [map list_sum fold_right fst] in Hw.
        cbn [refs String.eqb Ascii.eqb Bool.eqb andb orb List.length Nat.eqb]. lia.
      + intros rho0. exists 1. intros rho v t w Hag Hm. cbn [meaning map app] in Hm.
        destruct Hn; subst fn; unfold call_outcome in Hm;
          cbn [String.eqb Ascii.eqb Bool.eqb] in Hm; apply fold_logic_size in Hm; lia.
      + destruct Hs as (b & Hs). intros rho0. exists (S b). intros rho v tr w Hag Hm. cbn [meaning] in Hm.
        apply (small_call _ _ _ Hn b Hs) in Hm. lia.
    - inversion Hu as [? Hfr| | | | | | |l' Hl| | | |]; subst; [now apply closed_bounded|].
      assert (Hb : Forall bounded (map snd l)).
      { rewrite Forall_map. rewrite Forall_forall in *. auto. }
      intros rho0. destruct (seq_bounded _ Hb rho0) as (c & G). exists (S c). intros rho v t w Hag Hm.
      cbn [meaning] in Hm. outs Hm. apply ListStep_size in Hm. specialize (G rho v t r Hag).
      rewrite map_map in G. specialize (G E). cbn [refs]. rewrite go_sum_elems. lia.
    - inversion Hu as [? Hfr| | | | | | | |l' Hl| | |]; subst; [now apply closed_bounded|].
      assert (Hb : Forall (fun p => free x (fst (snd p)) = false /\ bounded (snd (snd p))) l).
      { rewrite Forall_forall in *. intros p Hp. destruct (Hl p Hp), (H p Hp). auto. }
      intros rho0. destruct (entries_bounded _ Hb rho0) as (c & G). exists (S c). intros rho v t w Hag Hm.
      cbn [meaning] in Hm. outs Hm. apply (MapStep_size C Hf) in Hm. specialize (G rho v t r Hag E). lia.
    - inversion Hu as [? Hfr| | | | | | | | | | |i' i2' y' r' n' c' s' b' Hcl Hres]; subst; [now apply closed_bounded|].
      specialize (IHe5 Hres). destruct (String.eqb y x) eqn:Ey.
      + apply closed_bounded. cbn [free] in Hcl |- *. rewrite Ey in *. cbn [negb andb] in *. exact Hcl.
      + cbn [free] in Hcl. rewrite andb_false_r, orb_false_r in Hcl.
        apply orb_false_elim in Hcl. destruct Hcl as [Hri Hl]. apply orb_false_elim in Hri. destruct Hri as [Hr Hi].
        assert (Hyx : forall rho0 rho v t o, agrees rho0 rho v t -> agrees (bind_local y o rho0) (bind_local y o rho) v t).
        { intros rho0 rho v t o [A B]. split; unfold bind_local; [now rewrite Ey|].
          intros z Hz. destruct (String.eqb y z); auto. }
        assert (Hmax : refs e5 x <= refs (EComp x0 x2 y e1 e2 e3 e4 e5) x).
        { cbn [refs]. rewrite Ey. cbn [negb andb]. lia. }
        assert (Hloop : forall e rho0 rho v t b tr kv a, (loop_name x0 x2 y x = false -> free x e = false) ->
          agrees rho0 rho v t -> meaning C R e (loop_env C x0 x2 y b tr kv a rho) = meaning C R e (loop_env C x0 x2 y b tr kv a rho0)).
        { intros e rho0 rho v t b tr kv a He [_ Hag]. apply meaning_free. intros z Hz. apply loop_env_at.
          intros Hn. apply Hag. intros ->. rewrite (He Hn) in Hz. discriminate Hz. }
        assert (Hc3 : loop_name x0 x2 y x = false -> free x e3 = false).
        { unfold loop_name. intros Hn. rewrite Hn in Hl. cbn [negb andb] in Hl. now apply orb_false_elim in Hl. }
        assert (Hs4 : loop_name x0 x2 y x = false -> free x e4 = false).
        { unfold loop_name. intros Hn. rewrite Hn in Hl. cbn [negb andb] in Hl. now apply orb_false_elim in Hl. }
        intros rho0. destruct (IsBind x0 x2 e1 e3) eqn:Eb.
        * destruct (IHe5 (bind_local y (meaning C R e2 rho0) rho0)) as (c & G). exists c.
          intros rho v t w Hag Hm. cbn [meaning] in Hm. rewrite Eb in Hm.
          rewrite (same_meaning e2 rho0 rho v t Hi Hag) in Hm.
          specialize (G _ _ _ _ (Hyx _ _ _ _ _ Hag) Hm).
          pose proof (Nat.mul_le_mono_r _ _ (size v) Hmax). lia.
        * destruct (meaning C R e1 rho0) as [r| |] eqn:Er.
          2,3: exists 0; intros rho v t w Hag Hm; cbn [meaning] in Hm; rewrite Eb in Hm;
               rewrite (same_meaning e1 rho0 rho v t Hr Hag), Er in Hm; discriminate Hm.
          destruct (comp_init C r) as [u|[b items]] eqn:Ec.
          { exists (size (fst u)). intros rho v t w Hag Hm. cbn [meaning] in Hm. rewrite Eb in Hm.
            rewrite (same_meaning e1 rho0 rho v t Hr Hag), Er in Hm. cbn [obind] in Hm. rewrite Ec in Hm.
            injection Hm as <-. lia. }
          destruct (meaning C R e2 rho0) as [i| |] eqn:Ei.
          2,3: exists 0; intros rho v t w Hag Hm; cbn [meaning] in Hm; rewrite Eb in Hm;
               rewrite (same_meaning e1 rho0 rho v t Hr Hag), Er in Hm; cbn [obind] in Hm; rewrite Ec in Hm;
               rewrite (same_meaning e2 rho0 rho v t Hi Hag), Ei in Hm; discriminate Hm.
          pose (cnd := fun kv a => meaning C R e3 (loop_env C x0 x2 y b (snd r) kv a rho0)).
          pose (stp := fun kv a => meaning C R e4 (loop_env C x0 x2 y b (snd r) kv a rho0)).
          assert (Hm' : forall rho v t w, agrees rho0 rho v t -> meaning C R (EComp x0 x2 y e1 e2 e3 e4 e5) rho = Val w ->
                  eval_loop (sc C) cnd stp (fun a => meaning C R e5 (bind_local y (Val a) rho)) items i = Val w).
          { intros rho v t w Hag Hm. cbn [meaning] in Hm. rewrite Eb in Hm.
            rewrite (same_meaning e1 rho0 rho v t Hr Hag), Er in Hm; cbn [obind] in Hm; rewrite Ec in Hm.
            rewrite (same_meaning e2 rho0 rho v t Hi Hag), Ei in Hm. cbn [obind] in Hm. rewrite <- Hm.
            apply eval_loop_ext; auto; intros kv a; unfold cnd, stp; symmetry.
            - exact (Hloop e3 rho0 rho v t b (snd r) kv a Hc3 Hag).
            - exact (Hloop e4 rho0 rho v t b (snd r) kv a Hs4 Hag). }
          destruct (loop_split (sc C) cnd stp items i) as [(o & Ho)|(a' & Ha')].
          -- exists (outcome_size o). intros rho v t w Hag Hm. apply (Hm' _ _ _ _ Hag) in Hm. rewrite Ho in Hm.
             rewrite Hm. cbn [outcome_size]. lia.
          -- destruct (IHe5 (bind_local y (Val a') rho0)) as (c & G). exists c. intros rho v t w Hag Hm.
             apply (Hm' _ _ _ _ Hag) in Hm. rewrite Ha' in Hm. specialize (G _ _ _ _ (Hyx _ _ _ _ _ Hag) Hm).
             pose proof (Nat.mul_le_mono_r _ _ (size v) Hmax). lia.
  Qed.
End Bounds.
