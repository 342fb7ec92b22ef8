(* The recursive and the iterative reference semantics agree, without unknown
   tracking (C22). *)
From Coq Require Import ZArith List Bool String Ascii Lia.
From Verif Require Import Base M_Overflow M_Number M_Attr M_Value M_Logic M_Expr M_Plan M_Machine M_Direct
  S_Value S_Eval S_Short S_Direct L_Value L_Meaning L_Short L_Direct L_DTree.
Import ListNotations.
Open Scope list_scope.
Open Scope Z_scope.

Section DSim.
  Variable C : config.
  Variable R : registry.
  Hypothesis Hu : unk C = false.
  Variable loose : bool.
  Notation EE := (equal_errors loose).
  Hypothesis HR : host_known C R.
  Hypothesis HB : blind EE R.
  Notation same := (same_up_to EE).
  Notation ax := (ax EE).
  Notation sim := (sim EE).
  Notation esim := (esim EE).

  Lemma loose_error a b : loose = true -> same (VError a) (VError b).
  Proof. intros H. right. exists a, b. split; [now left|auto]. Qed.

  (* ---- operations ---- *)
  Lemma select_direct f t a x : SelectStep C f t a = Val x -> exists y, DirectSelect C f t a = Val y /\ fst y = fst x.
  Proof.
    destruct a as [v tr]. unfold SelectStep, DirectSelect. rewrite !exact_none by exact Hu. rewrite Hu.
    destruct v; try (destruct t; intros E; apply Val_inj in E; subst x; eexists; (split; [reflexivity|]); reflexivity).
    destruct (o_optional_types (cf_opts C));
      [|intros E; apply Val_inj in E; subst x; eexists; (split; [reflexivity|]); reflexivity].
    destruct o as [w|]; [destruct w; try discriminate|]; destruct t;
      intros E; apply Val_inj in E; subst x; eexists; (split; [reflexivity|]); reflexivity.
  Qed.
  Lemma op_direct op args x : is_literal op = false -> apply_op C op args = Val x ->
    exists y, direct_op C op args = Val y /\ fst y = fst x.
  Proof.
    intros Hl. destruct op; try discriminate Hl; cbn [apply_op direct_op];
      try (destruct args as [|a [|b [|c args]]]; try discriminate).
    - apply select_direct.
    - unfold IndexStep, DirectLookup. rewrite Hu. cbn [andb]. rewrite !exact_none by exact Hu.
      intros H. binds H. injection H as <-. cbn [obind]. eexists. split; reflexivity.
    - intros [= <-]. eexists. split; [reflexivity|]. unfold NotStepT. rewrite partial_none by exact Hu.
      unfold NotStep. rewrite Hu. cbn [andb]. destruct (fst a); reflexivity.
    - intros [= <-]. eexists. split; [reflexivity|]. unfold NotStrictlyFalseStepT. destruct a as [v t]. cbn [fst].
      destruct v; reflexivity.
    - intros ->. cbn [obind]. eauto.
    - intros ->. cbn [obind]. eauto.
    - intros ->. cbn [obind]. eauto.
    - intros ->. cbn [obind]. eauto.
    - intros ->. cbn [obind]. eauto.
    - intros ->. cbn [obind]. eauto.
  Qed.
  Lemma ax_refl_fst (x y z : vt) : fst y = fst x -> ax x z -> ax y z.
  Proof. unfold L_Short.ax. now intros ->. Qed.

  Lemma sim_app op l l' : is_literal op = false -> op_reg R op -> Forall2 sim l l' ->
    sim (obind (sequence l) (direct_op C op)) (obind (sequence l') (apply_op C op)).
  Proof.
    intros Hl Ho Hs x' E. destruct (sequence l') as [vs'|?|] eqn:E1; cbn [obind] in E; try discriminate.
    destruct (sim_sequence _ _ _ Hs vs' E1) as (vs & -> & Hvs & Hk). cbn [obind].
    destruct (apply_same C R Hu EE HB op vs vs' x' Ho Hvs E) as (x & Ex & Hx).
    destruct (op_direct op vs x Hl Ex) as (y & Ey & Hy).
    exists y. split; [exact Ey|]. split; [eapply ax_refl_fst; eauto|].
    exact (apply_known C R Hu HR op vs' x' Ho Hk E).
  Qed.
  Lemma sequence_dir rho ks : sequence (map (fun k => dir C k rho) ks) = eval_list (fun k => dir C k rho) ks.
  Proof. induction ks as [|k ks IH]; cbn [map sequence eval_list]; [reflexivity|]. fold (eval_list (fun k => dir C k rho)). now rewrite IH. Qed.

  (* ---- literals ---- *)
  Lemma add_ok l v : known v -> is_error v = false -> ListAdd l v = Val (l ++ [v]).
  Proof. intros H He. apply known_top in H. destruct v; try discriminate; reflexivity. Qed.
  Lemma removelast_cons {A} (a b : A) l : removelast (a :: b :: l) = a :: removelast (b :: l).
  Proof. reflexivity. Qed.
  Lemma optional_tail o opts : optional_last (o :: opts) = true -> optional_last opts = true.
  Proof.
    unfold optional_last. destruct opts as [|b opts]; [reflexivity|]. rewrite removelast_cons. cbn [forallb].
    intros H. apply andb_true_iff in H. tauto.
  Qed.
  Lemma optional_head opts : optional_last (true :: opts) = true -> opts = [].
  Proof.
    unfold optional_last. destruct opts as [|b opts]; [reflexivity|]. rewrite removelast_cons. discriminate.
  Qed.

  Section Lit.
    Variables f f' : core -> out vt.
    Lemma list_sim cs : Forall (fun c => sim (f c) (f' c)) cs -> forall opts l vs',
      List.length opts = List.length cs -> loose = true \/ optional_last opts = true ->
      eval_list f' cs = Val vs' ->
      match find is_error (map fst vs') with
      | Some e => exists v, dir_list f cs opts l = Val (v, None) /\ same v e
      | None => forall r, list_loop opts (map fst vs') l = Val r ->
                exists v, dir_list f cs opts l = Val (v, None) /\ same v r
      end.
    Proof.
      induction 1 as [|c cs Hc Hcs IH]; intros opts l vs' Hlen Hopt E; cbn [eval_list] in E.
      - injection E as <-. cbn. intros r [= <-]. eexists. split; [reflexivity|now left].
      - fold (eval_list f') in E. destruct (f' c) as [x'|?|] eqn:E1; cbn [obind] in E; try discriminate.
        destruct (eval_list f' cs) as [xs'|?|] eqn:E2; cbn [obind] in E; try discriminate.
        injection E as <-. destruct (Hc x' eq_refl) as (x & Ex & Hx & Kx). cbn [dir_list map find].
        rewrite Ex. cbn [obind]. unfold list_one. rewrite (same_error _ _ _ Hx).
        destruct (is_error (fst x')) eqn:Er; [cbn [obind]; eauto|].
        rewrite (same_plain _ _ _ Hx Er).
        destruct opts as [|o opts]; [discriminate|]. cbn [hd_opt tl_opt list_loop].
        assert (Hlen' : List.length opts = List.length cs) by (cbn [List.length] in Hlen; lia).
        assert (Hopt' : loose = true \/ optional_last opts = true)
          by (destruct Hopt; [auto|right; eapply optional_tail; eauto]).
        destruct o; cycle 1.
        { rewrite add_ok by auto. cbn [obind]. exact (IH opts _ xs' Hlen' Hopt' eq_refl). }
        assert (Hskip : forall l1, match find is_error (map fst xs') with
                  | Some e => exists v, dir_list f cs opts l1 = Val (v, None) /\ same v e
                  | None => forall r, list_loop opts (map fst xs') l1 = Val r ->
                            exists v, dir_list f cs opts l1 = Val (v, None) /\ same v r
                  end) by (intros l1; exact (IH opts l1 xs' Hlen' Hopt' eq_refl)).
        assert (Hstop : forall e, match find is_error (map fst xs') with
                  | Some e0 => exists v, Val (VError e, None) = Val (v, None) :> out vt /\ same v e0
                  | None => forall r, Val (VError e) = Val r ->
                            exists v, Val (VError e, None) = Val (v, None) :> out vt /\ same v r
                  end).
        { intros e. destruct (find is_error (map fst xs')) as [e0|] eqn:F.
          - destruct Hopt as [Hopt|Hopt].
            + apply find_some in F. destruct F as [_ F]. destruct e0; try discriminate.
              eexists. split; [reflexivity|]. now apply loose_error.
            + apply optional_head in Hopt. subst opts. destruct cs; [|discriminate]. cbn in E2.
              injection E2 as <-. discriminate F.
          - intros r [= <-]. eexists. split; [reflexivity|now left]. }
        unfold L_Short.kx in Kx.
        destruct (fst x') as [| | | | | | | | | | | |[w|]| |] eqn:Ev; cbn [obind]; try exact (Hstop _); try exact (Hskip _).
        apply (proj1 (known_some _)) in Kx.
        destruct (is_error w) eqn:Ew.
        + destruct w; try discriminate. cbn [obind]. exact (Hstop _).
        + pose proof (add_ok l w Kx Ew) as Ea. destruct w; try discriminate Ew; rewrite Ea; cbn [obind]; exact (Hskip _).
    Qed.

    Lemma put_ok m k key v : key_of_value k = Some key -> known v -> is_error v = false ->
      ~ In key (map fst m) -> MapPut m k v = Val (m ++ [(key, v)]).
    Proof.
      intros Hk H He Hn. apply known_top in H. unfold MapPut.
      assert (E : CheckMapKey k = Val key) by (destruct k; try discriminate; cbn in *; congruence).
      rewrite E. cbn [obind]. apply find_key_none in Hn. rewrite Hn.
      destruct v; try discriminate; reflexivity.
    Qed.

    Definition flat (ps : list (core * core)) : list core := flat_map (fun p => [fst p; snd p]) ps.
    Hypothesis Hf : forall v, f (KConst v) = Val (v, None).
    Hypothesis Hf' : forall v, f' (KConst v) = Val (v, None).
    Lemma key_plain v key : key_of_value v = Some key -> CheckMapKey v = Val key /\ is_error v = false.
    Proof. destruct v; try discriminate; cbn; intros [= <-]; auto. Qed.
    Lemma map_sim ps : Forall (fun p => sim (f (snd p)) (f' (snd p))) ps -> forall keys opts m vs',
      Forall2 (fun p key => exists v, fst p = KConst v /\ key_of_value v = Some key) ps keys ->
      (forall k, In k keys -> ~ In k (map fst m)) -> NoDup keys ->
      List.length opts = List.length ps -> loose = true \/ optional_last opts = true ->
      eval_list f' (flat ps) = Val vs' ->
      match find is_error (map fst vs') with
      | Some e => exists v, dir_map C f (flat ps) opts m = Val (v, None) /\ same v e
      | None => forall r, map_loop (cf_reorder C) opts (map fst vs') m = Val r ->
                exists v, dir_map C f (flat ps) opts m = Val (v, None) /\ same v r
      end.
    Proof.
      induction 1 as [|p cs Hc Hcs IH]; intros keys opts m vs' Hkeys Hfresh Hnd Hlen Hopt E.
      - cbn [flat flat_map eval_list] in E. injection E as <-. cbn. intros r [= <-]. eexists. split; [reflexivity|now left].
      - inversion Hkeys as [|? key ? keys' (kv & Ek & Hkey) Hkeys']; subst. destruct p as [kc vc]. cbn [fst snd] in *. subst kc.
        cbn [flat flat_map fst snd app] in *. fold (flat cs) in *. cbn [eval_list] in E. fold (eval_list f') in E.
        rewrite Hf' in E. cbn [obind] in E.
        destruct (f' vc) as [x'|?|] eqn:E1; cbn [obind] in E; try discriminate.
        destruct (eval_list f' (flat cs)) as [xs'|?|] eqn:E2; cbn [obind] in E; try discriminate.
        injection E as <-. destruct (Hc x' eq_refl) as (x & Ex & Hx & Kx). cbn [dir_map map find fst].
        destruct (key_plain _ _ Hkey) as [Hck Hke].
        rewrite Hf. cbn [obind fst]. unfold key_one. rewrite Hke, Hck. cbn [obind]. rewrite Ex. cbn [obind].
        unfold entry_one. rewrite (same_error _ _ _ Hx).
        destruct (is_error (fst x')) eqn:Er; [cbn [obind]; eauto|].
        rewrite (same_plain _ _ _ Hx Er).
        destruct opts as [|o opts]; [discriminate|]. cbn [hd_opt tl_opt map_loop]. rewrite Hck.
        assert (Hlen' : List.length opts = List.length cs) by (cbn [List.length] in Hlen; lia).
        assert (Hopt' : loose = true \/ optional_last opts = true)
          by (destruct Hopt; [auto|right; eapply optional_tail; eauto]).
        apply NoDup_cons_iff in Hnd. destruct Hnd as [Hn Hnd].
        assert (Hskip : match find is_error (map fst xs') with
                  | Some e => exists v, dir_map C f (flat cs) opts m = Val (v, None) /\ same v e
                  | None => forall r, map_loop (cf_reorder C) opts (map fst xs') m = Val r ->
                            exists v, dir_map C f (flat cs) opts m = Val (v, None) /\ same v r
                  end).
        { apply (IH keys' opts m xs'); auto. intros k Hk. apply Hfresh. now right. }
        assert (Hput : forall v, match find is_error (map fst xs') with
                  | Some e => exists w, dir_map C f (flat cs) opts (m ++ [(key, v)]) = Val (w, None) /\ same w e
                  | None => forall r, map_loop (cf_reorder C) opts (map fst xs') (m ++ [(key, v)]) = Val r ->
                            exists w, dir_map C f (flat cs) opts (m ++ [(key, v)]) = Val (w, None) /\ same w r
                  end).
        { intros v. apply (IH keys' opts (m ++ [(key, v)]) xs'); auto. intros k Hk. rewrite map_app. cbn [map fst].
          intros Hi. apply in_app_iff in Hi. destruct Hi as [Hi|[<-|[]]]; [|auto].
          revert Hi. apply Hfresh. now right. }
        assert (Hnm : ~ In key (map fst m)) by (apply Hfresh; now left).
        destruct o; cycle 1.
        { rewrite (put_ok m kv key) by auto. cbn [obind]. apply Hput. }
        assert (Hstop : forall e, match find is_error (map fst xs') with
                  | Some e0 => exists v, Val (VError e, None) = Val (v, None) :> out vt /\ same v e0
                  | None => forall r, Val (VError e) = Val r ->
                            exists v, Val (VError e, None) = Val (v, None) :> out vt /\ same v r
                  end).
        { intros e. destruct (find is_error (map fst xs')) as [e0|] eqn:F.
          - destruct Hopt as [Hopt|Hopt].
            + apply find_some in F. destruct F as [_ F]. destruct e0; try discriminate.
              eexists. split; [reflexivity|]. now apply loose_error.
            + apply optional_head in Hopt. subst opts. destruct cs; [|discriminate]. cbn in E2.
              injection E2 as <-. discriminate F.
          - intros r [= <-]. eexists. split; [reflexivity|now left]. }
        unfold L_Short.kx in Kx.
        destruct (fst x') as [| | | | | | | | | | | |[w|]| |] eqn:Ev; cbn [obind]; try exact (Hstop _); try exact Hskip.
        apply (proj1 (known_some _)) in Kx.
        destruct (is_error w) eqn:Ew.
        + destruct w; try discriminate. cbn [obind]. exact (Hstop _).
        + pose proof (put_ok m kv key w Hkey Kx Ew Hnm) as Ea.
          destruct w; try discriminate Ew; rewrite Ea; cbn [obind]; exact (Hput _).
    Qed.
    (* one entry, when all errors count as the same *)
    Lemma map_sim_one ps : loose = true -> (List.length ps <= 1)%nat ->
      Forall (fun p => sim (f (fst p)) (f' (fst p)) /\ sim (f (snd p)) (f' (snd p))) ps -> forall opts vs',
      eval_list f' (flat ps) = Val vs' ->
      match find is_error (map fst vs') with
      | Some e => exists v, dir_map C f (flat ps) opts [] = Val (v, None) /\ same v e
      | None => forall r, map_loop (cf_reorder C) opts (map fst vs') [] = Val r ->
                exists v, dir_map C f (flat ps) opts [] = Val (v, None) /\ same v r
      end.
    Proof.
      intros Hl Hlen H opts vs' E. destruct ps as [|[kc vc] [|? ?]]; [| |cbn in Hlen; lia].
      - cbn [flat flat_map eval_list] in E. injection E as <-. cbn. intros r [= <-]. eexists. split; [reflexivity|now left].
      - apply Forall_cons_iff in H. destruct H as [[H1 H2] _]. cbn [fst snd] in *.
        cbn [flat flat_map fst snd app eval_list] in *.
        destruct (f' kc) as [y'|?|] eqn:E0; cbn [obind] in E; try discriminate.
        destruct (f' vc) as [x'|?|] eqn:E1; cbn [obind] in E; try discriminate. injection E as <-.
        destruct (H1 y' eq_refl) as (y & Ey & Hy & Ky). destruct (H2 x' eq_refl) as (x & Ex & Hx & Kx).
        cbn [dir_map map find]. rewrite Ey. cbn [obind]. unfold key_one. rewrite (same_error _ _ _ Hy).
        destruct (is_error (fst y')) eqn:Ek; [cbn [obind]; eauto|].
        rewrite (same_plain _ _ _ Hy Ek). cbn [map_loop].
        destruct (CheckMapKey (fst y')) as [key|e|] eqn:Ec; cbn [obind].
        + rewrite Ex. cbn [obind]. unfold entry_one. rewrite (same_error _ _ _ Hx).
          destruct (is_error (fst x')) eqn:Er; [cbn [obind]; eauto|].
          rewrite (same_plain _ _ _ Hx Er).
          assert (Hv : forall r (o : out value), o = Val r -> exists v, obind o (fun v => Val (v, None)) = Val (v, None) :> out vt /\ same v r)
            by (intros r o ->; exists r; split; [reflexivity|now left]).
          intros r Hr. specialize (Hv r _ Hr). destruct Hv as (v & Hv & Hs). exists v. split; [|exact Hs]. rewrite <- Hv.
          unfold hd_opt, tl_opt.
          destruct (match opts with o :: _ => o | [] => false end); [|destruct (MapPut [] (fst y') (fst x')); reflexivity].
          destruct (fst x') as [| | | | | | | | | | | |[w|]| |]; try reflexivity.
          destruct w; try reflexivity;
            match goal with |- context [MapPut ?m ?k ?v] => destruct (MapPut m k v); reflexivity end.
        + assert (Hs : forall e', is_error e' = true -> exists v, Val (VError e, None) = Val (v, None) :> out vt /\ same v e')
            by (intros e' He; destruct e'; try discriminate; eexists; split; [reflexivity|now apply loose_error]).
          destruct (is_error (fst x')) eqn:Er; [auto|]. intros r [= <-]. now apply Hs.
        + destruct (fst y'); discriminate Ec.
    Qed.
  End Lit.

  (* ---- operators ---- *)
  Hypothesis Hjump : EE (no_matching_overload "_?_:_") (no_matching_overload "<jump_condition>").
  Lemma dir_calc op a b : known a -> known b -> DirectLogic false op a b = Calculate false op a b.
  Proof.
    intros Ha Hb. apply known_top in Ha, Hb. unfold DirectLogic, Calculate, ReturnLogicResult.
    destruct a as [|[]| | | | | | | | | | | | |], b as [|[]| | | | | | | | | | | | |], op;
      try discriminate; reflexivity.
  Qed.
  Lemma dsim_logic op a a' b b' : sim a a' -> sim b b' ->
    sim (obind a (fun x => if sc C && M_Logic.decides op (fst x) then Val x
           else obind b (fun y => Val (DirectLogic (unk C) op (fst x) (fst y), None))))
        (obind a' (fun x => if sc C && M_Logic.decides op (fst x) then Val x
           else obind b' (fun y => Val (Calculate (unk C) op (fst x) (fst y), None)))).
  Proof.
    intros Ha Hb. rewrite Hu. apply sim_bind; [exact Ha|]. intros x x' Hx Hx'.
    assert (D : M_Logic.decides op (fst x) = M_Logic.decides op (fst x')).
    { destruct Hx as [->|(e1 & e2 & _ & -> & ->)]; reflexivity. }
    rewrite D. destruct (sc C && M_Logic.decides op (fst x')); [now apply sim_val|].
    apply sim_bind; [exact Hb|]. intros y y' Hy Hy'. apply sim_val; unfold L_Short.ax, L_Short.kx; cbn [fst].
    - rewrite dir_calc; [now apply calc_same| |]; eapply same_known; eauto.
    - now apply calc_known.
  Qed.
  Lemma dsim_cond c c' a a' b b' : sim c c' -> sim a a' -> sim b b' ->
    sim (obind c (fun x =>
      if sc C then
        match ternary_stop None x with
        | Some r => Val r
        | None => if is_true (fst x) then a else b
        end
      else obind a (fun y => obind b (fun z =>
           Val (match ternary_stop None x with Some r => r | None => if is_true (fst x) then y else z end)))))
        (obind c' (fun x =>
      if sc C then
        match BoolCheck x with
        | Some r => Val r
        | None => if is_true (fst x) then a' else b'
        end
      else obind a' (fun y => obind b' (fun z => Val (TernaryStep C x y z))))).
  Proof.
    intros Hc Ha Hb. apply sim_bind; [exact Hc|]. intros x x' Hx Hx'. destruct (sc C).
    - unfold ternary_stop, BoolCheck. pose proof (known_top _ Hx') as Hk. unfold L_Short.ax in Hx.
      destruct Hx as [Hx|(e1 & e2 & He & Hx & Hx2)].
      + rewrite Hx. destruct (fst x') as [|[]| | | | | | | | | | | | |] eqn:E'; cbn [is_true]; try discriminate Hk;
          try (apply sim_val; unfold L_Short.ax, L_Short.kx; cbn [fst];
               [right; do 2 eexists; (split; [exact Hjump|]); auto|apply known_error]; fail); auto.
        apply sim_val; unfold L_Short.ax, L_Short.kx; [left; congruence|rewrite E'; apply known_error].
      + rewrite Hx, Hx2. apply sim_val; [right; eauto 8|exact Hx'].
    - apply sim_bind; [exact Ha|]. intros y y' Hy Hy'. apply sim_bind; [exact Hb|]. intros z z' Hz Hz'.
      pose proof (known_top _ Hx') as Hk. unfold L_Short.ax in Hx.
      unfold ternary_stop, TernaryStep. rewrite Hu. cbn [andb].
      destruct Hx as [Hx|(e1 & e2 & He & Hx & Hx2)].
      + rewrite Hx. destruct (fst x') as [|[]| | | | | | | | | | | | |] eqn:E'; cbn [is_true is_error orb]; try discriminate Hk;
          apply sim_val; unfold L_Short.ax, L_Short.kx; cbn [fst]; auto using known_error;
          try (left; congruence).
      + rewrite Hx, Hx2. cbn [is_error orb]. apply sim_val; [right; eauto 8|exact Hx'].
  Qed.
  Lemma dsim_or k a a' b b' : sim a a' -> sim b b' ->
    sim (obind a (fun x => match (if sc C then direct_or_first k x else None) with
           | Some r => Val r
           | None => obind b (fun y => Val (if sc C then direct_or_second k y else EvalOptionalOr k x y))
           end))
        (obind a' (fun x => match (if sc C then OptionalJump k x else None) with
           | Some r => Val r
           | None => obind b' (fun y => Val (EvalOptionalOr k x y))
           end)).
  Proof.
    intros Ha Hb. apply sim_bind; [exact Ha|]. intros [v t] [v' t'] Hx Hx'.
    unfold L_Short.ax, L_Short.kx in Hx, Hx'. cbn [fst] in Hx, Hx'.
    assert (Hself : forall w tw tw', known w -> sim (Val (w, tw)) (Val (w, tw')))
      by (intros w tw tw' Hw; apply sim_val; [now left|exact Hw]).
    assert (Hlate : forall w tw tw', known w -> sim (Val (w, tw)) (obind b' (fun _ => Val (w, tw')))).
    { intros w tw tw' Hw z E. destruct b' as [y'|?|]; cbn [obind] in E; try discriminate. injection E as <-.
      eexists. split; [reflexivity|]. split; [now left|exact Hw]. }
    assert (Hboth : forall w tw tw', known w -> sim (obind b (fun _ => Val (w, tw))) (obind b' (fun _ => Val (w, tw')))).
    { intros w tw tw' Hw. apply sim_bind; [exact Hb|]. auto. }
    destruct Hx as [->|(e1 & e2 & He & -> & ->)].
    2: { assert (Hv : sim (Val (VError e1, t)) (Val (VError e2, t'))) by (apply sim_val; [right; eauto 8|exact Hx']).
         destruct (sc C); [exact Hv|]. apply sim_bind; [exact Hb|]. intros y y' Hy Hy'. exact Hv. }
    pose proof (known_top _ Hx') as Hk. unfold direct_or_first, OptionalJump, EvalOptionalOr. cbn [fst snd].
    destruct v' as [| | | | | | | | | | | |[w|]| |]; try discriminate Hk;
      try (destruct (sc C); cbn [fst snd]; auto using known_error; fail).
    - apply (proj1 (known_some _)) in Hx'. destruct (sc C), k; auto; apply Hself || apply Hboth; now apply (proj2 (known_some _)).
    - assert (Hy : forall y y', ax y y' -> kx y' ->
        forall q q', q = direct_or_second k y \/ fst q = fst (direct_or_second k y) ->
        q' = match fst y' with
             | VError _ | VUnknown _ | VOptional _ => y'
             | _ => if k then y' else (VError (no_matching_overload (optional_or_name k)), None)
             end -> sim (Val q) (Val q')).
      { intros [y ty] [y' ty'] Hy Ky q q' Hq ->. assert (Hq' : fst q = fst (direct_or_second k (y, ty))) by (destruct Hq as [->|]; auto).
        apply sim_val; unfold L_Short.ax, L_Short.kx in *; cbn [fst] in *; rewrite ?Hq'; unfold direct_or_second; cbn [fst];
          destruct Hy as [->|(e1 & e2 & He & -> & ->)]; try (right; eauto 8; fail); auto;
          destruct y'; try destruct k; cbn [fst]; auto using known_error; now left. }
      destruct (sc C); apply sim_bind; try exact Hb; intros y y' Gy Ky; eapply Hy; eauto.
      right. unfold direct_or_second. destruct (fst y); try destruct k; reflexivity.
  Qed.

  (* ---- loops ---- *)
  Lemma dsim_strip o o' : sim o o' -> sim (strip o) o'.
  Proof.
    intros H x' E. destruct (H x' E) as (x & -> & Hx & Kx). cbn [strip obind]. eexists. split; [reflexivity|]. auto.
  Qed.
  Section Loop.
    Variables cond cond' step step' : value * value -> vt -> out vt.
    Variables res res' : vt -> out vt.
    Hypothesis Hcond : forall kv a a', known (fst kv) -> known (snd kv) -> ax a a' -> kx a' ->
      sim (cond kv a) (cond' kv a').
    Hypothesis Hstep : forall kv a a', known (fst kv) -> known (snd kv) -> ax a a' -> kx a' ->
      sim (step kv a) (step' kv a').
    Hypothesis Hres : forall a a', ax a a' -> kx a' -> sim (res a) (res' a').
    Lemma dsim_loop short items : Forall (fun kv => known (fst kv) /\ known (snd kv)) items ->
      forall a a', ax a a' -> kx a' ->
      sim (eval_loop short cond step res items a) (eval_loop short cond' step' res' items a').
    Proof.
      induction 1 as [|kv items [Hk1 Hk2] Hi IH]; intros a a' Ha Hk; cbn [eval_loop]; [now apply Hres|].
      apply sim_bind; [now apply Hcond|]. intros c c' Hc Kc.
      assert (Hgo : forall b, sim (if negb b && short then res a
                 else obind (step kv a) (fun a => eval_loop short cond step res items a))
                (if negb b && short then res' a'
                 else obind (step' kv a') (fun a => eval_loop short cond' step' res' items a))).
      { intros b. destruct (negb b && short); [now apply Hres|]. apply sim_bind; [now apply Hstep|]. auto. }
      unfold loop_condition. pose proof (known_top _ Kc) as Kt. unfold L_Short.ax in Hc.
      destruct Hc as [Hc|(e1 & e2 & He & Hc & Hc2)].
      - rewrite Hc. destruct (fst c') as [|g| | | | | | | | | | | | |] eqn:Eg; try discriminate Kt; try exact (Hgo _);
          apply sim_val; unfold L_Short.ax, L_Short.kx; cbn [fst]; rewrite ?Hc, ?Eg; auto using known_error; try (now left).
      - rewrite Hc, Hc2. apply sim_val; [right; eauto 8|exact Kc].
    Qed.
  End Loop.
  Lemma dsim_env x x2 y b t t' kv a a' rho rho' : esim rho rho' -> known (fst kv) -> known (snd kv) ->
    ax a a' -> kx a' -> esim (loop_env C x x2 y b t kv a rho) (loop_env C x x2 y b t' kv a' rho').
  Proof.
    intros Hr K1 K2 Ha Hk. unfold loop_env, iter_one, iter_two. rewrite Hu. cbn [fst snd].
    destruct (String.eqb x2 ""); repeat (apply esim_bind; [apply sim_val; unfold L_Short.ax, L_Short.kx; cbn [fst];
      auto using same_refl|]); auto.
    destruct b; auto.
  Qed.
  Lemma dsim_init r r' : ax r r' -> kx r' ->
    (exists q q', comp_init C r = inl q /\ comp_init C r' = inl q' /\ ax (fst q, None) q' /\ kx q') \/
    exists m items, comp_init C r = inr (m, items) /\ comp_init C r' = inr (m, items) /\
      Forall (fun kv => known (fst kv) /\ known (snd kv)) items.
  Proof.
    destruct r as [v t], r' as [v' t']. unfold L_Short.ax, L_Short.kx. cbn [fst]. intros [->|(e1 & e2 & He & -> & ->)] Hk.
    - pose proof (known_top _ Hk) as Kt.
      assert (K : forall m items, comp_init C (v', t') = inr (m, items) ->
        Forall (fun kv => known (fst kv) /\ known (snd kv)) items) by (intros; eapply items_known; eauto).
      unfold comp_init in *. cbn [fst snd] in *. rewrite !partial_none in * by exact Hu.
      destruct v'; try discriminate Kt;
        try (left; eexists; eexists; split; [reflexivity|]; split; [reflexivity|]; split; [apply same_refl|exact Hk]);
        try (left; eexists; eexists; split; [reflexivity|]; split; [reflexivity|]; split; [apply same_refl|apply known_error]);
        right; eexists; eexists; (split; [reflexivity|]); (split; [reflexivity|]); eauto.
    - left. cbn. eexists; eexists; split; [reflexivity|]; split; [reflexivity|]. split; [right; eauto 8|exact Hk].
  Qed.
  Lemma dsim_ident x : sim (LookupIdent C x) (LookupIdent C x).
  Proof.
    intros x' E. exists x'. split; [exact E|]. split; [apply same_refl|].
    unfold LookupIdent in E. rewrite exact_none in E by exact Hu. binds E. destruct a as [v|]; injection E as <-;
      unfold L_Short.kx; cbn [fst]; auto using known_error. destruct HR as (_ & HV & _). eauto.
  Qed.

  (* ---- expressions ---- *)
  Definition simcore (k : core) : Prop := forall rho rho', esim rho rho' -> sim (dir C k rho) (eval C k rho').
  Lemma simcore_app op l : is_literal op = false -> planned_op R op (List.length l) -> Forall simcore l ->
    simcore (KApp op l).
  Proof.
    intros Hl Hp Hs rho rho' Hr. cbn [eval].
    assert (E : dir C (KApp op l) rho = obind (eval_list (fun x => dir C x rho) l) (direct_op C op)).
    { cbn [dir]. destruct op; try discriminate Hl; cbn [planned_op] in Hp; try rewrite Hp; reflexivity. }
    rewrite E, <- sequence_dir, <- sequence_eval. apply sim_app; [exact Hl| |].
    - destruct op; try exact I. cbn [planned_op op_reg] in *. subst ovs. apply by_arity.
    - clear - Hs Hr. induction Hs; cbn [map]; constructor; auto.
  Qed.

  Lemma simcore_pairs (l : list (bool * (expr * expr))) cs :
    map_out (fun p => obind (elaborate (cf_opts C) R (fst (snd p))) (fun k =>
                      obind (elaborate (cf_opts C) R (snd (snd p))) (fun v => Val [k; v]))) l = Val cs ->
    exists ps, List.concat cs = flat ps /\
      Forall2 (fun p q => elaborate (cf_opts C) R (fst (snd p)) = Val (fst q) /\
                          elaborate (cf_opts C) R (snd (snd p)) = Val (snd q)) l ps.
  Proof.
    revert cs. induction l as [|p l IH]; intros cs E.
    - cbn [map_out] in E. injection E as <-. exists []. split; [reflexivity|constructor].
    - apply map_out_cons in E. destruct E as (k & cs' & E1 & E2 & ->).
      destruct (elaborate (cf_opts C) R (fst (snd p))) as [k1|?|] eqn:F1; cbn [obind] in E1; try discriminate.
      destruct (elaborate (cf_opts C) R (snd (snd p))) as [k2|?|] eqn:F2; cbn [obind] in E1; try discriminate.
      injection E1 as <-. destruct (IH cs' E2) as (ps & G1 & G2). exists ((k1, k2) :: ps). split.
      + cbn [List.concat flat flat_map fst snd app]. rewrite G1. reflexivity.
      + constructor; auto.
  Qed.
  Lemma map_out_all {A} (f : A -> out core) l : Forall (fun x => forall k, f x = Val k -> simcore k) l ->
    forall ks, map_out f l = Val ks -> Forall simcore ks /\ List.length ks = List.length l.
  Proof.
    induction 1 as [|x l Hx Hl IH]; intros ks E.
    - cbn [map_out] in E. injection E as <-. auto.
    - apply map_out_cons in E. destruct E as (k & ks' & E1 & E2 & ->). destruct (IH ks' E2). split.
      + constructor; auto.
      + cbn [List.length]. lia.
  Qed.

  Lemma flat_forall (Q : core -> Prop) ps : Forall (fun p => Q (fst p) /\ Q (snd p)) ps -> Forall Q (flat ps).
  Proof.
    induction 1 as [|p ps [H1 H2] H IH]; cbn [flat flat_map app]; constructor; auto.
  Qed.
  Lemma operands_known rho rho' cs : Forall (fun c => sim (dir C c rho) (eval C c rho')) cs ->
    forall vs', eval_list (fun x => eval C x rho') cs = Val vs' -> Forall kx vs'.
  Proof.
    intros Hs vs' Ev. rewrite <- sequence_eval in Ev.
    destruct (sim_sequence EE (map (fun k => dir C k rho) cs) (map (fun k => eval C k rho') cs)) with (xs' := vs')
      as (? & _ & _ & K); auto.
    clear - Hs. induction Hs; cbn [map]; constructor; auto.
  Qed.

  Theorem sim_elaborate e : constants_known e -> plain_literals loose e ->
    forall k, elaborate (cf_opts C) R e = Val k -> simcore k.
  Proof.
    induction e using expr_ind'; intros Hc Hp k E; cbn [elaborate constants_known plain_literals] in *.
    - injection E as <-. intros rho rho' Hr. apply sim_val; [apply same_refl|exact Hc].
    - unfold plan_ident in E. destruct x as [|ch rest]; [discriminate|].
      destruct (Ascii.eqb ch _); injection E as <-; intros rho rho' Hr; cbn [dir eval]; [apply dsim_ident|].
      specialize (Hr (String ch rest)). destruct (rho (String ch rest)), (rho' (String ch rest)); try contradiction;
        [exact Hr|apply dsim_ident].
    - destruct (String.eqb f ""); [discriminate|].
      destruct (elaborate (cf_opts C) R e) as [k'|?|] eqn:E1; cbn [obind] in E; try discriminate.
      injection E as <-. apply simcore_app; [reflexivity|reflexivity|]. constructor; auto.
    - destruct Hc as [Hc1 Hc2]. destruct Hp as [Hp1 Hp2].
      assert (Ht : forall ts, match t with None => Val [] | Some x => obind (elaborate (cf_opts C) R x) (fun a => Val [a]) end = Val ts -> Forall simcore ts).
      { destruct t as [x|]; intros ts.
        - destruct (elaborate (cf_opts C) R x) as [k'|?|] eqn:E1; cbn [obind]; try discriminate.
          intros [= <-]. constructor; auto.
        - intros [= <-]. constructor. }
      destruct (match t with None => Val [] | Some x => _ end) as [ts|?|]; cbn [obind] in E; try discriminate.
      destruct (map_out (elaborate (cf_opts C) R) args) as [cs|?|] eqn:E1; cbn [obind] in E; try discriminate.
      assert (Ha : Forall simcore cs).
      { apply (map_out_all (elaborate (cf_opts C) R) args); auto.
        clear - H0 Hc2 Hp2. induction H0; constructor; destruct Hc2, Hp2; auto. }
      eapply (plan_call_pred (cf_opts C) R simcore); [| | | |apply Forall_app; split; [apply Ht; reflexivity|exact Ha]|exact E].
      + intros op a b Sa Sb rho rho' Hr. apply (dsim_logic op); auto.
      + intros q a b Sa Sb rho rho' Hr. apply (dsim_or q); auto.
      + intros c a b Sc Sa Sb rho rho' Hr. apply dsim_cond; auto.
      + apply simcore_app.
    - destruct (map_out _ l) as [cs|?|] eqn:E1; cbn [obind] in E; try discriminate. injection E as <-.
      destruct Hp as [Hp0 Hp].
      destruct (map_out_all (fun p => elaborate (cf_opts C) R (snd p)) l) with (ks := cs) as [Hs Hlen]; auto.
      { clear - H Hc Hp. induction H as [|[q e] l He Hl IH]; constructor; destruct Hc, Hp; auto. }
      intros rho rho' Hr. cbn [dir eval]. intros x' Ex.
      destruct (eval_list (fun x => eval C x rho') cs) as [vs'|?|] eqn:Ev; cbn [obind] in Ex; try discriminate.
      assert (Kv : Forall kx vs').
      { eapply operands_known; [|exact Ev]. eapply Forall_impl; [|exact Hs]. intros c Hc0. exact (Hc0 rho rho' Hr). }
      pose proof (apply_known C R Hu HR (OList (map fst l)) vs' x' I Kv Ex) as Kx.
      cbn [apply_op] in Ex. unfold ListStep in Ex. rewrite literal_none in Ex by exact Hu.
      pose proof (list_sim (fun x => dir C x rho) (fun x => eval C x rho') cs) as L.
      specialize (L ltac:(clear - Hs Hr; eapply Forall_impl; [|exact Hs]; cbn beta; auto) (map fst l) [] vs').
      specialize (L ltac:(rewrite map_length; lia) Hp0 Ev).
      destruct (find is_error (map fst vs')) as [e|].
      + injection Ex as <-. destruct L as (v & -> & Hv). eexists. split; [reflexivity|]. split; [exact Hv|exact Kx].
      + binds Ex. injection Ex as <-. destruct (L _ eq_refl) as (v & -> & Hv). eexists. split; [reflexivity|].
        split; [exact Hv|exact Kx].
    - destruct (map_out _ l) as [cs|?|] eqn:E1; cbn [obind] in E; try discriminate. injection E as <-.
      destruct Hp as [Hp0 Hp]. destruct (simcore_pairs l cs E1) as (ps & -> & Hps).
      assert (Hs : Forall (fun p => simcore (fst p) /\ simcore (snd p)) ps).
      { clear - H Hc Hp Hps. induction Hps as [|[o [p q]] [p' q'] l ps [F1 F2] Hps IH]; constructor.
        - cbn [fst snd] in *. apply Forall_cons_iff in H. destruct H as [[H1 H2] _]. cbn [fst snd] in *.
          destruct Hc as (? & ? & ?), Hp as (? & ? & ?). auto.
        - apply Forall_cons_iff in H. destruct H as [_ H]. destruct Hc as (? & ? & ?), Hp as (? & ? & ?). auto. }
      intros rho rho' Hr. cbn [dir eval]. intros x' Ex.
      assert (Hss : Forall (fun p => sim (dir C (fst p) rho) (eval C (fst p) rho') /\
                                     sim (dir C (snd p) rho) (eval C (snd p) rho')) ps).
      { eapply Forall_impl; [|exact Hs]. cbn beta. intros p [? ?]. auto. }
      destruct (eval_list (fun x => eval C x rho') (flat ps)) as [vs'|?|] eqn:Ev; cbn [obind] in Ex; try discriminate.
      assert (Kv : Forall kx vs').
      { apply (operands_known rho rho' (flat ps)); [|exact Ev].
        now apply (flat_forall (fun c => sim (dir C c rho) (eval C c rho'))). }
      pose proof (apply_known C R Hu HR (OMap (map fst l)) vs' x' I Kv Ex) as Kx.
      cbn [apply_op] in Ex. unfold MapStep in Ex. rewrite literal_none in Ex by exact Hu.
      assert (L : match find is_error (map fst vs') with
        | Some e => exists v, dir_map C (fun x => dir C x rho) (flat ps) (map fst l) [] = Val (v, None) /\ same v e
        | None => forall r, map_loop (cf_reorder C) (map fst l) (map fst vs') [] = Val r ->
                exists v, dir_map C (fun x => dir C x rho) (flat ps) (map fst l) [] = Val (v, None) /\ same v r
        end).
      { destruct Hp0 as [[(keys & Hk1 & Hk2) Ho]|[Hl Hlen]].
        - apply (map_sim (fun x => dir C x rho) (fun x => eval C x rho')) with (keys := keys); auto.
          + eapply Forall_impl; [|exact Hss]. cbn beta. tauto.
          + clear - Hps Hk1. revert keys Hk1. induction Hps as [|[o [p q]] [p' q'] l ps [F1 F2] Hps IH]; intros keys Hk1;
              destruct keys as [|key keys]; try discriminate; constructor.
            * cbn [map fst snd] in *. injection Hk1 as Hk1 _. destruct p; try discriminate.
              cbn [elaborate] in F1. injection F1 as <-. eauto.
            * cbn [map] in Hk1. injection Hk1 as _ Hk1. auto.
          + rewrite map_length. clear - Hps. induction Hps; cbn; auto.
        - apply (map_sim_one (fun x => dir C x rho) (fun x => eval C x rho')); auto.
          assert (E : List.length ps = List.length l) by (clear - Hps; induction Hps; cbn; auto). lia. }
      destruct (find is_error (map fst vs')) as [e|].
      + injection Ex as <-. destruct L as (v & -> & Hv). eexists. split; [reflexivity|]. split; [exact Hv|exact Kx].
      + binds Ex. injection Ex as <-. destruct (L _ eq_refl) as (v & -> & Hv). eexists. split; [reflexivity|].
        split; [exact Hv|exact Kx].
    - destruct Hc as (Hc1 & Hc2 & Hc3 & Hc4 & Hc5). destruct Hp as (Hp1 & Hp2 & Hp3 & Hp4 & Hp5).
      destruct (check_comprehension x x2 y); cbn [obind] in E; try discriminate.
      destruct (IsBind x x2 e1 e3) eqn:EB.
      + destruct (elaborate (cf_opts C) R e2) as [k1|?|] eqn:E1; cbn [obind] in E; try discriminate.
        destruct (elaborate (cf_opts C) R e5) as [k2|?|] eqn:E2; cbn [obind] in E; try discriminate.
        injection E as <-. intros rho rho' Hr. cbn [dir eval]. apply (IHe5 Hc5 Hp5 k2 eq_refl).
        apply esim_bind; [apply (IHe2 Hc2 Hp2 k1 eq_refl); auto|auto].
      + destruct (elaborate (cf_opts C) R e1) as [k0|?|] eqn:E0; cbn [obind] in E; try discriminate.
        destruct (elaborate (cf_opts C) R e2) as [k1|?|] eqn:E1; cbn [obind] in E; try discriminate.
        destruct (elaborate (cf_opts C) R e3) as [k2|?|] eqn:E2; cbn [obind] in E; try discriminate.
        destruct (elaborate (cf_opts C) R e4) as [k3|?|] eqn:E3; cbn [obind] in E; try discriminate.
        destruct (elaborate (cf_opts C) R e5) as [k4|?|] eqn:E4; cbn [obind] in E; try discriminate.
        injection E as <-. intros rho rho' Hr. cbn [dir eval].
        apply sim_bind; [apply (IHe1 Hc1 Hp1 k0 eq_refl); auto|]. intros r r' Hx Hk.
        destruct (dsim_init r r' Hx Hk) as [(q & q' & -> & -> & Hq & Kq)|(m & items & -> & -> & Hit)]; [now apply sim_val|].
        apply sim_bind; [apply (IHe2 Hc2 Hp2 k1 eq_refl); auto|]. intros i i' Hi Ki. apply dsim_loop; auto.
        * intros kv aa a' K1 K2 Ha Ka. apply dsim_strip. apply (IHe3 Hc3 Hp3 k2 eq_refl). now apply dsim_env.
        * intros kv aa a' K1 K2 Ha Ka. apply (IHe4 Hc4 Hp4 k3 eq_refl). now apply dsim_env.
        * intros aa a' Ha Ka. apply (IHe5 Hc5 Hp5 k4 eq_refl). apply esim_bind; auto. now apply sim_val.
  Qed.
End DSim.
