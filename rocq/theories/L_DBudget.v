(* The iteration budget in the recursive evaluator. *)
From Coq Require Import ZArith List Bool String Lia.
From Verif Require Import Base M_Overflow M_Number M_Attr M_Value M_Logic M_Expr M_Plan M_Machine M_Direct
  S_Eval L_Seval L_Alloc L_Budget.
Import ListNotations.
Open Scope list_scope.
Open Scope Z_scope.

Section DBudget.
  Variable C : config.
  Variable mv : value -> value.
  Notation C0 := (with_budget 0 C).
  Notation N := (o_max_iterations (cf_opts C)).
  Hypothesis HN : 0 < N.
  Notation rel := (rel C).
  Notation eqv := (eqv C).
  Notation up := (@up _).

  Lemma loops_put_value o v s : loops (put_value o v s) = loops s.
  Proof. unfold put_value. destruct o; auto. destruct (e_slots s n); reflexivity. Qed.
  Lemma loops_put_trail o v s : loops (put_trail o v s) = loops s.
  Proof. unfold put_trail. destruct o; auto. destruct (e_slots s n); reflexivity. Qed.
  Lemma up_ret rf x s : up s (ret rf x s).
  Proof. unfold ret. cbn [L_Budget.up]. rewrite loops_put_trail, loops_put_value. lia. Qed.
  Lemma eqv_put_value o v s0 sN : eqv s0 sN -> eqv (put_value o v s0) (put_value o v sN).
  Proof.
    intros H. unfold put_value. destruct o as [n|]; auto. pose proof H as (E & _). rewrite <- E.
    destruct (e_slots s0 n); auto. now apply eqv_set.
  Qed.
  Lemma eqv_put_trail o v s0 sN : eqv s0 sN -> eqv (put_trail o v s0) (put_trail o v sN).
  Proof.
    intros H. unfold put_trail. destruct o as [n|]; auto. pose proof H as (E & _). rewrite <- E.
    destruct (e_slots s0 n); auto. now apply eqv_set.
  Qed.
  Lemma rel_ret rf x s0 sN : eqv s0 sN -> rel (ret rf x s0) (ret rf x sN).
  Proof. intros H. unfold ret. apply rel_val. now apply eqv_put_trail, eqv_put_value. Qed.

  (* operands *)
  Definition opup (f : operand) (x : rcore) : Prop := forall rf t s, up s (f x rf t s).
  Definition oprel (f0 fN : operand) (x : rcore) : Prop :=
    forall rf t s0 sN, eqv s0 sN -> rel (f0 x rf t s0) (fN x rf t sN).
  Section Ops.
    Variables (f0 fN : operand).

    Lemma args_up els : Forall (opup f0) els -> forall s, up s (direct_args f0 els s).
    Proof.
      induction 1 as [|x els Hx H IH]; intros s; cbn [direct_args]; [apply up_val|].
      apply up_bind; [apply Hx|]. intros. apply up_bind; [apply IH|]. intros; apply up_val.
    Qed.
    Lemma args_rel els : Forall (opup f0) els -> Forall (oprel f0 fN) els -> forall s0 sN, eqv s0 sN ->
      rel (direct_args f0 els s0) (direct_args fN els sN).
    Proof.
      induction els as [|x els IH]; intros HU HR s0 sN He; cbn [direct_args]; [now apply rel_val|].
      inversion HU; inversion HR; subst. apply rel_bind; [auto| |].
      - intros. apply up_bind; [now apply args_up|]. intros; apply up_val.
      - intros. apply rel_bind; [auto|intros; apply up_val|]. intros. now apply rel_val.
    Qed.
    Lemma list_up rf t els : Forall (opup f0) els -> forall opts tmp acc l s,
      up s (direct_list C0 mv f0 rf t els opts tmp acc l s).
    Proof.
      induction 1 as [|x els Hx H IH]; intros opts tmp acc l s; cbn [direct_list]; cbv zeta; [apply up_ret|].
      apply up_bind; [apply Hx|]. intros x1 s1. destruct (is_error (fst x1)); [apply up_val|].
      destruct (negb _); [apply IH|]. destruct (match opts with [] => false | o :: _ => o end).
      - destruct (fst x1); try apply up_ret. destruct o as [[]|]; try apply up_ret; try apply IH;
          (apply up_bind; [apply up_lift|intros; apply IH]).
      - apply up_bind; [apply up_lift|]. intros. eapply up_from; [|apply IH]. rewrite loops_put_value. lia.
    Qed.
    Lemma list_rel rf t els : Forall (opup f0) els -> Forall (oprel f0 fN) els -> forall opts tmp acc l s0 sN,
      eqv s0 sN ->
      rel (direct_list C0 mv f0 rf t els opts tmp acc l s0) (direct_list C mv fN rf t els opts tmp acc l sN).
    Proof.
      induction els as [|x els IH]; intros HU HR opts tmp acc l s0 sN He; cbn [direct_list]; cbv zeta;
        [now apply rel_ret|].
      inversion HU as [|? ? U1 U2]; inversion HR as [|? ? R1 R2]; subst.
      change (list_unknown C0) with (list_unknown C).
      assert (Hup : forall x1 s1, up s1
        (if is_error (fst x1) then RVal (fst x1, t) s1
         else if negb (acc_IsEmpty (list_unknown C acc x1))
              then direct_list C0 mv f0 rf t els (match opts with [] => [] | _ :: o => o end) (snd x1)
                     (list_unknown C acc x1) l s1
              else if match opts with [] => false | o :: _ => o end then
                match fst x1 with
                | VOptional None => direct_list C0 mv f0 rf t els (match opts with [] => [] | _ :: o => o end) (snd x1)
                     (list_unknown C acc x1) l s1
                | VOptional (Some (VError e)) => ret rf (VError e, t) s1
                | VOptional (Some v) =>
                    rbind (rlift (ListAdd l v) s1) (fun l' s2 =>
                      direct_list C0 mv f0 rf t els (match opts with [] => [] | _ :: o => o end) (snd x1)
                        (list_unknown C acc x1) l' s2)
                | _ => ret rf (VError optional_conversion_error, t) s1
                end
              else rbind (rlift (ListAdd l (fst x1)) s1) (fun l' s2 =>
                     direct_list C0 mv f0 rf t els (match opts with [] => [] | _ :: o => o end) (snd x1)
                        (list_unknown C acc x1) l' (put_value (r_val rf) (mv (fst x1)) s2)))).
      { intros x1 s1. destruct (is_error (fst x1)); [apply up_val|].
        destruct (negb _); [now apply list_up|]. destruct (match opts with [] => false | o :: _ => o end).
        - destruct (fst x1); try apply up_ret. destruct o as [[]|]; try apply up_ret; try now apply list_up.
          all: (apply up_bind; [apply up_lift|intros; now apply list_up]).
        - apply up_bind; [apply up_lift|]. intros. eapply up_from; [|now apply list_up]. rewrite loops_put_value. lia. }
      apply rel_bind; [auto|exact Hup|]. clear Hup.
      intros x1 s1 s1N He1. destruct (is_error (fst x1)); [now apply rel_val|].
      destruct (negb _); [now apply IH|]. destruct (match opts with [] => false | o :: _ => o end).
      - destruct (fst x1); try now apply rel_ret. destruct o as [[]|]; try (now apply rel_ret); try now apply IH.
        all: (apply rel_bind; [now apply rel_lift|intros; now apply list_up|intros; now apply IH]).
      - apply rel_bind; [now apply rel_lift| |].
        + intros. eapply up_from; [|now apply list_up]. rewrite loops_put_value. lia.
        + intros. apply IH; auto. now apply eqv_put_value.
    Qed.
    Lemma map_up rf t n : forall els, (List.length els <= n)%nat -> Forall (opup f0) els -> forall opts acc m s,
      up s (direct_map C0 f0 rf t els opts acc m s).
    Proof.
      induction n as [|n IH]; intros els Hn H opts acc m s.
      - destruct els; [apply up_ret|cbn in Hn; lia].
      - destruct els as [|ke [|ve els]]; try apply up_ret.
        inversion H as [|? ? H1 H2]; subst. inversion H2 as [|? ? H3 H4]; subst.
        assert (Hn' : (List.length els <= n)%nat) by (cbn in Hn; lia).
        cbn [direct_map]. cbv zeta. apply up_bind; [apply H1|]. intros k s1.
        destruct (is_error (fst k)); [apply up_ret|]. destruct (CheckMapKey (fst k)); [|apply up_ret|exact I].
        apply up_bind; [apply H3|]. intros v s2. destruct (is_error (fst v)); [apply up_ret|].
        destruct (negb _); [now apply IH|]. destruct (match opts with [] => false | o :: _ => o end).
        + destruct (fst v); try apply up_ret. destruct o as [[]|]; try apply up_ret; try now apply IH.
          all: (apply up_bind; [apply up_lift|intros; now apply IH]).
        + apply up_bind; [apply up_lift|]. intros; now apply IH.
    Qed.
    Lemma map_up' rf t els opts acc m s : Forall (opup f0) els -> up s (direct_map C0 f0 rf t els opts acc m s).
    Proof. intros H. now apply (map_up rf t (List.length els)). Qed.
    Lemma map_rel rf t n : forall els, (List.length els <= n)%nat ->
      Forall (opup f0) els -> Forall (oprel f0 fN) els -> forall opts acc m s0 sN, eqv s0 sN ->
      rel (direct_map C0 f0 rf t els opts acc m s0) (direct_map C fN rf t els opts acc m sN).
    Proof.
      induction n as [|n IH]; intros els Hn HU HR opts acc m s0 sN He.
      - destruct els; [|cbn in Hn; lia]. cbn [direct_map]. now apply rel_ret.
      - destruct els as [|ke [|ve els]]; try (now apply rel_ret).
        inversion HU as [|? ? U1 U2]; subst. inversion U2 as [|? ? U3 U4]; subst.
        inversion HR as [|? ? R1 R2]; subst. inversion R2 as [|? ? R3 R4]; subst.
        assert (Hn' : (List.length els <= n)%nat) by (cbn in Hn; lia).
        cbn [direct_map]. cbv zeta. change (map_unknown C0) with (map_unknown C).
        set (opts' := match opts with [] => [] | _ :: o => o end).
        set (opt := match opts with [] => false | o :: _ => o end).
        assert (Hend : forall acc2 (k v : vt) s, up s
          (if is_error (fst v) then ret rf (fst v, t) s
           else if negb (acc_IsEmpty acc2) then direct_map C0 f0 rf t els opts' acc2 m s
           else if opt then
             match fst v with
             | VOptional None => direct_map C0 f0 rf t els opts' acc2 m s
             | VOptional (Some (VError e)) => ret rf (VError e, t) s
             | VOptional (Some w) =>
                 rbind (rlift (MapPut m (fst k) w) s) (fun m' s3 => direct_map C0 f0 rf t els opts' acc2 m' s3)
             | _ => ret rf (VError optional_conversion_error, t) s
             end
           else rbind (rlift (MapPut m (fst k) (fst v)) s) (fun m' s3 => direct_map C0 f0 rf t els opts' acc2 m' s3))).
        { intros acc2 k v s. destruct (is_error (fst v)); [apply up_ret|].
          destruct (negb _); [now apply map_up'|]. destruct opt.
          - destruct (fst v); try apply up_ret. destruct o as [[]|]; try apply up_ret; try now apply map_up'.
            all: (apply up_bind; [apply up_lift|intros; now apply map_up']).
          - apply up_bind; [apply up_lift|]. intros; now apply map_up'. }
        apply rel_bind; [auto| |].
        + intros k s. destruct (is_error (fst k)); [apply up_ret|].
          destruct (CheckMapKey (fst k)); [|apply up_ret|exact I].
          apply up_bind; [apply U3|]. intros v s2. apply Hend.
        + intros k s1 s1N He1. destruct (is_error (fst k)); [now apply rel_ret|].
          destruct (CheckMapKey (fst k)); [|now apply rel_ret|now left].
          apply rel_bind; [auto|intros; apply Hend|]. clear Hend.
          intros v s2 s2N He2. destruct (is_error (fst v)); [now apply rel_ret|].
          destruct (negb _); [now apply IH|]. destruct opt.
          * destruct (fst v); try now apply rel_ret. destruct o as [[]|]; try (now apply rel_ret); try now apply IH.
            all: (apply rel_bind; [now apply rel_lift|intros; now apply map_up'|intros; now apply IH]).
          * apply rel_bind; [now apply rel_lift|intros; now apply map_up'|intros; now apply IH].
    Qed.

    Lemma app_up op args rf t s : Forall (opup f0) args -> up s (direct_app C0 mv f0 op args rf t s).
    Proof.
      intros H.
      assert (H1 : forall a, args = [a] -> opup f0 a) by (intros a ->; inversion H; auto).
      assert (H2 : forall a b, args = [a; b] -> opup f0 a /\ opup f0 b).
      { intros a b ->. inversion H as [|? ? Ha Hb]; subst. inversion Hb; auto. }
      destruct op; cbn [direct_app];
        try (apply list_up; exact H); try (apply map_up'; exact H).
      all: try (apply up_bind; [now apply args_up|]; intros; apply up_bind; [apply up_op|]; intros; apply up_ret).
      all: destruct args as [|a [|b [|c args]]]; try exact I;
        try (pose proof (H1 _ eq_refl) as Ha); try (destruct (H2 _ _ eq_refl) as [Ha Hb]); clear H1 H2.
      all: repeat (apply up_bind; [(apply Ha || apply Hb || apply up_lift)|intros]); apply up_ret.
    Qed.
    Lemma app_rel op args rf t s0 sN : Forall (opup f0) args -> Forall (oprel f0 fN) args -> eqv s0 sN ->
      rel (direct_app C0 mv f0 op args rf t s0) (direct_app C mv fN op args rf t sN).
    Proof.
      intros HU HR He.
      assert (U1 : forall a, args = [a] -> opup f0 a /\ oprel f0 fN a)
        by (intros a ->; inversion HU; inversion HR; auto).
      assert (U2 : forall a b, args = [a; b] -> opup f0 a /\ oprel f0 fN a /\ opup f0 b /\ oprel f0 fN b).
      { intros a b ->. inversion HU as [|? ? Ha Hb]; subst. inversion Hb; subst.
        inversion HR as [|? ? Ha' Hb']; subst. inversion Hb'; auto. }
      destruct op; cbn [direct_app];
        try (apply list_rel; assumption); try (apply (map_rel rf t (List.length args)); auto; fail).
      all: try (apply rel_bind;
          [now apply args_rel
          |intros; apply up_bind; [apply up_op|]; intros; apply up_ret
          |intros; apply rel_bind;
             [unfold do_op; match goal with |- context [apply_op C0 ?o ?l] =>
                 change (apply_op C0 o l) with (apply_op C o l);
                 change (op_invokes C0 o l) with (op_invokes C o l) end; now apply rel_lift, eqv_log
             |intros; apply up_ret|intros; now apply rel_ret]]).
      all: destruct args as [|a [|b [|c args]]]; try now left.
      all: try (destruct (U1 _ eq_refl) as [Ua Ra]); try (destruct (U2 _ _ eq_refl) as (Ua & Ra & Ub & Rb)).
      all: apply rel_bind; [now apply Ra| |];
        [intros; repeat (apply up_bind; [(apply Ub || apply up_lift)|intros]); apply up_ret|intros].
      all: try now apply rel_ret.
      all: try (apply rel_bind; [now apply Rb| |];
        [intros; repeat (apply up_bind; [apply up_lift|intros]); apply up_ret|intros]).
      all: (apply rel_bind; [now apply (rel_lift C)|intros; apply up_ret|intros; now apply rel_ret]).
    Qed.
  End Ops.

  (* loops *)
  Definition stup (f : ref -> trail -> est -> res vt) : Prop := forall rf t s, up s (f rf t s).
  Definition strel (f0 fN : ref -> trail -> est -> res vt) : Prop :=
    forall rf t s0 sN, eqv s0 sN -> rel (f0 rf t s0) (fN rf t sN).
  Lemma dloop_up it it2 ac b rt fc fs items : stup fc -> stup fs -> forall ct s,
    up s (direct_loop C0 it it2 ac b rt fc fs items ct s).
  Proof.
    intros Hc Hs. induction items as [|kv items IH]; intros ct s; cbn [direct_loop]; [apply up_val|].
    change (IncrementIterations C0 s) with (RVal tt s). cbn [rbind].
    eapply up_from; [|apply up_bind; [apply Hc|]].
    - rewrite loops_set_iter, loops_count. lia.
    - intros c s1. destruct (loop_condition c); [apply up_val|].
      destruct (_ && _); [apply up_val|]. apply up_bind; [apply Hs|]. intros; apply IH.
  Qed.
  Lemma slot_trail_eqv n s0 sN : eqv s0 sN -> slot_trail n s0 = slot_trail n sN.
  Proof. intros (E & _). unfold slot_trail. now rewrite E. Qed.
  Lemma dloop_rel it it2 ac b rt f0c f0s fNc fNs items :
    stup f0c -> stup f0s -> strel f0c fNc -> strel f0s fNs -> forall ct s0 sN, eqv s0 sN ->
    rel (direct_loop C0 it it2 ac b rt f0c f0s items ct s0) (direct_loop C it it2 ac b rt fNc fNs items ct sN).
  Proof.
    intros U1 U2 R1 R2. induction items as [|kv items IH]; intros ct s0 sN He; cbn [direct_loop];
      [now apply rel_val|].
    change (IncrementIterations C0 s0) with (RVal tt s0). cbn [rbind].
    set (k0 := fun (c : vt) (s2 : est) => match loop_condition c with
        | inl r => RVal (Some (fst r)) s2
        | inr b0 => if negb b0 && sc C0 then RVal None s2
            else rbind (f0s (mkRef (Some ac) (Some ac)) (slot_trail ac s2) s2)
                   (fun (_ : vt) s3 => direct_loop C0 it it2 ac b rt f0c f0s items (snd c) s3)
        end).
    assert (Hk0 : forall c s, up s (k0 c s)).
    { intros c s. unfold k0. destruct (loop_condition c); [apply up_val|].
      destruct (_ && _); [apply up_val|]. apply up_bind; [apply U2|]. intros; now apply dloop_up. }
    unfold IncrementIterations. destruct (Z.eqb_spec N 0) as [|_]; [lia|]. cbv zeta.
    pose proof He as (E1 & E2 & E3 & E6 & E4 & E5).
    rewrite E4. destruct (Z.leb_spec N (loops sN + 1)) as [Hx|Hx]; cbn [rbind].
    - assert (Hcount : N <= loops (set_iter C0 it it2 b rt kv (count_loop s0))).
      { rewrite loops_set_iter, loops_count. unfold loops in *. rewrite E3. lia. }
      assert (Hex : exceeded C (@RErr (option value) budget_exceeded
                {| e_slots := e_slots sN; e_iterations := loops sN + 1; e_log := e_log sN;
                   e_loops := e_loops sN; e_inits := e_inits sN |})).
      { eexists. split; [reflexivity|]. unfold loops in *. cbn [e_loops]. lia. }
      assert (Hup : up (set_iter C0 it it2 b rt kv (count_loop s0))
                (rbind (f0c temps ct (set_iter C0 it it2 b rt kv (count_loop s0))) k0)).
      { apply up_bind; [apply U1|exact Hk0]. }
      destruct (rbind _ _); cbn [L_Budget.up L_Budget.rel] in *; auto; right; split; auto; lia.
    - assert (He2 : eqv (set_iter C0 it it2 b rt kv (count_loop s0))
                      (set_iter C it it2 b rt kv (count_loop
                         {| e_slots := e_slots sN; e_iterations := loops sN + 1;
                            e_log := e_log sN; e_loops := e_loops sN;
                            e_inits := e_inits sN |}))).
      { apply eqv_set_iter. unfold L_Budget.eqv, count_loop, loops in *.
        cbn [e_slots e_log e_loops e_iterations e_inits]. repeat split; auto; lia. }
      apply rel_bind; [now apply R1|exact Hk0|].
      intros c s3 s3N He3. unfold k0. destruct (loop_condition c); [now apply rel_val|].
      change (sc C0) with (sc C). destruct (_ && _); [now apply rel_val|].
      rewrite (slot_trail_eqv ac s3 s3N He3).
      apply rel_bind; [now apply R2| |].
      + intros; now apply dloop_up.
      + intros; now apply IH.
  Qed.

  Lemma loops_open it it2 s : loops (open_iter it it2 s) = loops s.
  Proof. unfold open_iter. now destruct (Nat.eqb it it2). Qed.
  Lemma eqv_open it it2 s0 sN : eqv s0 sN -> eqv (open_iter it it2 s0) (open_iter it it2 sN).
  Proof. intros H. unfold open_iter. destruct (Nat.eqb it it2); repeat apply eqv_set; auto. Qed.

  Definition dlz_up (lz : nat -> dstep) : Prop := forall i room, stup (lz i room).
  Definition dlz_rel (l0 lN : nat -> dstep) : Prop := forall i room, strel (l0 i room) (lN i room).
  Lemma up_too_deep s : up s (@too_deep vt).
  Proof. exact I. Qed.
  Lemma deval_up r : forall lz room, dlz_up lz -> stup (deval C0 mv r lz room).
  Proof.
    induction r using rcore_ind'; intros lz room Hl rf t s; cbn [deval];
      (destruct (deeper room) as [room'|]; [|apply up_too_deep]).
    - apply up_ret.
    - apply up_bind; [apply up_lift|]. intros; apply up_ret.
    - apply up_bind; [|intros; apply up_ret]. unfold read_slot. destruct (e_slots s n); [apply up_val|exact I].
    - destruct (e_slots s n); [apply up_ret|].
      eapply (up_from s (count_init i s)); [apply Z.le_refl|].
      apply up_bind; [apply Hl|]. intros; cbn [L_Budget.up]. rewrite loops_set. lia.
    - apply up_bind; [now apply IHr1|]. intros x s1. destruct (_ && _); [apply up_val|].
      apply up_bind; [now apply IHr2|]. intros; apply up_ret.
    - apply up_bind; [now apply IHr1|]. intros x s1. destruct (sc C0).
      + destruct (ternary_stop t x); [apply up_ret|]. destruct (is_true (fst x)); [now apply IHr2|now apply IHr3].
      + apply up_bind; [now apply IHr2|]. intros. apply up_bind; [now apply IHr3|]. intros; apply up_ret.
    - apply up_bind; [now apply IHr1|]. intros x s1. destruct (sc C0).
      + destruct (direct_or_first k x); [apply up_ret|]. apply up_bind; [now apply IHr2|]. intros; apply up_ret.
      + apply up_bind; [now apply IHr2|]. intros; apply up_ret.
    - apply app_up. rewrite Forall_forall in *. intros x Hx rf' t' s'. now apply (H x Hx).
    - apply up_bind; [now apply IHr1|]. intros rv s1. destruct (comp_init C0 rv) as [|[b items]]; [apply up_ret|].
      apply up_bind; [now apply IHr2|]. intros iv s2.
      eapply up_from; [|apply up_bind; [apply dloop_up; [intros rf' t' s'; now apply IHr3|intros rf' t' s'; now apply IHr4]|]].
      + rewrite loops_open, loops_set. lia.
      + intros o s3. apply up_bind.
        * destruct o; (eapply up_from; [|(apply up_ret || now apply IHr5)]); rewrite loops_clear_iter; lia.
        * intros; cbn [L_Budget.up]. rewrite loops_clear. lia.
    - apply up_bind.
      + apply IHr2. intros j room2 rf' t' s'. unfold set_dlz. destruct (Nat.eqb j i); [now apply IHr1|apply Hl].
      + intros; cbn [L_Budget.up]. rewrite loops_clear. lia.
  Qed.
  Lemma deval_rel r : forall l0 lN room, dlz_up l0 -> dlz_rel l0 lN ->
    strel (deval C0 mv r l0 room) (deval C mv r lN room).
  Proof.
    induction r using rcore_ind'; intros l0 lN room Hu Hl rf t s0 sN He; cbn [deval];
      (destruct (deeper room) as [room'|]; [|now left]).
    - now apply rel_ret.
    - apply rel_bind; [now apply (rel_lift C)|intros; apply up_ret|intros; now apply rel_ret].
    - apply rel_bind; [|intros; apply up_ret|intros; now apply rel_ret].
      unfold read_slot. pose proof He as (E & _). rewrite <- E. destruct (e_slots s0 n); [now apply rel_val|now left].
    - pose proof He as (E & He'). rewrite <- E.
      destruct (e_slots s0 n); [now apply rel_ret|]. apply rel_bind.
      + now apply Hl, eqv_init.
      + intros; cbn [L_Budget.up]. rewrite loops_set. lia.
      + intros. now apply rel_val, eqv_set.
    - apply rel_bind; [now apply IHr1| |].
      + intros x s1. destruct (_ && _); [apply up_val|].
        apply up_bind; [now apply deval_up|]. intros; apply up_ret.
      + intros x s1 s1N He1. change (sc C0) with (sc C). destruct (_ && _); [now apply rel_val|].
        apply rel_bind; [now apply IHr2|intros; apply up_ret|]. intros. now apply rel_ret.
    - apply rel_bind; [now apply IHr1| |].
      + intros x s1. destruct (sc C0).
        * destruct (ternary_stop t x); [apply up_ret|]. destruct (is_true (fst x)); now apply deval_up.
        * apply up_bind; [now apply deval_up|]. intros. apply up_bind; [now apply deval_up|].
          intros; apply up_ret.
      + intros x s1 s1N He1. change (sc C0) with (sc C). destruct (sc C).
        * destruct (ternary_stop t x); [now apply rel_ret|].
          destruct (is_true (fst x)); [now apply IHr2|now apply IHr3].
        * apply rel_bind; [now apply IHr2| |].
          -- intros. apply up_bind; [now apply deval_up|]. intros; apply up_ret.
          -- intros. apply rel_bind; [now apply IHr3|intros; apply up_ret|]. intros.
             now apply rel_ret.
    - apply rel_bind; [now apply IHr1| |].
      + intros x s1. destruct (sc C0).
        * destruct (direct_or_first k x); [apply up_ret|]. apply up_bind; [now apply deval_up|]. intros; apply up_ret.
        * apply up_bind; [now apply deval_up|]. intros; apply up_ret.
      + intros x s1 s1N He1. change (sc C0) with (sc C). destruct (sc C).
        * destruct (direct_or_first k x); [now apply rel_ret|].
          apply rel_bind; [now apply IHr2|intros; apply up_ret|]. intros. now apply rel_ret.
        * apply rel_bind; [now apply IHr2|intros; apply up_ret|]. intros. now apply rel_ret.
    - apply app_rel; auto.
      + apply Forall_forall. intros x Hx rf' t' s'. now apply deval_up.
      + rewrite Forall_forall in *. intros x Hx rf' t' s' sN' He'. now apply (H x Hx).
    - set (k0 := fun (o : option value) (s3 : est) =>
              rbind (match o with
                     | Some v => ret rf (v, t) (clear_iter it it2 s3)
                     | None => deval C0 mv r5 l0 room' rf t (clear_iter it it2 s3)
                     end) (fun x s4 => RVal x (clear_slot ac s4))).
      assert (Hk0 : forall o s, up s (k0 o s)).
      { intros o s. unfold k0. apply up_bind.
        - destruct o; (eapply up_from; [|(apply up_ret || now apply deval_up)]); rewrite loops_clear_iter; lia.
        - intros; cbn [L_Budget.up]. rewrite loops_clear. lia. }
      assert (UL : forall (rv : vt) b items (iv : vt) s2,
                up s2 (rbind (direct_loop C0 it it2 ac b (snd rv) (deval C0 mv r3 l0 room') (deval C0 mv r4 l0 room')
                         items None (open_iter it it2 (set_slot ac iv s2))) k0)).
      { intros. eapply up_from; [|apply up_bind; [|exact Hk0]].
        - rewrite <- (loops_set ac iv s2), <- (loops_open it it2). apply Z.le_refl.
        - apply dloop_up; intros rf' t' s'; now apply deval_up. }
      apply rel_bind; [now apply IHr1| |].
      + intros rv s1. destruct (comp_init C0 rv) as [|[b items]]; [apply up_ret|].
        apply up_bind; [now apply deval_up|]. intros; apply UL.
      + intros rv s1 s1N He1. change (comp_init C0 rv) with (comp_init C rv).
        destruct (comp_init C rv) as [|[b items]]; [now apply rel_ret|].
        apply rel_bind; [now apply IHr2|intros; apply UL|]. intros iv s2 s2N He2.
        apply rel_bind; [|exact Hk0|].
        * apply dloop_rel; try (intros rf' t' s'; now apply deval_up);
            try (intros rf' t' s' sN' He'; (now apply IHr3) || (now apply IHr4)).
          now apply eqv_open, eqv_set.
        * intros o s3 s3N He3. unfold k0. apply rel_bind.
          -- destruct o; [now apply rel_ret, eqv_clear_iter|]. now apply IHr5, eqv_clear_iter.
          -- intros; cbn [L_Budget.up]. rewrite loops_clear. lia.
          -- intros. now apply rel_val, eqv_clear.
    - apply rel_bind.
      + apply IHr2; auto.
        * intros j room2 rf' t' s'. unfold set_dlz. destruct (Nat.eqb j i); [now apply deval_up|apply Hu].
        * intros j room2 rf' t' s' sN' He'. unfold set_dlz. destruct (Nat.eqb j i); [now apply IHr1|now apply Hl].
      + intros; cbn [L_Budget.up]. rewrite loops_clear. lia.
      + intros. now apply rel_val, eqv_clear.
  Qed.

  Lemma direct_budget limit r : rel (direct_run C0 mv limit r) (direct_run C mv limit r).
  Proof.
    assert (H : rel (deval C0 mv r no_dlazy limit temps None est_init)
                    (deval C mv r no_dlazy limit temps None est_init)).
    { apply deval_rel.
      - intros i room rf t s. exact I.
      - intros i room rf t s0 sN _. now left.
      - unfold L_Budget.eqv, loops; cbn. repeat split; auto; lia. }
    unfold direct_run.
    destruct (deval C0 mv r no_dlazy limit temps None est_init) as [x s|e s|w|]; cbn [L_Budget.rel] in *.
    - destruct H as [(Hl & sN & -> & He)|(Hl & s1 & -> & Hs)]; [left; eauto|right]. split; auto. exists s1. auto.
    - destruct H as [(Hl & sN & -> & He)|(Hl & s1 & -> & Hs)]; [left; eauto|right]. split; auto. exists s1. auto.
    - destruct H as [->|(s1 & -> & Hs)]; [left; auto|right]. exists s1. auto.
    - destruct H as [->|(s1 & -> & Hs)]; [left; auto|right]. exists s1. auto.
  Qed.
End DBudget.
