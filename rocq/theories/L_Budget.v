(* The iteration budget: evaluation with a budget against evaluation without. *)
From Coq Require Import ZArith List Bool String Lia.
From Verif Require Import Base M_Overflow M_Number M_Attr M_Value M_Logic M_Expr M_Plan M_Machine
  S_Eval L_Seval L_Alloc.
Import ListNotations.
Open Scope list_scope.
Open Scope Z_scope.

Section Budget.
  Variable C : config.
  Notation C0 := (with_budget 0 C).
  Notation N := (o_max_iterations (cf_opts C)).
  Hypothesis HN : 0 < N.

  Definition eqv (s0 sN : est) : Prop :=
    e_slots s0 = e_slots sN /\ e_log s0 = e_log sN /\ e_loops s0 = e_loops sN /\ e_inits s0 = e_inits sN /\
    e_iterations sN = loops sN /\ loops sN < N.
  Definition exceeded {A} (r : res A) : Prop :=
    exists s, r = RErr budget_exceeded s /\ loops s = N - 1.
  Definition rel {A} (r0 rN : res A) : Prop :=
    match r0 with
    | RVal a s0 => (loops s0 < N /\ exists sN, rN = RVal a sN /\ eqv s0 sN) \/
                   (N <= loops s0 /\ exceeded rN)
    | RErr e s0 => (loops s0 < N /\ exists sN, rN = RErr e sN /\ eqv s0 sN) \/
                   (N <= loops s0 /\ exceeded rN)
    | RFault w => rN = RFault w \/ exceeded rN
    | RUB => rN = RUB \/ exceeded rN
    end.
  Definition up {A} (s : est) (r : res A) : Prop :=
    match r with
    | RVal _ s' | RErr _ s' => loops s <= loops s'
    | _ => True
    end.
  Lemma up_bind {A B} s (r : res A) (k : A -> est -> res B) :
    up s r -> (forall a s', up s' (k a s')) -> up s (rbind r k).
  Proof.
    intros H1 H2. destruct r as [a s1|e s1|w|]; cbn [rbind]; auto.
    specialize (H2 a s1). cbn [up] in *. destruct (k a s1); cbn [up] in *; lia.
  Qed.
  Lemma up_val {A} s (a : A) : up s (RVal a s).
  Proof. cbn [up]. lia. Qed.
  Lemma up_lift {A} s (o : out A) : up s (rlift o s).
  Proof. destruct o; cbn [rlift up]; lia. Qed.
  Lemma up_op s op args : up s (do_op C0 op args s).
  Proof. unfold do_op. destruct (apply_op C0 op args); cbn [rlift up]; auto; apply Z.le_refl. Qed.

  Lemma rel_bind {A B} (r0 rN : res A) (k0 kN : A -> est -> res B) :
    rel r0 rN -> (forall a s, up s (k0 a s)) ->
    (forall a s0 sN, eqv s0 sN -> rel (k0 a s0) (kN a sN)) ->
    rel (rbind r0 k0) (rbind rN kN).
  Proof.
    intros Hr Hm Hk. destruct r0 as [a s0|e s0|w|]; cbn [rel rbind] in *.
    - destruct Hr as [(Hl & sN & -> & He)|(Hl & s & -> & Hs)]; cbn [rbind].
      + now apply Hk.
      + specialize (Hm a s0). destruct (k0 a s0) as [b s1|e s1|w|]; cbn [rel up] in *.
        * right. split; [lia|exists s; auto].
        * right. split; [lia|exists s; auto].
        * right. exists s; auto.
        * right. exists s; auto.
    - destruct Hr as [(Hl & sN & -> & He)|(Hl & s & -> & Hs)]; cbn [rbind].
      + left. eauto.
      + right. split; auto. exists s; auto.
    - destruct Hr as [->|(s & -> & Hs)]; cbn [rbind]; [now left|right; exists s; auto].
    - destruct Hr as [->|(s & -> & Hs)]; cbn [rbind]; [now left|right; exists s; auto].
  Qed.
  Lemma eqv_lt s0 sN : eqv s0 sN -> loops s0 < N.
  Proof. intros (_ & _ & H & _ & _ & Hl). unfold loops in *. now rewrite H. Qed.
  Lemma rel_val {A} (a : A) s0 sN : eqv s0 sN -> rel (RVal a s0) (RVal a sN).
  Proof. intros H. left. split; [eapply eqv_lt; eauto|eauto]. Qed.
  Lemma rel_lift {A} (o : out A) s0 sN : eqv s0 sN -> rel (rlift o s0) (rlift o sN).
  Proof.
    intros H. destruct o; cbn [rlift]; [now apply rel_val| |now left].
    left. split; [eapply eqv_lt; eauto|eauto].
  Qed.
  Lemma eqv_set k x s0 sN : eqv s0 sN -> eqv (set_slot k x s0) (set_slot k x sN).
  Proof. intros (H & H') . unfold eqv, set_slot, loops in *; cbn. now rewrite H. Qed.
  Lemma eqv_clear k s0 sN : eqv s0 sN -> eqv (clear_slot k s0) (clear_slot k sN).
  Proof. intros (H & H') . unfold eqv, clear_slot, loops in *; cbn. now rewrite H. Qed.
  Lemma eqv_log l s0 sN : eqv s0 sN -> eqv (add_log l s0) (add_log l sN).
  Proof. intros (H & H' & H2). unfold eqv, add_log, loops in *; cbn. now rewrite H'. Qed.
  Lemma eqv_init i s0 sN : eqv s0 sN -> eqv (count_init i s0) (count_init i sN).
  Proof. intros (H & H' & H2 & H3 & H4). unfold eqv, count_init, loops in *; cbn. now rewrite H3. Qed.
  Lemma eqv_set_iter it it2 b t kv s0 sN :
    eqv s0 sN -> eqv (set_iter C0 it it2 b t kv s0) (set_iter C it it2 b t kv sN).
  Proof.
    intros H. unfold set_iter. change (iter_one C0) with (iter_one C).
    change (iter_two C0) with (iter_two C).
    destruct (Nat.eqb it it2); [now apply eqv_set|]. destruct (iter_two C t kv).
    now apply eqv_set, eqv_set.
  Qed.
  Lemma eqv_clear_iter it it2 s0 sN :
    eqv s0 sN -> eqv (clear_iter it it2 s0) (clear_iter it it2 sN).
  Proof.
    intros H. unfold clear_iter. destruct (Nat.eqb it it2); [now apply eqv_clear|].
    now apply eqv_clear, eqv_clear.
  Qed.

  Definition upc (f : comp) : Prop := forall s, up s (f s).
  Definition relc (f0 fN : comp) : Prop := forall s0 sN, eqv s0 sN -> rel (f0 s0) (fN sN).

  Lemma loops_set k x s : loops (set_slot k x s) = loops s. Proof. reflexivity. Qed.
  Lemma loops_clear k s : loops (clear_slot k s) = loops s. Proof. reflexivity. Qed.
  Lemma loops_set_iter D it it2 b t kv s : loops (set_iter D it it2 b t kv s) = loops s.
  Proof. unfold set_iter. destruct (Nat.eqb it it2); [reflexivity|]. now destruct (iter_two D t kv). Qed.
  Lemma loops_clear_iter it it2 s : loops (clear_iter it it2 s) = loops s.
  Proof. unfold clear_iter. now destruct (Nat.eqb it it2). Qed.
  Lemma loops_count s : loops (count_loop s) = loops s + 1.
  Proof. unfold loops, count_loop; cbn [e_loops]. lia. Qed.

  Lemma up_from {A} s1 s2 (r : res A) : loops s1 <= loops s2 -> up s2 r -> up s1 r.
  Proof. intros H. destruct r; cbn [up]; lia. Qed.

  Lemma loop_up it it2 ac b t fc fs items :
    upc fc -> upc fs -> forall accu s, up s (sloop C0 it it2 ac b t fc fs items accu s).
  Proof.
    intros Hc Hs. induction items as [|kv items IH]; intros accu s; cbn [sloop]; cbv zeta.
    - cbn [up]. rewrite loops_clear_iter. apply Z.le_refl.
    - change (IncrementIterations C0 (set_slot ac accu s)) with (RVal tt (set_slot ac accu s)).
      cbn [rbind]. eapply up_from; [|apply up_bind; [apply Hc|]].
      + rewrite loops_set_iter, loops_count, loops_set. lia.
      + intros c s1. destruct (loop_condition c).
        * cbn [up]. rewrite loops_clear, loops_clear_iter. lia.
        * destruct (_ && _); [apply up_val|]. apply up_bind; [apply Hs|]. intros; apply IH.
  Qed.
  Lemma loop_rel it it2 ac b t f0c f0s fNc fNs items :
    upc f0c -> upc f0s -> relc f0c fNc -> relc f0s fNs ->
    forall accu s0 sN, eqv s0 sN ->
    rel (sloop C0 it it2 ac b t f0c f0s items accu s0) (sloop C it it2 ac b t fNc fNs items accu sN).
  Proof.
    intros U1 U2 R1 R2. induction items as [|kv items IH]; intros accu s0 sN He; cbn [sloop]; cbv zeta.
    - apply rel_val, eqv_clear_iter, eqv_set, He.
    - change (IncrementIterations C0 (set_slot ac accu s0)) with (RVal tt (set_slot ac accu s0)).
      cbn [rbind]. pose proof (eqv_set ac accu _ _ He) as He1.
      set (a0 := set_slot ac accu s0) in *. set (aN := set_slot ac accu sN) in *.
      clearbody a0 aN. destruct He1 as (E1 & E2 & E3 & E6 & E4 & E5).
      unfold IncrementIterations. destruct (Z.eqb_spec N 0) as [|_]; [lia|]. cbv zeta.
      rewrite E4. destruct (Z.leb_spec N (loops aN + 1)) as [Hx|Hx]; cbn [rbind].
      + assert (Hcount : N <= loops (set_iter C0 it it2 b t kv (count_loop a0))).
        { rewrite loops_set_iter, loops_count. unfold loops in *. rewrite E3. lia. }
        assert (Hex : exceeded (@RErr (option vt) budget_exceeded
                  {| e_slots := e_slots aN; e_iterations := loops aN + 1; e_log := e_log aN;
                     e_loops := e_loops aN; e_inits := e_inits aN |})).
        { eexists. split; [reflexivity|]. unfold loops in *. cbn [e_loops]. lia. }
        assert (Hup : up (set_iter C0 it it2 b t kv (count_loop a0))
                  (rbind (f0c (set_iter C0 it it2 b t kv (count_loop a0)))
                     (fun (c : vt) (s3 : est) =>
                      match loop_condition c with
                      | inl r => RVal (Some r) (clear_slot ac (clear_iter it it2 s3))
                      | inr b0 =>
                          if negb b0 && sc C0 then RVal None s3
                          else rbind (f0s s3) (fun (a : vt) (s4 : est) =>
                                 sloop C0 it it2 ac b t f0c f0s items a s4)
                      end))).
        { apply up_bind; [apply U1|]. intros c s3. destruct (loop_condition c).
          - cbn [up]. rewrite loops_clear, loops_clear_iter. lia.
          - destruct (_ && _); [apply up_val|]. apply up_bind; [apply U2|].
            intros; now apply loop_up. }
        destruct (rbind _ _); cbn [up rel] in *; auto; right; split; auto; lia.
      + assert (He2 : eqv (set_iter C0 it it2 b t kv (count_loop a0))
                        (set_iter C it it2 b t kv (count_loop
                           {| e_slots := e_slots aN; e_iterations := loops aN + 1;
                              e_log := e_log aN; e_loops := e_loops aN;
                              e_inits := e_inits aN |}))).
        { apply eqv_set_iter. unfold eqv, count_loop, loops in *.
          cbn [e_slots e_log e_loops e_iterations e_inits]. repeat split; auto; lia. }
        apply rel_bind; [now apply R1| |].
        * intros c s3. destruct (loop_condition c).
          -- cbn [up]. rewrite loops_clear, loops_clear_iter. lia.
          -- destruct (_ && _); [apply up_val|]. apply up_bind; [apply U2|].
             intros; now apply loop_up.
        * intros c s3 s3N He3. destruct (loop_condition c).
          -- now apply rel_val, eqv_clear, eqv_clear_iter.
          -- change (sc C0) with (sc C). destruct (_ && _); [now apply rel_val|].
             apply rel_bind; [now apply R2| |].
             ++ intros; now apply loop_up.
             ++ intros; now apply IH.
  Qed.

  Definition lz_up (lz : nat -> comp) : Prop := forall i, upc (lz i).
  Definition lz_rel (l0 lN : nat -> comp) : Prop := forall i, relc (l0 i) (lN i).
  Lemma seval_up r : forall lz, lz_up lz -> upc (seval C0 r lz).
  Proof.
    induction r using rcore_ind'; intros lz Hl s; cbn [seval].
    - apply up_val.
    - apply up_lift.
    - unfold read_slot. destruct (e_slots s n); [apply up_val|exact I].
    - destruct (e_slots s n); [apply up_val|].
      eapply (up_from _ (count_init i s)); [apply Z.le_refl|]. apply up_bind; [apply Hl|].
      intros; cbn [up]. rewrite loops_set. lia.
    - apply up_bind; [now apply IHr1|]. intros x s1. destruct (_ && _); [apply up_val|].
      apply up_bind; [now apply IHr2|]. intros; apply up_val.
    - apply up_bind; [now apply IHr1|]. intros x s1. destruct (sc C0).
      + destruct (BoolCheck x); [apply up_val|]. destruct (is_true (fst x)); auto.
        * now apply IHr2.
        * now apply IHr3.
      + apply up_bind; [now apply IHr2|]. intros. apply up_bind; [now apply IHr3|]. intros; apply up_val.
    - apply up_bind; [now apply IHr1|]. intros x s1. destruct (if sc C0 then _ else _); [apply up_val|].
      apply up_bind; [now apply IHr2|]. intros; apply up_val.
    - fold (seval_list (fun x => seval C0 x lz)). apply up_bind; [|intros; apply up_op].
      revert s. induction H as [|x l Hx Hf IH]; intros s; cbn [seval_list]; [apply up_val|].
      fold (seval_list (fun x => seval C0 x lz)).
      apply up_bind; [now apply Hx|]. intros. apply up_bind; [apply IH|]. intros; apply up_val.
    - apply up_bind; [now apply IHr1|]. intros rv s1. destruct (comp_init C0 rv) as [|[b items]]; [apply up_val|].
      apply up_bind; [now apply IHr2|]. intros iv s2. apply up_bind.
      + apply loop_up; [now apply IHr3|now apply IHr4].
      + intros [o|] s3; [apply up_val|]. apply up_bind; [now apply IHr5|].
        intros; cbn [up]. rewrite loops_clear. lia.
    - apply up_bind.
      + apply IHr2. intros j. unfold set_lz. destruct (Nat.eqb j i); [now apply IHr1|apply Hl].
      + intros; cbn [up]. rewrite loops_clear. lia.
  Qed.
  Lemma seval_rel r : forall l0 lN, lz_up l0 -> lz_rel l0 lN -> relc (seval C0 r l0) (seval C r lN).
  Proof.
    induction r using rcore_ind'; intros l0 lN Hu Hl s0 sN He; cbn [seval].
    - now apply rel_val.
    - change (LookupIdent C0 n) with (LookupIdent C n). now apply rel_lift.
    - unfold read_slot. destruct He as (E & He'). rewrite <- E.
      destruct (e_slots s0 n); [apply rel_val; split; auto|now left].
    - pose proof He as (E & He'). rewrite <- E.
      destruct (e_slots s0 n); [now apply rel_val|]. apply rel_bind.
      + now apply Hl, eqv_init.
      + intros; cbn [up]. rewrite loops_set. lia.
      + intros. now apply rel_val, eqv_set.
    - apply rel_bind; [now apply IHr1| |].
      + intros x s1. destruct (_ && _); [apply up_val|].
        apply up_bind; [now apply seval_up|]. intros; apply up_val.
      + intros x s1 s1N He1. change (sc C0) with (sc C). destruct (_ && _); [now apply rel_val|].
        apply rel_bind; [now apply IHr2|intros; apply up_val|]. intros. now apply rel_val.
    - apply rel_bind; [now apply IHr1| |].
      + intros x s1. destruct (sc C0).
        * destruct (BoolCheck x); [apply up_val|]. destruct (is_true (fst x)); now apply seval_up.
        * apply up_bind; [now apply seval_up|]. intros. apply up_bind; [now apply seval_up|].
          intros; apply up_val.
      + intros x s1 s1N He1. change (sc C0) with (sc C). destruct (sc C).
        * destruct (BoolCheck x); [now apply rel_val|].
          destruct (is_true (fst x)); [now apply IHr2|now apply IHr3].
        * apply rel_bind; [now apply IHr2| |].
          -- intros. apply up_bind; [now apply seval_up|]. intros; apply up_val.
          -- intros. apply rel_bind; [now apply IHr3|intros; apply up_val|]. intros.
             now apply rel_val.
    - apply rel_bind; [now apply IHr1| |].
      + intros x s1. destruct (if sc C0 then _ else _); [apply up_val|].
        apply up_bind; [now apply seval_up|]. intros; apply up_val.
      + intros x s1 s1N He1. change (sc C0) with (sc C).
        destruct (if sc C then _ else _); [now apply rel_val|].
        apply rel_bind; [now apply IHr2|intros; apply up_val|]. intros. now apply rel_val.
    - fold (seval_list (fun x => seval C0 x l0)). fold (seval_list (fun x => seval C x lN)).
      apply rel_bind; [|intros; apply up_op|].
      + revert s0 sN He. induction H as [|x l Hx Hf IH]; intros s0 sN He; cbn [seval_list];
          [now apply rel_val|].
        fold (seval_list (fun x => seval C0 x l0)). fold (seval_list (fun x => seval C x lN)).
        apply rel_bind; [now apply Hx| |].
        * intros. apply up_bind; [|intros; apply up_val].
          clear - HN Hu. revert s. induction l as [|y l IHl]; intros s; cbn [seval_list]; [apply up_val|].
          fold (seval_list (fun x => seval C0 x l0)).
          apply up_bind; [now apply seval_up|]. intros. apply up_bind; [apply IHl|].
          intros; apply up_val.
        * intros. apply rel_bind; [now apply IH|intros; apply up_val|]. intros. now apply rel_val.
      + intros. unfold do_op. change (apply_op C0 op a) with (apply_op C op a).
        change (op_invokes C0 op a) with (op_invokes C op a).
        now apply rel_lift, eqv_log.
    - assert (UL : forall rv b items iv s2,
                up s2 (rbind (sloop C0 it it2 ac b rv (seval C0 r3 l0) (seval C0 r4 l0) items iv s2)
                  (fun o s3 => match o with
                     | Some r => RVal r s3
                     | None => rbind (seval C0 r5 l0 s3) (fun x s4 => RVal x (clear_slot ac s4))
                     end))).
      { intros. apply up_bind.
        - apply loop_up; now apply seval_up.
        - intros [o|] s3; [apply up_val|]. apply up_bind; [now apply seval_up|].
          intros; cbn [up]. rewrite loops_clear. lia. }
      apply rel_bind; [now apply IHr1| |].
      + intros rv s1. destruct (comp_init C0 rv) as [|[b items]]; [apply up_val|].
        apply up_bind; [now apply seval_up|]. intros; apply UL.
      + intros rv s1 s1N He1. change (comp_init C0 rv) with (comp_init C rv).
        destruct (comp_init C rv) as [|[b items]]; [now apply rel_val|].
        apply rel_bind; [now apply IHr2|intros; apply UL|]. intros iv s2 s2N He2.
        apply rel_bind.
        * apply loop_rel; auto; now apply seval_up.
        * intros [o|] s3; [apply up_val|]. apply up_bind; [now apply seval_up|].
          intros; cbn [up]. rewrite loops_clear. lia.
        * intros [o|] s3 s3N He3; [now apply rel_val|].
          apply rel_bind; [now apply IHr5| |].
          -- intros; cbn [up]. rewrite loops_clear. lia.
          -- intros. now apply rel_val, eqv_clear.
    - apply rel_bind.
      + apply IHr2; auto.
        * intros j. unfold set_lz. destruct (Nat.eqb j i); [now apply seval_up|apply Hu].
        * intros j. unfold set_lz. destruct (Nat.eqb j i); auto.
      + intros; cbn [up]. rewrite loops_clear. lia.
      + intros. now apply rel_val, eqv_clear.
  Qed.

  Lemma budget_rel r :
    rel (seval C0 r no_lazy est_init) (seval C r no_lazy est_init).
  Proof.
    apply seval_rel.
    - intros i s. exact I.
    - intros i s0 sN _. now left.
    - unfold eqv, loops; cbn. repeat split; auto; lia.
  Qed.
End Budget.
