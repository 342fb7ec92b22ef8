(* Recursive evaluation of a planned expression never faults, whatever loop
   steps write, and keeps values of the C++ types such. *)
From Coq Require Import ZArith List Bool String Lia Permutation.
From Verif Require Import Base M_Overflow M_Number M_Attr M_Value M_Logic M_Expr M_Plan M_Machine M_Direct
  S_Num S_Value S_Eval L_Seval L_Alloc L_Safe L_Range.
Import ListNotations.
Open Scope list_scope.
Open Scope Z_scope.

(* outside M the same slots are set, possibly to other values *)
Definition dom_on (M : nat -> Prop) (s s' : est) : Prop :=
  forall k, ~ M k -> (e_slots s' k = None <-> e_slots s k = None).
Definition dok {A} (M : nat -> Prop) (s : est) (r : res A) : Prop :=
  match r with
  | RVal _ s' => dom_on M s s'
  | RErr _ _ => True
  | RFault _ => False
  | RUB => True
  end.
Definition dsafe {A} (D M : nat -> Prop) (f : est -> res A) : Prop :=
  forall s, set_on D s -> dok M s (f s).

Lemma dom_refl M s : dom_on M s s.
Proof. intros k _. tauto. Qed.
Lemma dom_trans M a b c : dom_on M a b -> dom_on M b c -> dom_on M a c.
Proof. intros H1 H2 k Hk. specialize (H1 k Hk). specialize (H2 k Hk). tauto. Qed.
Lemma dom_mono (M M' : nat -> Prop) a b : (forall k, M k -> M' k) -> dom_on M a b -> dom_on M' a b.
Proof. intros Hm H k Hk. apply H. auto. Qed.
Lemma dom_frame M s s' : frame_on M s s' -> dom_on M s s'.
Proof. intros H k Hk. rewrite (H k Hk). tauto. Qed.
Lemma set_on_dom (D M : nat -> Prop) s s' :
  (forall k, D k -> ~ M k) -> dom_on M s s' -> set_on D s -> set_on D s'.
Proof. intros Hd Hf Hs k Hk. specialize (Hf k (Hd k Hk)). specialize (Hs k Hk). tauto. Qed.
Lemma dsafe_mono {A} (D M D' M' : nat -> Prop) (f : est -> res A) :
  (forall k, D k -> D' k) -> (forall k, M k -> M' k) -> dsafe D M f -> dsafe D' M' f.
Proof.
  intros Hd Hm H s Hs. specialize (H s (fun k Hk => Hs k (Hd k Hk))).
  destruct (f s); cbn [dok] in *; auto. eapply dom_mono; eauto.
Qed.
Lemma dok_bind {A B} (M : nat -> Prop) s (r : res A) (g : A -> est -> res B) :
  dok M s r -> (forall a s', dom_on M s s' -> r = RVal a s' -> dok M s' (g a s')) ->
  dok M s (rbind r g).
Proof.
  intros Hr Hg. destruct r; cbn [dok rbind] in *; auto.
  specialize (Hg a s0 Hr eq_refl). destruct (g a s0); cbn [dok] in *; auto.
  eapply dom_trans; eauto.
Qed.
Lemma dok_pre {A} M s s' (r : res A) : dom_on M s s' -> dok M s' r -> dok M s r.
Proof. intros H1 H2. destruct r; cbn [dok] in *; auto. eapply dom_trans; eauto. Qed.
Lemma dsafe_bind {A B} (D M : nat -> Prop) (f : est -> res A) (g : A -> est -> res B) :
  (forall k, D k -> ~ M k) -> dsafe D M f -> (forall a, dsafe D M (g a)) ->
  dsafe D M (fun s => rbind (f s) g).
Proof.
  intros Hd Hf Hg s Hs. apply dok_bind; [auto|]. intros a s' Hfr _. apply Hg.
  eapply set_on_dom; eauto.
Qed.
Lemma dsafe_val {A} (D M : nat -> Prop) (a : A) : dsafe D M (fun s => RVal a s).
Proof. intros s _. apply dom_refl. Qed.
Lemma dsafe_ub {A} (D M : nat -> Prop) : dsafe D M (fun s => @RUB A).
Proof. intros s _. exact I. Qed.
Lemma dsafe_lift {A} (D M : nat -> Prop) (o : out A) : dsafe D M (fun s => rlift o s).
Proof. intros s _. destruct o; cbn [rlift dok]; auto using dom_refl. Qed.
Lemma dsafe_op (D M : nat -> Prop) C op args : dsafe D M (fun s => do_op C op args s).
Proof.
  intros s _. unfold do_op. destruct (apply_op C op args); cbn [rlift dok]; auto.
  intros k _. cbn [e_slots]. tauto.
Qed.
Lemma dom_put_value M o v s : dom_on M s (put_value o v s).
Proof.
  destruct o as [n|]; [|apply dom_refl]. intros k _. unfold put_value. destruct (e_slots s n) eqn:E; [|tauto].
  cbn [set_slot e_slots]. unfold slot_set. destruct (Nat.eqb_spec k n); [subst; rewrite E|tauto].
  split; discriminate.
Qed.
Lemma dom_put_trail M o v s : dom_on M s (put_trail o v s).
Proof.
  destruct o as [n|]; [|apply dom_refl]. intros k _. unfold put_trail. destruct (e_slots s n) eqn:E; [|tauto].
  cbn [set_slot e_slots]. unfold slot_set. destruct (Nat.eqb_spec k n); [subst; rewrite E|tauto].
  split; discriminate.
Qed.
Lemma dsafe_ret (D M : nat -> Prop) rf x : dsafe D M (fun s => ret rf x s).
Proof. intros s _. eapply dom_trans; [apply dom_put_value|apply dom_put_trail]. Qed.

Section Operands.
  Variables (D M : nat -> Prop).
  Hypothesis Hd : forall k, D k -> ~ M k.
  Variable f : operand.
  Definition dsafe_on (x : rcore) : Prop := forall rf t, dsafe D M (f x rf t).

  Lemma direct_list_safe C mv rf t els : Forall dsafe_on els -> forall opts tmp acc l,
    dsafe D M (fun s => direct_list C mv f rf t els opts tmp acc l s).
  Proof.
    induction 1 as [|e els He Hels IH]; intros opts tmp acc l; cbn [direct_list]; [apply dsafe_ret|].
    apply dsafe_bind; [exact Hd|apply He|]. intros x.
    destruct (is_error (fst x)); [apply dsafe_val|]. cbv zeta.
    destruct (negb _); [apply IH|].
    assert (Hadd : forall v v', dsafe D M (fun s1 => rbind (rlift (ListAdd l v) s1) (fun l' s2 =>
              direct_list C mv f rf t els (match opts with [] => [] | _ :: o => o end) (snd x)
                (list_unknown C acc x) l' (put_value (r_val rf) v' s2)))).
    { intros v v'. apply dsafe_bind; [exact Hd|apply dsafe_lift|]. intros l' s2 Hs2.
      pose proof (dom_put_value M (r_val rf) v' s2) as Hp.
      specialize (IH (match opts with [] => [] | _ :: o => o end) (snd x) (list_unknown C acc x) l'
                    _ (set_on_dom _ _ _ _ Hd Hp Hs2)).
      eapply dok_pre; [exact Hp|exact IH]. }
    destruct (match opts with [] => false | _ => _ end).
    - destruct (fst x); try apply dsafe_ret. destruct o as [v|]; [|apply IH].
      destruct v; try apply dsafe_ret; try apply Hadd;
        (apply dsafe_bind; [exact Hd|apply dsafe_lift|]; intros l'; apply IH).
    - apply Hadd.
  Qed.
  Lemma direct_map_safe C rf t els : Forall dsafe_on els -> forall opts acc m,
    dsafe D M (fun s => direct_map C f rf t els opts acc m s).
  Proof.
    induction els as [els IH] using (well_founded_induction (well_founded_ltof _ (@List.length rcore))).
    intros He opts acc m. destruct els as [|ke [|ve els]]; [apply dsafe_ret..|].
    apply Forall_cons_iff in He. destruct He as [Hk He]. apply Forall_cons_iff in He. destruct He as [Hv He].
    assert (IH' : forall opts acc m, dsafe D M (fun s => direct_map C f rf t els opts acc m s)).
    { apply IH; auto. unfold ltof. cbn [List.length]. lia. }
    cbn [direct_map]. apply dsafe_bind; [exact Hd|apply Hk|]. intros k.
    destruct (is_error (fst k)); [apply dsafe_ret|]. cbv zeta.
    destruct (CheckMapKey (fst k)); [|apply dsafe_ret|apply dsafe_ub].
    apply dsafe_bind; [exact Hd|apply Hv|]. intros v.
    destruct (is_error (fst v)); [apply dsafe_ret|].
    destruct (negb _); [apply IH'|].
    assert (Hput : forall w o a, dsafe D M (fun s2 => rbind (rlift (MapPut m (fst k) w) s2)
              (fun m' s3 => direct_map C f rf t els o a m' s3))).
    { intros w o a1. apply dsafe_bind; [exact Hd|apply dsafe_lift|]. intros m'. apply IH'. }
    destruct (match opts with [] => false | _ => _ end); [|apply Hput].
    destruct (fst v); try apply dsafe_ret. destruct o as [w|]; [|apply IH'].
    destruct w; try apply dsafe_ret; apply Hput.
  Qed.
  Lemma direct_args_safe els : Forall dsafe_on els -> dsafe D M (fun s => direct_args f els s).
  Proof.
    induction 1 as [|e els He Hels IH]; cbn [direct_args]; [apply dsafe_val|].
    apply dsafe_bind; [exact Hd|apply He|]. intros x.
    apply dsafe_bind; [exact Hd|apply IH|]. intros xs. apply dsafe_val.
  Qed.
  Lemma direct_app_safe C mv op args rf t : Forall dsafe_on args ->
    dsafe D M (fun s => direct_app C mv f op args rf t s).
  Proof.
    intros Ha. unfold direct_app.
    assert (H1 : forall a, In a args -> dsafe_on a) by (rewrite Forall_forall in Ha; auto).
    destruct op; [..|now apply direct_list_safe|now apply direct_map_safe];
      [(destruct args as [|a [|b [|c args]]]; try apply dsafe_ub; cbn [In] in H1; try pose proof (H1 a ltac:(auto));
       try pose proof (H1 b ltac:(auto))) ..|];
      try (apply dsafe_bind; [exact Hd|solve [match goal with H : dsafe_on _ |- _ => exact (H _ _) end]|]; intros x);
      try (apply dsafe_bind; [exact Hd|solve [match goal with H : dsafe_on _ |- _ => exact (H _ _) end]|]; intros y);
      try (apply dsafe_bind; [exact Hd|apply dsafe_lift|]; intros q); try apply dsafe_ret.
    apply dsafe_bind; [exact Hd|now apply direct_args_safe|]. intros xs.
    apply dsafe_bind; [exact Hd|apply dsafe_op|]. intros q. apply dsafe_ret.
  Qed.
End Operands.

Section DLoop.
  Variables (C : config) (it it2 ac : nat) (b : bool) (t : trail).
  Variables (fc fs : ref -> trail -> est -> res vt).
  Variables (D' M1 : nat -> Prop).
  Hypothesis Hd : forall k, D' k -> ~ M1 k.
  Hypothesis Hit : D' it. Hypothesis Hit2 : D' it2.
  Hypothesis Hfc : forall rf t, dsafe D' M1 (fc rf t).
  Hypothesis Hfs : forall rf t, dsafe D' M1 (fs rf t).
  Lemma dom_incr M s : dok M s (IncrementIterations C s).
  Proof.
    pose proof (frame_incr M C s) as H. destruct (IncrementIterations C s); cbn [ok_after dok] in *; auto.
    now apply dom_frame.
  Qed.
  Lemma dom_set_iter M kv s : set_on D' s -> dom_on M s (set_iter C it it2 b t kv s).
  Proof.
    intros Hs k _. unfold set_iter. pose proof (Hs it Hit). pose proof (Hs it2 Hit2).
    destruct (Nat.eqb it it2).
    - cbn [set_slot e_slots]. unfold slot_set. destruct (Nat.eqb_spec k it); [subst|tauto].
      split; [discriminate|tauto].
    - destruct (iter_two C t kv). cbn [set_slot e_slots]. unfold slot_set.
      destruct (Nat.eqb_spec k it2); [subst; split; [discriminate|tauto]|].
      destruct (Nat.eqb_spec k it); [subst; split; [discriminate|tauto]|tauto].
  Qed.
  Lemma direct_loop_safe items : forall ct, dsafe D' M1 (fun s => direct_loop C it it2 ac b t fc fs items ct s).
  Proof.
    induction items as [|kv items IH]; intros ct; cbn [direct_loop]; [apply dsafe_val|].
    apply dsafe_bind; [exact Hd|intros s _; apply dom_incr|]. intros _.
    intros s1 Hs1.
    assert (Hd2 : dom_on M1 s1 (set_iter C it it2 b t kv (count_loop s1))).
    { apply (dom_set_iter M1 kv (count_loop s1)). exact Hs1. }
    eapply dok_pre; [exact Hd2|].
    revert s1 Hs1 Hd2. intros s1 Hs1 Hd2.
    assert (Hs2 : set_on D' (set_iter C it it2 b t kv (count_loop s1))) by (eapply set_on_dom; eauto).
    generalize dependent (set_iter C it it2 b t kv (count_loop s1)). intros s2 _ Hs2.
    revert s2 Hs2. fold (@dsafe (option value) D' M1
      (fun s2 => rbind (fc temps ct s2) (fun c s3 =>
         match loop_condition c with
         | inl r => RVal (Some (fst r)) s3
         | inr b0 => if negb b0 && sc C then RVal None s3
             else rbind (fs (mkRef (Some ac) (Some ac)) (slot_trail ac s3) s3) (fun _ s4 =>
                    direct_loop C it it2 ac b t fc fs items (snd c) s4)
         end))).
    apply dsafe_bind; [exact Hd|apply Hfc|]. intros c. destruct (loop_condition c); [apply dsafe_val|].
    destruct (_ && _); [apply dsafe_val|].
    intros s3 Hs3. apply dok_bind; [now apply Hfs|]. intros _ s4 Hf _.
    apply IH. eapply set_on_dom; eauto.
  Qed.
End DLoop.

Ltac sub_dsafe M0 := eapply (dsafe_mono _ M0); [intros ? HH; exact HH| |].

Lemma alloc_dsafe C mv e : forall ii scp s r s' (W D : nat -> Prop) L lz,
  alloc ii scp e s = (r, s') -> sane s -> scope_in W D L scp ->
  (forall k, W k -> (k < al_next s)%nat) ->
  (forall k, D k -> (k < al_next s)%nat /\ ~ W k) ->
  (forall i, In i L -> forall rf t, dsafe D W (lz i None rf t)) ->
  forall rf t, dsafe D (MW W ii s s') (deval C mv r lz None rf t).
Proof.
  induction e using core_ind'; intros ii scp s r s' W D L lz H0 Hs Hsc HW HD Hlz rf t.
  - injection H0 as <- <-. apply dsafe_ret.
  - cbn [alloc] in H0.
    destruct (lookup_slot scp n) as [[k|k i]|] eqn:El; injection H0 as <- <-; cbn [deval deeper].
    + pose proof (scope_in_lookup _ _ _ _ _ _ Hsc El) as Hk. cbv beta iota in Hk.
      intros s0 Hs0. unfold read_slot. specialize (Hs0 k Hk).
      destruct (e_slots s0 k); [|congruence]. cbn [rbind]. eapply dom_trans; [apply dom_put_value|apply dom_put_trail].
    + pose proof (scope_in_lookup _ _ _ _ _ _ Hsc El) as [Hk Hi].
      intros s0 Hs0. cbn [deval deeper]. destruct (e_slots s0 k) as [x|].
      { eapply dom_trans; [apply dom_put_value|apply dom_put_trail]. }
      apply dok_bind.
      * pose proof (Hlz i Hi rf t (count_init i s0) Hs0) as Hl.
        destruct (lz i None rf t (count_init i s0)); cbn [dok] in *; auto.
        intros k' Hk'. apply Hl. intros Hw. apply Hk'. now left.
      * intros x s1 _ _. apply dom_frame, frame_set. now left.
    + apply dsafe_bind; [now apply MW_disj|apply dsafe_lift|]. intros x. apply dsafe_ret.
  - injection H0 as <- <-. cbn [deval deeper].
    apply dsafe_bind; [now apply MW_disj|apply dsafe_lift|]. intros x. apply dsafe_ret.
  - cbn [alloc] in H0. pair_destruct. injection H0 as <- <-.
    edestruct (alloc_grows e1) as (G1 & S1 & N1); eauto.
    edestruct (alloc_grows e2) as (G2 & S2 & N2); eauto.
    pose proof (grows_next _ _ G1) as X1. pose proof (grows_next _ _ G2) as X2.
    cbn [deval deeper]. apply dsafe_bind; [now apply MW_disj| |].
    + sub_dsafe (MW W ii s s0); [|eapply IHe1; eauto].
      intros k. apply MW_sub; auto using grows_refl.
    + intros x. destruct (sc C && decides op (fst x)); [apply dsafe_val|].
      apply dsafe_bind; [now apply MW_disj| |intros y; apply dsafe_ret].
      sub_dsafe (MW W ii s0 s1); [|eapply IHe2; eauto].
      * intros k. apply MW_sub; auto using grows_refl.
      * intros k Hk. specialize (HW k Hk). lia.
      * intros k Hk. destruct (HD k Hk). split; [lia|auto].
  - cbn [alloc] in H0. pair_destruct. injection H0 as <- <-.
    edestruct (alloc_grows e1) as (G1 & S1 & N1); eauto.
    edestruct (alloc_grows e2) as (G2 & S2 & N2); eauto.
    edestruct (alloc_grows e3) as (G3 & S3 & N3); eauto.
    pose proof (grows_next _ _ G1) as X1. pose proof (grows_next _ _ G2) as X2.
    pose proof (grows_next _ _ G3) as X3.
    assert (SA : forall rf t, dsafe D (MW W ii s s2) (deval C mv r1 lz None rf t)).
    { intros rf0 t0. sub_dsafe (MW W ii s0 s1); [|eapply IHe2; eauto].
      * intros k. apply MW_sub; auto.
      * intros k Hk. specialize (HW k Hk). lia.
      * intros k Hk. destruct (HD k Hk). split; [lia|auto]. }
    assert (SB : forall rf t, dsafe D (MW W ii s s2) (deval C mv r2 lz None rf t)).
    { intros rf0 t0. sub_dsafe (MW W ii s1 s2); [|eapply IHe3; eauto].
      * intros k. apply MW_sub; [exact (grows_trans _ _ _ G1 G2)|apply grows_refl].
      * intros k Hk. specialize (HW k Hk). lia.
      * intros k Hk. destruct (HD k Hk). split; [lia|auto]. }
    cbn [deval deeper]. apply dsafe_bind; [now apply MW_disj| |].
    + sub_dsafe (MW W ii s s0); [|eapply IHe1; eauto].
      intros k. apply MW_sub; [apply grows_refl|exact (grows_trans _ _ _ G2 G3)].
    + intros x. destruct (sc C).
      * destruct (ternary_stop t x); [apply dsafe_ret|]. destruct (is_true (fst x)); auto.
      * apply dsafe_bind; [now apply MW_disj|apply SA|]. intros y.
        apply dsafe_bind; [now apply MW_disj|apply SB|]. intros z. apply dsafe_ret.
  - cbn [alloc] in H0. pair_destruct. injection H0 as <- <-.
    edestruct (alloc_grows e1) as (G1 & S1 & N1); eauto.
    edestruct (alloc_grows e2) as (G2 & S2 & N2); eauto.
    pose proof (grows_next _ _ G1) as X1. pose proof (grows_next _ _ G2) as X2.
    assert (SB : forall rf t, dsafe D (MW W ii s s1) (deval C mv r1 lz None rf t)).
    { intros rf0 t0. sub_dsafe (MW W ii s0 s1); [|eapply IHe2; eauto].
      * intros q. apply MW_sub; auto using grows_refl.
      * intros q Hk. specialize (HW q Hk). lia.
      * intros q Hk. destruct (HD q Hk). split; [lia|auto]. }
    cbn [deval deeper]. apply dsafe_bind; [now apply MW_disj| |].
    + sub_dsafe (MW W ii s s0); [|eapply IHe1; eauto].
      intros q. apply MW_sub; auto using grows_refl.
    + intros x. destruct (sc C).
      * destruct (direct_or_first k x); [apply dsafe_ret|].
        apply dsafe_bind; [now apply MW_disj|apply SB|]. intros y. apply dsafe_ret.
      * apply dsafe_bind; [now apply MW_disj|apply SB|]. intros y. apply dsafe_ret.
  - rewrite alloc_app in H0. pair_destruct. injection H0 as <- <-.
    cbn [deval deeper]. apply direct_app_safe; [now apply MW_disj|].
    revert s r0 s0 E Hs HW HD.
    induction H as [|x l Hx Hl IH]; intros s r0 s0 E Hs HW HD; cbn [alloc_list] in E.
    + injection E as <- <-. constructor.
    + fold (alloc_list ii scp) in E. pair_destruct. injection E as <- <-.
      destruct (alloc_grows _ _ _ _ _ _ E0 Hs) as (G1 & S1 & N1).
      assert (G2 : grows s1 s2).
      { pose proof (alloc_grows (KApp OIndex l) ii scp s1 (RApp OIndex r1) s2) as G.
        rewrite alloc_app, E1 in G. destruct (G eq_refl S1) as (G2 & _). exact G2. }
      pose proof (grows_next _ _ G1) as X1. pose proof (grows_next _ _ G2) as X2.
      constructor.
      * intros rf0 t0. sub_dsafe (MW W ii s s1); [|eapply Hx; eauto].
        intros q. apply MW_sub; auto using grows_refl.
      * assert (HF : Forall (dsafe_on D (MW W ii s1 s2) (fun x0 => deval C mv x0 lz None)) r1).
        { eapply IH; eauto.
          - intros q Hk. specialize (HW q Hk). lia.
          - intros q Hk. destruct (HD q Hk). split; [lia|auto]. }
        eapply Forall_impl; [|exact HF]. intros y Hy rf0 t0.
        sub_dsafe (MW W ii s1 s2); [|apply Hy]. intros q. apply MW_sub; auto using grows_refl.
  - cbn [alloc] in H0. cbv zeta in H0.
    set (k := if negb (String.eqb x2 "") then 3%nat else 2%nat) in *.
    set (j := if negb (String.eqb x2 "") then S (al_next s) else al_next s) in *.
    assert (Hk : (2 <= k)%nat) by (unfold k; destruct (negb (String.eqb x2 "")); lia).
    assert (Hj : (al_next s <= j)%nat /\ (S j < al_next s + k)%nat)
      by (unfold j, k; destruct (negb (String.eqb x2 "")); lia).
    clearbody k j.
    pair_destruct. injection H0 as <- <-.
    assert (Hs0 : sane (ReserveSlots k s)).
    { unfold sane, ReserveSlots; cbn [al_next al_max]. lia. }
    edestruct (alloc_grows e1) as (G1 & S1 & N1); eauto.
    edestruct (alloc_grows e2) as (G2 & S2 & N2); eauto.
    edestruct (alloc_grows e3) as (G3 & S3 & N3); eauto.
    edestruct (alloc_grows e4) as (G4 & S4 & N4); eauto.
    edestruct (alloc_grows e5) as (G5 & S5 & N5); eauto.
    set (fin := if ii then s4 else release_to (al_next s) s4) in *.
    assert (Hfin : forall q, (ii = true -> (q < al_next s4)%nat) ->
              (ii = true -> (q < al_next fin)%nat)).
    { intros q Hq E5. specialize (Hq E5). unfold fin. now rewrite E5. }
    assert (X0 : al_next (ReserveSlots k s) = (al_next s + k)%nat) by reflexivity.
    pose proof (grows_next _ _ G1) as X1. pose proof (grows_next _ _ G2) as X2.
    pose proof (grows_next _ _ G3) as X3. pose proof (grows_next _ _ G4) as X4.
    pose proof (grows_next _ _ G5) as X5. rewrite X0 in X1. clearbody fin.
    assert (Hown : forall q, (al_next s <= q)%nat -> (q < al_next s + k)%nat -> MW W ii s fin q).
    { intros q H1 H2. right. split; [lia|]. apply Hfin. intros _. lia. }
    assert (Hsub : forall a b, (al_next s <= al_next a)%nat -> (al_next b <= al_next s4)%nat ->
              forall q, MW W ii a b q -> MW W ii s fin q).
    { intros a b Ha Hb q [Hq|[Hq1 Hq2]]; [now left|]. right. split; [lia|]. apply Hfin.
      intros E5. specialize (Hq2 E5). lia. }
    assert (Hdis : forall q, D q -> ~ MW W ii s fin q) by (now apply MW_disj).
    cbn [deval deeper]. apply dsafe_bind; [exact Hdis| |].
    + sub_dsafe (MW W ii (ReserveSlots k s) s0); [|eapply IHe1; eauto].
      * apply Hsub; lia.
      * intros q Hq. specialize (HW q Hq). lia.
      * intros q Hq. destruct (HD q Hq). split; [lia|auto].
    + intros rv. destruct (comp_init C rv) as [r'|[b items]]; [apply dsafe_ret|].
      apply dsafe_bind; [exact Hdis| |].
      * sub_dsafe (MW W ii s0 s1); [|eapply IHe2; eauto].
        -- apply Hsub; lia.
        -- intros q Hq. specialize (HW q Hq). lia.
        -- intros q Hq. destruct (HD q Hq). split; [lia|auto].
      * intros iv st Hst.
        set (DL := fun q => D q \/ q = al_next s \/ q = j \/ q = S j).
        assert (Hscl : scope_in W DL L
                  ((x, LSlot (al_next s)) :: (if negb (String.eqb x2 "") then [(x2, LSlot j)] else [])
                   ++ (y, LSlot (S j)) :: scp)).
        { destruct (negb (String.eqb x2 "")); cbn [app];
            [do 3 (constructor; [cbn [snd]; unfold DL; tauto|])
            |do 2 (constructor; [cbn [snd]; unfold DL; tauto|])];
            (eapply Forall_impl; [|exact Hsc]; intros [z [q|q i]]; cbn [snd]; unfold DL; auto). }
        assert (HDL : forall q, DL q -> (q < al_next s + k)%nat /\ ~ W q).
        { intros q [Hq|[->|[->| ->]]].
          - destruct (HD q Hq). split; [lia|auto].
          - split; [lia|]. intros Hq. specialize (HW _ Hq). lia.
          - split; [lia|]. intros Hq. specialize (HW _ Hq). lia.
          - split; [lia|]. intros Hq. specialize (HW _ Hq). lia. }
        assert (HLl : forall i, In i L -> forall rf t, dsafe DL W (lz i None rf t)).
        { intros i Hi rf0 t0. eapply dsafe_mono; [| |exact (Hlz i Hi rf0 t0)]; unfold DL; auto. }
        set (M1 := fun q => W q \/ (al_next s + k <= q /\ (ii = true -> q < al_next s4))%nat).
        assert (Hc : forall rf t, dsafe DL M1 (deval C mv r2 lz None rf t)).
        { intros rf0 t0. sub_dsafe (MW W ii s1 s2); [|eapply IHe3; eauto].
          - intros q [Hq|[Hq1 Hq2]]; [now left|right]. split; [lia|]. intros E6.
            specialize (Hq2 E6). lia.
          - intros q Hq. specialize (HW q Hq). lia.
          - intros q Hq. destruct (HDL q Hq). split; [lia|auto]. }
        assert (Hst' : forall rf t, dsafe DL M1 (deval C mv r3 lz None rf t)).
        { intros rf0 t0. sub_dsafe (MW W ii s2 s3); [|eapply IHe4; eauto].
          - intros q [Hq|[Hq1 Hq2]]; [now left|right]. split; [lia|]. intros E6.
            specialize (Hq2 E6). lia.
          - intros q Hq. specialize (HW q Hq). lia.
          - intros q Hq. destruct (HDL q Hq). split; [lia|auto]. }
        assert (HM1 : forall q, M1 q -> MW W ii s fin q).
        { intros q [Hq|[Hq1 Hq2]]; [now left|right]. split; [lia|]. now apply Hfin. }
        assert (Hno : forall q, DL q -> ~ M1 q).
        { intros q Hq [Hq2|Hq2]; destruct (HDL q Hq); [tauto|lia]. }
        set (so := open_iter (al_next s) j (set_slot (S j) iv st)).
        assert (Fo : dom_on (MW W ii s fin) st so).
        { apply dom_frame. unfold so, open_iter.
          destruct (Nat.eqb (al_next s) j); repeat (eapply frame_trans; [|apply frame_set; apply Hown; lia]);
            apply frame_refl. }
        assert (Do : set_on DL so).
        { intros q Hq. unfold so, open_iter. destruct (Nat.eqb_spec (al_next s) j) as [Ej|Ej];
            cbn [set_slot e_slots]; unfold slot_set;
            repeat match goal with |- context [Nat.eqb ?a ?b] => destruct (Nat.eqb_spec a b); [discriminate|] end;
            (destruct Hq as [Hq|[Hq|[Hq|Hq]]]; [now apply Hst|congruence..]). }
        pose proof (direct_loop_safe C (al_next s) j (S j) b (snd rv) (deval C mv r2 lz None) (deval C mv r3 lz None)
                      DL M1 Hno ltac:(unfold DL; auto) ltac:(unfold DL; auto) Hc Hst' items None so Do) as HL.
        eapply dok_pre; [exact Fo|].
        destruct (direct_loop C (al_next s) j (S j) b (snd rv) (deval C mv r2 lz None) (deval C mv r3 lz None) items None so)
          as [o s5|e s5|w|]; cbn [rbind dok] in *; auto.
        assert (F5 : dom_on (MW W ii s fin) so s5) by (eapply dom_mono; eauto).
        assert (D5 : set_on DL s5) by (eapply set_on_dom; eauto).
        set (s6 := clear_iter (al_next s) j s5).
        assert (F6 : dom_on (MW W ii s fin) s5 s6).
        { apply dom_frame, frame_clear_iter; apply Hown; lia. }
        eapply dok_pre; [eapply dom_trans; [exact F5|exact F6]|].
        assert (D6 : set_on D s6).
        { eapply set_on_dom; [exact Hdis|exact F6|]. intros q Hq. apply D5. now left. }
        assert (D6' : e_slots s6 (S j) <> None).
        { unfold s6. rewrite clear_iter_ac by lia. apply D5. unfold DL; auto. }
        apply dok_bind; [|intros v s7 _ _; apply dom_frame, frame_clear, Hown; lia].
        destruct o as [v|]; [exact (dsafe_ret D (MW W ii s fin) rf (v, t) s6 D6)|].
        set (DR := fun q => D q \/ q = S j).
        assert (HDR : forall q, DR q -> (q < al_next s + k)%nat /\ ~ W q).
        { intros q [Hq|Hq]; apply HDL; unfold DL; auto. }
        assert (Hr : dsafe DR (MW W ii s3 s4) (deval C mv r4 lz None rf t)).
        { eapply IHe5; eauto.
          - constructor; [right; reflexivity|].
            eapply Forall_impl; [|exact Hsc].
            intros [z [q|q i]]; cbn [snd]; unfold DR; [tauto|exact (fun h => h)].
          - intros q Hq. specialize (HW q Hq). lia.
          - intros q Hq. destruct (HDR q Hq). split; [lia|auto].
          - intros i Hi rf0 t0. eapply dsafe_mono; [| |exact (Hlz i Hi rf0 t0)]; unfold DR; auto. }
        assert (D7 : set_on DR s6) by (intros q [Hq| ->]; auto).
        specialize (Hr s6 D7).
        destruct (deval C mv r4 lz None rf t s6) as [v s7|e s7|w|]; cbn [dok] in *; auto.
        eapply dom_mono; [|exact Hr]. apply Hsub; lia.
  - cbn [alloc] in H0. cbv zeta in H0. pair_destruct. injection H0 as <- <-.
    assert (Hs0 : sane (ReserveSlots 1 s)).
    { unfold sane, ReserveSlots; cbn [al_next al_max]. lia. }
    edestruct (alloc_grows e1) as (G1 & S1 & N1); eauto.
    assert (Hs1 : sane (extract r0 s0)) by exact S1.
    edestruct (alloc_grows e2) as (G2 & S2 & N2); eauto.
    assert (X0 : al_next (ReserveSlots 1 s) = (al_next s + 1)%nat) by reflexivity.
    assert (X0' : al_next (extract r0 s0) = al_next s0) by reflexivity.
    pose proof (grows_next _ _ G1) as X1. pose proof (grows_next _ _ G2) as X2.
    set (fin := if ii then s1 else release_to (al_next s) s1) in *.
    assert (Hfin : forall q, (ii = true -> (q < al_next s1)%nat) ->
              (ii = true -> (q < al_next fin)%nat)).
    { intros q Hq E5. specialize (Hq E5). unfold fin. now rewrite E5. }
    clearbody fin.
    set (W' := fun q => W q \/ (al_next s <= q < al_next s0)%nat).
    assert (Hbody : dsafe D (MW W' ii (extract r0 s0) s1)
              (deval C mv r1 (set_dlz (List.length (al_subs s0)) (fun room2 => deval C mv r0 lz room2) lz) None rf t)).
    { eapply (IHe2 ii _ _ _ _ W' D (List.length (al_subs s0) :: L)); eauto.
      - constructor; cbn [snd].
        + split; [right; lia|left; reflexivity].
        + eapply Forall_impl; [|exact Hsc]. intros [z [q|q i]]; cbn [snd]; unfold W'; auto.
          intros [? ?]. split; auto. right; auto.
      - intros q [Hq|Hq]; [specialize (HW q Hq)|]; lia.
      - intros q Hq. destruct (HD q Hq). split; [lia|]. intros [?|?]; [tauto|lia].
      - intros i Hi rf0 t0. unfold set_dlz. destruct (Nat.eqb_spec i (List.length (al_subs s0))) as [E1|E1].
        + eapply dsafe_mono; [| |eapply (IHe1 true scp); eauto]; auto.
          * intros q [Hq|[Hq1 Hq2]]; [now left|right]. specialize (Hq2 eq_refl). lia.
          * intros q Hq. specialize (HW q Hq). lia.
          * intros q Hq. destruct (HD q Hq). split; [lia|auto].
        + eapply dsafe_mono; [| |apply Hlz]; auto.
          * intros q Hq. now left.
          * destruct Hi; [congruence|auto]. }
    cbn [deval deeper]. apply dsafe_bind; [now apply MW_disj| |].
    + eapply dsafe_mono; [| |exact Hbody]; auto.
      intros q [[Hq|Hq]|[Hq1 Hq2]]; [now left| |]; right; (split; [lia|]); apply Hfin; intros E5;
        [|specialize (Hq2 E5)]; lia.
    + intros v st _. cbn [dok]. apply dom_frame, frame_clear. right. split; [lia|]. apply Hfin. lia.
Qed.

Lemma direct_no_fault C mv e : forall w, direct_run C mv None (resolved e) <> RFault w.
Proof.
  intros w. unfold direct_run, resolved.
  destruct (alloc false [] e (mkAlloc 0 0 [])) as [r s'] eqn:E. cbn [fst].
  assert (H0 : dsafe (fun _ => False) (MW (fun _ => False) false (mkAlloc 0 0 []) s')
                 (deval C mv r no_dlazy None temps None)).
  { apply (alloc_dsafe C mv e false [] (mkAlloc 0 0 []) r s' (fun _ => False) (fun _ => False) [] no_dlazy E).
    - unfold sane; cbn; lia.
    - constructor.
    - intros k [].
    - intros k [].
    - intros i []. }
  specialize (H0 est_init (fun k (h : False) => match h with end)).
  destruct (deval C mv r no_dlazy None temps None est_init); cbn [dok] in H0; try discriminate. destruct H0.
Qed.
