(* Values of the C++ types stay such during recursive evaluation, and it has no
   undefined behaviour of its own. *)
From Coq Require Import ZArith List Bool String Lia ZifyBool Permutation.
From Verif Require Import Base M_Overflow M_Number M_Attr M_Value M_Logic M_Expr M_Plan M_Machine
  M_Direct S_Num S_Value S_Eval L_Value L_Seval L_Alloc L_Range.
Import ListNotations.
Open Scope list_scope.
Open Scope Z_scope.

#[local] Hint Resolve range_error range_unknown range_bool range_none range_string : core.

Lemma oks_put_value o v s : in_range v -> oks s -> oks (put_value o v s).
Proof.
  intros Hv Hs. unfold put_value. destruct o as [n|]; auto.
  destruct (e_slots s n) as [x|] eqn:E; auto. now apply oks_set.
Qed.
Lemma oks_put_trail o t s : oks s -> oks (put_trail o t s).
Proof.
  intros Hs. unfold put_trail. destruct o as [n|]; auto.
  destruct (e_slots s n) as [x|] eqn:E; auto. apply oks_set; auto. exact (Hs n x E).
Qed.
Lemma okr_ret rf x s : okx x -> oks s -> okr (ret rf x s).
Proof. intros Hx Hs. split; [exact Hx|]. apply oks_put_trail. now apply oks_put_value. Qed.
Lemma okr_bind_lift {A} (o : out A) (P : A -> Prop) s k :
  match o with Val a => P a | Err _ => True | UB => False end -> oks s ->
  (forall a, P a -> forall s', oks s' -> okr (k a s')) -> okr (rbind (rlift o s) k).
Proof. destruct o; cbn [rlift rbind okr]; auto. Qed.

Lemma dselect_ok C f t a : okx a -> okvt (DirectSelect C f t a).
Proof.
  destruct a as [v tr]. unfold okx. cbn [fst]. intros H. unfold DirectSelect.
  set (fb := bytes_of_string f). set (rt := if unk C then _ else _).
  assert (Hmap : forall m, in_range (VMap m) ->
            okvt (if t then Val (MapHas m (VString fb), rt) else Val (MapGet m (VString fb), rt))).
  { intros m Hm. destruct t; cbn [okvt]; unfold okx; cbn [fst].
    - apply MapHas_range. auto.
    - apply MapGet_range; auto. }
  destruct v; try (exact H); try exact (range_error _);
    try (destruct (unknown_exact C rt) eqn:E; [exact (exact_range _ _ _ E)|]);
    try exact (range_error _).
  - now apply Hmap.
  - destruct (o_optional_types (cf_opts C)); [|exact (range_error _)].
    destruct o as [w|]; [|destruct t; [exact (range_bool _)|exact H]].
    apply (proj1 (range_some _)) in H.
    destruct t; destruct w; try exact I; try exact (range_error _).
    + apply MapHas_range. auto.
    + cbn [okvt]. unfold okx. cbn [fst]. destruct (MapFind m (VString fb)) eqn:F; [|auto].
      apply (proj2 (range_some _)). eapply MapFind_range; eauto.
Qed.
Lemma dlookup_ok C a b t : okx a -> okx b -> okvt (DirectLookup C a b t).
Proof.
  intros Ha Hb. unfold DirectLookup. destruct (_ && _); [exact (range_unknown _)|].
  destruct (unknown_exact C _) eqn:E; [exact (exact_range _ _ _ E)|].
  apply okvt_bind. now apply perform_ok.
Qed.
Lemma logic_result_ok C op x y ty : in_range x -> in_range y -> okx (logic_result C op x y ty).
Proof.
  intros Hx Hy. unfold logic_result, okx.
  destruct (M_Logic.decides op x); [exact Hx|]. destruct (M_Logic.decides op y); [exact Hy|].
  assert (H : in_range (ReturnLogicResult (unk C) op x y)).
  { unfold ReturnLogicResult.
    assert (G : in_range (if is_error x then x else if is_error y then y else
      match x, y with VBool _, VBool _ => x | _, _ => VError (no_matching_overload (op_name op)) end)).
    { destruct (is_error x); [exact Hx|]. destruct (is_error y); [exact Hy|].
      destruct x; try exact (range_error _). destruct y; try exact (range_error _). exact Hx. }
    destruct (unk C); [|exact G].
    destruct x; try (destruct y; first [exact G|exact Hy]). }
  cbv zeta. destruct (unk C && is_unknown x && is_unknown y); [exact H|].
  destruct (unk C && is_unknown x); [exact H|]. destruct (unk C && is_unknown y); [exact H|].
  destruct (is_error x); [exact H|]. destruct (is_error y); [exact H|].
  destruct x; try exact H. destruct y; exact H.
Qed.
Lemma or_first_ok k x r : okx x -> direct_or_first k x = Some r -> okx r.
Proof.
  unfold direct_or_first, okx. intros Hx. destruct (fst x) eqn:E; try (intros [= <-]; exact (range_error _));
    try (intros [= <-]; rewrite E; exact Hx).
  destruct o as [v|]; [|discriminate]. intros [= <-]. destruct k; [now apply (proj1 (range_some _)) in Hx|].
  rewrite E. exact Hx.
Qed.
Lemma or_second_ok k y : okx y -> okx (direct_or_second k y).
Proof.
  unfold direct_or_second, okx. intros Hy.
  destruct (fst y) eqn:E; try (rewrite E; exact Hy); destruct k; try (rewrite E; exact Hy);
    exact (range_error _).
Qed.
Lemma stop_ok t x r : okx x -> ternary_stop t x = Some r -> okx r.
Proof.
  unfold ternary_stop, okx. intros Hx. destruct (fst x) eqn:E; try discriminate;
    intros [= <-]; try (rewrite E; exact Hx); exact (range_error _).
Qed.
Lemma build_ok a : in_range (acc_Build a). Proof. apply range_unknown. Qed.
Lemma add_ok l v : Forall in_range l -> in_range v ->
  match ListAdd l v with Val l' => Forall in_range l' | Err _ => True | UB => False end.
Proof.
  intros Hl Hv. assert (G : Forall in_range (l ++ [v])) by (apply Forall_app; auto).
  unfold ListAdd. destruct v; cbn [CheckListElement obind]; auto.
Qed.
Lemma put_ok m k v : in_range (VMap m) -> in_range k -> in_range v ->
  match MapPut m k v with Val m' => in_range (VMap m') | Err _ => True | UB => False end.
Proof.
  intros Hm Hk Hv. unfold MapPut.
  assert (Hkey : forall key, CheckMapKey k = Val key -> key_ok key).
  { intros key. unfold CheckMapKey.
    destruct k; try discriminate; destruct (key_of_value _) eqn:E; try discriminate;
      intros [= <-]; exact (key_of_value_ok _ _ Hk E). }
  destruct (CheckMapKey k) as [key|e|] eqn:Ek; cbn [obind]; auto.
  - destruct (CheckMapValue v) as [u|e|] eqn:Ev; cbn [obind]; auto.
    + destruct (find_key key m); cbn [obind]; auto. apply (proj2 (range_map _)).
      apply Forall_app. split; [now apply (proj1 (range_map _))|]. repeat constructor; cbn [fst snd]; auto.
    + destruct v; discriminate.
  - unfold CheckMapKey in Ek. destruct k; try discriminate; destruct (key_of_value _); discriminate.
Qed.
Lemma map_key_ok k : match CheckMapKey k with UB => False | _ => True end.
Proof. unfold CheckMapKey. destruct k; cbn [key_of_value]; exact I. Qed.

Section Operands.
  Variables (C : config) (mv : value -> value) (f : operand).
  Hypothesis Hmv : forall v, in_range v -> in_range (mv v).
  Hypothesis Hmaps : forall m, Permutation (cf_reorder C m) m.
  Definition rg (x : rcore) : Prop := forall rf t s, oks s -> okr (f x rf t s).

  Lemma dlist_ok rf t els : Forall rg els -> forall opts tmp acc l s, Forall in_range l -> oks s ->
    okr (direct_list C mv f rf t els opts tmp acc l s).
  Proof.
    induction 1 as [|e els He Hels IH]; intros opts tmp acc l s Hl Hs; cbn [direct_list].
    - apply okr_ret; [|exact Hs]. unfold okx. cbn [fst]. destruct (acc_IsEmpty acc); [|apply build_ok].
      now apply (proj2 (range_list _)).
    - apply okr_bind; [now apply He|]. intros x s1 Hx Hs1. destruct (is_error (fst x)); [now split|].
      destruct (negb _); [now apply IH|].
      destruct (match opts with o :: _ => o | [] => false end).
      + assert (Hg : okr (ret rf (VError optional_conversion_error, t) s1))
          by (apply okr_ret; [exact (range_error _)|exact Hs1]).
        unfold okx in Hx. destruct (fst x) as [| | | | | | | | | | | |o|e0|u]; try exact Hg.
        destruct o as [v|]; [|now apply IH]. apply (proj1 (range_some _)) in Hx.
        assert (Ha : okr (rbind (rlift (ListAdd l v) s1) (fun l' s2 =>
                 direct_list C mv f rf t els match opts with [] => [] | _ :: o => o end (snd x)
                   (list_unknown C acc x) l' s2))).
        { apply (okr_bind_lift _ (Forall in_range)); [now apply add_ok|exact Hs1|]. intros l' Hl' s2 Hs2. now apply IH. }
        destruct v; try exact Ha. apply okr_ret; [exact Hx|exact Hs1].
      + apply (okr_bind_lift _ (Forall in_range)); [now apply add_ok|exact Hs1|].
        intros l' Hl' s2 Hs2. apply IH; [exact Hl'|]. apply oks_put_value; auto.
  Qed.

  Lemma dmap_ok rf t n : forall els, (List.length els <= n)%nat -> Forall rg els -> forall opts acc m s, in_range (VMap m) -> oks s ->
    okr (direct_map C f rf t els opts acc m s).
  Proof.
    induction n as [|n IH].
    1: intros els Hn; destruct els; [|cbn [List.length] in Hn; lia].
    2: intros els Hn.
    all: intros He opts acc m s Hm Hs.
    all: assert (Hend : okr (ret rf (if acc_IsEmpty acc then VMap (cf_reorder C m) else acc_Build acc, t) s)).
    1,3: apply okr_ret; [|exact Hs]; unfold okx; cbn [fst]; destruct (acc_IsEmpty acc); [|apply build_ok];
      apply (proj2 (range_map _)); apply (proj1 (range_map _)) in Hm;
      eapply Permutation_Forall; [|exact Hm]; symmetry; apply Hmaps.
    1: exact Hend.
    destruct els as [|ke [|ve els]]; cbn [direct_map]; [exact Hend..|].
    apply Forall_cons_iff in He. destruct He as [Hk He]. apply Forall_cons_iff in He. destruct He as [Hv He].
    cbn [List.length] in Hn. assert (Hn' : (List.length els <= n)%nat) by lia.
    specialize (IH els Hn' He).
    apply okr_bind; [now apply Hk|]. intros k s1 Hk1 Hs1.
    destruct (is_error (fst k)); [now apply okr_ret|].
    pose proof (map_key_ok (fst k)) as Hck. destruct (CheckMapKey (fst k)) as [key|e|]; [| |destruct Hck].
    2: apply okr_ret; [exact (range_error _)|exact Hs1].
    apply okr_bind; [now apply Hv|]. intros v s2 Hv2 Hs2.
    destruct (is_error (fst v)); [now apply okr_ret|]. cbv zeta.
    destruct (negb _); [now apply IH|].
    assert (Ha : forall w, in_range w -> okr (rbind (rlift (MapPut m (fst k) w) s2) (fun m' s3 =>
                 direct_map C f rf t els match opts with [] => [] | _ :: o => o end
                   (map_unknown C (map_unknown C acc k) v) m' s3))).
    { intros w Hw. apply (okr_bind_lift _ (fun m' => in_range (VMap m'))); [now apply put_ok|exact Hs2|].
      intros m' Hm' s3 Hs3. now apply IH. }
    destruct (match opts with o :: _ => o | [] => false end); [|now apply Ha].
    assert (Hg : okr (ret rf (VError optional_conversion_error, t) s2))
      by (apply okr_ret; [exact (range_error _)|exact Hs2]).
    unfold okx in Hv2. destruct (fst v) as [| | | | | | | | | | | |o|e0|u]; try exact Hg.
    destruct o as [w|]; [|now apply IH]. apply (proj1 (range_some _)) in Hv2.
    destruct w; try (now apply Ha). apply okr_ret; [exact Hv2|exact Hs2].
  Qed.

  Lemma dargs_ok els : Forall rg els -> forall s, oks s ->
    match direct_args f els s with
    | RVal l s' => (Forall okx l /\ oks s') /\ List.length l = List.length els
    | RErr _ _ | RFault _ => True | RUB => False end.
  Proof.
    induction 1 as [|x l Hx Hl IH]; intros s Hs; cbn [direct_args]; [auto|].
    specialize (Hx temps None s Hs). destruct (f x temps None s) as [v s1|?|?|]; cbn [rbind okr] in *; auto.
    destruct Hx as [Hv Hs1]. specialize (IH s1 Hs1).
    destruct (direct_args f l s1) as [vs s2|?|?|]; cbn [rbind] in *; auto.
    destruct IH as [[? ?] ?]. cbn [List.length]. repeat split; auto.
  Qed.

  Lemma not_ok u p v t : in_range v -> in_range (NotStep u p v t).
  Proof. intros H. unfold NotStep. destruct (if _ && _ then _ else _); auto. destruct v; auto. Qed.
  Lemma nsf_ok v : in_range v -> in_range (NotStrictlyFalseStep v).
  Proof. destruct v; cbn [NotStrictlyFalseStep]; auto. Qed.

  Lemma dapp_ok op args rf t s : op_ok op (List.length args) -> Forall rg args -> oks s ->
    okr (direct_app C mv f op args rf t s).
  Proof.
    intros Hq Ha Hs. destruct op; cbn [op_ok] in Hq; unfold direct_app.
    1-6: destruct args as [|a [|b [|c args]]]; try discriminate Hq;
      apply Forall_cons_iff in Ha; destruct Ha as [Ha Hb];
      try (apply Forall_cons_iff in Hb; destruct Hb as [Hb _]);
      (apply okr_bind; [now apply Ha|]); intros x s1 Hx Hs1;
      try (apply okr_bind; [now apply Hb|]; intros y s2 Hy Hs2).
    - apply (okr_bind_lift _ okx); [now apply dselect_ok|exact Hs1|]. intros r Hr s2 Hs2. now apply okr_ret.
    - apply (okr_bind_lift _ okx); [now apply dlookup_ok|exact Hs2|]. intros r Hr s3 Hs3. now apply okr_ret.
    - apply okr_ret; [|exact Hs1]. now apply not_ok.
    - apply okr_ret; [|exact Hs1]. now apply nsf_ok.
    - apply (okr_bind_lift _ okx); [now apply eqstep_ok|exact Hs2|]. intros r Hr s3 Hs3. now apply okr_ret.
    - apply (okr_bind_lift _ okx); [now apply instep_ok|exact Hs2|]. intros r Hr s3 Hs3. now apply okr_ret.
    - pose proof (dargs_ok args Ha s Hs) as G.
      destruct (direct_args f args s) as [xs s1|?|?|]; cbn [rbind okr] in *; auto.
      destruct G as [[G1 G2] G3]. unfold do_op. apply (okr_bind_lift _ okx).
      + apply (apply_ok C Hmaps (OCall _ _ _)); auto.
      + eapply oks_same; [|exact G2]. reflexivity.
      + intros r Hr s2 Hs2. now apply okr_ret.
    - apply dlist_ok; auto.
    - eapply dmap_ok; [apply Nat.le_refl|auto..]. apply (proj2 (range_map _)). constructor.
  Qed.
End Operands.

Section Run.
  Variables (C : config) (mv : value -> value).
  Hypothesis Hmv : forall v, in_range v -> in_range (mv v).
  Hypothesis Hvars : forall x, match cf_vars C x with Val (Some v) => in_range v | UB => False | _ => True end.
  Hypothesis Hmaps : forall m, Permutation (cf_reorder C m) m.

  Lemma dloop_ok it it2 ac b t fc fs
    (Hc : forall rf t s, oks s -> okr (fc rf t s)) (Hs : forall rf t s, oks s -> okr (fs rf t s)) items :
    Forall (fun kv => in_range (fst kv) /\ in_range (snd kv)) items ->
    forall ct s, oks s ->
    match direct_loop C it it2 ac b t fc fs items ct s with
    | RVal (Some v) s' => in_range v /\ oks s'
    | RVal None s' => oks s'
    | RErr _ _ | RFault _ => True
    | RUB => False
    end.
  Proof.
    induction 1 as [|kv items [Hk Hv] Hi IH]; intros ct s Ho; cbn [direct_loop]; [exact Ho|].
    destruct (IncrementIterations C s) as [u s1|?|?|] eqn:E; cbn [rbind]; auto.
    2: unfold IncrementIterations in E; destruct (_ =? _) in E; [discriminate|]; destruct (_ <=? _) in E; discriminate.
    assert (G : oks s1).
    { apply (oks_same s); [|exact Ho]. unfold IncrementIterations in E.
      destruct (_ =? _) in E; [now injection E as <- <-|]. destruct (_ <=? _) in E; [discriminate|].
      now injection E as <- <-. }
    assert (G2 : oks (set_iter C it it2 b t kv (count_loop s1))) by (apply iter_range; auto).
    specialize (Hc temps ct _ G2).
    destruct (fc temps ct (set_iter C it it2 b t kv (count_loop s1))) as [c s2|?|?|]; cbn [rbind okr] in *; auto.
    destruct Hc as [Hc1 Hc2]. unfold loop_condition. unfold okx in Hc1.
    destruct (fst c) eqn:Ec; cbn [fst]; try (split; [first [exact (range_error _)|rewrite Ec; exact Hc1]|exact Hc2]).
    destruct (negb _ && sc C); [exact Hc2|].
    specialize (Hs (mkRef (Some ac) (Some ac)) (slot_trail ac s2) _ Hc2).
    destruct (fs _ _ s2) as [a s3|?|?|]; cbn [rbind okr] in *; auto.
    destruct Hs. now apply IH.
  Qed.
  Lemma open_iter_ok it it2 s : oks s -> oks (open_iter it it2 s).
  Proof.
    assert (H : okx (VNull, None)) by (split; exact I).
    intros Hs. unfold open_iter. destruct (Nat.eqb it it2); repeat (apply oks_set; [exact H|]); exact Hs.
  Qed.

  Lemma deval_ok n subs r : forall L lz room rf t s,
    wf n subs L r -> rok r -> oks s -> (forall i, In i L -> forall room rf t s, oks s -> okr (lz i room rf t s)) ->
    okr (deval C mv r lz room rf t s).
  Proof.
    induction r using rcore_ind'; intros L0 lz room rf t s Hw Hr Ho Hl; cbn [deval];
      (destruct (deeper room) as [room'|]; [|exact I]).
    - now apply okr_ret.
    - apply (okr_bind_lift _ okx); [now apply ident_ok|exact Ho|]. intros x Hx s1 Hs1. now apply okr_ret.
    - unfold read_slot. destruct (e_slots s n0) eqn:E; [|exact I]. cbn [rbind].
      apply okr_ret; [exact (Ho _ _ E)|exact Ho].
    - destruct (e_slots s n0) eqn:E; [apply okr_ret; [exact (Ho _ _ E)|exact Ho]|]. destruct Hw as [_ Hi].
      apply okr_bind; [apply Hl; auto|]. intros x s1 Hx Hs. split; [exact Hx|now apply oks_set].
    - destruct Hw, Hr. apply okr_bind; [eauto|]. intros x s1 Hx Hs.
      destruct (_ && _); [now split|]. apply okr_bind; [eauto|]. intros y s2 Hy Hs2.
      apply okr_ret; [|exact Hs2]. now apply logic_result_ok.
    - destruct Hw as (?&?&?), Hr as (?&?&?). apply okr_bind; [eauto|]. intros x s1 Hx Hs.
      destruct (sc C).
      + destruct (ternary_stop t x) eqn:E; [apply okr_ret; [exact (stop_ok _ _ _ Hx E)|exact Hs]|].
        destruct (is_true (fst x)); eauto.
      + apply okr_bind; [eauto|]. intros y s2 Hy Hs2. apply okr_bind; [eauto|]. intros z s3 Hz Hs3.
        apply okr_ret; [|exact Hs3]. destruct (ternary_stop t x) eqn:E; [exact (stop_ok _ _ _ Hx E)|].
        destruct (is_true (fst x)); auto.
    - destruct Hw, Hr. apply okr_bind; [eauto|]. intros x s1 Hx Hs.
      destruct (sc C).
      + destruct (direct_or_first k x) eqn:E; [apply okr_ret; [exact (or_first_ok _ _ _ Hx E)|exact Hs]|].
        apply okr_bind; [eauto|]. intros y s2 Hy Hs2. apply okr_ret; [now apply or_second_ok|exact Hs2].
      + apply okr_bind; [eauto|]. intros y s2 Hy Hs2. apply okr_ret; [now apply or_range|exact Hs2].
    - apply (wf_app n subs L0 op) in Hw. apply (rok_app op) in Hr. destruct Hr as [Hq Hr].
      apply dapp_ok; auto. rewrite Forall_forall in *. intros x Hx rf0 t0 s0 Hs0.
      eapply H; eauto.
    - destruct Hw as (_&?&?&?&?&?), Hr as (?&?&?&?&?). apply okr_bind; [eauto|]. intros rv s1 Hx Hs1.
      destruct (comp_init C rv) as [v|[b items]] eqn:E.
      { apply okr_ret; [exact (comp_init_range _ _ _ Hx E)|exact Hs1]. }
      apply okr_bind; [eauto|]. intros iv s2 Hx2 Hs2.
      match goal with |- okr (rbind (direct_loop C ?i1 ?i2 ?a ?b ?t ?fc ?fs ?it ?ac ?s) _) =>
        pose proof (dloop_ok i1 i2 a b t fc fs ltac:(eauto) ltac:(eauto) it
          (comp_init_items _ _ _ _ Hx E) ac s ltac:(apply open_iter_ok; now apply oks_set)) as G;
        destruct (direct_loop C i1 i2 a b t fc fs it ac s) as [[o|] s3|?|?|] end; cbn [rbind]; auto.
      + destruct G as [G1 G2]. apply okr_bind; [apply okr_ret; [exact G1|now apply clear_iter_ok]|].
        intros x s4 Hx4 Hs4. split; [exact Hx4|now apply oks_clear].
      + apply okr_bind; [apply (IHr5 L0); auto; now apply clear_iter_ok|].
        intros x s4 Hx4 Hs4. split; [exact Hx4|now apply oks_clear].
    - destruct Hw as (_&_&?&?), Hr. apply okr_bind.
      + apply (IHr2 (i :: L0)); auto. intros j Hj room1 rf1 t1 s1 Hs1. unfold set_dlz. destruct (Nat.eqb_spec j i).
        * apply (IHr1 L0); auto.
        * apply Hl; auto. destruct Hj; [congruence|auto].
      + intros x s1 Hx Hs1. split; [exact Hx|now apply oks_clear].
  Qed.

  Lemma direct_ok limit e : kok e ->
    match direct_run C mv limit (resolved e) with
    | RVal v _ => in_range v | RErr _ _ | RFault _ => True | RUB => False end.
  Proof.
    intros Hk. unfold resolved, direct_run.
    destruct (alloc false [] e (mkAlloc 0 0 [])) as [r s'] eqn:E. cbn [fst].
    assert (G : okr (deval C mv r no_dlazy limit temps None est_init)).
    { eapply (deval_ok (al_max s') (al_subs s') r []).
      - eapply alloc_wf; [exact E|unfold sane; cbn; lia|constructor].
      - eapply alloc_rok; eauto.
      - intros n x H. discriminate H.
      - intros i []. }
    destruct (deval C mv r no_dlazy limit temps None est_init) as [x s|?|?|]; cbn [okr] in G; auto.
    apply G.
  Qed.
End Run.
