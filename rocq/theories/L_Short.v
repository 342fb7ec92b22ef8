(* Short-circuiting and exhaustive evaluation agree (C20). *)
From Coq Require Import ZArith List Bool String Ascii Lia.
From Verif Require Import Base M_Overflow M_Number M_Attr M_Value M_Logic M_Expr M_Plan M_Machine
  S_Value S_Eval S_Short L_Value L_Meaning.
Import ListNotations.
Open Scope list_scope.
Open Scope Z_scope.

(* ---- no unknown values arise ---- *)

Lemma known_list l : known (VList l) <-> Forall known l.
Proof. unfold known. rewrite everywhere_list. cbn [is_unknown]. tauto. Qed.
Lemma known_map m : known (VMap m) <-> Forall (fun e => known (snd e)) m.
Proof. unfold known. rewrite everywhere_map. cbn [is_unknown]. tauto. Qed.
Lemma known_some v : known (VOptional (Some v)) <-> known v.
Proof. unfold known. rewrite everywhere_some. cbn [is_unknown]. tauto. Qed.
Lemma known_error s : known (VError s). Proof. split; [reflexivity|exact I]. Qed.
Lemma known_bool b : known (VBool b). Proof. split; [reflexivity|exact I]. Qed.
Lemma known_none : known (VOptional None). Proof. split; [reflexivity|exact I]. Qed.
Lemma known_key k : known (value_of_key k). Proof. destruct k; split; (reflexivity || exact I). Qed.
Lemma known_int i : known (VInt i). Proof. split; [reflexivity|exact I]. Qed.
Lemma known_top v : known v -> is_unknown v = false. Proof. destruct v; intros [H _]; exact H. Qed.
#[local] Hint Resolve known_error known_bool known_none known_key known_int : core.

Lemma find_key_known k m v : known (VMap m) -> find_key k m = Some v -> known v.
Proof.
  rewrite known_map. induction 1 as [|[k' v'] m H Hm IH]; cbn [find_key]; [discriminate|].
  destruct (key_eqb k' k); [|exact IH]. intros [= <-]. exact H.
Qed.
Lemma MapFind_known k m v : known (VMap m) -> MapFind m k = Some v -> known v.
Proof. intros H. unfold MapFind. destruct (key_of_value k); [|discriminate]. now apply find_key_known. Qed.
Lemma MapGet_known k m : known (VMap m) -> known k -> known (MapGet m k).
Proof.
  intros H Hk.
  assert (Hf : forall q, known (match find_key q m with Some v => v | None => VError no_such_key end)).
  { intros q. destruct (find_key q m) eqn:F; [|auto]. eapply find_key_known; eauto. }
  unfold MapGet. destruct k; cbn [key_of_value]; auto.
Qed.
Lemma MapHas_known k m : known k -> known (MapHas m k).
Proof. intros H. unfold MapHas. destruct k; cbn [key_of_value]; auto. Qed.

Ltac binds H := repeat match type of H with
  | obind ?o _ = Val _ => destruct o eqn:?; cbn [obind] in H; try discriminate H
  end.
Lemma LookupInMap_known h m k v : known (VMap m) -> known k -> LookupInMap h m k = Val v -> known v.
Proof.
  intros Hm Hk. unfold LookupInMap. destruct (if h then _ else _) as [n|].
  - destruct (match k with VUint _ => MapFind m k | _ => None end) as [w|] eqn:E0.
    + intros [= <-]. destruct k; try discriminate. eapply MapFind_known; eauto.
    + intros H. unfold find_int, find_uint in H. binds H.
      destruct a as [w|].
      * injection H as <-. binds Heqo. destruct a; [|discriminate]. binds Heqo.
        injection Heqo as Heqo. eapply MapFind_known; eauto.
      * binds H. destruct a as [w|]; injection H as <-; auto.
        binds Heqo0. destruct a; [|discriminate]. binds Heqo0.
        injection Heqo0 as Heqo0. eapply MapFind_known; eauto.
  - destruct (key_of_value k); intros [= <-]; auto. now apply MapGet_known.
Qed.
Lemma LookupInList_known h l k v : known (VList l) -> LookupInList h l k = Val v -> known v.
Proof.
  intros Hl H. unfold LookupInList in H. binds H. destruct a as [i|]; [|now injection H as <-].
  destruct (_ || _); [now injection H as <-|]. destruct (nth_error l _) eqn:E; [|discriminate].
  injection H as <-. apply known_list in Hl. rewrite Forall_forall in Hl. apply Hl.
  eapply nth_error_In; eauto.
Qed.
Lemma Lookup_known h c k v : known c -> known k -> LookupInContainer h c k = Val v -> known v.
Proof.
  intros Hc Hk. destruct c; cbn [LookupInContainer]; try (intros [= <-]; apply known_error).
  - now apply LookupInList_known.
  - now apply LookupInMap_known.
Qed.
Lemma perform_known h opt c k v : known c -> known k -> PerformLookup h opt c k = Val v -> known v.
Proof.
  intros Hc Hk. pose proof (Lookup_known h c k) as HL. unfold PerformLookup.
  assert (Hopt : forall o, known (VOptional o) -> (if opt
      then match o with
        | None => Val (VOptional None)
        | Some c =>
            obind (LookupInContainer h c k) (fun r =>
            match r with
            | VError s => if IsNoSuchKey s then Val (VOptional None) else Val (VOptional (Some r))
            | _ => Val (VOptional (Some r))
            end)
        end
      else LookupInContainer h (VOptional o) k) = Val v -> known v).
  { intros o Ho. destruct opt; [|now apply Lookup_known].
    destruct o as [c'|]; [|intros [= <-]; auto]. apply (proj1 (known_some _)) in Ho.
    destruct (LookupInContainer h c' k) as [r|?|] eqn:E; cbn [obind]; try discriminate.
    pose proof (Lookup_known _ _ _ _ Ho Hk E) as Hr.
    destruct r; try (intros [= <-]; now apply (proj2 (known_some _))).
    destruct (IsNoSuchKey s); intros [= <-]; auto. now apply (proj2 (known_some _)). }
  destruct c; destruct k; auto; try (intros [= <-]; auto; fail);
    exact (Hopt o Hc).
Qed.

Lemma Val_inj {A} (a b : A) : Val a = Val b -> b = a. Proof. now intros [= ->]. Qed.

Section Short.
  Variable C : config.
  Variable R : registry.
  Hypothesis Hu : unk C = false.
  Variable EE : status -> status -> Prop.
  Hypothesis HR : host_known C R.
  Hypothesis HB : blind EE R.
  Notation same_value := (same_up_to EE).

  Lemma exact_none t : unknown_exact C t = None.
  Proof. unfold unknown_exact. now rewrite Hu. Qed.
  Lemma partial_none t : unknown_partial C t = None.
  Proof. unfold unknown_partial. now rewrite Hu. Qed.
  Lemma pair_none a b : pair_unknowns C a b = None.
  Proof. unfold pair_unknowns. now rewrite Hu. Qed.
  Lemma literal_none l : literal_unknowns C l = None.
  Proof. unfold literal_unknowns. now rewrite Hu. Qed.

  Definition kx (x : vt) : Prop := known (fst x).
  Lemma kx_values l : Forall kx l -> Forall known (map fst l).
  Proof. intros H. now apply Forall_map. Qed.

  Lemma find_known l v : Forall known l -> find is_error l = Some v -> known v.
  Proof. intros H E. apply find_some in E. rewrite Forall_forall in H. now apply H. Qed.

  Lemma select_known f t a x : kx a -> SelectStep C f t a = Val x -> kx x.
  Proof.
    destruct a as [v tr]. unfold kx. cbn [fst]. intros H. unfold SelectStep. rewrite !exact_none.
    set (fb := bytes_of_string f).
    assert (Hs : known (VString fb)) by (split; [reflexivity|exact I]).
    assert (Hmap : forall m rt, known (VMap m) ->
              (if t then Val (MapHas m (VString fb), None) else Val (MapGet m (VString fb), rt)) = Val x ->
              known (fst x)).
    { intros m rt Hm. destruct t; intros E; apply Val_inj in E; subst x; cbn [fst].
      - now apply MapHas_known.
      - now apply MapGet_known. }
    destruct v; try (intros [= <-]; exact H); try (intros [= <-]; exact (known_error _)).
    - now apply Hmap.
    - destruct (o_optional_types (cf_opts C)); [|intros [= <-]; exact (known_error _)].
      destruct o as [w|]; [|destruct t; intros [= <-]; [exact (known_bool _)|exact H]].
      apply (proj1 (known_some _)) in H. destruct w; try discriminate.
      destruct t; intros E; apply Val_inj in E; subst x; cbn [fst].
      + now apply MapHas_known.
      + destruct (MapFind m (VString fb)) eqn:F; [|auto].
        apply (proj2 (known_some _)). eapply MapFind_known; eauto.
  Qed.
  Lemma equality_known n a b v : known a -> known b -> EvaluateEquality n a b = Val v -> known v.
  Proof.
    intros Ha Hb. unfold EvaluateEquality. destruct (is_error a); [now intros [= <-]|].
    destruct (is_error b); [now intros [= <-]|]. intros H. binds H. injection H as <-.
    destruct a0 as [[]|]; cbn; auto.
  Qed.
  Lemma in_known a b v : known a -> known b -> EvaluateIn a b = Val v -> known v.
  Proof.
    intros Ha Hb. unfold EvaluateIn. destruct (is_error a); [now intros [= <-]|].
    destruct (is_error b); [now intros [= <-]|].
    destruct b; try (intros [= <-]; auto; fail). unfold EvaluateInMap.
    destruct a; try (intros [= <-]; auto; fail); destruct (is_true _); try (intros [= <-]; auto; fail);
      intros H; binds H; try (injection H as <-; auto; fail);
      destruct a; try (injection H as <-; auto; fail); binds H; injection H as <-; auto.
  Qed.
  Lemma add_known l v l' : Forall known l -> known v -> ListAdd l v = Val l' -> Forall known l'.
  Proof.
    intros Hl Hv H. unfold ListAdd in H. binds H. injection H as <-. apply Forall_app. auto.
  Qed.
  Lemma list_loop_known args : Forall known args -> forall opts l v, Forall known l ->
    list_loop opts args l = Val v -> known v.
  Proof.
    induction 1 as [|a args Ha Hargs IH]; intros opts l v Hl; cbn [list_loop].
    - intros [= <-]. now apply known_list.
    - assert (Hadd : forall w, known w -> obind (ListAdd l w)
                (fun l' => list_loop (match opts with [] => [] | _ :: o => o end) args l') = Val v -> known v).
      { intros w Hw H. binds H. eapply IH; [|exact H]. eapply add_known; eauto. }
      destruct (match opts with o :: _ => o | [] => false end); [|now apply Hadd].
      destruct a; try (intros [= <-]; auto; fail). destruct o as [w|]; [|now apply IH].
      apply (proj1 (known_some _)) in Ha.
      destruct w; try (intros [= <-]; auto; fail); now apply Hadd.
  Qed.
  Lemma put_known m k v m' : known (VMap m) -> known v -> MapPut m k v = Val m' -> known (VMap m').
  Proof.
    intros Hm Hv H. unfold MapPut in H. binds H. destruct (find_key _ _); [discriminate|]. injection H as <-.
    apply known_map. apply known_map in Hm. apply Forall_app. split; [exact Hm|]. now repeat constructor.
  Qed.
  Lemma map_loop_known args : Forall known args -> forall opts m v, known (VMap m) ->
    map_loop (cf_reorder C) opts args m = Val v -> known v.
  Proof.
    assert (Hend : forall m, known (VMap m) -> known (VMap (cf_reorder C m))).
    { intros m Hm. apply known_map. apply known_map in Hm. rewrite Forall_forall in *.
      destruct HR as (_ & _ & HH). intros e He. apply Hm. now apply HH. }
    induction args as [args IH] using (well_founded_induction (well_founded_ltof _ (@List.length value))).
    intros Ha opts m v Hm. destruct args as [|k [|w args]]; cbn [map_loop];
      [intros [= <-]; now apply Hend|intros [= <-]; now apply Hend|].
    apply Forall_cons_iff in Ha. destruct Ha as [Hk Ha]. apply Forall_cons_iff in Ha. destruct Ha as [Hw Ha].
    assert (Hput : forall u, known u -> obind (MapPut m k u)
              (fun m' => map_loop (cf_reorder C) (match opts with [] => [] | _ :: o => o end) args m') = Val v ->
              known v).
    { intros u Hu' H. binds H. eapply IH; [| |eapply put_known; eauto|exact H]; auto.
      unfold ltof. cbn [List.length]. lia. }
    destruct (CheckMapKey k) as [key|e|]; [|intros [= <-]; auto|discriminate].
    destruct (match opts with o :: _ => o | [] => false end); [|now apply Hput].
    destruct w; try (intros [= <-]; auto; fail). destruct o as [u|].
    - apply (proj1 (known_some _)) in Hw. destruct u; try (intros [= <-]; auto; fail); now apply Hput.
    - intros H. eapply IH; [| |exact Hm|exact H]; auto. unfold ltof. cbn [List.length]. lia.
  Qed.
  Lemma call_args_off pats args : call_args (unk C) pats args = map fst args.
  Proof. unfold call_args. now rewrite Hu. Qed.
  Lemma no_overload_known name rcv args : Forall known args -> known (NoOverloadResult false name rcv args).
  Proof.
    intros H. unfold NoOverloadResult. destruct (find is_error args) eqn:E; auto. eapply find_known; eauto.
  Qed.

  (* the overloads an operation can call are registered *)
  Definition op_reg (op : sop) : Prop := match op with OCall _ _ ovs => incl ovs R | _ => True end.
  Lemma apply_known op args x : op_reg op -> Forall kx args -> apply_op C op args = Val x -> kx x.
  Proof.
    intros Ho Ha. destruct op; cbn [apply_op op_reg] in *.
    1-6: destruct args as [|a [|b [|c args]]]; try discriminate;
      apply Forall_cons_iff in Ha; destruct Ha as [Ha Hb];
      try (apply Forall_cons_iff in Hb; destruct Hb as [Hb _]).
    - now apply select_known.
    - unfold IndexStep. rewrite Hu. cbn [andb]. rewrite exact_none. intros H. binds H. injection H as <-.
      eapply perform_known; [exact Ha|exact Hb|eassumption].
    - intros [= <-]. unfold NotStepT. rewrite partial_none. unfold kx, NotStep in *. rewrite Hu. cbn [andb].
      destruct (fst a); cbn [fst]; auto.
    - intros [= <-]. unfold NotStrictlyFalseStepT, kx in *. destruct a as [v t]. cbn [fst] in *.
      destruct v; cbn [fst NotStrictlyFalseStep]; auto.
    - unfold EqualityStep. rewrite pair_none. destruct (is_error (fst a)); [now intros [= <-]|].
      destruct (is_error (fst b)); [now intros [= <-]|].
      intros H. binds H. injection H as <-. eapply equality_known; [exact Ha|exact Hb|eauto].
    - unfold InStep. rewrite pair_none. destruct (is_error (fst a)); [now intros [= <-]|].
      destruct (is_error (fst b)); [now intros [= <-]|].
      intros H. binds H. injection H as <-. eapply in_known; [exact Ha|exact Hb|eauto].
    - intros H. binds H. injection H as <-. unfold CallFunction in *. rewrite call_args_off, Hu in *.
      apply kx_values in Ha. unfold kx. cbn [fst].
      unfold accepted in *.
      destruct (ResolveStatic ovs (map fst args)) as [o|] eqn:E;
        [|injection Heqo as <-; now apply no_overload_known].
      destruct (ShouldAcceptOverload o (map fst args)); [|injection Heqo as <-; now apply no_overload_known].
      apply find_some in E. destruct E as [E _]. destruct HR as (HH & _). rewrite Forall_forall in HH.
      eapply HH; [apply Ho; exact E|exact Ha|exact Heqo].
    - unfold ListStep. rewrite literal_none. apply kx_values in Ha.
      destruct (find is_error _) eqn:E; [intros [= <-]; eapply find_known; eauto|].
      intros H. binds H. injection H as <-. eapply list_loop_known; [exact Ha| |eassumption]. constructor.
    - unfold MapStep. rewrite literal_none. apply kx_values in Ha.
      destruct (find is_error _) eqn:E; [intros [= <-]; eapply find_known; eauto|].
      intros H. binds H. injection H as <-. eapply map_loop_known; [exact Ha| |eassumption].
      apply known_map. constructor.
  Qed.

  (* ---- operations do not tell the two errors apart ---- *)
  Lemma same_refl v : same_value v v. Proof. now left. Qed.
  Lemma same_error v w : same_value v w -> is_error v = is_error w.
  Proof. intros [->|(e1 & e2 & He & -> & ->)]; reflexivity. Qed.
  Lemma same_kind v w : same_value v w -> kind_of v = kind_of w.
  Proof. intros [->|(e1 & e2 & He & -> & ->)]; reflexivity. Qed.
  Lemma same_unknown v w : same_value v w -> is_unknown v = is_unknown w.
  Proof. intros [->|(e1 & e2 & He & -> & ->)]; reflexivity. Qed.
  Lemma same_known v w : same_value v w -> known w -> known v.
  Proof. intros [->|(e1 & e2 & He & -> & ->)]; auto. Qed.
  Lemma same_plain v w : same_value v w -> is_error w = false -> v = w.
  Proof. intros [->|(e1 & e2 & He & -> & ->)]; [auto|discriminate]. Qed.
  Lemma same_find l l' : Forall2 same_value l l' ->
    match find is_error l, find is_error l' with
    | Some v, Some w => same_value v w
    | None, None => l = l'
    | _, _ => False
    end.
  Proof.
    induction 1 as [|v w l l' H Hl IH]; [reflexivity|]. cbn [find]. rewrite (same_error _ _ H).
    destruct (is_error w) eqn:E; [exact H|]. rewrite (same_plain _ _ H E).
    destruct (find is_error l), (find is_error l'); try contradiction; auto. now subst.
  Qed.
  Definition ax (x x' : vt) : Prop := same_value (fst x) (fst x').
  Lemma ax_values l l' : Forall2 ax l l' -> Forall2 same_value (map fst l) (map fst l').
  Proof. induction 1; cbn [map]; constructor; auto. Qed.

  Lemma same_kinds ks : forall l l', Forall2 same_value l l' -> kinds_match ks l = kinds_match ks l'.
  Proof.
    induction ks as [|k ks IH]; intros l l' H; destruct H; cbn [kinds_match]; auto.
    rewrite (same_kind _ _ H). destruct (match k with None => true | Some _ => _ end); auto.
  Qed.
  Lemma same_resolve ovs l l' : Forall2 same_value l l' -> ResolveStatic ovs l = ResolveStatic ovs l'.
  Proof.
    intros H. unfold ResolveStatic. induction ovs as [|o ovs IH]; [reflexivity|]. cbn [find].
    now rewrite (same_kinds _ _ _ H), IH.
  Qed.
  Lemma same_accept o l l' : Forall2 same_value l l' -> ShouldAcceptOverload o l = ShouldAcceptOverload o l'.
  Proof.
    intros H. unfold ShouldAcceptOverload. f_equal || idtac.
    assert (E : existsb (fun a => is_unknown a || is_error a) l = existsb (fun a => is_unknown a || is_error a) l').
    { induction H as [|v w l l' Hv Hl IH]; [reflexivity|]. cbn [existsb].
      now rewrite (same_error _ _ Hv), (same_unknown _ _ Hv), IH. }
    now rewrite E.
  Qed.
  Lemma same_no_overload name rcv l l' : Forall2 same_value l l' ->
    same_value (NoOverloadResult false name rcv l) (NoOverloadResult false name rcv l').
  Proof.
    intros H. unfold NoOverloadResult. pose proof (same_find _ _ H) as E.
    destruct (find is_error l), (find is_error l'); try contradiction; auto. subst. apply same_refl.
  Qed.
  Lemma strict_equal o l l' : Forall2 same_value l l' -> ov_strict o = true ->
    ShouldAcceptOverload o l' = true -> l = l'.
  Proof.
    intros H Hs. unfold ShouldAcceptOverload. rewrite Hs. cbn [negb].
    destruct (existsb _ l') eqn:E; [discriminate|]. intros _.
    induction H as [|v w l l' Hv Hl IH]; [reflexivity|]. cbn [existsb] in E.
    apply orb_false_iff in E. destruct E as [E1 E2]. apply orb_false_iff in E1.
    rewrite (same_plain _ _ Hv) by tauto. f_equal. auto.
  Qed.

  Lemma select_same f t a a' x' : ax a a' -> SelectStep C f t a' = Val x' ->
    exists x, SelectStep C f t a = Val x /\ ax x x'.
  Proof.
    destruct a as [v tr], a' as [w tr']. unfold ax. cbn [fst]. intros [->|(e1 & e2 & He & -> & ->)].
    - unfold SelectStep. rewrite !exact_none, Hu.
      destruct w; try (destruct t; intros E; apply Val_inj in E; subst x'; eexists; (split; [reflexivity|]);
        cbn [fst]; apply same_refl).
      destruct (o_optional_types (cf_opts C));
        [|intros E; apply Val_inj in E; subst x'; eexists; (split; [reflexivity|]); apply same_refl].
      destruct o as [w|]; [destruct w; try discriminate|]; destruct t;
        intros E; apply Val_inj in E; subst x'; eexists; (split; [reflexivity|]); apply same_refl.
    - cbn [SelectStep]. intros [= <-]. eexists. split; [reflexivity|]. right. eauto 8.
  Qed.
  Lemma perform_same h opt c c' k k' v' : same_value c c' -> same_value k k' ->
    PerformLookup h opt c' k' = Val v' -> exists v, PerformLookup h opt c k = Val v /\ same_value v v'.
  Proof.
    intros [->|(e1 & e2 & He & -> & ->)] Hk.
    - destruct Hk as [->|(e1 & e2 & He & -> & ->)]; [eauto using same_refl|].
      destruct c'; cbn [PerformLookup]; intros [= <-]; eexists; (split; [reflexivity|]);
        try apply same_refl; right; eauto 8.
    - cbn [PerformLookup]. intros [= <-]. eexists. split; [reflexivity|]. right; eauto 8.
  Qed.
  (* steps that only read the two operand values *)
  Lemma binary_same (f : value -> value -> out value) a a' b b' x' :
    ax a a' -> ax b b' ->
    (if is_error (fst a') then Val (fst a', None)
     else if is_error (fst b') then Val (fst b', None)
     else obind (f (fst a') (fst b')) (fun r => Val (r, None))) = Val x' ->
    exists x, (if is_error (fst a) then Val (fst a, None)
     else if is_error (fst b) then Val (fst b, None)
     else obind (f (fst a) (fst b)) (fun r => Val (r, None))) = Val x /\ ax x x'.
  Proof.
    intros Ha Hb. rewrite (same_error _ _ Ha), (same_error _ _ Hb).
    destruct (is_error (fst a')) eqn:Ea; [intros [= <-]; eexists; (split; [reflexivity|exact Ha])|].
    destruct (is_error (fst b')) eqn:Eb; [intros [= <-]; eexists; (split; [reflexivity|exact Hb])|].
    rewrite (same_plain _ _ Ha Ea), (same_plain _ _ Hb Eb). intros ->. eexists. split; [reflexivity|apply same_refl].
  Qed.
  Lemma literal_same (f : list value -> out value) l l' x' : Forall2 ax l l' ->
    match find is_error (map fst l') with
    | Some e => Val (e, None)
    | None => obind (f (map fst l')) (fun r => Val (r, None))
    end = Val x' ->
    exists x, match find is_error (map fst l) with
    | Some e => Val (e, None)
    | None => obind (f (map fst l)) (fun r => Val (r, None))
    end = Val x /\ ax x x'.
  Proof.
    intros H. pose proof (same_find _ _ (ax_values _ _ H)) as E.
    destruct (find is_error (map fst l)), (find is_error (map fst l')); try contradiction.
    - intros [= <-]. eexists. split; [reflexivity|exact E].
    - rewrite E. intros ->. eexists. split; [reflexivity|apply same_refl].
  Qed.
  Lemma apply_same op args args' x' : op_reg op -> Forall2 ax args args' ->
    apply_op C op args' = Val x' -> exists x, apply_op C op args = Val x /\ ax x x'.
  Proof.
    intros Ho Ha. destruct op; cbn [op_reg] in Ho.
    1-6: destruct Ha as [|a a' l l' Ha Hl]; [discriminate|]; destruct Hl as [|b b' l l' Hb Hl];
      [try discriminate|try (cbn [apply_op]; discriminate)];
      try (destruct Hl as [|? ? ? ? _ _]; [|discriminate]).
    - cbn [apply_op]. now apply select_same.
    - cbn [apply_op]. unfold IndexStep. rewrite Hu. cbn [andb]. rewrite !exact_none. intros H. binds H.
      injection H as <-. destruct (perform_same _ _ _ _ _ _ _ Ha Hb Heqo) as (v & -> & Hv).
      eexists. split; [reflexivity|exact Hv].
    - cbn [apply_op]. intros [= <-]. eexists. split; [reflexivity|]. unfold ax, NotStepT. rewrite !partial_none.
      unfold NotStep. rewrite Hu. cbn [andb]. destruct Ha as [->|(e1 & e2 & He & -> & ->)]; [|right; eauto 8].
      destruct (fst a'); apply same_refl.
    - cbn [apply_op]. intros [= <-]. eexists. split; [reflexivity|]. unfold ax, NotStrictlyFalseStepT.
      unfold ax in Ha. destruct a as [v t], a' as [v' t']. cbn [fst] in *.
      destruct Ha as [->|(e1 & e2 & He & -> & ->)]; [|apply same_refl]. destruct v'; apply same_refl.
    - cbn [apply_op]. unfold EqualityStep. rewrite !pair_none. now apply (binary_same (EvaluateEquality negation)).
    - cbn [apply_op]. unfold InStep. rewrite !pair_none. now apply (binary_same EvaluateIn).
    - cbn [apply_op]. unfold CallFunction. rewrite !call_args_off, !Hu. apply ax_values in Ha.
      unfold accepted. rewrite (same_resolve _ _ _ Ha).
      assert (Hno : forall x', Val (NoOverloadResult false name receiver (map fst args'), None) = Val x' ->
                exists x : vt, Val (NoOverloadResult false name receiver (map fst args), None) = Val x /\ ax x x').
      { intros y H. apply Val_inj in H. subst y. eexists. split; [reflexivity|]. now apply same_no_overload. }
      destruct (ResolveStatic ovs (map fst args')) as [o|] eqn:E; [|exact (Hno x')].
      rewrite (same_accept _ _ _ Ha). destruct (ShouldAcceptOverload o (map fst args')) eqn:Es; [|exact (Hno x')].
      apply find_some in E. destruct E as [E _]. unfold blind in HB. rewrite Forall_forall in HB.
      intros H. binds H. injection H as <-.
      destruct (HB o (Ho o E)) as [Hs|Hn].
      + rewrite (strict_equal o _ _ Ha Hs Es), Heqo0. eexists. split; [reflexivity|apply same_refl].
      + destruct (Hn _ _ Ha _ Heqo0) as (v & -> & Hv). eexists. split; [reflexivity|exact Hv].
    - cbn [apply_op]. unfold ListStep. rewrite !literal_none. apply (literal_same (fun l => list_loop opts l [])). exact Ha.
    - cbn [apply_op]. unfold MapStep. rewrite !literal_none.
      apply (literal_same (fun l => map_loop (cf_reorder C) opts l [])). exact Ha.
  Qed.

  (* ---- expressions ---- *)
  Hypothesis Hjump : EE (no_matching_overload "<jump_condition>") (no_matching_overload "_?_:_").
  Notation C1 := (with_short true C).
  Notation C0 := (with_short false C).
  Lemma apply_short b op args : apply_op (with_short b C) op args = apply_op C op args.
  Proof. destruct op; reflexivity. Qed.

  (* if the exhaustive outcome is a value, the short-circuiting one is the same *)
  Definition sim (o o' : out vt) : Prop :=
    forall x', o' = Val x' -> exists x, o = Val x /\ ax x x' /\ kx x'.
  Definition esim (rho rho' : env) : Prop :=
    forall y, match rho y, rho' y with
              | None, None => True
              | Some o, Some o' => sim o o'
              | _, _ => False
              end.
  Lemma sim_val x x' : ax x x' -> kx x' -> sim (Val x) (Val x').
  Proof. intros H1 H2 y E. injection E as <-. eauto. Qed.
  Lemma sim_bind o o' k k' : sim o o' -> (forall x x', ax x x' -> kx x' -> sim (k x) (k' x')) ->
    sim (obind o k) (obind o' k').
  Proof.
    intros Ho Hk y E. destruct o' as [x'|?|]; cbn [obind] in E; try discriminate.
    destruct (Ho x' eq_refl) as (x & -> & Hx & Hx'). cbn [obind]. exact (Hk x x' Hx Hx' y E).
  Qed.
  Lemma esim_bind y o o' rho rho' : sim o o' -> esim rho rho' ->
    esim (bind_local y o rho) (bind_local y o' rho').
  Proof. intros Ho Hr z. unfold bind_local. destruct (String.eqb y z); [exact Ho|apply Hr]. Qed.

  Lemma sim_sequence l l' : Forall2 sim l l' -> forall xs', sequence l' = Val xs' ->
    exists xs, sequence l = Val xs /\ Forall2 ax xs xs' /\ Forall kx xs'.
  Proof.
    induction 1 as [|o o' l l' Ho Hl IH]; intros xs' E; cbn [sequence] in *.
    - injection E as <-. exists []. auto.
    - destruct o' as [x'|?|]; cbn [obind] in E; try discriminate.
      destruct (Ho x' eq_refl) as (x & -> & Hx & Hx'). cbn [obind].
      destruct (sequence l') as [vs'|?|]; cbn [obind] in E; try discriminate. injection E as <-.
      destruct (IH vs' eq_refl) as (vs & -> & Hvs & Hk). cbn [obind]. eexists. split; [reflexivity|].
      split; constructor; auto.
  Qed.
  Lemma sim_step op l l' : op_reg op -> Forall2 sim l l' ->
    sim (obind (sequence l) (apply_op C1 op)) (obind (sequence l') (apply_op C0 op)).
  Proof.
    intros Ho Hl x' E. destruct (sequence l') as [vs'|?|] eqn:E1; cbn [obind] in E; try discriminate.
    destruct (sim_sequence _ _ Hl vs' E1) as (vs & -> & Hvs & Hk). cbn [obind].
    rewrite apply_short in *. destruct (apply_same op vs vs' x' Ho Hvs E) as (x & Ex & Hx).
    exists x. split; [exact Ex|]. split; [exact Hx|]. exact (apply_known op vs' x' Ho Hk E).
  Qed.

  Lemma calc_same op a a' b b' : same_value a a' -> same_value b b' ->
    same_value (Calculate false op a b) (Calculate false op a' b').
  Proof.
    intros [->|(e1 & e2 & He & -> & ->)] [->|(e3 & e4 & He2 & -> & ->)]; try apply same_refl.
    - destruct a' as [|[]| | | | | | | | | | | | |], op; cbn; try apply same_refl; right; eauto 8.
    - destruct b' as [|[]| | | | | | | | | | | | |], op; cbn; try apply same_refl; right; eauto 8.
    - destruct op; cbn; right; eauto 8.
  Qed.
  Lemma calc_known op a b : known a -> known b -> known (Calculate false op a b).
  Proof.
    intros Ha Hb. destruct a as [|[]| | | | | | | | | | | | |], b as [|[]| | | | | | | | | | | | |], op; cbn; auto.
  Qed.
  Lemma decides_calc op a b : M_Logic.decides op a = true -> Calculate false op a b = a.
  Proof. destruct a as [|[]| | | | | | | | | | | | |], op; try discriminate; reflexivity. Qed.
  Lemma sim_logic op a a' b b' : sim a a' -> sim b b' ->
    sim (logic_outcome C1 op a b) (logic_outcome C0 op a' b').
  Proof.
    intros Ha Hb. unfold logic_outcome. change (sc C1) with true. change (sc C0) with false.
    change (unk C1) with (unk C). change (unk C0) with (unk C). rewrite Hu. cbn [andb].
    apply sim_bind; [exact Ha|]. intros x x' Hx Hx'.
    destruct (M_Logic.decides op (fst x)) eqn:D.
    - intros y' E. destruct b' as [z'|?|]; cbn [obind] in E; try discriminate. injection E as <-.
      assert (Ex : fst x' = fst x).
      { symmetry. apply same_plain; [exact Hx|]. rewrite <- (same_error _ _ Hx).
        destruct (fst x) as [|[]| | | | | | | | | | | | |]; try discriminate D; reflexivity. }
      exists x. split; [reflexivity|]. unfold ax, kx. cbn [fst]. rewrite Ex, decides_calc by exact D.
      split; [apply same_refl|]. rewrite <- Ex. exact Hx'.
    - apply sim_bind; [exact Hb|]. intros z z' Hz Hz'. apply sim_val; unfold ax, kx; cbn [fst].
      + now apply calc_same.
      + now apply calc_known.
  Qed.
  Lemma sim_chain op l l' : Forall2 sim l l' -> forall a a', sim a a' ->
    sim (fold_left (logic_outcome C1 op) l a) (fold_left (logic_outcome C0 op) l' a').
  Proof.
    induction 1 as [|b b' l l' Hb Hl IH]; intros a a' Ha; cbn [fold_left]; [exact Ha|].
    apply IH. now apply sim_logic.
  Qed.
  Lemma sim_cond c c' a a' b b' : sim c c' -> sim a a' -> sim b b' ->
    sim (obind c (fun x => match BoolCheck x with
                           | Some r => Val r
                           | None => if is_true (fst x) then a else b
                           end))
        (obind c' (fun x => obind a' (fun y => obind b' (fun z => Val (TernaryStep C0 x y z))))).
  Proof.
    intros Hc Ha Hb. apply sim_bind; [exact Hc|]. intros x x' Hx Hx' y' E.
    destruct a' as [ya|?|]; cbn [obind] in E; try discriminate.
    destruct b' as [yb|?|]; cbn [obind] in E; try discriminate. apply Val_inj in E. subst y'.
    destruct (Ha ya eq_refl) as (xa & -> & Ga & Ka). destruct (Hb yb eq_refl) as (xb & -> & Gb & Kb).
    unfold TernaryStep. change (unk C0) with (unk C). rewrite Hu. cbn [andb orb].
    pose proof (known_top _ Hx') as Hk. unfold BoolCheck. unfold ax in Hx. destruct Hx as [Hx|(e1 & e2 & He & Hx & Hx2)].
    - rewrite Hx. destruct (fst x') as [|[]| | | | | | | | | | | | |] eqn:E'; cbn [is_error is_true]; try discriminate Hk;
        eexists; (split; [reflexivity|]); unfold ax, kx; cbn [fst]; auto;
        try (split; [right; eauto 8|apply known_error]; fail).
      rewrite Hx, E'. split; [apply same_refl|apply known_error].
    - rewrite Hx, Hx2. cbn [is_error]. exists x. split; [reflexivity|]. unfold ax, kx. rewrite Hx, Hx2.
      split; [right; eauto 8|apply known_error].
  Qed.
  Lemma sim_or k a a' b b' : sim a a' -> sim b b' ->
    sim (obind a (fun x => match OptionalJump k x with
                           | Some r => Val r
                           | None => obind b (fun y => Val (EvalOptionalOr k x y))
                           end))
        (obind a' (fun x => obind b' (fun y => Val (EvalOptionalOr k x y)))).
  Proof.
    intros Ha Hb. apply sim_bind; [exact Ha|]. intros x x' Hx Hx' y' E.
    destruct b' as [y0|?|]; cbn [obind] in E; try discriminate. apply Val_inj in E. subst y'.
    destruct (Hb y0 eq_refl) as (y & -> & Gy & Ky). cbn [obind].
    destruct x as [v t], x' as [v' t']. unfold ax, kx in *. cbn [fst] in *.
    destruct Hx as [->|(e1 & e2 & He & -> & ->)]; [|eexists; (split; [reflexivity|]); split; [right; eauto 8|exact Hx']].
    unfold OptionalJump, EvalOptionalOr. cbn [fst].
    destruct v' as [| | | | | | | | | | | |[w|]| |];
      try (eexists; (split; [reflexivity|]); cbn [fst]; (split; [apply same_refl|]); auto; fail).
    - destruct k; eexists; (split; [reflexivity|]); cbn [fst]; (split; [apply same_refl|]); auto.
      now apply (proj1 (known_some _)).
    - destruct y as [q tq], y0 as [q' tq']. cbn [fst] in *.
      destruct Gy as [->|(e1 & e2 & He & -> & ->)]; [|eexists; (split; [reflexivity|]); split; [right; eauto 8|exact Ky]].
      destruct q'; try (destruct k); eexists; (split; [reflexivity|]); cbn [fst]; (split; [apply same_refl|]); auto.
  Qed.

  Lemma by_arity fn rcv n : incl (FindStaticOverloadsByArity R fn rcv n) R.
  Proof.
    intros o H. unfold FindStaticOverloadsByArity, named in H. apply filter_In in H. destruct H as [H _].
    apply filter_In in H. tauto.
  Qed.
  Lemma sim_ub o : sim o UB. Proof. intros x' E. discriminate E. Qed.
  Lemma sim_call fn rcv l l' : Forall2 sim l l' ->
    sim (call_outcome C1 R fn rcv l) (call_outcome C0 R fn rcv l').
  Proof.
    intros H. assert (Hlen : List.length l = List.length l') by (clear - H; induction H; cbn; auto).
    unfold call_outcome. change (sc C1) with true. change (sc C0) with false. cbv zeta.
    change (fast_equality (cf_opts C1) R) with (fast_equality (cf_opts C) R).
    change (fast_equality (cf_opts C0) R) with (fast_equality (cf_opts C) R).
    cbn [with_short cf_opts o_optional_types o_fast_builtins o_heterogeneous]. rewrite Hlen.
    destruct (String.eqb fn "_&&_"). { destruct H; [apply sim_ub|]. now apply sim_chain. }
    destruct (String.eqb fn "_||_"). { destruct H; [apply sim_ub|]. now apply sim_chain. }
    destruct (String.eqb fn "_?_:_").
    { destruct H as [|c c' l l' Hc Hl]; [apply sim_ub|]. destruct Hl as [|a a' l l' Ha Hl]; [apply sim_ub|].
      destruct Hl as [|b b' l l' Hb Hl]; [apply sim_ub|]. destruct Hl; [|apply sim_ub]. now apply sim_cond. }
    destruct (String.eqb fn "_[_]"); [now apply sim_step|].
    destruct (_ && _ && _ && _).
    { destruct H as [|a a' l l' Ha Hl]; [apply sim_ub|]. destruct Hl as [|b b' l l' Hb Hl]; [apply sim_ub|].
      destruct Hl; [|apply sim_ub]. now apply sim_or. }
    destruct (_ && is_nsf_name fn); [now apply sim_step|].
    destruct (_ && String.eqb fn "!_"); [now apply sim_step|].
    destruct (_ && is_in_name fn); [now apply sim_step|].
    destruct (_ && String.eqb fn "_==_"); [now apply sim_step|].
    destruct (_ && String.eqb fn "_!=_"); [now apply sim_step|].
    apply sim_step; [|exact H]. cbn [op_reg]. apply by_arity.
  Qed.

  (* ---- loops ---- *)
  Section Loop.
    Variables cond cond' step step' : value * value -> vt -> out vt.
    Variables res res' : vt -> out vt.
    Definition stuck (v : value) : Prop := forall kv b, fst b = v ->
      (forall c, cond' kv b = Val c -> fst c = VBool false) /\
      (forall y, step' kv b = Val y -> fst y = v).
    Lemma stuck_loop v items : stuck v -> forall b x, fst b = v ->
      eval_loop false cond' step' res' items b = Val x ->
      exists b', fst b' = v /\ res' b' = Val x.
    Proof.
      intros Hs. induction items as [|kv items IH]; intros b x Hb E; cbn [eval_loop] in E; [eauto|].
      destruct (Hs kv b Hb) as [Hc Hy].
      destruct (cond' kv b) as [c|?|]; cbn [obind] in E; try discriminate.
      unfold loop_condition in E. rewrite (Hc c eq_refl) in E. cbn [negb andb] in E.
      destruct (step' kv b) as [y|?|]; cbn [obind] in E; try discriminate.
      exact (IH y x (Hy y eq_refl) E).
    Qed.
    Hypothesis Hcond : forall kv a a', known (fst kv) -> known (snd kv) -> ax a a' -> kx a' ->
      sim (cond kv a) (cond' kv a').
    Hypothesis Hstep : forall kv a a', known (fst kv) -> known (snd kv) -> ax a a' -> kx a' ->
      sim (step kv a) (step' kv a').
    Hypothesis Hres : forall a a', ax a a' -> kx a' -> sim (res a) (res' a').
    Hypothesis Hsettle : forall kv a a' c, ax a a' -> kx a' -> cond kv a = Val c ->
      fst c = VBool false -> stuck (fst a').
    Lemma sim_loop items : Forall (fun kv => known (fst kv) /\ known (snd kv)) items ->
      forall a a', ax a a' -> kx a' ->
      sim (eval_loop true cond step res items a) (eval_loop false cond' step' res' items a').
    Proof.
      induction 1 as [|kv items [Hk1 Hk2] Hi IH]; intros a a' Ha Hk; cbn [eval_loop]; [now apply Hres|].
      intros x' E. destruct (cond' kv a') as [c'|?|] eqn:Ec'; cbn [obind] in E; try discriminate.
      destruct (Hcond kv a a' Hk1 Hk2 Ha Hk c' Ec') as (c & Ec & Hc & Kc). rewrite Ec. cbn [obind].
      assert (Hgo : forall g, fst c' = VBool g -> loop_condition c' = inr g /\ loop_condition c = inr g).
      { intros g Hg. unfold loop_condition. rewrite (same_plain _ _ Hc) by now rewrite Hg. rewrite Hg. auto. }
      destruct (fst c') as [|g| | | | | | | | | | | | |] eqn:Eg.
      2: { destruct (Hgo g eq_refl) as [G1 G2]. rewrite G1 in E. rewrite G2. cbn [negb andb] in *.
           destruct (negb g) eqn:Ng; cbn [andb] in *.
           - destruct g; [discriminate|].
             assert (Fc : fst c = VBool false) by (rewrite (same_plain _ _ Hc) by (now rewrite Eg); exact Eg).
             pose proof (Hsettle kv a a' c Ha Hk Ec Fc) as Hst.
             destruct (step' kv a') as [y'|?|] eqn:Ey; cbn [obind] in E; try discriminate.
             destruct (Hst kv a' eq_refl) as [_ Hy].
             destruct (stuck_loop _ items Hst y' x' (Hy y' Ey) E) as (b' & Hb & Hr).
             apply (Hres a b'); [| |exact Hr]; unfold ax, kx in *; rewrite Hb; auto.
           - revert x' E. apply sim_bind; [now apply Hstep|]. intros y y' Hy Hy'. now apply IH. }
      all: assert (Hn : forall r r', loop_condition c = inl r -> loop_condition c' = inl r' -> ax r r' -> kx r' ->
             (match loop_condition c' with inl r => Val r | inr go_on =>
               if negb go_on && false then res' a' else
               obind (step' kv a') (fun a0 => eval_loop false cond' step' res' items a0) end) = Val x' ->
             exists x, (match loop_condition c with inl r => Val r | inr go_on =>
               if negb go_on && true then res a else
               obind (step kv a) (fun a0 => eval_loop true cond step res items a0) end) = Val x /\ ax x x' /\ kx x')
             by (intros r r' -> -> Hr Hr' E'; injection E' as <-; eauto).
      all: unfold kx in Kc; rewrite Eg in Kc; pose proof (known_top _ Kc) as Kt; try discriminate Kt.
      all: unfold ax in Hc; rewrite Eg in Hc; destruct Hc as [Hc|(e1 & e2 & He & Hc & Hc2)]; try discriminate Hc2.
      all: refine (Hn _ _ _ _ _ _ E); [unfold loop_condition; rewrite Hc; reflexivity
             |unfold loop_condition; rewrite Eg; reflexivity| |];
           unfold ax, kx; cbn [fst]; rewrite ?Eg, ?Hc, ?Hc2; auto using same_refl; right; eauto 8.
    Qed.
  End Loop.

  Lemma items_known v b items t : known v -> comp_init C (v, t) = inr (b, items) ->
    Forall (fun kv => known (fst kv) /\ known (snd kv)) items.
  Proof.
    intros Hv. unfold comp_init. cbn [fst snd]. rewrite partial_none. destruct v; try discriminate.
    - intros [= <- <-]. apply known_list in Hv. generalize 0. induction Hv; intros z; cbn [list_items]; constructor; auto.
    - intros [= <- <-]. apply known_map in Hv. unfold map_items. apply Forall_map.
      eapply Forall_impl; [|exact Hv]. cbn [fst snd]. auto.
  Qed.
  Lemma esim_loop x x2 y b t t' kv a a' rho rho' : esim rho rho' -> known (fst kv) -> known (snd kv) ->
    ax a a' -> kx a' -> esim (loop_env C1 x x2 y b t kv a rho) (loop_env C0 x x2 y b t' kv a' rho').
  Proof.
    intros Hr K1 K2 Ha Hk. unfold loop_env, iter_one, iter_two. change (unk C1) with (unk C).
    change (unk C0) with (unk C). rewrite Hu. cbn [fst snd].
    destruct (String.eqb x2 ""); repeat (apply esim_bind; [apply sim_val; unfold ax, kx; cbn [fst];
      auto using same_refl|]); auto.
    destruct b; auto.
  Qed.

  Hypothesis Hb : o_fast_builtins (cf_opts C) = true.
  Lemma nsf_call b f (a : vt) : is_nsf_name f = true ->
    call_outcome (with_short b C) R f false [Val a] = Val (NotStrictlyFalseStepT a).
  Proof.
    unfold is_nsf_name. intros H. apply orb_true_iff in H.
    destruct H as [H|H]; apply String.eqb_eq in H; subst f; unfold call_outcome; cbn [with_short cf_opts o_fast_builtins
      o_optional_types andb String.eqb Ascii.eqb Bool.eqb]; rewrite !andb_false_r, Hb; reflexivity.
  Qed.
  Lemma not_call b (a : vt) : exists t', call_outcome (with_short b C) R "!_" false [Val a] =
    Val (NotStep false [] (fst a) None, t').
  Proof.
    unfold call_outcome. cbn [with_short cf_opts o_fast_builtins
      o_optional_types andb String.eqb Ascii.eqb Bool.eqb is_nsf_name orb]. rewrite !andb_false_r, Hb.
    cbn [andb sequence obind]. rewrite apply_short. cbn [apply_op]. unfold NotStepT. rewrite partial_none.
    unfold NotStep. rewrite Hu. cbn [andb]. destruct (fst a); eexists; reflexivity.
  Qed.

  Lemma is_name_local x x2 y a b m t kv ac rho : local_name x x2 y = true -> is_name y a = true ->
    meaning (with_short b C) R a (loop_env (with_short b C) x x2 y m t kv ac rho) = Val ac.
  Proof.
    unfold local_name. intros H Ha. apply andb_true_iff in H. destruct H as [H Hd].
    apply andb_true_iff in H. destruct H as [H1 H2]. apply negb_true_iff in H1, H2.
    destruct a; try discriminate. cbn [is_name] in Ha. apply String.eqb_eq in Ha. subst name.
    assert (E : loop_env (with_short b C) x x2 y m t kv ac rho y = Some (Val ac)).
    { unfold loop_env, bind_local. destruct (String.eqb x2 ""); rewrite H1, ?H2, String.eqb_refl; reflexivity. }
    cbn [meaning]. destruct y as [|ch y]; [now rewrite E|].
    destruct ch as [[] [] [] [] [] [] [] []]; try (now rewrite E). discriminate Hd.
  Qed.
  Lemma nsf_false a : fst (NotStrictlyFalseStepT a) = VBool false -> fst a = VBool false.
  Proof. unfold NotStrictlyFalseStepT. destruct (fst a) eqn:E; cbn [fst]; rewrite ?E; cbn; congruence. Qed.
  Lemma nsf_of_false a : fst a = VBool false -> fst (NotStrictlyFalseStepT a) = VBool false.
  Proof. unfold NotStrictlyFalseStepT. intros E. now rewrite E. Qed.

  Lemma settle x x2 y cond step m t t' rho rho' kv a a' c :
    settled x x2 y cond step = true ->
    ax a a' -> kx a' ->
    meaning C1 R cond (loop_env C1 x x2 y m t kv a rho) = Val c -> fst c = VBool false ->
    stuck (fun kv ac => meaning C0 R cond (loop_env C0 x x2 y m t' kv ac rho'))
          (fun kv ac => meaning C0 R step (loop_env C0 x x2 y m t' kv ac rho')) (fst a').
  Proof.
    intros Hs Ha Hk Ec Fc. unfold settled in Hs.
    destruct cond as [[|[]| | | | | | | | | | | | |]| | |f [tg|] [|e [|? ?]]| | |]; try discriminate Hs.
    { cbn [meaning] in Ec. injection Ec as <-. discriminate Fc. }
    apply andb_true_iff in Hs. destruct Hs as [Hs Hstep]. apply andb_true_iff in Hs. destruct Hs as [Hf Hl].
    destruct step as [| | |g [tg|] [|bb [|p [|? ?]]]| | |]; try discriminate Hstep.
    apply andb_true_iff in Hstep. destruct Hstep as [Hbb Hstep]. apply orb_true_iff in Hstep.
    assert (Mstep : forall op, (op = OpAnd /\ g = "_&&_" \/ op = OpOr /\ g = "_||_")%string ->
      forall kv bq yy, fst bq = VBool (shortcircuit op) ->
      meaning C0 R (ECall g None [bb; p]) (loop_env C0 x x2 y m t' kv bq rho') = Val yy ->
      fst yy = VBool (shortcircuit op)).
    { intros op Hop kv' bq yy Hbq E. cbn [meaning map app] in E. rewrite (is_name_local _ _ _ _ _ _ _ _ _ _ Hl Hbb) in E.
      assert (E' : logic_outcome C0 op (Val bq) (meaning C0 R p (loop_env C0 x x2 y m t' kv' bq rho')) = Val yy).
      { destruct Hop as [[-> ->]|[-> ->]]; exact E. }
      unfold logic_outcome in E'. change (sc C0) with false in E'. change (unk C0) with (unk C) in E'. rewrite Hu in E'.
      cbn [andb obind] in E'. binds E'. injection E' as <-. cbn [fst]. rewrite Hbq. apply decides_calc.
      destruct op; reflexivity. }
    destruct Hstep as [Hstep|Hstep]; apply andb_true_iff in Hstep; destruct Hstep as [He Hg];
      apply String.eqb_eq in Hg; subst g.
    - cbn [meaning map app] in Ec. rewrite (is_name_local _ _ _ _ _ _ _ _ _ _ Hl He) in Ec.
      rewrite nsf_call in Ec by exact Hf. apply Val_inj in Ec. subst c. apply nsf_false in Fc.
      assert (Ea : fst a' = VBool false).
      { unfold ax in Ha. rewrite Fc in Ha. destruct Ha as [Ha|(? & ? & _ & Ha & _)]; [auto|discriminate]. }
      intros kv' b' Hb'. rewrite Ea in Hb'. split.
      + intros cc E. cbn [meaning map app] in E. rewrite (is_name_local _ _ _ _ _ _ _ _ _ _ Hl He) in E.
        rewrite nsf_call in E by exact Hf. apply Val_inj in E. subst cc. now apply nsf_of_false.
      + intros yy E. rewrite Ea. apply (Mstep OpAnd (or_introl (conj eq_refl eq_refl)) kv' b' yy Hb' E).
    - destruct e as [| | |nf [tg|] [|e' [|? ?]]| | |]; try discriminate He. cbn [is_not_name] in He.
      apply andb_true_iff in He. destruct He as [Hn He]. apply String.eqb_eq in Hn. subst nf.
      cbn [meaning map app] in Ec. rewrite (is_name_local _ _ _ _ _ _ _ _ _ _ Hl He) in Ec.
      destruct (not_call true a) as (tn & En). rewrite En in Ec.
      rewrite nsf_call in Ec by exact Hf. apply Val_inj in Ec. subst c. apply nsf_false in Fc. cbn [fst] in Fc.
      assert (Fa : fst a = VBool true)
        by (destruct (fst a) as [|[]| | | | | | | | | | | | |]; cbn in Fc; congruence).
      assert (Ea : fst a' = VBool true).
      { unfold ax in Ha. rewrite Fa in Ha. destruct Ha as [Ha|(? & ? & _ & Ha & _)]; [auto|discriminate]. }
      intros kv' b' Hb'. rewrite Ea in Hb'. split.
      + intros cc E. cbn [meaning map app] in E. rewrite (is_name_local _ _ _ _ _ _ _ _ _ _ Hl He) in E.
        destruct (not_call false b') as (tn' & En'). rewrite En' in E.
        rewrite nsf_call in E by exact Hf. apply Val_inj in E. subst cc. apply nsf_of_false. cbn [fst].
        now rewrite Hb'.
      + intros yy E. rewrite Ea. apply (Mstep OpOr (or_intror (conj eq_refl eq_refl)) kv' b' yy Hb' E).
  Qed.

  Lemma sim_ident x : sim (LookupIdent C1 x) (LookupIdent C0 x).
  Proof.
    change (LookupIdent C1 x) with (LookupIdent C x). change (LookupIdent C0 x) with (LookupIdent C x).
    intros x' E. exists x'. split; [exact E|]. split; [apply same_refl|].
    unfold LookupIdent in E. rewrite exact_none in E. binds E. destruct a as [v|]; injection E as <-;
      unfold kx; cbn [fst]; auto. destruct HR as (_ & HV & _). eauto.
  Qed.

  Theorem sim_meaning e : constants_known e -> settled_loops e ->
    forall rho rho', esim rho rho' -> sim (meaning C1 R e rho) (meaning C0 R e rho').
  Proof.
    unfold settled_loops.
    induction e using expr_ind'; intros Hc Hs rho rho' Hr; cbn [meaning constants_known any_comp] in *.
    - apply sim_val; [apply same_refl|exact Hc].
    - assert (G : sim (match rho x with Some o => o | None => LookupIdent C1 x end)
                      (match rho' x with Some o => o | None => LookupIdent C0 x end)).
      { specialize (Hr x). destruct (rho x), (rho' x); try contradiction; [exact Hr|apply sim_ident]. }
      destruct x as [|ch x]; [exact G|]. destruct ch as [[] [] [] [] [] [] [] []]; try exact G. apply sim_ident.
    - pose proof (IHe Hc Hs rho rho' Hr) as G.
      pose proof (sim_step (OSelect f t) [meaning C1 R e rho] [meaning C0 R e rho'] I (Forall2_cons _ _ G (Forall2_nil _))) as K.
      cbn [sequence] in K. intros x' E.
      destruct (meaning C0 R e rho') as [z'|?|] eqn:E0; cbn [obind] in *; try discriminate.
      destruct (K x' E) as (xx & Ex & Hx). destruct (meaning C1 R e rho); cbn [obind] in *; eauto.
    - apply sim_call. apply orb_false_iff in Hs. destruct Hs as [Hs1 Hs2]. destruct Hc as [Hc1 Hc2].
      apply Forall2_app.
      + destruct t as [e|]; constructor; auto.
      + clear - H0 Hc2 Hs2 Hr. induction H0 as [|e l He Hl IH]; cbn [map]; constructor.
        * apply orb_false_iff in Hs2. destruct Hc2. apply He; tauto.
        * apply orb_false_iff in Hs2. destruct Hc2. apply IH; tauto.
    - apply (sim_step (OList (map fst l))); [exact I|].
      clear - H Hc Hs Hr. induction H as [|[q e] l He Hl IH]; cbn [map]; constructor; cbn [fst snd] in *;
        apply orb_false_iff in Hs; destruct Hc; [apply He|apply IH]; tauto.
    - apply (sim_step (OMap (map fst l))); [exact I|].
      clear - H Hc Hs Hr. induction H as [|[q [k v]] l [Hk Hv] Hl IH]; cbn [flat_map app]; [constructor|].
      cbn [fst snd] in *. destruct Hc as (Hc1 & Hc2 & Hc3). rewrite !orb_false_iff in Hs.
      constructor; [apply Hk; tauto|]. constructor; [apply Hv; tauto|]. apply IH; tauto.
    - rewrite !orb_false_iff in Hs. destruct Hs as (((((Hs0 & Hs1) & Hs2) & Hs3) & Hs4) & Hs5).
      destruct Hc as (Hc1 & Hc2 & Hc3 & Hc4 & Hc5).
      destruct (IsBind x x2 e1 e3) eqn:EB.
      + apply IHe5; auto. apply esim_bind; auto.
      + cbn [negb andb] in Hs0. apply negb_false_iff in Hs0.
        apply sim_bind; [auto|]. intros r r' Hx Hk. change (sc C1) with true. change (sc C0) with false.
        change (comp_init C1 r) with (comp_init C r). change (comp_init C0 r') with (comp_init C r').
        destruct r as [v t], r' as [v' t'].
        assert (Hi : (exists q q', comp_init C (v, t) = inl q /\ comp_init C (v', t') = inl q' /\ ax q q' /\ kx q')
                  \/ exists m items, comp_init C (v, t) = inr (m, items) /\ comp_init C (v', t') = inr (m, items) /\
                       Forall (fun kv => known (fst kv) /\ known (snd kv)) items).
        { unfold ax, kx in Hx, Hk. cbn [fst] in Hx, Hk. destruct Hx as [->|(er1 & er2 & He & -> & ->)].
          - pose proof (known_top _ Hk) as Kt.
            assert (K : forall m items, comp_init C (v', t') = inr (m, items) ->
              Forall (fun kv => known (fst kv) /\ known (snd kv)) items) by (intros; eapply items_known; eauto).
            unfold comp_init in *. cbn [fst snd] in *. rewrite !partial_none in *.
            destruct v'; try discriminate Kt;
              try (left; eexists; eexists; split; [reflexivity|]; split; [reflexivity|]; split; [apply same_refl|exact Hk]);
              try (left; eexists; eexists; split; [reflexivity|]; split; [reflexivity|]; split; [apply same_refl|apply known_error]);
              right; eexists; eexists; (split; [reflexivity|]); (split; [reflexivity|]); eauto.
          - left. cbn. eexists; eexists; split; [reflexivity|]; split; [reflexivity|]. split; [right; eauto 8|exact Hk]. }
        destruct Hi as [(q & q' & -> & -> & Hq & Kq)|(m & items & -> & -> & Hit)]; [now apply sim_val|].
        apply sim_bind; [auto|]. intros i i' Hi Ki. apply sim_loop; auto.
        * intros kv a a' K1 K2 Ha Ka. apply IHe3; auto. now apply esim_loop.
        * intros kv a a' K1 K2 Ha Ka. apply IHe4; auto. now apply esim_loop.
        * intros a a' Ha Ka. apply IHe5; auto. apply esim_bind; auto. now apply sim_val.
        * intros kv a a' c Ha Ka. eapply settle; eauto.
  Qed.
End Short.
