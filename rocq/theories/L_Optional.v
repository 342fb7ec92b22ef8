(* Lemmas on the functions of optional values. *)
From Coq Require Import ZArith QArith List Bool String Lia.
From Verif Require Import Base M_Overflow M_Number M_Attr M_Value M_Logic M_Expr M_Macro M_Registry
  S_Num S_Value S_Func L_Value L_Func.
From Verif Require Import M_Optional S_Optional.
Import ListNotations.
Local Open Scope string_scope.
Open Scope list_scope.
Open Scope Z_scope.

(* ---- registration ---- *)
Lemma attempts_app l l' r : attempts (l ++ l') r = attempts l' (attempts l r).
Proof. unfold attempts. apply fold_left_app. Qed.
Lemma register_keeps x r y : In y r -> In y (snd (register x r)).
Proof.
  intros H. unfold register. destruct (FullDescriptorRegistered _ _); [exact H|].
  destruct (FullValidateNonStrict _ _); cbn [negb snd]; [|exact H]. apply in_or_app. now left.
Qed.
Lemma attempts_keeps l : forall r y, In y r -> In y (attempts l r).
Proof.
  unfold attempts. induction l as [|x l IH]; intros r y H; cbn [fold_left]; [exact H|].
  apply IH. now apply register_keeps.
Qed.
Lemma register_all_attempts ds : forall r r', register_all ds r = (None, r') ->
  r' = attempts (map (mkEntry false) ds) r /\ (forall d, In d ds -> In (mkEntry false d) r').
Proof.
  induction ds as [|d ds IH]; intros r r'; cbn [register_all map].
  - intros [= <-]. split; [reflexivity|intros d []].
  - destruct (register (mkEntry false d) r) as [[s|] r1] eqn:E; [discriminate|].
    intros H. destruct (IH _ _ H) as [H1 H2]. split.
    + rewrite H1. unfold attempts. cbn [fold_left]. now rewrite E.
    + intros d' [<-|H']; [|now apply H2]. rewrite H1. apply attempts_keeps.
      unfold register in E. destruct (FullDescriptorRegistered _ _); [discriminate|].
      destruct (FullValidateNonStrict _ _); cbn [negb] in E; [|discriminate].
      injection E as <-. apply in_or_app. right. now left.
Qed.
Lemma enabled_spec R : enabled R -> one_accepts R /\ forall d, In d optional_functions -> In d R.
Proof.
  intros (before & after & r & H & ->). cbn [RegisterOptionalTypeFunctions negb] in H.
  destruct (register_all_attempts _ _ _ H) as [H1 H2]. split.
  - rewrite H1, <- !attempts_app. apply static_tidy.
  - intros d Hd. unfold static_overloads. apply in_map_iff. exists (mkEntry false d). split; [reflexivity|].
    apply filter_In. split; [|reflexivity]. apply attempts_keeps. now apply H2.
Qed.
Fixpoint apart (ds : list overload) : Prop :=
  match ds with
  | [] => True
  | d :: ds' => (forall e, In e ds' -> ~ clash (mkEntry false d) (mkEntry false e)) /\ apart ds'
  end.
Lemma register_all_spec ds : forall r, tidy r ->
  (fst (register_all ds r) = None <->
   (forall x d, In x r -> In d ds -> ~ clash x (mkEntry false d)) /\ apart ds).
Proof.
  induction ds as [|d ds IH]; intros r Ht; cbn [register_all apart].
  - split; [intros _; split; [intros x d _ []|exact I]|reflexivity].
  - destruct (register_spec r (mkEntry false d) Ht) as [(E1 & E2 & E3)|(E1 & E2 & y & Hy & Hc)];
      pose proof (register_tidy r (mkEntry false d) Ht) as Ht';
      destruct (register (mkEntry false d) r) as [[s|] r1]; cbn [fst snd] in *; try discriminate; try congruence.
    + rewrite (IH _ Ht'). subst r1. split.
      * intros [H1 H2]. split; [|split; [|exact H2]].
        -- intros x e Hx [<-|He]; [auto|]. apply H1; [apply in_or_app; now left|exact He].
        -- intros e He. apply H1; [apply in_or_app; right; now left|exact He].
      * intros (H1 & H2 & H3). split; [|exact H3]. intros x e Hx He. apply in_app_iff in Hx.
        destruct Hx as [Hx|[<-|[]]]; [apply H1; [exact Hx|now right]|now apply H2].
    + split; [discriminate|]. intros [H _]. exfalso. eapply (H y d Hy); [now left|exact Hc].
Qed.
(* the check decides clashes between strict functions *)
Lemma clash_check d e : ov_strict d = true -> ov_strict e = true ->
  (String.eqb (ov_name d) (ov_name e) && ShapeMatches d (ov_receiver e) (ov_kinds e)) = false ->
  ~ clash (mkEntry false d) (mkEntry false e).
Proof.
  intros S1 S2 H [C|[N [C|C]]]; cbn [re_desc] in *; try congruence.
  pose proof (ambiguous_name _ _ C) as N. apply (shape_spec d e N) in C. rewrite C in H.
  rewrite N, String.eqb_refl in H. discriminate.
Qed.
Lemma functions_apart : apart optional_functions.
Proof.
  unfold optional_functions. cbn [apart].
  repeat (split; [intros e He; cbn [In] in He;
    repeat (destruct He as [<-|He]; [apply clash_check; reflexivity|]); destruct He|]). exact I.
Qed.
Lemma map_fst_pair (args : list value) : map fst (map (fun v => (v, @None attribute)) args) = args.
Proof. rewrite map_map. cbn [fst]. apply map_id. Qed.
Definition plain (v : value) : Prop := is_error v = false /\ is_unknown v = false.
Lemma call_impl R o name rcv args : enabled R -> In o optional_functions ->
  accepts o name rcv (map kind_of args) -> Forall plain args ->
  call R name rcv args = ov_impl o args.
Proof.
  intros He Ho Ha Hp. destruct (enabled_spec R He) as [Hu Hi].
  unfold call, CallFunction, call_args. rewrite map_fst_pair. unfold accepted.
  rewrite (resolve_unique R name rcv args o Hu (Hi _ Ho) Ha).
  assert (Hx : existsb (fun a => is_unknown a || is_error a) args = false).
  { clear Ha. induction Hp as [|a args [P1 P2] _ IH]; [reflexivity|]. cbn [existsb]. rewrite P1, P2, IH. reflexivity. }
  unfold ShouldAcceptOverload. now rewrite Hx.
Qed.
Ltac is_in := cbn [optional_functions In]; tauto.
Ltac accept := split; [reflexivity|split; [reflexivity|cbn; repeat (apply Forall2_cons; [auto|]); apply Forall2_nil]].
Lemma ok_plain v : value_ok v -> plain v.
Proof. intros H. apply ok_node in H. destruct v; try destruct H; split; reflexivity. Qed.

Section Calls.
  Variable R : registry.
  Hypothesis En : enabled R.
  Lemma call_non_zero v : plain v ->
    call R "optional.ofNonZeroValue" false [v] = Val (OptionalOfNonZeroValue v).
  Proof.
    intros H. rewrite (call_impl R optional_of_non_zero); auto; [is_in|accept].
  Qed.
  Lemma call_of v : plain v -> call R "optional.of" false [v] = Val (VOptional (Some v)).
  Proof. intros H. rewrite (call_impl R optional_of); auto; [is_in|accept]. Qed.
  Lemma call_none : call R "optional.none" false [] = Val (VOptional None).
  Proof. rewrite (call_impl R optional_none); auto; [is_in|accept]. Qed.
  Lemma call_value o : call R "value" true [VOptional o] =
    Val (match o with Some v => v | None => VError optional_none_dereference end).
  Proof.
    rewrite (call_impl R optional_value); auto; [destruct o; reflexivity|is_in|accept|].
    constructor; [split; reflexivity|constructor].
  Qed.
  Lemma call_has_value o : call R "hasValue" true [VOptional o] =
    Val (VBool match o with Some _ => true | None => false end).
  Proof.
    rewrite (call_impl R optional_has_value); auto; [is_in|accept|].
    constructor; [split; reflexivity|constructor].
  Qed.
  Lemma call_select_map m f : call R "_?._" false [VMap m; VString f] = Val (SelectOptionalFieldMap m f).
  Proof.
    rewrite (call_impl R opt_select_map); auto; [is_in|accept|].
    repeat constructor.
  Qed.
  Lemma call_select_optional o f :
    call R "_?._" false [VOptional o; VString f] = Val (SelectOptionalField (VOptional o) f).
  Proof.
    rewrite (call_impl R opt_select_optional); auto; [is_in|accept|].
    repeat constructor.
  Qed.
  Lemma call_index_map m k : plain k ->
    call R "_[?_]" false [VMap m; k] = MapOptIndexOptionalValue m k.
  Proof.
    intros H. rewrite (call_impl R opt_index_map); auto; [is_in|accept|].
    constructor; [split; reflexivity|]. constructor; auto.
  Qed.
  Lemma call_index_list l i :
    call R "_[?_]" false [VList l; VInt i] = ListOptIndexOptionalInt l i.
  Proof.
    rewrite (call_impl R opt_index_list); auto; [is_in|accept|].
    repeat constructor.
  Qed.
  Lemma call_index_optional o k : plain k ->
    call R "_[?_]" false [VOptional o; k] = OptionalOptIndexOptionalValue (VOptional o) k.
  Proof.
    intros H. rewrite (call_impl R opt_index_optional); auto; [is_in|accept|].
    constructor; [split; reflexivity|]. constructor; auto.
  Qed.
  Lemma call_unwrap l : call R "optional.unwrap" false [VList l] = ListUnwrapOpt l.
  Proof. rewrite (call_impl R optional_unwrap); auto; [is_in|accept|]. repeat constructor. Qed.
  Lemma call_unwrap_opt l : call R "unwrapOpt" true [VList l] = ListUnwrapOpt l.
  Proof. rewrite (call_impl R optional_unwrap_opt); auto; [is_in|accept|]. repeat constructor. Qed.
  Lemma call_first l : call R "first" true [VList l] = ListFirst l.
  Proof. rewrite (call_impl R list_first); auto; [is_in|accept|]. repeat constructor. Qed.
  Lemma call_last l : call R "last" true [VList l] = ListLast l.
  Proof. rewrite (call_impl R list_last); auto; [is_in|accept|]. repeat constructor. Qed.
End Calls.

(* ---- indexing ---- *)
Definition opt_result (r : value) : value :=
  VOptional (match r with VError _ => None | _ => Some r end).
Lemma opt_result_ok v : plain v -> opt_result v = VOptional (Some v).
Proof. destruct v; intros [H1 H2]; try discriminate; reflexivity. Qed.
Lemma find_ok m k v : value_ok (VMap m) -> MapFind m k = Some v -> value_ok v.
Proof.
  intros Hm H. unfold MapFind in H. destruct (key_of_value k) as [key|]; [|discriminate].
  apply find_key_in in H. exact (everywhere_map_in _ _ _ Hm H).
Qed.
Lemma index_map m k : lookup_kind k -> node_ok k -> value_ok (VMap m) ->
  exists r, LookupInMap true m k = Val r /\ MapOptIndexOptionalValue m k = Val (opt_result r) /\
            (is_error r = true -> r = VError no_such_key).
Proof.
  intros L Hk Hm. destruct (ok_map_keys _ Hm) as [Nd Kok].
  assert (F : forall k' v, MapFind m k' = Some v ->
    opt_result v = VOptional (Some v) /\ is_error v = false).
  { intros k' v H. apply find_ok in H; auto. apply ok_plain in H. split; [now apply opt_result_ok|apply H]. }
  destruct k; try (destruct L; fail); cbn [LookupInMap MapOptIndexOptionalValue NumberFromValue key_of_value].
  - (* bool *) cbn [MapGet key_of_value]. destruct (MapFind m (VBool b)) as [v|] eqn:E;
      cbn [MapFind key_of_value] in E; rewrite E.
    + destruct (F (VBool b) v E) as [E1 E2]. exists v. rewrite E1, E2. split; [auto|split; [auto|discriminate]].
    + eexists. split; [reflexivity|]. split; [reflexivity|auto].
  - (* int *) unfold find_int, find_uint. cbn [LosslessConvertibleToInt LosslessConvertibleToUint AsInt AsUint obind].
    destruct (MapFind m (VInt i)) as [v|] eqn:E.
    + destruct (F _ _ E) as [E1 E2]. exists v. rewrite E1, E2. split; [auto|split; [auto|discriminate]].
    + destruct (0 <=? i) eqn:P.
      * cbn [obind]. assert (C : c_uint64 i = i).
        { cbn [node_ok] in Hk. unfold in_int64, int64_min, int64_max, c_uint64 in *. apply Z.mod_small. lia. }
        rewrite C. destruct (MapFind m (VUint i)) as [v|] eqn:E'.
        -- destruct (F _ _ E') as [E1 E2]. exists v. rewrite E1, E2. split; [auto|split; [auto|discriminate]].
        -- eexists. split; [reflexivity|]. split; [reflexivity|auto].
      * eexists. split; [reflexivity|]. split; [reflexivity|auto].
  - (* uint *) destruct (MapFind m (VUint u)) as [v|] eqn:E.
    + destruct (F _ _ E) as [E1 E2]. exists v. rewrite E1, E2. split; [auto|split; [auto|discriminate]].
    + unfold find_int, find_uint. cbn [LosslessConvertibleToInt LosslessConvertibleToUint AsInt AsUint obind].
      destruct (u <=? int64_max) eqn:P; cbn [obind].
      * destruct (MapFind m (VInt u)) as [v|] eqn:E'.
        -- destruct (F _ _ E') as [E1 E2]. exists v. rewrite E1, E2. split; [auto|split; [auto|discriminate]].
        -- rewrite E. eexists. split; [reflexivity|]. split; [reflexivity|auto].
      * rewrite E. eexists. split; [reflexivity|]. split; [reflexivity|auto].
  - (* double *) unfold find_int, find_uint.
    assert (Hn : number_ok (NDouble d)) by exact Hk.
    destruct (find_int_ok m _ Hn Kok) as (r1 & E1 & _).
    destruct (find_uint_ok m _ Hn Kok) as (r2 & E2 & _).
    assert (G1 : forall v, r1 = Some v -> opt_result v = VOptional (Some v) /\ is_error v = false).
    { intros v ->. unfold find_int in E1. destruct (LosslessConvertibleToInt _) as [[]| |]; cbn [obind] in E1; try discriminate.
      destruct (AsInt _); cbn [obind] in E1; try discriminate. injection E1 as E1. eapply F; eauto. }
    assert (G2 : forall v, r2 = Some v -> opt_result v = VOptional (Some v) /\ is_error v = false).
    { intros v ->. unfold find_uint in E2. destruct (LosslessConvertibleToUint _) as [[]| |]; cbn [obind] in E2; try discriminate.
      destruct (AsUint _); cbn [obind] in E2; try discriminate. injection E2 as E2. eapply F; eauto. }
    fold (find_int m (NDouble d)). fold (find_uint m (NDouble d)).
    match goal with |- exists r, _ /\ ?X = _ /\ _ =>
      assert (U : X = (r1 <- find_int m (NDouble d) ;;
        match r1 with
        | Some v => Val (VOptional (Some v))
        | None => r2 <- find_uint m (NDouble d) ;;
            match r2 with Some v => Val (VOptional (Some v)) | None => Val (VOptional None) end
        end)) end.
    { unfold find_int, find_uint. destruct (LosslessConvertibleToInt _) as [b| |]; cbn [obind]; try reflexivity.
      destruct (if b then _ else _) as [[v|]| |]; cbn [obind]; try reflexivity.
      destruct (LosslessConvertibleToUint _) as [b'| |]; cbn [obind]; reflexivity. }
    rewrite U, E1. cbn [obind]. destruct r1 as [v|].
    + destruct (G1 v eq_refl) as [F1 F2]. exists v. rewrite F1, F2. split; [auto|split; [auto|discriminate]].
    + rewrite E2. cbn [obind]. destruct r2 as [v|].
      * destruct (G2 v eq_refl) as [F1 F2]. exists v. rewrite F1, F2. split; [auto|split; [auto|discriminate]].
      * eexists. split; [reflexivity|]. split; [reflexivity|auto].
  - (* string *) cbn [MapGet key_of_value]. destruct (MapFind m (VString s)) as [v|] eqn:E;
      cbn [MapFind key_of_value] in E; rewrite E.
    + destruct (F (VString s) v E) as [E1 E2]. exists v. rewrite E1, E2. split; [auto|split; [auto|discriminate]].
    + eexists. split; [reflexivity|]. split; [reflexivity|auto].
Qed.
Lemma index_list l i : value_ok (VList l) ->
  exists r, LookupInList true l (VInt i) = Val r /\ ListOptIndexOptionalInt l i = Val (opt_result r) /\
    (is_error r = true -> (i < 0 \/ Z.of_nat (List.length l) <= i) /\ r = VError index_range_error) /\
    (is_error r = false -> 0 <= i /\ nth_error l (Z.to_nat i) = Some r).
Proof.
  intros Hl. unfold LookupInList, ListOptIndexOptionalInt.
  cbn [NumberFromValue LosslessConvertibleToInt AsInt obind].
  destruct ((i <? 0) || (Z.of_nat (List.length l) <=? i)) eqn:E.
  - eexists. split; [reflexivity|]. split; [reflexivity|]. split; [|discriminate]. intros _. split; [lia|reflexivity].
  - destruct (nth_error l (Z.to_nat i)) as [v|] eqn:N.
    + assert (P : plain v). { apply ok_plain. eapply everywhere_list_in; eauto. eapply nth_error_In; eauto. }
      exists v. rewrite (opt_result_ok v P). split; [reflexivity|]. split; [reflexivity|].
      split; [destruct P; congruence|]. intros _. split; [lia|reflexivity].
    + apply nth_error_None in N. exfalso. lia.
Qed.

(* ---- zero values ---- *)
Lemma equals_impl a b : plain a -> plain b -> (equals a b <-> EqualImpl true a b = Val (Some true)).
Proof.
  intros [A1 A2] [B1 B2]. unfold equals, EvaluateEquality, ValueEqualImpl. rewrite A1, B1.
  destruct (EqualImpl true a b) as [[[]|]| |]; cbn; split; intros H; try discriminate; try reflexivity.
Qed.
Lemma default_plain k d : default k = Some d -> plain d.
Proof. destruct k; cbn; try discriminate; intros [= <-]; split; reflexivity. Qed.
Lemma zero_spec v : plain v -> (IsZeroValue v = true <-> zero v).
Proof.
  intros P. assert (Q : forall d, default (kind_of v) = Some d ->
    (IsZeroValue v = true <-> EqualImpl true v d = Val (Some true))).
  { destruct v; cbn [kind_of default]; intros d0; try discriminate; intros [= <-];
      cbn [IsZeroValue EqualImpl]; try (destruct P; discriminate).
    - now split.
    - split; [intros ->; reflexivity|now intros [= ->]].
    - split; [intros ->; reflexivity|now intros [= ->]].
    - split; [intros ->; reflexivity|now intros [= ->]].
    - split; intros H; [exact (f_equal (fun b => Val (Some b)) H)|].
      exact (f_equal (fun o => match o with Val (Some b) => b | _ => false end) H).
    - destruct s; cbn; split; intros H; try discriminate; reflexivity.
    - destruct s; cbn; split; intros H; try discriminate; reflexivity.
    - split; [intros ->; reflexivity|now intros [= ->]].
    - split; [intros ->; reflexivity|now intros [= ->]].
    - destruct l; cbn; split; intros H; try discriminate; reflexivity.
    - destruct m; cbn; split; intros H; try discriminate; reflexivity. }
  unfold zero. destruct (default (kind_of v)) as [d|] eqn:D.
  - rewrite (Q d eq_refl). rewrite <- (equals_impl v d P (default_plain _ _ D)). split.
    + intros H. now exists d.
    + intros (d' & [= <-] & H). exact H.
  - split; [|intros (d & H & _); discriminate]. destruct v; try discriminate D; discriminate.
Qed.

(* ---- lists of optionals ---- *)
Lemma unwrap_loop_ok l : forall built, Forall is_optional l -> Forall plain (present l) ->
  unwrap_loop l built = Val (built ++ present l).
Proof.
  induction l as [|v l IH]; intros built Ho Hp; cbn [unwrap_loop present].
  - now rewrite app_nil_r.
  - inversion Ho as [|? ? [o ->] Ho']; subst. destruct o as [w|].
    + cbn [present] in Hp. inversion Hp as [|? ? [E U] Hp']; subst.
      unfold ListAdd. assert (C : CheckListElement w = Val tt) by (destruct w; try discriminate; reflexivity).
      rewrite C. cbn [obind]. rewrite (IH _ Ho' Hp'), <- app_assoc. reflexivity.
    + apply IH; auto.
Qed.
Lemma unwrap_loop_bad l : forall built, Forall plain (present l) -> ~ Forall is_optional l ->
  unwrap_loop l built = Err unwrap_error.
Proof.
  induction l as [|v l IH]; intros built Hp Hn; [elim Hn; constructor|].
  assert (D : is_optional v \/ unwrap_loop (v :: l) built = Err unwrap_error).
  { destruct v; try (right; reflexivity). left. eexists. reflexivity. }
  destruct D as [[o ->]|D]; [|exact D].
  assert (Hn' : ~ Forall is_optional l). { intros H. apply Hn. constructor; [eexists; reflexivity|exact H]. }
  cbn [unwrap_loop]. destruct o as [w|].
  - cbn [present] in Hp. inversion Hp as [|? ? [E U] Hp']; subst.
    unfold ListAdd. assert (C : CheckListElement w = Val tt) by (destruct w; try discriminate; reflexivity).
    rewrite C. cbn [obind]. now apply IH.
  - now apply IH.
Qed.
Lemma present_ok l : value_ok (VList l) -> Forall value_ok (present l).
Proof.
  intros H. apply everywhere_list in H. destruct H as [_ H].
  induction H as [|v l Hv _ IH]; cbn [present]; [constructor|].
  destruct v as [| | | | | | | | | | | |[w|]| |]; auto. constructor; auto.
  apply everywhere_some in Hv. apply Hv.
Qed.
Lemma oks_plain l : Forall value_ok l -> Forall plain l.
Proof. intros H. eapply Forall_impl; [|exact H]. apply ok_plain. Qed.
Lemma present_app l l' : present (l ++ l') = present l ++ present l'.
Proof.
  induction l as [|v l IH]; cbn [app present]; [reflexivity|].
  destruct v as [| | | | | | | | | | | |[w|]| |]; rewrite ?IH; reflexivity.
Qed.
Lemma present_of l : present (map (fun v => VOptional (Some v)) l) = l.
Proof. induction l as [|v l IH]; cbn [map present]; congruence. Qed.
(* a list literal whose elements are all optional *)
Lemma list_loop_unwrap l : forall built, Forall plain (present l) -> Forall is_optional l ->
  list_loop (repeat true (List.length l)) l built = Val (VList (built ++ present l)).
Proof.
  induction l as [|v l IH]; intros built Hp Ho; cbn [List.length repeat list_loop present].
  - now rewrite app_nil_r.
  - inversion Ho as [|? ? [o ->] Ho']; subst. destruct o as [w|].
    + cbn [present] in Hp. inversion Hp as [|? ? [E U] Hp']; subst.
      unfold ListAdd. assert (C : CheckListElement w = Val tt) by (destruct w; try discriminate; reflexivity).
      rewrite C. cbn [obind].
      destruct w; try discriminate; rewrite (IH _ Hp' Ho'), <- app_assoc; reflexivity.
    + apply IH; auto.
Qed.
Lemma list_loop_bad l : forall built, Forall plain (present l) -> ~ Forall is_optional l ->
  exists s, list_loop (repeat true (List.length l)) l built = Val (VError s).
Proof.
  induction l as [|v l IH]; intros built Hp Hn; [elim Hn; constructor|].
  assert (D : is_optional v \/
    exists s, list_loop (repeat true (List.length (v :: l))) (v :: l) built = Val (VError s)).
  { destruct v; try (right; eexists; reflexivity). left. eexists. reflexivity. }
  destruct D as [[o ->]|D]; [|exact D].
  assert (Hn' : ~ Forall is_optional l). { intros H. apply Hn. constructor; [eexists; reflexivity|exact H]. }
  cbn [List.length repeat list_loop]. destruct o as [w|].
  - cbn [present] in Hp. inversion Hp as [|? ? [E U] Hp']; subst.
    unfold ListAdd. assert (C : CheckListElement w = Val tt) by (destruct w; try discriminate; reflexivity).
    rewrite C. cbn [obind]. destruct w; try discriminate; now apply IH.
  - now apply IH.
Qed.
Lemma optional_dec l : {Forall is_optional l} + {~ Forall is_optional l}.
Proof.
  apply Forall_dec. intros v. destruct v; try (right; intros [o H]; discriminate).
  left. eexists. reflexivity.
Qed.

(* ---- results ---- *)
Definition sound_result (r : out value) : Prop :=
  exists v, r = Val v /\ (value_ok v \/ is_error v = true).
Lemma some_ok v : value_ok v -> value_ok (VOptional (Some v)).
Proof. intros H. apply everywhere_some. split; [exact I|exact H]. Qed.
Lemma none_ok : value_ok (VOptional None).
Proof. cbn. split; exact I. Qed.
Lemma map_index_sound m k : plain k -> node_ok k -> value_ok (VMap m) ->
  exists o, MapOptIndexOptionalValue m k = Val (VOptional o) /\ forall v, o = Some v -> value_ok v.
Proof.
  intros P Hk Hm.
  assert (L : lookup_kind k \/ ~ lookup_kind k) by (destruct k; cbn; tauto).
  destruct L as [L|L].
  - destruct (index_map m k L Hk Hm) as (r & E1 & E2 & E3). rewrite E2. eexists. split; [reflexivity|].
    intros v Hv. destruct (is_error r) eqn:Er. { rewrite (E3 eq_refl) in Hv. discriminate. }
    assert (r = v) by (destruct r; try discriminate; congruence). subst v.
    destruct (LookupInMap_ok m k L Hk Hm) as [(k' & w & I & _ & R & _)|(_ & R)]; rewrite E1 in R; injection R as ->.
    + exact (everywhere_map_in _ _ _ Hm I).
    + discriminate.
  - destruct k; try (elim L; exact I); cbn [MapOptIndexOptionalValue MapFind key_of_value];
      (eexists; split; [reflexivity|discriminate]).
Qed.
Lemma list_index_sound l i : value_ok (VList l) ->
  exists o, ListOptIndexOptionalInt l i = Val (VOptional o) /\ forall v, o = Some v -> value_ok v.
Proof.
  intros Hl. unfold ListOptIndexOptionalInt. destruct (_ || _) eqn:E.
  - eexists. split; [reflexivity|discriminate].
  - destruct (nth_error l (Z.to_nat i)) as [v|] eqn:N.
    + eexists. split; [reflexivity|]. intros w [= <-]. eapply everywhere_list_in; eauto. eapply nth_error_In; eauto.
    + apply nth_error_None in N. exfalso. lia.
Qed.
Lemma sound_opt r o : r = Val (VOptional o) -> (forall v, o = Some v -> value_ok v) -> sound_result r.
Proof.
  intros -> H. eexists. split; [reflexivity|]. left. destruct o as [v|]; [apply some_ok; auto|apply none_ok].
Qed.
Lemma sound_err s : sound_result (Val (VError s)).
Proof. eexists. split; [reflexivity|right; reflexivity]. Qed.
Lemma first_last l : value_ok (VList l) ->
  ListFirst l = ListOptIndexOptionalInt l 0 /\
  ListLast l = ListOptIndexOptionalInt l (Z.of_nat (List.length l) - 1).
Proof.
  intros _. unfold ListFirst, ListLast, ListOptIndexOptionalInt. destruct l as [|v l]; [split; reflexivity|].
  change (Nat.eqb (List.length (v :: l)) 0) with false. cbv iota.
  assert (E1 : (0 <? 0) || (Z.of_nat (List.length (v :: l)) <=? 0) = false) by (cbn [List.length]; lia).
  assert (E2 : (Z.of_nat (List.length (v :: l)) - 1 <? 0) ||
     (Z.of_nat (List.length (v :: l)) <=? Z.of_nat (List.length (v :: l)) - 1) = false) by (cbn [List.length]; lia).
  rewrite E1, E2. split; [reflexivity|].
  replace (Z.to_nat (Z.of_nat (List.length (v :: l)) - 1)) with (List.length (v :: l) - 1)%nat by (cbn [List.length]; lia).
  reflexivity.
Qed.
Lemma unwrap_sound l : value_ok (VList l) -> sound_result (ListUnwrapOpt l).
Proof.
  intros H. pose proof (present_ok _ H) as Hp. unfold ListUnwrapOpt.
  destruct (optional_dec l) as [Ho|Ho].
  - rewrite unwrap_loop_ok by (auto using oks_plain). eexists. split; [reflexivity|]. left.
    apply everywhere_list. split; [exact I|exact Hp].
  - rewrite unwrap_loop_bad by (auto using oks_plain). apply sound_err.
Qed.
Lemma select_map_sound m f : value_ok (VMap m) ->
  exists o, SelectOptionalFieldMap m f = VOptional o /\ forall v, o = Some v -> value_ok v.
Proof.
  intros Hm. unfold SelectOptionalFieldMap. destruct (MapFind m (VString f)) as [v|] eqn:E.
  - eexists. split; [reflexivity|]. intros w [= <-]. eapply find_ok; eauto.
  - eexists. split; [reflexivity|discriminate].
Qed.
Definition of_kind (k : kind) (a : value) : Prop :=
  match k with
  | kMapT => exists m, a = VMap m
  | kListT => exists l, a = VList l
  | kStringT => exists s, a = VString s
  | kIntT => exists i, a = VInt i
  | kOpaqueT => exists o, a = VOptional o
  | _ => True
  end.
Lemma of_kind_spec a : of_kind (kind_of a) a.
Proof. destruct a; cbn; eauto. Qed.
Lemma kinds_one d a : Forall2 (fun d k => d = None \/ d = Some k) [d] [kind_of a] ->
  forall k, d = Some k -> of_kind k a.
Proof.
  intros H k ->. inversion H as [|? ? ? ? H1 _]; subst. destruct H1 as [H1|[= ->]]; [discriminate|].
  apply of_kind_spec.
Qed.
Lemma kinds_two d e a b :
  Forall2 (fun d k => d = None \/ d = Some k) [d; e] [kind_of a; kind_of b] ->
  (forall k, d = Some k -> of_kind k a) /\ (forall k, e = Some k -> of_kind k b).
Proof.
  intros H. inversion H as [|? ? ? ? H1 H2]; subst. split; [|eapply kinds_one; eassumption].
  apply kinds_one with (d := d). constructor; [exact H1|constructor].
Qed.
Lemma ok_one a : Forall value_ok [a] -> value_ok a.
Proof. intros H. now inversion H. Qed.
Lemma ok_two a b : Forall value_ok [a; b] -> value_ok a /\ value_ok b.
Proof. intros H. inversion H as [|? ? H1 H2]; subst. split; [exact H1|now apply ok_one]. Qed.
Lemma impl_sound o args : In o optional_functions ->
  accepts o (ov_name o) (ov_receiver o) (map kind_of args) -> Forall value_ok args ->
  sound_result (ov_impl o args).
Proof.
  intros Hi (_ & _ & Ha) Hok. revert Ha Hok.
  cbn [optional_functions In] in Hi.
  repeat (destruct Hi as [<-|Hi]; [|]); try (destruct Hi; fail);
    cbn [ov_kinds optional_of optional_of_non_zero optional_none optional_value optional_has_value
         opt_select_map opt_select_optional opt_index_map opt_index_list opt_index_optional
         optional_unwrap optional_unwrap_opt list_first list_last ov_impl unwrap_impl];
    intros Ha Hok;
    (destruct args as [|a [|b [|c args]]]; cbn [map] in Ha;
     try (exfalso; inversion Ha as [|? ? ? ? ? Ha1]; inversion Ha1 as [|? ? ? ? ? Ha2]; inversion Ha2; fail);
     try (exfalso; inversion Ha as [|? ? ? ? ? Ha1]; inversion Ha1; fail);
     try (exfalso; inversion Ha; fail)).
  - apply sound_opt with (o := Some a); [reflexivity|]. intros v [= <-]. now apply ok_one.
  - unfold OptionalOfNonZeroValue. destruct (IsZeroValue a).
    + apply sound_opt with (o := None); [reflexivity|discriminate].
    + apply sound_opt with (o := Some a); [reflexivity|]. intros v [= <-]. now apply ok_one.
  - apply sound_opt with (o := None); [reflexivity|discriminate].
  - apply ok_one in Hok. destruct a as [| | | | | | | | | | | |[w|]| |]; try apply sound_err.
    apply everywhere_some in Hok. eexists. split; [reflexivity|left; apply Hok].
  - destruct a; try apply sound_err. eexists. split; [reflexivity|left; cbn; split; exact I].
  - apply kinds_two in Ha. destruct Ha as [K1 K2]. apply ok_two in Hok. destruct Hok as [Ok1 Ok2].
    destruct (K1 _ eq_refl) as [m ->]. destruct (K2 _ eq_refl) as [f ->].
    destruct (select_map_sound m f Ok1) as (o & E & Ho). rewrite E. now apply sound_opt with (o := o).
  - apply kinds_two in Ha. destruct Ha as [K1 K2]. apply ok_two in Hok. destruct Hok as [Ok1 Ok2].
    destruct (K2 _ eq_refl) as [f ->]. destruct (K1 _ eq_refl) as [x ->]. unfold SelectOptionalField.
    destruct x as [v|]; [|apply sound_opt with (o := None); [reflexivity|discriminate]].
    apply everywhere_some in Ok1. destruct Ok1 as [_ Ok1].
    destruct v; try apply sound_err. destruct (select_map_sound m f Ok1) as (o & E & Ho).
    rewrite E. now apply sound_opt with (o := o).
  - apply kinds_two in Ha. destruct Ha as [K1 _]. apply ok_two in Hok. destruct Hok as [Ok1 Ok2].
    destruct (K1 _ eq_refl) as [m ->].
    destruct (map_index_sound m b (ok_plain _ Ok2) (ok_node _ Ok2) Ok1) as (o & E & Ho).
    now apply sound_opt with (o := o).
  - apply kinds_two in Ha. destruct Ha as [K1 K2]. apply ok_two in Hok. destruct Hok as [Ok1 Ok2].
    destruct (K1 _ eq_refl) as [l ->]. destruct (K2 _ eq_refl) as [j ->].
    destruct (list_index_sound l j Ok1) as (o & E & Ho). now apply sound_opt with (o := o).
  - apply kinds_two in Ha. destruct Ha as [K1 _]. apply ok_two in Hok. destruct Hok as [Ok1 Ok2].
    destruct (K1 _ eq_refl) as [x ->]. unfold OptionalOptIndexOptionalValue.
    destruct x as [v|]; [|apply sound_opt with (o := None); [reflexivity|discriminate]].
    apply everywhere_some in Ok1. destruct Ok1 as [_ Ok1].
    destruct v; try apply sound_err.
    + destruct b; try apply sound_err. destruct (list_index_sound l i Ok1) as (o & E & Ho).
      now apply sound_opt with (o := o).
    + destruct (map_index_sound m b (ok_plain _ Ok2) (ok_node _ Ok2) Ok1) as (o & E & Ho).
      now apply sound_opt with (o := o).
  - pose proof (kinds_one _ _ Ha _ eq_refl) as K. destruct K as [l ->]. apply unwrap_sound. now apply ok_one.
  - pose proof (kinds_one _ _ Ha _ eq_refl) as K. destruct K as [l ->]. apply unwrap_sound. now apply ok_one.
  - pose proof (kinds_one _ _ Ha _ eq_refl) as K. destruct K as [l ->]. apply ok_one in Hok.
    destruct (first_last l Hok) as [E _]. destruct (list_index_sound l 0 Hok) as (o & E' & Ho).
    rewrite <- E in E'. now apply sound_opt with (o := o).
  - pose proof (kinds_one _ _ Ha _ eq_refl) as K. destruct K as [l ->]. apply ok_one in Hok.
    destruct (first_last l Hok) as [_ E].
    destruct (list_index_sound l (Z.of_nat (List.length l) - 1) Hok) as (o & E' & Ho).
    rewrite <- E in E'. now apply sound_opt with (o := o).
Qed.
