(* Values of the C++ types stay such during evaluation, and evaluation has no
   undefined behaviour of its own. *)
From Coq Require Import ZArith List Bool String Lia ZifyBool Permutation.
From Verif Require Import Base M_Overflow M_Number M_Attr M_Value M_Logic M_Expr M_Plan M_Machine
  S_Num S_Value S_Eval L_Value L_Seval L_Alloc.
Import ListNotations.
Open Scope list_scope.
Open Scope Z_scope.

Lemma range_list l : in_range (VList l) <-> Forall in_range l.
Proof. unfold in_range. rewrite everywhere_list. cbn [node_in_range]. tauto. Qed.
Lemma range_map m : in_range (VMap m) <-> Forall (fun e => key_ok (fst e) /\ in_range (snd e)) m.
Proof.
  unfold in_range at 1. rewrite everywhere_map. cbn [node_in_range]. rewrite Forall_map.
  fold in_range. rewrite !Forall_forall. split.
  - intros [H1 H2] e He. split; [now apply H1|now apply H2].
  - intros H. split; intros e He; now apply H.
Qed.
Lemma range_some v : in_range (VOptional (Some v)) <-> in_range v.
Proof. unfold in_range. rewrite everywhere_some. cbn [node_in_range]. tauto. Qed.
Lemma range_error s : in_range (VError s). Proof. split; exact I. Qed.
Lemma range_unknown s : in_range (VUnknown s). Proof. split; exact I. Qed.
Lemma range_bool b : in_range (VBool b). Proof. split; exact I. Qed.
Lemma range_none : in_range (VOptional None). Proof. split; exact I. Qed.
#[local] Hint Resolve range_error range_unknown range_bool range_none : core.

Definition okv (o : out value) : Prop :=
  match o with Val v => in_range v | Err _ => True | UB => False end.
Lemma okv_bind {A} (o : out A) (k : A -> out value) :
  o <> UB -> (forall a, o = Val a -> okv (k a)) -> okv (obind o k).
Proof. destruct o; cbn [obind]; intros H1 H2; auto; [exact I|now apply H1]. Qed.

(* ---- lookups ---- *)

Lemma find_key_range k m v : in_range (VMap m) -> find_key k m = Some v -> in_range v.
Proof.
  rewrite range_map. induction 1 as [|[k' v'] m [_ H] Hm IH]; cbn [find_key]; [discriminate|].
  destruct (key_eqb k' k); [|exact IH]. intros [= <-]. exact H.
Qed.
Lemma MapFind_range k m v : in_range (VMap m) -> MapFind m k = Some v -> in_range v.
Proof. intros H. unfold MapFind. destruct (key_of_value k); [|discriminate]. now apply find_key_range. Qed.
Lemma MapGet_range k m : in_range (VMap m) -> in_range k -> in_range (MapGet m k).
Proof.
  intros H Hk.
  assert (Hf : forall q, in_range (match find_key q m with Some v => v | None => VError no_such_key end)).
  { intros q. destruct (find_key q m) eqn:F; [|auto]. eapply find_key_range; eauto. }
  unfold MapGet. destruct k; cbn [key_of_value]; auto.
Qed.
Lemma number_range v n : in_range v -> NumberFromValue v = Some n -> number_ok n.
Proof. destruct v; try discriminate; intros [H _] [= <-]; exact H. Qed.
Lemma MapHas_range k m : in_range k -> in_range (MapHas m k).
Proof. intros H. unfold MapHas. destruct k; cbn [key_of_value]; auto. Qed.

Lemma lossless_int n : number_ok n ->
  LosslessConvertibleToInt n = Val false \/
  (LosslessConvertibleToInt n = Val true /\ exists z, in_int64 z = true /\ AsInt n = Val z).
Proof.
  intros H. destruct (lossless_int_keys n H) as ([] & E & Ht & _); [right|now left].
  destruct (Ht eq_refl) as (z & _ & H1 & H2). eauto.
Qed.
Lemma lossless_uint n : number_ok n ->
  LosslessConvertibleToUint n = Val false \/
  (LosslessConvertibleToUint n = Val true /\ exists z, in_uint64 z = true /\ AsUint n = Val z).
Proof.
  intros H. destruct (lossless_uint_keys n H) as ([] & E & Ht & _); [right|now left].
  destruct (Ht eq_refl) as (z & _ & H1 & H2). eauto.
Qed.
Ltac lossless n H :=
  let E1 := fresh in let E2 := fresh in let z := fresh "z" in let Hz := fresh in
  destruct (lossless_int n H) as [E1|[E1 (z & Hz & E2)]]; rewrite ?E1; cbn [obind];
  [|rewrite ?E2; cbn [obind]].
Ltac lossless_u n H :=
  let E1 := fresh in let E2 := fresh in let z := fresh "z" in let Hz := fresh in
  destruct (lossless_uint n H) as [E1|[E1 (z & Hz & E2)]]; rewrite ?E1; cbn [obind];
  [|rewrite ?E2; cbn [obind]].

Lemma find_int_val m n : number_ok n -> exists r, find_int m n = Val r /\
  (in_range (VMap m) -> forall v, r = Some v -> in_range v).
Proof.
  intros H. unfold find_int. lossless n H; eexists; (split; [reflexivity|]); intros Hm v Hv.
  - discriminate.
  - eapply MapFind_range; eauto.
Qed.
Lemma find_uint_val m n : number_ok n -> exists r, find_uint m n = Val r /\
  (in_range (VMap m) -> forall v, r = Some v -> in_range v).
Proof.
  intros H. unfold find_uint. lossless_u n H; eexists; (split; [reflexivity|]); intros Hm v Hv.
  - discriminate.
  - eapply MapFind_range; eauto.
Qed.

Lemma alt_val key rhs : in_range key -> exists r, CheckAlternativeNumericType key rhs = Val r /\
  (in_range (VMap rhs) -> forall v, r = Some v -> in_range v).
Proof.
  intros H. unfold CheckAlternativeNumericType.
  destruct (NumberFromValue key) as [n|] eqn:E; [|eexists; split; [reflexivity|discriminate]].
  pose proof (number_range _ _ H E) as Hn.
  destruct (find_int_val rhs n Hn) as (r1 & E1 & R1). destruct (find_uint_val rhs n Hn) as (r2 & E2 & R2).
  fold (find_int rhs n) (find_uint rhs n). rewrite E1, E2.
  assert (Hnone : exists r : option value, @Val (option value) None = Val r /\
            (in_range (VMap rhs) -> forall v, r = Some v -> in_range v))
    by (eexists; split; [reflexivity|discriminate]).
  destruct key; cbn [obind]; eauto; try (destruct r1 as [v1|]; eauto).
Qed.
Lemma key_range k : key_ok k -> in_range (value_of_key k).
Proof. destruct k; intros H; split; auto; exact I. Qed.

Lemma EqualImpl_val h a : forall b, in_range a -> in_range b -> exists r, EqualImpl h a b = Val r.
Proof.
  induction a using value_ind'; intros b' Ha Hb.
  1-10,13-16: destruct b'; cbn [EqualImpl]; eauto; destruct h; eauto;
    try (destruct (NumberFromValue _); eauto); try (destruct (NumberFromValue _); eauto);
    try (destruct (_ || _); eauto); fail.
  - destruct b'; cbn [EqualImpl]; try (destruct h; cbn; eauto; fail).
    destruct (negb _); [eauto|]. rewrite range_list in Ha, Hb. clear - H Ha Hb.
    revert l0 Hb. induction H as [|x l Hx Hl IH]; intros l0 Hb; cbn [ListEqual_loop]; [eauto|].
    apply Forall_cons_iff in Ha. destruct Ha as [Ha1 Ha2]. destruct l0 as [|y l0]; [eauto|].
    apply Forall_cons_iff in Hb. destruct Hb as [Hb1 Hb2].
    destruct (Hx y Ha1 Hb1) as [r ->]. cbn [obind]. destruct r as [[]|]; eauto.
  - destruct b'; cbn [EqualImpl]; try (destruct h; cbn; eauto; fail).
    destruct (negb _); [eauto|]. rewrite range_map in Ha. clear - H Ha Hb. rename m0 into rhs.
    induction H as [|[k v] l Hx Hl IH]; cbn [MapEqual_loop]; [eauto|].
    apply Forall_cons_iff in Ha. destruct Ha as [[Hk Ha1] Ha2]. cbn [fst snd] in *.
    specialize (IH Ha2).
    assert (HE : exists o, match MapFind rhs (value_of_key k) with
                 | Some w => Val (Some w)
                 | None => if h then CheckAlternativeNumericType (value_of_key k) rhs
                           else Val None
                 end = Val o /\ forall w, o = Some w -> in_range w).
    { destruct (MapFind rhs (value_of_key k)) as [w|] eqn:F.
      - eexists. split; [reflexivity|]. intros w' [= <-]. eapply MapFind_range; eauto.
      - destruct h; [|eexists; split; [reflexivity|discriminate]].
        destruct (alt_val (value_of_key k) rhs (key_range k Hk)) as (r & -> & Hr). eauto. }
    destruct HE as (o & -> & Ho). cbn [obind]. destruct o as [w|]; [|eauto].
    destruct (Hx w Ha1 (Ho w eq_refl)) as [r ->]. cbn [obind]. destruct r as [[]|]; eauto.
Qed.

Lemma equality_ok n a b : in_range a -> in_range b -> okv (EvaluateEquality n a b).
Proof.
  intros Ha Hb. unfold EvaluateEquality. destruct (is_error a); [exact Ha|].
  destruct (is_error b); [exact Hb|]. unfold ValueEqualImpl.
  destruct (EqualImpl_val true a b Ha Hb) as [r ->]. cbn [obind okv]. destruct r; cbn; auto.
Qed.
Lemma try_int_val m n : number_ok n -> exists b, try_has_int m n = Val b.
Proof. intros H. unfold try_has_int. lossless n H; eauto. Qed.
Lemma try_uint_val m n : number_ok n -> exists b, try_has_uint m n = Val b.
Proof. intros H. unfold try_has_uint. lossless_u n H; eauto. Qed.
Lemma in_ok a b : in_range a -> in_range b -> okv (EvaluateIn a b).
Proof.
  intros Ha Hb. unfold EvaluateIn. destruct (is_error a); [exact Ha|].
  destruct (is_error b); [exact Hb|]. destruct b; cbn [okv]; auto. unfold EvaluateInMap.
  destruct a; cbn [okv]; auto; destruct (is_true _); cbn [obind okv]; auto;
    destruct Ha as [Ha _]; cbn [node_in_range] in Ha.
  - destruct (try_uint_val m (NInt i) Ha) as [r ->]. cbn; auto.
  - destruct (try_int_val m (NUint u) Ha) as [[] ->]; cbn; auto.
  - destruct (try_int_val m (NDouble d) Ha) as [[] ->]; cbn; auto.
    destruct (try_uint_val m (NDouble d) Ha) as [r ->]. cbn; auto.
Qed.
Definition list_at (l : list value) (idx : option Z) : out value :=
  match idx with
  | None => Val (VError index_type_error)
  | Some i =>
      if (i <? 0) || (Z.of_nat (List.length l) <=? i) then Val (VError index_range_error)
      else match nth_error l (Z.to_nat i) with Some v => Val v | None => UB end
  end.
Lemma list_at_ok l idx : in_range (VList l) -> okv (list_at l idx).
Proof.
  intros Hc. destruct idx as [i|]; unfold list_at; [|exact (range_error _)].
  destruct (_ || _) eqn:E; [exact (range_error _)|].
  destruct (nth_error l (Z.to_nat i)) eqn:N.
  - apply range_list in Hc. rewrite Forall_forall in Hc. apply Hc. eapply nth_error_In; eauto.
  - apply nth_error_None in N. exfalso. lia.
Qed.
Lemma lookup_ok h c k : in_range c -> in_range k -> okv (LookupInContainer h c k).
Proof.
  intros Hc Hk. destruct c; cbn [LookupInContainer]; try exact (range_error _).
  - unfold LookupInList. change (okv (obind (if h then
            match NumberFromValue k with
            | Some n =>
                obind (LosslessConvertibleToInt n) (fun b =>
                if b then (obind (AsInt n) (fun i => Val (Some i))) else Val None)
            | None => Val None
            end
          else match k with VInt i => Val (Some i) | _ => Val None end) (list_at l))).
    destruct h.
    + destruct (NumberFromValue k) as [n|] eqn:E; [|now apply list_at_ok].
      pose proof (number_range _ _ Hk E) as Hn. lossless n Hn; now apply list_at_ok.
    + destruct k; cbn [obind]; now apply list_at_ok.
  - unfold LookupInMap. destruct (if h then NumberFromValue k else None) as [n|] eqn:E.
    + assert (Hn : number_ok n) by (destruct h; [eapply number_range; eauto|discriminate]).
      destruct (match k with VUint _ => MapFind m k | _ => None end) as [v|] eqn:E0.
      * cbn [okv]. destruct k; try discriminate. eapply MapFind_range; eauto.
      * destruct (find_int_val m n Hn) as (r1 & E1 & R1). fold (find_int m n) (find_uint m n).
        rewrite E1. cbn [obind].
        destruct r1 as [v|]; [cbn; auto|].
        destruct (find_uint_val m n Hn) as (r2 & E2 & R2). rewrite E2. cbn [obind].
        destruct r2 as [v|]; cbn [okv]; auto.
    + destruct (key_of_value k) eqn:Ek; cbn [okv]; auto. now apply MapGet_range.
Qed.
Lemma perform_ok h opt c k : in_range c -> in_range k -> okv (PerformLookup h opt c k).
Proof.
  intros Hc Hk. pose proof (lookup_ok h c k Hc Hk) as H. unfold PerformLookup.
  assert (H2 : match k with VError _ => okv (Val k) | _ => True end) by (destruct k; cbn; auto).
  destruct c as [| | | | | | | | | | | |o|s|u]; try (destruct k; cbn [okv]; auto; fail).
  assert (H3 : okv (if opt then
        match o with
        | None => Val (VOptional None)
        | Some c =>
            obind (LookupInContainer h c k) (fun r =>
            match r with
            | VError s => if IsNoSuchKey s then Val (VOptional None) else Val (VOptional (Some r))
            | _ => Val (VOptional (Some r))
            end)
        end
      else LookupInContainer h (VOptional o) k)).
  { destruct opt; [|exact H]. destruct o as [c|]; [|cbn; auto]. apply (proj1 (range_some _)) in Hc.
    pose proof (lookup_ok h c k Hc Hk) as G. destruct (LookupInContainer h c k) as [r|e|]; cbn [obind okv] in *; auto.
    destruct r; cbn [okv]; try (now apply (proj2 (range_some _))).
    destruct (IsNoSuchKey s); cbn [okv]; auto. now apply (proj2 (range_some _)). }
  destruct k; cbn [okv]; auto.
Qed.

(* ---- steps ---- *)

Definition okx (x : vt) : Prop := in_range (fst x).
Definition okvt (o : out vt) : Prop :=
  match o with Val x => okx x | Err _ => True | UB => False end.
Lemma okvt_bind (o : out value) (t : trail) : okv o -> okvt (obind o (fun r => Val (r, t))).
Proof. destruct o; cbn [obind okv okvt]; auto. Qed.

Lemma exact_range C t u : unknown_exact C t = Some u -> in_range u.
Proof. unfold unknown_exact. destruct (_ && _); [|discriminate]. destruct t; [|discriminate]. intros [= <-]. auto. Qed.
Lemma partial_range C t u : unknown_partial C t = Some u -> in_range u.
Proof. unfold unknown_partial. destruct (_ && _); [|discriminate]. destruct t; [|discriminate]. intros [= <-]. auto. Qed.
Lemma range_string l : in_range (VString l). Proof. split; exact I. Qed.
#[local] Hint Resolve range_string : core.

Lemma select_ok C f t a : okx a -> okvt (SelectStep C f t a).
Proof.
  destruct a as [v tr]. unfold okx. cbn [fst]. intros H. unfold SelectStep.
  set (fb := bytes_of_string f).
  assert (Hmap : forall m rt, in_range (VMap m) ->
            okvt (if t then Val (MapHas m (VString fb), None) else Val (MapGet m (VString fb), rt))).
  { intros m rt Hm. destruct t; cbn [okvt]; unfold okx; cbn [fst].
    - apply MapHas_range. auto.
    - apply MapGet_range; auto. }
  set (rt := if unk C then _ else _).
  destruct v; try (exact H); try exact (range_error _);
    try (destruct (unknown_exact C rt) eqn:E; [exact (exact_range _ _ _ E)|]).
  - now apply Hmap.
  - destruct (o_optional_types (cf_opts C)); [|exact (range_error _)].
    destruct (unknown_exact C rt) eqn:E; [exact (exact_range _ _ _ E)|].
    destruct o as [w|]; [|destruct t; [exact (range_bool _)|exact H]].
    apply (proj1 (range_some _)) in H. destruct w; try exact I.
    destruct t.
    + apply MapHas_range. auto.
    + cbn [okvt]. unfold okx. cbn [fst]. destruct (MapFind m (VString fb)) eqn:F; [|auto].
      apply (proj2 (range_some _)). eapply MapFind_range; eauto.
Qed.
Lemma index_ok C a b : okx a -> okx b -> okvt (IndexStep C a b).
Proof.
  intros Ha Hb. unfold IndexStep. destruct (_ && _); [exact (range_unknown _)|].
  destruct (unknown_exact C _) eqn:E; [exact (exact_range _ _ _ E)|].
  apply okvt_bind. now apply perform_ok.
Qed.
Lemma pair_range C a b u : pair_unknowns C a b = Some u -> in_range u.
Proof.
  unfold pair_unknowns. destruct (unk C); [|discriminate]. destruct (acc_IsEmpty _); [discriminate|].
  intros [= <-]. exact (range_unknown _).
Qed.
Lemma eqstep_ok C n a b : okx a -> okx b -> okvt (EqualityStep C n a b).
Proof.
  intros Ha Hb. unfold EqualityStep. destruct (is_error (fst a)); [exact Ha|].
  destruct (is_error (fst b)); [exact Hb|].
  destruct (pair_unknowns C a b) eqn:E; [exact (pair_range _ _ _ _ E)|].
  apply okvt_bind. now apply equality_ok.
Qed.
Lemma instep_ok C a b : okx a -> okx b -> okvt (InStep C a b).
Proof.
  intros Ha Hb. unfold InStep. destruct (is_error (fst a)); [exact Ha|].
  destruct (is_error (fst b)); [exact Hb|].
  destruct (pair_unknowns C a b) eqn:E; [exact (pair_range _ _ _ _ E)|].
  apply okvt_bind. now apply in_ok.
Qed.
Lemma list_loop_ok args : Forall in_range args -> forall opts l, Forall in_range l ->
  okv (list_loop opts args l).
Proof.
  assert (Hadd : forall l v (k : list value -> out value), Forall in_range l -> in_range v ->
            (forall l', Forall in_range l' -> okv (k l')) -> okv (obind (ListAdd l v) k)).
  { intros l v k Hl Hv Hk. assert (G : Forall in_range (l ++ [v])) by (apply Forall_app; auto).
    unfold ListAdd. destruct v; cbn [CheckListElement obind okv]; auto. }
  induction 1 as [|a args Ha Hargs IH]; intros opts l Hl; cbn [list_loop].
  - apply (proj2 (range_list _)). exact Hl.
  - destruct (match opts with o :: _ => o | [] => false end); [|now apply Hadd; auto].
    destruct a; try exact (range_error _). destruct o as [v|]; [|now apply IH].
    apply (proj1 (range_some _)) in Ha.
    destruct v; try exact (range_error _); apply Hadd; auto.
Qed.
Lemma find_error_range (l : list vt) v : Forall okx l -> find is_error (map fst l) = Some v -> in_range v.
Proof.
  intros H E. apply find_some in E. destruct E as [E _]. apply in_map_iff in E.
  destruct E as (x & <- & Hx). rewrite Forall_forall in H. now apply H.
Qed.
Lemma values_range (l : list vt) : Forall okx l -> Forall in_range (map fst l).
Proof. intros H. now apply Forall_map. Qed.
Lemma liststep_ok C opts args : Forall okx args -> okvt (ListStep C opts args).
Proof.
  intros H. unfold ListStep. destruct (find _ _) eqn:E; [exact (find_error_range _ _ H E)|].
  destruct (literal_unknowns C args); [exact (range_unknown _)|].
  apply okvt_bind. apply list_loop_ok; [now apply values_range|constructor].
Qed.
Lemma key_of_value_ok v k : in_range v -> key_of_value v = Some k -> key_ok k.
Proof. destruct v; try discriminate; intros [H _] [= <-]; try exact I; exact H. Qed.
Lemma map_loop_ok reorder (Hr : forall m, Permutation (reorder m) m) args :
  Forall in_range args -> forall opts m, in_range (VMap m) -> okv (map_loop reorder opts args m).
Proof.
  assert (Hput : forall m k v (f : entries -> out value), in_range (VMap m) -> in_range k -> in_range v ->
            (forall m', in_range (VMap m') -> okv (f m')) -> okv (obind (MapPut m k v) f)).
  { intros m k v f Hm Hk Hv Hf. unfold MapPut.
    assert (Hkey : forall key, CheckMapKey k = Val key -> key_ok key).
    { intros key. unfold CheckMapKey.
      destruct k; try discriminate; destruct (key_of_value _) eqn:E; try discriminate;
        intros [= <-]; exact (key_of_value_ok _ _ Hk E). }
    destruct (CheckMapKey k) as [key|e|] eqn:Ek; cbn [obind okv]; auto.
    - destruct (CheckMapValue v) as [u|e|] eqn:Ev; cbn [obind okv]; auto.
      + destruct (find_key key m); cbn [obind okv]; auto. apply Hf. apply (proj2 (range_map _)).
        apply Forall_app. split; [now apply (proj1 (range_map _))|]. repeat constructor; cbn [fst snd]; auto.
      + destruct v; discriminate.
    - unfold CheckMapKey in Ek. destruct k; try discriminate; destruct (key_of_value _); discriminate. }
  assert (Hend : forall m, in_range (VMap m) -> okv (Val (VMap (reorder m)))).
  { intros m Hm. cbn [okv]. apply (proj2 (range_map _)). apply (proj1 (range_map _)) in Hm.
    eapply Permutation_Forall; [|exact Hm]. symmetry. apply Hr. }
  induction args as [args IH] using (well_founded_induction (well_founded_ltof _ (@List.length value))).
  intros Ha opts m Hm. destruct args as [|k [|v args]]; [now apply Hend..|].
  apply Forall_cons_iff in Ha. destruct Ha as [Hk Ha]. apply Forall_cons_iff in Ha. destruct Ha as [Hv Ha].
  assert (IH' : forall opts m, in_range (VMap m) -> okv (map_loop reorder opts args m)).
  { intros o m0 Hm0. apply IH; auto. unfold ltof. cbn [List.length]. lia. }
  cbn [map_loop]. destruct (CheckMapKey k) as [key|e|] eqn:Ek; [|exact (range_error _)|].
  - destruct (match opts with o :: _ => o | [] => false end); [|now apply Hput; auto].
    destruct v; try exact (range_error _). destruct o as [w|]; [|now apply IH'].
    apply (proj1 (range_some _)) in Hv. destruct w; try exact (range_error _); apply Hput; auto.
  - unfold CheckMapKey in Ek. destruct k; try discriminate; destruct (key_of_value _); discriminate.
Qed.
Lemma mapstep_ok C (Hr : forall m, Permutation (cf_reorder C m) m) opts args :
  Forall okx args -> okvt (MapStep C opts args).
Proof.
  intros H. unfold MapStep. destruct (find _ _) eqn:E; [exact (find_error_range _ _ H E)|].
  destruct (literal_unknowns C args); [exact (range_unknown _)|].
  apply okvt_bind. apply map_loop_ok; [exact Hr|now apply values_range|].
  apply (proj2 (range_map _)). constructor.
Qed.

Lemma call_args_range u pats args : Forall okx args -> Forall in_range (call_args u pats args).
Proof.
  intros H. unfold call_args. destruct u; [|now apply values_range].
  unfold CheckForPartialUnknowns. apply Forall_map. eapply Forall_impl; [|exact H].
  intros x Hx. destruct (if CheckForUnknown _ _ _ then _ else _); [exact (range_unknown _)|exact Hx].
Qed.
Lemma call_ok u pats name rcv ovs args : Forall overload_ok ovs -> Forall okx args ->
  okv (CallFunction u pats name rcv ovs args).
Proof.
  intros Ho Ha. unfold CallFunction. pose proof (call_args_range u pats args Ha) as Hi.
  set (input := call_args u pats args) in *. unfold accepted.
  assert (Hno : okv (Val (NoOverloadResult u name rcv input))).
  { cbn [okv]. unfold NoOverloadResult. destruct (find is_error input) eqn:E.
    - apply find_some in E. rewrite Forall_forall in Hi. now apply Hi.
    - destruct (if u then _ else _); auto. }
  destruct (ResolveStatic ovs input) as [o|] eqn:E; [|exact Hno].
  destruct (ShouldAcceptOverload o input); [|exact Hno].
  apply find_some in E. destruct E as [E1 E2]. rewrite Forall_forall in Ho. exact (Ho o E1 input Hi E2).
Qed.

Definition op_ok (op : sop) (n : nat) : Prop :=
  match op with
  | OSelect _ _ | ONot | ONotStrictlyFalse => n = 1%nat
  | OIndex | OEqual _ | OIn => n = 2%nat
  | OCall _ _ ovs => Forall overload_ok ovs
  | OList _ | OMap _ => True
  end.
Lemma apply_ok C (Hr : forall m, Permutation (cf_reorder C m) m) op args :
  op_ok op (List.length args) -> Forall okx args -> okvt (apply_op C op args).
Proof.
  intros Ho Ha. destruct op; cbn [op_ok] in Ho; cbn [apply_op].
  1-6: destruct args as [|a [|b [|c args]]]; try discriminate Ho;
    apply Forall_cons_iff in Ha; destruct Ha as [Ha Hb];
    try (apply Forall_cons_iff in Hb; destruct Hb as [Hb _]).
  - now apply select_ok.
  - now apply index_ok.
  - unfold NotStepT, okvt, okx.
    assert (H : in_range (NotStep (unk C) (cf_pats C) (fst a) (snd a))).
    { unfold NotStep. destruct (if _ && _ then _ else _); auto. unfold okx in Ha.
      destruct (fst a); auto. }
    destruct (unknown_partial _ _); [exact H|]. destruct (fst a); exact H.
  - destruct a as [v t]. unfold NotStrictlyFalseStepT, okvt, okx in *. cbn [fst] in *.
    destruct v; cbn [fst NotStrictlyFalseStep]; auto.
  - now apply eqstep_ok.
  - now apply instep_ok.
  - apply okvt_bind. now apply call_ok.
  - now apply liststep_ok.
  - now apply mapstep_ok.
Qed.

(* ---- expressions ---- *)

(* every constant of an expression is in range and every operation has its
   operands *)
Fixpoint kok (e : core) : Prop :=
  match e with
  | KConst v => in_range v
  | KVar _ | KGlobal _ => True
  | KLogic _ a b | KOr _ a b => kok a /\ kok b
  | KCond c a b => kok c /\ kok a /\ kok b
  | KApp op args =>
      op_ok op (List.length args) /\
      (fix go l := match l with [] => True | x :: l' => kok x /\ go l' end) args
  | KComp _ _ _ r i c s b => kok r /\ kok i /\ kok c /\ kok s /\ kok b
  | KBind _ i b => kok i /\ kok b
  end.
Lemma kok_app op args : kok (KApp op args) <-> op_ok op (List.length args) /\ Forall kok args.
Proof.
  cbn [kok]. assert (H : (fix go l := match l with [] => True | x :: l' => kok x /\ go l' end) args
                          <-> Forall kok args).
  { induction args as [|x l IH]; [split; auto|]. rewrite Forall_cons_iff, <- IH. reflexivity. }
  now rewrite H.
Qed.
Fixpoint rok (e : rcore) : Prop :=
  match e with
  | RConst v => in_range v
  | RVar _ | RSlot _ _ | RLazy _ _ => True
  | RLogic _ a b | ROr _ a b => rok a /\ rok b
  | RCond c a b => rok c /\ rok a /\ rok b
  | RApp op args =>
      op_ok op (List.length args) /\
      (fix go l := match l with [] => True | x :: l' => rok x /\ go l' end) args
  | RComp _ _ _ r i c s b => rok r /\ rok i /\ rok c /\ rok s /\ rok b
  | RBind _ _ i b => rok i /\ rok b
  end.
Lemma rok_app op args : rok (RApp op args) <-> op_ok op (List.length args) /\ Forall rok args.
Proof.
  cbn [rok]. assert (H : (fix go l := match l with [] => True | x :: l' => rok x /\ go l' end) args
                          <-> Forall rok args).
  { induction args as [|x l IH]; [split; auto|]. rewrite Forall_cons_iff, <- IH. reflexivity. }
  now rewrite H.
Qed.
Lemma alloc_rok e : forall ii scp s r s', alloc ii scp e s = (r, s') -> kok e -> rok r.
Proof.
  induction e using core_ind'; intros ii scp s r s' H0 Hk; try rewrite alloc_app in H0;
    cbn [alloc] in H0.
  - injection H0 as <- <-. exact Hk.
  - destruct (lookup_slot scp n) as [[k|k i]|]; injection H0 as <- <-; exact I.
  - injection H0 as <- <-. exact I.
  - pair_destruct. injection H0 as <- <-. destruct Hk. cbn [rok]. repeat split; eauto.
  - pair_destruct. injection H0 as <- <-. destruct Hk as (?&?&?). cbn [rok]. repeat split; eauto.
  - pair_destruct. injection H0 as <- <-. destruct Hk. cbn [rok]. repeat split; eauto.
  - pair_destruct. injection H0 as <- <-. apply kok_app in Hk. destruct Hk as [Hq Hk].
    apply rok_app.
    assert (G : List.length r0 = List.length args /\ Forall rok r0).
    { clear Hq. revert s r0 s0 E. induction H as [|x l Hx Hl IH]; intros s r0 s0 E; cbn [alloc_list] in E.
      + injection E as <- <-. auto.
      + fold (alloc_list ii scp) in E. pair_destruct. injection E as <- <-.
        apply Forall_cons_iff in Hk. destruct Hk as [H1 H2].
        destruct (IH H2 _ _ _ E1) as [H3 H4]. cbn [List.length]. split; [auto|].
        constructor; eauto. }
    destruct G as [-> G]. auto.
  - cbv zeta in H0. pair_destruct. injection H0 as <- <-. destruct Hk as (?&?&?&?&?). cbn [rok].
    repeat split; eauto.
  - cbv zeta in H0. pair_destruct. injection H0 as <- <-. destruct Hk. cbn [rok]. repeat split; eauto.
Qed.

(* what the planner makes of an expression *)
Section Elaborate.
  Variable O : options.
  Variable R : registry.
  Hypothesis HR : Forall overload_ok R.
  Lemma chain_kok op args : forall a, kok a -> Forall kok args -> kok (logic_chain op a args).
  Proof.
    induction args as [|b args IH]; intros a Ha Hb; cbn [logic_chain]; [exact Ha|].
    apply Forall_cons_iff in Hb. destruct Hb as [Hb Hc]. apply IH; [|exact Hc]. now split.
  Qed.
  Lemma resolved_call_kok fn rcv args k : Forall kok args ->
    resolved_call O R fn rcv args = Val k -> kok k.
  Proof.
    intros Ha. unfold resolved_call.
    assert (H : forall ovs, incl ovs R -> kok (KApp (OCall fn rcv ovs) args)).
    { intros ovs Hi. apply kok_app. split; [|exact Ha]. cbn [op_ok].
      rewrite Forall_forall in *. intros x Hx. apply HR. now apply Hi. }
    assert (Hinc : incl (FindStaticOverloadsByArity R fn rcv (List.length args)) R).
    { unfold FindStaticOverloadsByArity, named. intros x Hx. now apply filter_In, proj1, filter_In, proj1 in Hx. }
    destruct (FindStaticOverloadsByArity R fn rcv (List.length args)) as [|o l].
    - destruct (o_fail_on_warnings O); [discriminate|]. intros [= <-]. apply H. intros x [].
    - intros [= <-]. now apply H.
  Qed.
  Lemma plan_call_kok fn rcv args k : Forall kok args ->
    plan_call O R fn rcv args = Val k -> kok k.
  Proof.
    intros Ha. unfold plan_call.
    assert (Hap : forall op, op_ok op (List.length args) -> kok (KApp op args))
      by (intros op Ho; apply kok_app; auto).
    destruct (_ || _).
    { destruct rcv; [discriminate|]. destruct args as [|a [|b args]]; [discriminate..|].
      intros [= <-]. apply Forall_cons_iff in Ha. destruct Ha as [Ha1 Ha2]. exact (chain_kok _ (b :: args) a Ha1 Ha2). }
    destruct (String.eqb fn "_?_:_").
    { destruct rcv; [discriminate|]. destruct args as [|a [|b [|c [|d args]]]]; try discriminate.
      intros [= <-]. rewrite !Forall_cons_iff in Ha. cbn [kok]. tauto. }
    destruct (_ && _ && _ && _).
    { destruct args as [|a [|b [|c args]]]; try discriminate.
      intros [= <-]. rewrite !Forall_cons_iff in Ha. cbn [kok]. tauto. }
    destruct (String.eqb fn "_[_]").
    { destruct args as [|a [|b [|c args]]]; try discriminate. intros [= <-]. now apply Hap. }
    destruct (_ && _).
    { destruct rcv; [discriminate|]. destruct args as [|a [|b args]]; try discriminate.
      intros [= <-]. now apply Hap. }
    destruct (_ && String.eqb fn "!_").
    { destruct rcv; [discriminate|]. destruct args as [|a [|b args]]; try discriminate.
      intros [= <-]. now apply Hap. }
    destruct (_ && _ && is_in_name fn).
    { destruct rcv; [discriminate|]. destruct args as [|a [|b [|c args]]]; try discriminate.
      intros [= <-]. now apply Hap. }
    destruct (fast_equality O R && _).
    { destruct rcv; [discriminate|]. destruct args as [|a [|b [|c args]]]; try discriminate.
      intros [= <-]. now apply Hap. }
    now apply resolved_call_kok.
  Qed.
  Lemma elaborate_kok : forall e k, constants_ok e -> elaborate O R e = Val k -> kok k.
  Proof.
    fix IH 1.
    assert (IHL : forall l ks, (fix go l := match l with [] => True | a :: l' => constants_ok a /\ go l' end) l ->
              map_out (elaborate O R) l = Val ks -> Forall kok ks).
    { fix IHL 1. intros [|e l] ks Hc; cbn [map_out].
      - intros [= <-]. constructor.
      - destruct Hc as [Hc1 Hc2]. destruct (elaborate O R e) as [k|?|] eqn:E; cbn [obind]; try discriminate.
        fold (map_out (elaborate O R)). destruct (map_out (elaborate O R) l) as [ks'|?|] eqn:E2;
          cbn [obind]; try discriminate. intros [= <-]. constructor; [exact (IH e k Hc1 E)|].
        exact (IHL l ks' Hc2 E2). }
    destruct e as [v|name|a f t|fn target args|elems|ents|x x2 y r i c s b]; intros k Hc H;
      cbn [elaborate constants_ok] in *.
    - injection H as <-. exact Hc.
    - unfold plan_ident in H. destruct name as [|ch rest]; [discriminate|].
      destruct (Ascii.eqb ch _); injection H as <-; exact I.
    - destruct (String.eqb f ""); [discriminate|].
      destruct (elaborate O R a) as [k'|?|] eqn:E; cbn [obind] in H; try discriminate.
      injection H as <-. apply kok_app. split; [reflexivity|]. constructor; [exact (IH a k' Hc E)|constructor].
    - destruct Hc as [Ht Hc].
      assert (Htk : forall ts, match target with None => Val [] | Some x => obind (elaborate O R x) (fun a => Val [a]) end = Val ts -> Forall kok ts).
      { destruct target as [x|]; intros ts.
        - destruct (elaborate O R x) as [k'|?|] eqn:E; cbn [obind]; try discriminate.
          intros [= <-]. constructor; [exact (IH x k' Ht E)|constructor].
        - intros [= <-]. constructor. }
      destruct (match target with None => Val [] | Some x => _ end) as [ts|?|]; cbn [obind] in H; try discriminate.
      destruct (map_out (elaborate O R) args) as [cs|?|] eqn:E; cbn [obind] in H; try discriminate.
      eapply plan_call_kok; [|exact H]. apply Forall_app. split; [now apply Htk|].
      exact (IHL args cs Hc E).
    - assert (G : forall ks, map_out (fun p => elaborate O R (snd p)) elems = Val ks -> Forall kok ks).
      { clear H. revert elems Hc. fix IHE 1. intros [|[o e] l] Hc ks; cbn [map_out].
        - intros [= <-]. constructor.
        - destruct Hc as [Hc1 Hc2]. cbn [snd].
          destruct (elaborate O R e) as [k'|?|] eqn:E; cbn [obind]; try discriminate.
          fold (map_out (fun p : bool * expr => elaborate O R (snd p))).
          destruct (map_out (fun p : bool * expr => elaborate O R (snd p)) l) as [ks'|?|] eqn:E2;
            cbn [obind]; try discriminate. intros [= <-]. constructor; [exact (IH e k' Hc1 E)|].
          exact (IHE l Hc2 ks' E2). }
      destruct (map_out _ elems) as [cs|?|]; cbn [obind] in H; try discriminate. injection H as <-.
      apply kok_app. split; [exact I|now apply G].
    - assert (G : forall kss, map_out (fun p => obind (elaborate O R (fst (snd p))) (fun k =>
                     obind (elaborate O R (snd (snd p))) (fun v => Val [k; v]))) ents = Val kss ->
                   Forall kok (List.concat kss)).
      { clear H. revert ents Hc. fix IHE 1. intros [|[o [e1 e2]] l] Hc ks; cbn [map_out].
        - intros [= <-]. constructor.
        - destruct Hc as (Hc1 & Hc2 & Hc3). cbn [snd fst].
          destruct (elaborate O R e1) as [k1|?|] eqn:E1; cbn [obind]; try discriminate.
          destruct (elaborate O R e2) as [k2|?|] eqn:E2; cbn [obind]; try discriminate.
          match goal with |- obind ?o _ = _ -> _ => destruct o as [ks'|?|] eqn:E3 end;
            cbn [obind]; try discriminate. intros [= <-]. cbn [List.concat List.app].
          constructor; [exact (IH e1 k1 Hc1 E1)|]. constructor; [exact (IH e2 k2 Hc2 E2)|].
          exact (IHE l Hc3 ks' E3). }
      destruct (map_out _ ents) as [cs|?|]; cbn [obind] in H; try discriminate. injection H as <-.
      apply kok_app. split; [exact I|now apply G].
    - destruct Hc as (Hr & Hi & Hcd & Hs & Hb).
      destruct (check_comprehension x x2 y); cbn [obind] in H; try discriminate.
      destruct (IsBind x x2 r c).
      + destruct (elaborate O R i) as [k1|?|] eqn:E1; cbn [obind] in H; try discriminate.
        destruct (elaborate O R b) as [k2|?|] eqn:E2; cbn [obind] in H; try discriminate.
        injection H as <-. split; [exact (IH i k1 Hi E1)|exact (IH b k2 Hb E2)].
      + destruct (elaborate O R r) as [k0|?|] eqn:E0; cbn [obind] in H; try discriminate.
        destruct (elaborate O R i) as [k1|?|] eqn:E1; cbn [obind] in H; try discriminate.
        destruct (elaborate O R c) as [k2|?|] eqn:E2; cbn [obind] in H; try discriminate.
        destruct (elaborate O R s) as [k3|?|] eqn:E3; cbn [obind] in H; try discriminate.
        destruct (elaborate O R b) as [k4|?|] eqn:E4; cbn [obind] in H; try discriminate.
        injection H as <-. exact (conj (IH r k0 Hr E0) (conj (IH i k1 Hi E1) (conj (IH c k2 Hcd E2)
          (conj (IH s k3 Hs E3) (IH b k4 Hb E4))))).
  Qed.
End Elaborate.

(* ---- evaluation ---- *)

Definition oks (s : est) : Prop := forall n x, e_slots s n = Some x -> okx x.
Definition okr (r : res vt) : Prop :=
  match r with RVal x s => okx x /\ oks s | RErr _ _ | RFault _ => True | RUB => False end.
Definition okrl (r : res (list vt)) : Prop :=
  match r with RVal l s => Forall okx l /\ oks s | RErr _ _ | RFault _ => True | RUB => False end.

Lemma oks_set n x s : okx x -> oks s -> oks (set_slot n x s).
Proof. intros Hx Hs m y. cbn [set_slot e_slots]. unfold slot_set. destruct (Nat.eqb m n); [congruence|apply Hs]. Qed.
Lemma oks_clear n s : oks s -> oks (clear_slot n s).
Proof. intros Hs m y. cbn [clear_slot e_slots]. unfold slot_set. destruct (Nat.eqb m n); [discriminate|apply Hs]. Qed.
Lemma oks_same s s' : e_slots s' = e_slots s -> oks s -> oks s'.
Proof. unfold oks. now intros ->. Qed.
Lemma okr_bind (r : res vt) k : okr r -> (forall x s, okx x -> oks s -> okr (k x s)) -> okr (rbind r k).
Proof. destruct r; cbn [rbind okr]; auto. intros [H1 H2] H. now apply H. Qed.

Lemma items_range (l : list value) : Forall in_range l -> forall i,
  Forall (fun kv => in_range (fst kv) /\ in_range (snd kv)) (list_items i l).
Proof.
  induction 1 as [|v l Hv Hl IH]; intros i; cbn [list_items]; constructor; auto.
  split; [|exact Hv]. cbn [fst]. split; [|exact I]. unfold index_value, node_in_range, in_int64.
  pose proof (Z.mod_pos_bound (i + 2 ^ 63) (2 ^ 64) ltac:(reflexivity)). unfold int64_min, int64_max. lia.
Qed.
Lemma map_items_range m : in_range (VMap m) ->
  Forall (fun kv => in_range (fst kv) /\ in_range (snd kv)) (map_items m).
Proof.
  intros H. apply (proj1 (range_map _)) in H. unfold map_items. apply Forall_map.
  eapply Forall_impl; [|exact H]. intros [k v] [Hk Hv]. split; [now apply key_range|exact Hv].
Qed.
Lemma comp_init_range C x r : okx x -> comp_init C x = inl r -> okx r.
Proof.
  intros Hx. unfold comp_init, okx in *. destruct (fst x) eqn:E; intros H;
    try (injection H as <-; cbn [fst]; auto; now rewrite E).
  - discriminate.
  - destruct (unknown_partial C (snd x)) eqn:E2; [|discriminate]. injection H as <-.
    eapply partial_range; eauto.
Qed.
Lemma comp_init_items C x b items : okx x -> comp_init C x = inr (b, items) ->
  Forall (fun kv => in_range (fst kv) /\ in_range (snd kv)) items.
Proof.
  unfold comp_init, okx. destruct (fst x) eqn:E; intros Hx H; try discriminate.
  - injection H as <- <-. apply items_range. now apply (proj1 (range_list _)).
  - destruct (unknown_partial C (snd x)); [discriminate|]. injection H as <- <-. now apply map_items_range.
Qed.
Lemma iter_range C it it2 b t kv s : in_range (fst kv) -> in_range (snd kv) -> oks s ->
  oks (set_iter C it it2 b t kv s).
Proof.
  intros Hk Hv Hs. unfold set_iter. destruct (Nat.eqb it it2).
  - apply oks_set; [|exact Hs]. unfold iter_one, okx.
    assert (H : in_range (if b then fst kv else snd kv)) by (destruct b; auto).
    destruct (unk C); [|exact H]. destruct (unknown_exact C _) eqn:E; [|exact H].
    exact (exact_range _ _ _ E).
  - destruct (iter_two C t kv) as [x y] eqn:E. unfold iter_two in E.
    assert (H : okx x /\ okx y).
    { unfold okx. destruct (unk C).
      - injection E as <- <-. split; [exact Hk|]. destruct (unknown_exact C _) eqn:E; [|exact Hv].
        exact (exact_range _ _ _ E).
      - injection E as <- <-. now split. }
    apply oks_set; [apply H|]. apply oks_set; [apply H|exact Hs].
Qed.
Lemma clear_iter_ok it it2 s : oks s -> oks (clear_iter it it2 s).
Proof. intros H. unfold clear_iter. destruct (Nat.eqb it it2); repeat apply oks_clear; auto. Qed.
Lemma calc_range u op a b : in_range a -> in_range b -> in_range (Calculate u op a b).
Proof.
  intros Ha Hb. unfold Calculate.
  assert (Hm : in_range (match (if u then MergeUnknowns [a; b] else None) with
        | Some s => VUnknown s
        | None => if is_error a then a else if is_error b then b
                  else VError (no_matching_overload (op_name op)) end)).
  { destruct (if u then _ else _); auto. destruct (is_error a); auto. destruct (is_error b); auto. }
  destruct a; cbv zeta; destruct b; try (destruct (Bool.eqb _ _)); try (destruct (Bool.eqb _ _));
    try exact Hm; exact (range_bool _).
Qed.
Lemma ternary_range C c a b : okx c -> okx a -> okx b -> okx (TernaryStep C c a b).
Proof.
  unfold okx, TernaryStep. intros Hc Ha Hb. destruct (_ || _); [exact Hc|].
  destruct (fst c) as [|[]| | | | | | | | | | | | |]; cbn [fst]; auto.
Qed.
Lemma or_range k a b : okx a -> okx b -> okx (EvalOptionalOr k a b).
Proof.
  unfold okx, EvalOptionalOr. intros Ha Hb.
  destruct (fst a) eqn:Ea; try exact (range_error _); try (rewrite Ea; exact Ha).
  destruct o as [v|].
  - apply (proj1 (range_some _)) in Ha. destruct k; [exact Ha|]. rewrite Ea. now apply (proj2 (range_some _)).
  - destruct (fst b) eqn:Eb; try (rewrite Eb; exact Hb);
      (destruct k; [rewrite Eb; exact Hb|exact (range_error _)]).
Qed.
Lemma jump_range k a r : okx a -> OptionalJump k a = Some r -> okx r.
Proof.
  unfold OptionalJump, okx. intros Ha. destruct (fst a) eqn:E; try discriminate.
  - destruct o as [v|]; [|discriminate]. intros [= <-]. destruct k; [|now rewrite E].
    now apply (proj1 (range_some _)) in Ha.
  - intros [= <-]. now rewrite E.
  - intros [= <-]. now rewrite E.
Qed.
Lemma check_range a r : okx a -> BoolCheck a = Some r -> okx r.
Proof.
  unfold BoolCheck, okx. intros Ha. destruct (fst a) eqn:E; try discriminate; intros [= <-];
    try exact (range_error _); rewrite E; exact Ha.
Qed.

Section Run.
  Variable C : config.
  Hypothesis Hvars : forall x, match cf_vars C x with Val (Some v) => in_range v | UB => False | _ => True end.
  Hypothesis Hmaps : forall m, Permutation (cf_reorder C m) m.
  Lemma ident_ok name : okvt (LookupIdent C name).
  Proof.
    unfold LookupIdent. destruct (unknown_exact C _) eqn:E; [exact (exact_range _ _ _ E)|].
    specialize (Hvars name). destruct (cf_vars C name) as [[v|]|?|]; cbn [obind okvt]; auto.
    exact (range_error _).
  Qed.
  Lemma lift_ok o s : okvt o -> oks s -> okr (rlift o s).
  Proof. destruct o; cbn [okvt rlift okr]; auto. Qed.

  Lemma loop_ok it it2 ac b t fc fs
    (Hc : forall s, oks s -> okr (fc s)) (Hs : forall s, oks s -> okr (fs s)) items :
    Forall (fun kv => in_range (fst kv) /\ in_range (snd kv)) items ->
    forall accu s, okx accu -> oks s ->
    match sloop C it it2 ac b t fc fs items accu s with
    | RVal (Some x) s' => okx x /\ oks s'
    | RVal None s' => oks s'
    | RErr _ _ | RFault _ => True
    | RUB => False
    end.
  Proof.
    induction 1 as [|kv items [Hk Hv] Hi IH]; intros accu s Ha Ho; cbn [sloop].
    - apply clear_iter_ok. now apply oks_set.
    - destruct (IncrementIterations C (set_slot ac accu s)) as [u s1|?|?|] eqn:E; cbn [rbind]; auto.
      2: unfold IncrementIterations in E; destruct (_ =? _) in E; [discriminate|]; destruct (_ <=? _) in E; discriminate.
      assert (G : oks s1).
      { apply (oks_same (set_slot ac accu s)); [|now apply oks_set]. unfold IncrementIterations in E.
        destruct (_ =? _) in E; [now injection E as <- <-|]. destruct (_ <=? _) in E; [discriminate|].
        now injection E as <- <-. }
      assert (G2 : oks (set_iter C it it2 b t kv (count_loop s1)))
        by (apply iter_range; auto).
      specialize (Hc _ G2). destruct (fc _) as [c s2|?|?|]; cbn [rbind okr] in *; auto.
      destruct Hc as [Hc1 Hc2].
      assert (Hgo : match rbind (fs s2) (fun a s3 => sloop C it it2 ac b t fc fs items a s3) with
           | RVal (Some x) s' => okx x /\ oks s'
           | RVal None s' => oks s'
           | RErr _ _ | RFault _ => True
           | RUB => False
           end).
      { specialize (Hs _ Hc2). destruct (fs s2) as [a s3|?|?|]; cbn [rbind okr] in *; auto.
        destruct Hs. now apply IH. }
      assert (Hcl : oks (clear_slot ac (clear_iter it it2 s2))) by (apply oks_clear; now apply clear_iter_ok).
      unfold loop_condition. unfold okx in Hc1.
      destruct (fst c) eqn:Ec; try (split; [|exact Hcl]; first [exact (range_error _)|unfold okx; now rewrite Ec]).
      destruct (_ && _); [exact Hc2|exact Hgo].
  Qed.

  Lemma seval_ok n subs r : forall L lz s,
    wf n subs L r -> rok r -> oks s -> (forall i, In i L -> forall s, oks s -> okr (lz i s)) ->
    okr (seval C r lz s).
  Proof.
    induction r using rcore_ind'; intros L0 lz s Hw Hr Ho Hl; cbn [seval].
    - split; [exact Hr|exact Ho].
    - apply lift_ok; [apply ident_ok|exact Ho].
    - unfold read_slot. destruct (e_slots s n0) eqn:E; [|exact I]. split; [eapply Ho; eauto|exact Ho].
    - destruct (e_slots s n0) eqn:E; [split; [eapply Ho; eauto|exact Ho]|]. destruct Hw as [_ Hi].
      apply okr_bind; [apply Hl; auto|]. intros x s1 Hx Hs. split; [exact Hx|now apply oks_set].
    - destruct Hw, Hr. apply okr_bind; [eauto|]. intros x s1 Hx Hs.
      destruct (_ && _); [now split|]. apply okr_bind; [eauto|]. intros y s2 Hy Hs2.
      split; [|exact Hs2]. now apply calc_range.
    - destruct Hw as (?&?&?), Hr as (?&?&?). apply okr_bind; [eauto|]. intros x s1 Hx Hs.
      destruct (sc C).
      + destruct (BoolCheck x) eqn:E; [split; [eapply check_range; eauto|exact Hs]|].
        destruct (is_true (fst x)); eauto.
      + apply okr_bind; [eauto|]. intros y s2 Hy Hs2. apply okr_bind; [eauto|]. intros z s3 Hz Hs3.
        split; [now apply ternary_range|exact Hs3].
    - destruct Hw, Hr. apply okr_bind; [eauto|]. intros x s1 Hx Hs.
      destruct (if sc C then _ else _) eqn:E.
      + destruct (sc C); [|discriminate]. split; [eapply jump_range; eauto|exact Hs].
      + apply okr_bind; [eauto|]. intros y s2 Hy Hs2. split; [now apply or_range|exact Hs2].
    - fold (seval_list (fun x => seval C x lz)). apply (wf_app n subs L0 op) in Hw.
      apply (rok_app op) in Hr. destruct Hr as [Hq Hr].
      assert (G : match seval_list (fun x => seval C x lz) args s with
                  | RVal l s' => (Forall okx l /\ oks s') /\ List.length l = List.length args
                  | RErr _ _ | RFault _ => True | RUB => False end).
      { clear Hq. revert s Ho. induction H as [|x l Hx Hls IH]; intros s Ho; cbn [seval_list]; [auto|].
        fold (seval_list (fun x => seval C x lz)).
        apply Forall_cons_iff in Hw. apply Forall_cons_iff in Hr. destruct Hw as [Hw1 Hw2], Hr as [Hr1 Hr2].
        specialize (Hx L0 lz s Hw1 Hr1 Ho Hl). destruct (seval C x lz s) as [v s1|?|?|]; cbn [rbind okr] in *; auto.
        destruct Hx as [Hv Hs1]. specialize (IH Hw2 Hr2 s1 Hs1).
        destruct (seval_list _ l s1) as [vs s2|?|?|]; cbn [rbind okr] in *; auto.
        destruct IH as [[? ?] ?]. cbn [List.length]. repeat split; auto. }
      destruct (seval_list _ args s) as [vs s1|?|?|]; cbn [rbind okr] in *; auto.
      destruct G as [[G1 G2] G3]. unfold do_op. apply lift_ok.
      + apply apply_ok; auto. now rewrite G3.
      + eapply oks_same; [|exact G2]. reflexivity.
    - destruct Hw as (_&?&?&?&?&?), Hr as (?&?&?&?&?). apply okr_bind; [eauto|]. intros rv s1 Hx Hs1.
      destruct (comp_init C rv) as [v|[b items]] eqn:E; [split; [eapply comp_init_range; eauto|exact Hs1]|].
      apply okr_bind; [eauto|]. intros iv s2 Hx2 Hs2.
      match goal with |- okr (rbind (sloop C ?i1 ?i2 ?a ?b ?t ?fc ?fs ?it ?ac ?s) _) =>
        pose proof (loop_ok i1 i2 a b t fc fs ltac:(eauto) ltac:(eauto) it
          (comp_init_items _ _ _ _ Hx E) ac s Hx2 Hs2) as G;
        destruct (sloop C i1 i2 a b t fc fs it ac s) as [[o|] s3|?|?|] end; cbn [rbind okr]; auto.
      apply okr_bind; [eauto|]. intros x s4 Hx4 Hs4. split; [exact Hx4|now apply oks_clear].
    - destruct Hw as (_&_&?&?), Hr. apply okr_bind.
      + eapply IHr2; eauto. intros j Hj s1 Hs1. unfold set_lz. destruct (Nat.eqb_spec j i).
        * eapply IHr1; eauto. 
        * apply Hl; auto. destruct Hj; [congruence|auto].
      + intros x s1 Hx Hs1. split; [exact Hx|now apply oks_clear].
  Qed.
  Lemma resolved_ok e : kok e -> okr (seval C (resolved e) no_lazy est_init).
  Proof.
    intros Hk. unfold resolved.
    destruct (alloc false [] e (mkAlloc 0 0 [])) as [r s'] eqn:E. cbn [fst].
    eapply (seval_ok (al_max s') (al_subs s') r []).
    - eapply alloc_wf; [exact E|unfold sane; cbn; lia|constructor].
    - eapply alloc_rok; eauto.
    - intros n x H. discriminate H.
    - intros i [].
  Qed.
End Run.
