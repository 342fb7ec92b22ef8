(* Property theorems C14-C18 and C44: equality, maps, membership, indexing. *)
From Coq Require Import ZArith QArith List Bool Lia ZifyBool String Permutation.
From Verif Require Import Base M_Overflow M_Number M_Attr M_Value S_Num S_Value L_Value.
Import ListNotations.
Local Open Scope string_scope.
Open Scope list_scope.
Open Scope Z_scope.

(* {1: [true, "hi", null], "k": optional.of(2u)} *)
Definition sample_value : value :=
  VMap [(KInt 1, VList [VBool true; VString [104; 105]; VNull]);
        (KString [107], VOptional (Some (VUint 2)))].
(* {1u: ...} with the entries in the other order *)
Definition sample_value' : value :=
  VMap [(KString [107], VOptional (Some (VInt 2)));
        (KUint 1, VList [VBool true; VString [104; 105]; VNull])].
Ltac ok_value := cbv [value_ok nan_free unambiguous no_uint_keys plain_optionals plain_optional everywhere
    node_ok not_nan distinct_ids no_uint_key];
  cbn; repeat (split || constructor); cbn; try discriminate; intuition discriminate.
Lemma sample_ok : value_ok sample_value /\ value_ok sample_value' /\
  nan_free sample_value /\ unambiguous sample_value /\ unambiguous sample_value' /\
  plain_optionals sample_value /\ plain_optionals sample_value'.
Proof. split; [|split; [|split; [|split; [|split; [|split]]]]]; ok_value. Qed.

(* ------------------------------------------------------------------ C14 *)
(* In both modes of the equality operators, and for the equality that list
   membership uses. *)
Theorem C14_equality_reflexive : forall v, value_ok v -> nan_free v ->
  EvaluateEquality false v v = Val (VBool true) /\
  EvaluateEquality true v v = Val (VBool false) /\
  (forall h, EqualImpl h v v = Val (Some true)) /\
  ValueEqual v v = true.
Proof.
  intros v Hv Nv. assert (E : is_error v = false). { destruct v; auto. destruct Hv as [[] _]. }
  unfold EvaluateEquality, ValueEqualImpl. rewrite E, (EqualImpl_refl true) by auto.
  repeat split; auto; intros; [apply EqualImpl_refl|apply ValueEqual_refl]; auto.
Qed.
Print Assumptions C14_equality_reflexive.
Example C14_example : value_ok sample_value /\ nan_free sample_value /\
  EvaluateEquality false sample_value sample_value = Val (VBool true).
Proof. destruct sample_ok as (A & _ & B & _). split; [exact A|]. split; [exact B|]. vm_compute. reflexivity. Qed.
(* the hypothesis is needed *)
Theorem C14_nan_not_equal : forall d, valid_double d = true -> double_value d = None ->
  EvaluateEquality false (VDouble d) (VDouble d) = Val (VBool false).
Proof.
  intros d _ N. unfold EvaluateEquality, ValueEqualImpl. cbn [is_error EqualImpl].
  destruct d; cbn in N; try discriminate; reflexivity.
Qed.
Print Assumptions C14_nan_not_equal.

(* ------------------------------------------------------------------ C15 *)
Theorem C15_equality_symmetric_partial : forall a b, value_ok a -> value_ok b ->
  unambiguous a -> unambiguous b -> forall negation,
  EvaluateEquality negation a b = EvaluateEquality negation b a.
Proof.
  intros a b Ha Hb Ua Ub negation. unfold EvaluateEquality, ValueEqualImpl.
  assert (E1 : is_error a = false). { destruct a; auto. destruct Ha as [[] _]. }
  assert (E2 : is_error b = false). { destruct b; auto. destruct Hb as [[] _]. }
  rewrite E1, E2. f_equal. now apply EqualImpl_sym.
Qed.
Print Assumptions C15_equality_symmetric_partial.
Example C15_example : value_ok sample_value /\ value_ok sample_value' /\ unambiguous sample_value /\
  unambiguous sample_value' /\ EvaluateEquality false sample_value sample_value' = Val (VBool true).
Proof. destruct sample_ok as (A & B & _ & C & D & _). repeat (split; [assumption|]). vm_compute. reflexivity. Qed.

(* The equality that list membership uses is symmetric without exception. *)
Theorem C15_contains_equality_symmetric_partial : forall a b, value_ok a -> value_ok b ->
  ValueEqual a b = ValueEqual b a.
Proof. exact ValueEqual_sym. Qed.
Print Assumptions C15_contains_equality_symmetric_partial.

(* {1: "a", 1u: "a"} == {1: "a", 2: "b"} is true, the other way round false. *)
Theorem C15_equality_symmetric_refuted : exists a b, value_ok a /\ value_ok b /\
  EvaluateEquality false a b = Val (VBool true) /\ EvaluateEquality false b a = Val (VBool false).
Proof.
  exists (VMap [(KInt 1, VString [97]); (KUint 1, VString [97])]),
         (VMap [(KInt 1, VString [97]); (KInt 2, VString [98])]).
  split; [ok_value|]. split; [ok_value|]. split; vm_compute; reflexivity.
Qed.
Print Assumptions C15_equality_symmetric_refuted.

(* ------------------------------------------------------------------ C16 *)
(* What may be put in a map: a key of a key kind and a value that is neither an
   error nor unknown. *)
Definition valid_entry (e : value * value) : Prop :=
  (match fst e with VBool _ | VInt _ | VUint _ | VString _ => True | _ => False end) /\
  (match snd e with VError _ | VUnknown _ => False | _ => True end).

Lemma valid_good e : valid_entry e <-> good_entry e.
Proof.
  unfold valid_entry, good_entry. destruct e as [k v]. cbn [fst snd]. split.
  - intros [A B]. destruct k; try tauto; cbn; destruct v; cbn in *; try tauto; repeat split; congruence.
  - intros (A & B & C). destruct k; cbn in A; try congruence; destruct v; cbn in *; try congruence; auto.
Qed.
Lemma key_value k key : key_of_value k = Some key -> value_of_key key = k.
Proof. destruct k; cbn; try discriminate; intros [= <-]; reflexivity. Qed.
Lemma value_key key : key_of_value (value_of_key key) = Some key.
Proof. destruct key; reflexivity. Qed.

Lemma entries_back new kvs :
  map (fun e : mkey * value => Some (fst e)) new = map (fun e => key_of_value (fst e)) kvs ->
  map snd new = map snd kvs ->
  map (fun e => (value_of_key (fst e), snd e)) new = kvs.
Proof.
  revert kvs. induction new as [|[k v] new IH]; intros [|[k' v'] kvs]; cbn; try discriminate; auto.
  intros [= A B] [= C D]. rewrite (IH kvs) by auto. rewrite (key_value k' k); auto. now rewrite C.
Qed.

Lemma keys_distinct (kvs : list (value * value)) : Forall valid_entry kvs -> NoDup (map fst kvs) ->
  NoDup (map (fun e => key_of_value (fst e)) kvs).
Proof.
  induction kvs as [|[k v] kvs IH]; cbn; intros V N; [constructor|].
  apply Forall_cons_iff in V as [[K _] V]. apply NoDup_cons_iff in N as [N1 N2]. constructor; auto.
  intros I. apply in_map_iff in I as ([k2 v2] & E & I2). cbn [fst] in *. apply N1.
  apply in_map_iff. exists (k2, v2). split; auto. cbn. destruct k; try destruct K; cbn in E;
    apply key_value in E; rewrite <- E; reflexivity.
Qed.

(* For every choice of iteration order. *)
Theorem C16_map_build : forall reorder kvs,
  (forall l, Permutation l (reorder l)) ->
  match MapBuild reorder kvs with
  | UB => False
  | Err _ => ~ (Forall valid_entry kvs /\ NoDup (map fst kvs))
  | Val v =>
      Forall valid_entry kvs /\ NoDup (map fst kvs) /\
      exists m, v = VMap m /\
        Permutation (map (fun e => (value_of_key (fst e), snd e)) m) kvs /\
        List.length m = List.length kvs /\ NoDup (map fst m) /\
        (forall k w, In (k, w) kvs ->
           MapFind m k = Some w /\ MapGet m k = w /\ MapHas m k = VBool true) /\
        (forall k, valid_entry (k, VNull) -> ~ In k (map fst kvs) ->
           MapFind m k = None /\ MapGet m k = VError no_such_key /\ MapHas m k = VBool false)
  end.
Proof.
  intros reorder kvs P. unfold MapBuild.
  destruct (MapPutAll [] kvs) as [m0|s|] eqn:E; cbn [obind].
  - destruct (MapPutAll_val kvs [] m0 E) as (new & -> & K & V & G & N). cbn [app] in *.
    specialize (N (NoDup_nil _)). pose proof (entries_back new kvs K V) as Back.
    assert (G' : Forall valid_entry kvs) by (eapply Forall_impl; [|exact G]; intros; now apply valid_good).
    assert (Nk : NoDup (map fst kvs)).
    { rewrite <- Back, map_map. cbn [fst]. rewrite <- (map_map fst value_of_key).
      apply FinFun.Injective_map_NoDup; auto. intros a b Hab. apply (f_equal key_of_value) in Hab.
      rewrite !value_key in Hab. congruence. }
    split; auto. split; auto. exists (reorder new). split; auto.
    assert (Pm : Permutation (map (fun e => (value_of_key (fst e), snd e)) (reorder new)) kvs).
    { rewrite <- Back. apply Permutation_map, Permutation_sym, P. }
    split; auto. split. { apply Permutation_length in Pm. rewrite map_length in Pm. auto. }
    assert (Nm : NoDup (map fst (reorder new))).
    { eapply Permutation_NoDup; [|exact N]. apply Permutation_map, P. }
    split; auto. split.
    + intros k w I. apply (Permutation_in _ (Permutation_sym Pm)) in I.
      apply in_map_iff in I as ([key w'] & [= <- <-] & I). cbn [fst snd].
      apply in_find_key in I; auto.
      unfold MapFind, MapGet, MapHas. destruct key; cbn [value_of_key key_of_value]; rewrite I; auto.
    + intros k [Vk _] I. assert (exists key, key_of_value k = Some key) as (key & Kk).
      { cbn in Vk. destruct k; try destruct Vk; cbn; eauto. }
      assert (F : find_key key (reorder new) = None).
      { apply find_key_none. intros I'. apply I. apply (Permutation_in _ (Permutation_map fst Pm)).
        rewrite map_map. cbn [fst]. apply in_map_iff in I' as (e & <- & Ie).
        apply in_map_iff. exists e. split; auto. now apply key_value. }
      unfold MapFind, MapGet, MapHas. destruct k; cbn in Kk; try discriminate; injection Kk as <-;
        cbn [key_of_value]; rewrite F; auto.
  - intros [G N]. destruct (MapPutAll_ok kvs []) as [m' E']; [| |congruence].
    + eapply Forall_impl; [|exact G]. intros; now apply valid_good.
    + cbn [map app]. now apply keys_distinct.
  - revert E. enough (H : forall m, MapPutAll m kvs <> UB) by (apply H).
    induction kvs as [|[k v] kvs IH]; cbn [MapPutAll]; [discriminate|].
    intros m. pose proof (MapPut_out m k v). destruct (MapPut m k v); cbn [obind]; congruence || apply IH.
Qed.
Print Assumptions C16_map_build.
Example C16_example : exists m, MapBuild (@rev _) [(VInt 1, VNull); (VUint 1, VBool true); (VString [97], VNull)]
    = Val (VMap m) /\ List.length m = 3%nat /\
  (exists s, MapBuild (@rev _) [(VInt 1, VNull); (VInt 1, VBool true)] = Err s) /\
  (exists s, MapBuild (@rev _) [(VList [], VNull)] = Err s).
Proof. eexists. split; [vm_compute; reflexivity|]. split; [reflexivity|]. split; eexists; vm_compute; reflexivity. Qed.

(* ------------------------------------------------------------------ C17 *)
(* Membership in a list always answers, and only says yes for a reason. *)
Theorem C17_in_list_sound : forall x l, value_ok x -> value_ok (VList l) ->
  exists b, EvaluateIn x (VList l) = Val (VBool b) /\
    (b = true -> exists e, In e l /\ EvaluateEquality false e x = Val (VBool true)).
Proof.
  intros x l Hx Hl. assert (Ex : is_error x = false) by (destruct x; auto; destruct Hx as [[] _]).
  unfold EvaluateIn. rewrite Ex. cbn [is_error]. eexists. split; [reflexivity|].
  unfold ListContains. intros H. apply existsb_exists in H as (e & I & E). exists e. split; auto.
  pose proof (everywhere_list_in _ _ _ Hl I) as He.
  apply ValueEqual_heq in E; auto. unfold EvaluateEquality, ValueEqualImpl. rewrite Ex.
  assert (Ee : is_error e = false) by (destruct e; auto; destruct He as [[] _]). rewrite Ee, E. reflexivity.
Qed.
Print Assumptions C17_in_list_sound.

(* and for exactly that reason when no map inside has a uint key *)
Theorem C17_in_list_partial : forall x l, value_ok x -> value_ok (VList l) ->
  no_uint_keys x -> no_uint_keys (VList l) ->
  exists b, EvaluateIn x (VList l) = Val (VBool b) /\
    (b = true <-> exists e, In e l /\ EvaluateEquality false e x = Val (VBool true)).
Proof.
  intros x l Hx Hl Ux Ul. destruct (C17_in_list_sound x l Hx Hl) as (b & E & B). exists b. split; auto.
  split; auto. intros (e & I & Q). unfold EvaluateIn in E.
  assert (Ex : is_error x = false) by (destruct x; auto; destruct Hx as [[] _]).
  rewrite Ex in E. cbn [is_error] in E. injection E as <-. apply existsb_exists. exists e. split; auto.
  pose proof (everywhere_list_in _ _ _ Hl I) as He.
  apply heq_ValueEqual; auto. { exact (everywhere_list_in _ _ _ Ul I). }
  unfold EvaluateEquality, ValueEqualImpl in Q. rewrite Ex in Q.
  assert (Ee : is_error e = false) by (destruct e; auto; destruct He as [[] _]). rewrite Ee in Q.
  unfold heq. destruct (EqualImpl true e x) as [[[]|]| |]; cbn in Q; congruence.
Qed.
Print Assumptions C17_in_list_partial.
Example C17_example :
  EvaluateIn (VUint 2) (VList [VString [97]; VInt 2]) = Val (VBool true) /\
  EvaluateIn (VMap [(KInt 1, VInt 2)]) (VList [VMap [(KInt 1, VUint 2)]]) = Val (VBool true) /\
  EvaluateIn (VUint 3) (VList [VString [97]; VInt 2]) = Val (VBool false) /\
  no_uint_keys (VList [VMap [(KInt 1, VUint 2)]]).
Proof. repeat (split; [vm_compute; reflexivity|]). ok_value. Qed.

(* {1: 2} in [{1u: 2}] is false although {1u: 2} == {1: 2} is true *)
Theorem C17_in_list_refuted : exists x e, value_ok x /\ value_ok (VList [e]) /\
  EvaluateEquality false e x = Val (VBool true) /\ EvaluateIn x (VList [e]) = Val (VBool false).
Proof.
  exists (VMap [(KInt 1, VInt 2)]), (VMap [(KUint 1, VInt 2)]).
  split; [ok_value|]. split; [ok_value|]. split; vm_compute; reflexivity.
Qed.
Print Assumptions C17_in_list_refuted.

(* ------------------------------------------------------------------ C18 *)
(* Built-in membership and indexing, for every key kind and every map. *)
Theorem C18_in_map_and_index : forall k m, lookup_kind k -> value_ok k -> value_ok (VMap m) ->
  exists b, EvaluateIn k (VMap m) = Val (VBool b) /\
    (b = true <-> exists k', In k' (map fst m) /\ key_matches k k') /\
    (b = true -> exists k' v, In (k', v) m /\ key_matches k k' /\
       forall opt, PerformLookup true opt (VMap m) k = Val v) /\
    (b = false -> forall opt, PerformLookup true opt (VMap m) k = Val (VError no_such_key)) /\
    (* a key of the same kind takes precedence *)
    (forall k' v, value_of_key k' = k -> In (k', v) m -> forall opt, PerformLookup true opt (VMap m) k = Val v).
Proof.
  intros k m L Hk Hm. destruct (ok_map_keys _ Hm) as [Nd Kok].
  assert (Ek : is_error k = false) by (destruct k; auto; destruct L).
  destruct (EvaluateInMap_ok m k L (ok_node _ Hk) Kok) as (b & E & B). exists b.
  unfold EvaluateIn. rewrite Ek. cbn [is_error]. split; auto. split; auto.
  assert (PL : forall opt, PerformLookup true opt (VMap m) k = LookupInMap true m k).
  { intros opt. destruct k; try reflexivity; discriminate. }
  destruct (LookupInMap_ok m k L (ok_node _ Hk) Hm) as [(k' & v & I & M & R & U)|(N & R)].
  - assert (b = true). { apply B. exists k'. split; auto. apply in_map_iff. now exists (k', v). }
    split. { intros _. exists k', v. split; auto. split; auto. intros. now rewrite PL. }
    split. { congruence. }
    intros k2 w K2 I2 opt. rewrite PL, R. f_equal. symmetry. apply (U k2); auto. subst. apply value_key.
  - assert (b = false). { destruct b; auto. exfalso. apply N, B. reflexivity. }
    split; [congruence|]. split. { intros _ opt. now rewrite PL. }
    intros k2 w K2 I2 opt. exfalso. apply N. exists k2. split. { apply in_map_iff. now exists (k2, w). }
    subst k. destruct k2; cbn; auto; eexists; (split; [reflexivity|]);
      [apply denotes_NInt|apply denotes_NUint]; reflexivity.
Qed.
Print Assumptions C18_in_map_and_index.

(* The overloads registered when the built-in path is off. *)
Theorem C18_registered_in_map_partial : forall k m, lookup_kind k -> value_ok k -> value_ok (VMap m) ->
  (forall u, k <> VUint u) ->
  exists b, KeyInSet true k m = Val (VBool b) /\
    (b = true <-> exists k', In k' (map fst m) /\ key_matches k k').
Proof.
  intros k m L Hk Hm NU. destruct (ok_map_keys _ Hm) as [Nd Kok].
  exact (KeyInSet_ok m k L (ok_node _ Hk) Kok NU).
Qed.
Print Assumptions C18_registered_in_map_partial.
(* the uint overload only ever finds uint keys *)
Theorem C18_registered_in_map_uint_partial : forall u m, value_ok (VUint u) -> value_ok (VMap m) ->
  exists b, KeyInSet true (VUint u) m = Val (VBool b) /\ (b = true <-> In (KUint u) (map fst m)).
Proof.
  intros u m Hu Hm. destruct (ok_map_keys _ Hm) as [Nd Kok]. cbn [KeyInSet].
  rewrite uintKeyInSet_eq; auto; [|exact (ok_node _ Hu)]. eexists. split; [reflexivity|].
  rewrite <- (MapHas_true m (VUint u) _ eq_refl). cbn [MapHas key_of_value is_true].
  destruct (find_key (KUint u) m); tauto.
Qed.
Print Assumptions C18_registered_in_map_uint_partial.
Theorem C18_registered_in_map_refuted : exists u m, value_ok (VUint u) /\ value_ok (VMap m) /\
  (exists k', In k' (map fst m) /\ key_matches (VUint u) k') /\
  EvaluateIn (VUint u) (VMap m) = Val (VBool true) /\ KeyInSet true (VUint u) m = Val (VBool false).
Proof.
  exists 1, [(KInt 1, VNull)]. split; [ok_value|]. split; [ok_value|]. split.
  - exists (KInt 1). split; [cbn; auto|]. exists (NUint 1). split; auto. now apply denotes_NUint.
  - split; vm_compute; reflexivity.
Qed.
Print Assumptions C18_registered_in_map_refuted.

(* Indexing a list: by any number that is a valid index, and nothing else. *)
Theorem C18_list_index : forall l k opt, value_ok (VList l) -> value_ok k ->
  Z.of_nat (List.length l) <= 9223372036854775807 ->
  (exists n z v, number_of k = Some n /\ denotes_int n z /\ 0 <= z < Z.of_nat (List.length l) /\
     nth_error l (Z.to_nat z) = Some v /\ PerformLookup true opt (VList l) k = Val v) \/
  ((forall n z, number_of k = Some n -> denotes_int n z -> ~ 0 <= z < Z.of_nat (List.length l)) /\
     exists s, PerformLookup true opt (VList l) k = Val (VError s)).
Proof.
  intros l k opt Hl Hk LEN.
  assert (PL : PerformLookup true opt (VList l) k = LookupInList true l k).
  { destruct k; try reflexivity. destruct Hk as [[] _]. }
  rewrite PL. destruct (LookupInList_ok l k (ok_node _ Hk) LEN) as [(n & z & N & D & R & v & E & V)|H]; auto.
  left. exists n, z, v. auto.
Qed.
Print Assumptions C18_list_index.
Example C18_example : let m := VMap [(KInt 1, VString [97]); (KUint 1, VString [98]); (KUint 7, VNull)] in
  value_ok m /\
  EvaluateIn (VDouble (double_of_Z 1)) m = Val (VBool true) /\
  PerformLookup true true m (VInt 1) = Val (VString [97]) /\
  PerformLookup true true m (VUint 1) = Val (VString [98]) /\
  PerformLookup true true m (VDouble (double_of_Z 1)) = Val (VString [97]) /\
  PerformLookup true true m (VInt 7) = Val VNull /\
  EvaluateIn (VInt 8) m = Val (VBool false) /\
  PerformLookup true true (VList [VNull; VBool true]) (VDouble (double_of_Z 1)) = Val (VBool true) /\
  PerformLookup true true (VList [VNull; VBool true]) (VInt 2) = Val (VError index_range_error).
Proof. cbn zeta. split; [ok_value|]. repeat (split; [vm_compute; reflexivity|]). vm_compute. reflexivity. Qed.

(* ------------------------------------------------------------------ C44 *)
(* == decides equality of values as documented; != is its negation. *)
Theorem C44_equality_meaning_partial : forall a b, value_ok a -> value_ok b ->
  unambiguous a -> unambiguous b -> plain_optionals a -> plain_optionals b ->
  exists r, EvaluateEquality false a b = Val (VBool r) /\
    EvaluateEquality true a b = Val (VBool (negb r)) /\ (r = true <-> cel_equal a b).
Proof.
  intros a b Ha Hb Ua Ub Pa Pb. destruct (EqualImpl_total a b Ha Hb) as [r E]. exists r.
  unfold EvaluateEquality, ValueEqualImpl.
  assert (E1 : is_error a = false). { destruct a; auto. destruct Ha as [[] _]. }
  assert (E2 : is_error b = false). { destruct b; auto. destruct Hb as [[] _]. }
  rewrite E1, E2, E. split; auto. split; auto.
  rewrite <- heq_spec by auto. unfold heq. rewrite E. split; congruence.
Qed.
Print Assumptions C44_equality_meaning_partial.
Example C44_example : cel_equal sample_value sample_value'.
Proof.
  destruct sample_ok as (A & B & _ & C & D & E & F).
  destruct (C44_equality_meaning_partial _ _ A B C D E F) as (r & Q & _ & R). apply R.
  assert (X : EvaluateEquality false sample_value sample_value' = Val (VBool true)) by (vm_compute; reflexivity).
  congruence.
Qed.
(* Whatever the values, == and != answer with opposite booleans. *)
Theorem C44_equality_total : forall a b, value_ok a -> value_ok b ->
  exists r, EvaluateEquality false a b = Val (VBool r) /\ EvaluateEquality true a b = Val (VBool (negb r)).
Proof.
  intros a b Ha Hb. destruct (EqualImpl_total a b Ha Hb) as [r E]. exists r.
  unfold EvaluateEquality, ValueEqualImpl.
  assert (E1 : is_error a = false). { destruct a; auto. destruct Ha as [[] _]. }
  assert (E2 : is_error b = false). { destruct b; auto. destruct Hb as [[] _]. }
  rewrite E1, E2, E. auto.
Qed.
Print Assumptions C44_equality_total.
(* Equality inside containers' membership test: keys compared with their kind. *)
Theorem C44_contains_equality_meaning : forall a b, value_ok a -> value_ok b ->
  (ValueEqual a b = true <-> equal_values eq a b).
Proof. intros. now apply ValueEqual_spec. Qed.
Print Assumptions C44_contains_equality_meaning.
(* optional.of({1: 2}) == optional.of({1u: 2}) is false although their
   contents are equal *)
Theorem C44_equality_meaning_refuted : exists a b, value_ok a /\ value_ok b /\
  unambiguous a /\ unambiguous b /\
  EvaluateEquality false a b = Val (VBool true) /\
  EvaluateEquality false (VOptional (Some a)) (VOptional (Some b)) = Val (VBool false).
Proof.
  exists (VMap [(KInt 1, VInt 2)]), (VMap [(KUint 1, VInt 2)]).
  split; [ok_value|]. split; [ok_value|]. split; [ok_value|]. split; [ok_value|]. split; vm_compute; reflexivity.
Qed.
Print Assumptions C44_equality_meaning_refuted.

(* ------------------------------------------------------------------ C45 *)
(* Indexing an optional map. *)
Theorem C45_optional_index_partial : forall k m, lookup_kind k -> value_ok k -> value_ok (VMap m) ->
  PerformLookup true true (VOptional None) k = Val (VOptional None) /\
  ((exists k' v, In (k', v) m /\ key_matches k k' /\ is_error v = false /\
      PerformLookup true true (VOptional (Some (VMap m))) k = Val (VOptional (Some v))) \/
   ((forall k', In k' (map fst m) -> ~ key_matches k k') /\
      PerformLookup true true (VOptional (Some (VMap m))) k = Val (VOptional None))).
Proof.
  intros k m L Hk Hm.
  assert (PL : PerformLookup true true (VOptional (Some (VMap m))) k =
    obind (LookupInMap true m k) (fun r => match r with
      | VError s => if IsNoSuchKey s then Val (VOptional None) else Val (VOptional (Some r))
      | _ => Val (VOptional (Some r)) end)).
  { destruct k; try reflexivity. destruct L. }
  split. { destruct k; try reflexivity. destruct L. }
  rewrite PL. destruct (LookupInMap_ok m k L (ok_node _ Hk) Hm) as [(k' & v & I & M & R & _)|(N & R)].
  - left. exists k', v. split; auto. split; auto. rewrite R. cbn [obind].
    pose proof (everywhere_map_in _ _ _ Hm I) as Hv. cbn [snd] in Hv.
    assert (Ev : is_error v = false) by (destruct v; auto; destruct Hv as [[] _]). split; auto.
    destruct v; auto. discriminate.
  - right. split. { intros k' I M. apply N. now exists k'. }
    rewrite R. reflexivity.
Qed.
Print Assumptions C45_optional_index_partial.
Example C45_example : let m := [(KInt 1, VString [97])] in
  PerformLookup true true (VOptional (Some (VMap m))) (VUint 1) = Val (VOptional (Some (VString [97]))) /\
  PerformLookup true true (VOptional (Some (VMap m))) (VUint 2) = Val (VOptional None).
Proof. split; vm_compute; reflexivity. Qed.
(* optional.of([1])[5] is an optional that holds an error *)
Theorem C45_optional_holds_error_refuted : exists l k s, value_ok (VList l) /\ value_ok k /\
  PerformLookup true true (VOptional (Some (VList l))) k = Val (VOptional (Some (VError s))).
Proof.
  exists [VInt 1], (VInt 5). eexists. split; [ok_value|]. split; [ok_value|]. vm_compute. reflexivity.
Qed.
Print Assumptions C45_optional_holds_error_refuted.
