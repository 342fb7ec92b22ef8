(* Lemmas about values, equality, maps and membership. *)
From Coq Require Import ZArith QArith List Bool String Permutation Lia Eqdep_dec.
From Verif Require Import Base M_Overflow M_Number M_Attr M_Value S_Num S_Value
  L_Float L_Number L_Conv P_Num.
Import ListNotations.
Open Scope list_scope.
Open Scope Z_scope.

(* ---- induction and everywhere ---- *)

Definition value_ind' (P : value -> Prop)
  (Hnull : P VNull) (Hbool : forall b, P (VBool b)) (Hint : forall i, P (VInt i))
  (Huint : forall u, P (VUint u)) (Hdouble : forall d, P (VDouble d))
  (Hstring : forall s, P (VString s)) (Hbytes : forall s, P (VBytes s))
  (Hdur : forall d, P (VDuration d)) (Htime : forall t, P (VTimestamp t))
  (Htype : forall n, P (VType n))
  (Hlist : forall l, Forall P l -> P (VList l))
  (Hmap : forall m, Forall (fun e => P (snd e)) m -> P (VMap m))
  (Hnone : P (VOptional None)) (Hsome : forall v, P v -> P (VOptional (Some v)))
  (Herr : forall s, P (VError s)) (Hunk : forall u, P (VUnknown u)) : forall v, P v :=
  fix go (v : value) : P v :=
    match v with
    | VNull => Hnull | VBool b => Hbool b | VInt i => Hint i | VUint u => Huint u
    | VDouble d => Hdouble d | VString s => Hstring s | VBytes s => Hbytes s
    | VDuration d => Hdur d | VTimestamp t => Htime t | VType n => Htype n
    | VList l => Hlist l ((fix all l : Forall P l :=
        match l with [] => Forall_nil _ | x :: l' => Forall_cons _ (go x) (all l') end) l)
    | VMap m => Hmap m ((fix all m : Forall (fun e => P (snd e)) m :=
        match m with [] => Forall_nil _ | e :: m' => Forall_cons _ (go (snd e)) (all m') end) m)
    | VOptional None => Hnone | VOptional (Some x) => Hsome x (go x)
    | VError s => Herr s | VUnknown u => Hunk u
    end.

Lemma everywhere_list P l : everywhere P (VList l) <-> P (VList l) /\ Forall (everywhere P) l.
Proof.
  cbn [everywhere]. apply and_iff_compat_l. induction l; [split; auto|].
  rewrite Forall_cons_iff, <- IHl. reflexivity.
Qed.
Lemma everywhere_map P m :
  everywhere P (VMap m) <-> P (VMap m) /\ Forall (fun e => everywhere P (snd e)) m.
Proof.
  cbn [everywhere]. apply and_iff_compat_l. induction m as [|[k v] m IH]; [split; auto|].
  rewrite Forall_cons_iff, <- IH. reflexivity.
Qed.
Lemma everywhere_some P v : everywhere P (VOptional (Some v)) <-> P (VOptional (Some v)) /\ everywhere P v.
Proof. reflexivity. Qed.

Lemma everywhere_list_in P l x : everywhere P (VList l) -> In x l -> everywhere P x.
Proof. rewrite everywhere_list, Forall_forall. intros [_ H]. auto. Qed.
Lemma everywhere_map_in P m e : everywhere P (VMap m) -> In e m -> everywhere P (snd e).
Proof. rewrite everywhere_map, Forall_forall. intros [_ H]. auto. Qed.

(* ---- decidable equalities ---- *)

Lemma bytes_eqb_eq a b : bytes_eqb a b = true <-> a = b.
Proof.
  revert b. induction a as [|x a IH]; destruct b as [|y b]; cbn; try (split; congruence).
  rewrite andb_true_iff, IH, Z.eqb_eq. split; [intros [-> ->]; auto|]. intros [= -> ->]. auto.
Qed.
Lemma bytes_eqb_refl a : bytes_eqb a a = true.
Proof. now apply bytes_eqb_eq. Qed.
Lemma bytes_eqb_sym a b : bytes_eqb a b = bytes_eqb b a.
Proof.
  destruct (bytes_eqb a b) eqn:E.
  - apply bytes_eqb_eq in E. subst. now rewrite bytes_eqb_refl.
  - destruct (bytes_eqb b a) eqn:E'; auto. apply bytes_eqb_eq in E'. subst.
    now rewrite bytes_eqb_refl in E.
Qed.

Lemma key_eqb_eq a b : key_eqb a b = true <-> a = b.
Proof.
  destruct a, b; cbn; rewrite ?Bool.eqb_true_iff, ?Z.eqb_eq, ?bytes_eqb_eq;
    split; try congruence; intros [=]; auto.
Qed.
Lemma key_eqb_refl a : key_eqb a a = true.
Proof. now apply key_eqb_eq. Qed.
Lemma key_dec (a b : mkey) : {a = b} + {a <> b}.
Proof.
  destruct (key_eqb a b) eqn:E; [left; now apply key_eqb_eq|right].
  intros H. apply key_eqb_eq in H. congruence.
Qed.

Lemma duration_eqb_eq a b : duration_eqb a b = true <-> a = b.
Proof. destruct a, b; cbn; rewrite ?Z.eqb_eq, ?Bool.eqb_true_iff; split; congruence. Qed.
Lemma time_eqb_eq a b : time_eqb a b = true <-> a = b.
Proof. destruct a, b; cbn; rewrite ?Z.eqb_eq, ?Bool.eqb_true_iff; split; congruence. Qed.

(* ---- find_key ---- *)

Lemma find_key_in k m v : find_key k m = Some v -> In (k, v) m.
Proof.
  induction m as [|[k' w] m IH]; cbn; [congruence|].
  destruct (key_eqb k' k) eqn:E; [|auto]. apply key_eqb_eq in E. intros [= ->]. subst. auto.
Qed.
Lemma find_key_none k m : find_key k m = None <-> ~ In k (map fst m).
Proof.
  induction m as [|[k' w] m IH]; cbn; [tauto|].
  destruct (key_eqb k' k) eqn:E.
  - apply key_eqb_eq in E. subst. split; [discriminate|]. intros H. exfalso. auto.
  - rewrite IH. split; [|tauto]. intros H [H'|H']; auto. apply key_eqb_eq in H'. congruence.
Qed.
Lemma in_find_key k m v : NoDup (map fst m) -> In (k, v) m -> find_key k m = Some v.
Proof.
  induction m as [|[k' w] m IH]; cbn; [tauto|]. intros N [H|H].
  - inversion H; subst. now rewrite key_eqb_refl.
  - apply NoDup_cons_iff in N as [N1 N2]. destruct (key_eqb k' k) eqn:E; [|auto].
    apply key_eqb_eq in E. subst. exfalso. apply N1. apply in_map_iff. now exists (k, v).
Qed.
Lemma find_key_iff k m v : NoDup (map fst m) -> (find_key k m = Some v <-> In (k, v) m).
Proof. split; [apply find_key_in|now apply in_find_key]. Qed.

Lemma MapFind_key m k : MapFind m (value_of_key k) = find_key k m.
Proof. destruct k; reflexivity. Qed.

(* ---- numbers ---- *)

Lemma num_eq_refl n : number_ok n -> ~ math_nan n -> num_eq n n = true.
Proof.
  intros H N. pose proof (NumCompare_answer n n H H) as A. destruct A as [_ A2 A3 A4 A5].
  assert (E : math_cmp n n = Some Eq).
  { unfold math_cmp, math_nan in *. destruct (number_value n); [|congruence]. cbn.
    now rewrite ext_compare_refl. }
  unfold num_eq. destruct (NumCompare n n); cbn in *; auto.
  - specialize (A3 eq_refl). unfold math_lt in A3. congruence.
  - specialize (A4 eq_refl). unfold math_gt in A4. congruence.
  - exfalso. pose proof (proj1 A2 eq_refl). congruence.
Qed.

Lemma denotes_NInt z z' : denotes_int (NInt z) z' <-> z = z'.
Proof.
  unfold denotes_int; cbn. split.
  - intros (q & [= <-] & H). now apply (proj1 (inject_Z_injective z z')) in H.
  - intros ->. eexists. split; reflexivity.
Qed.
Lemma denotes_NUint z z' : denotes_int (NUint z) z' <-> z = z'.
Proof. exact (denotes_NInt z z'). Qed.

Lemma num_eq_sym a b : number_ok a -> number_ok b -> num_eq a b = num_eq b a.
Proof. intros Ha Hb. apply (C04_comparison_operators_consistent a b Ha Hb). Qed.

Lemma num_eq_int_int a b : num_eq (NInt a) (NInt b) = (a =? b).
Proof. unfold num_eq; cbn. unfold CompareZ. destruct (b <? a) eqn:E1, (a =? b) eqn:E2; auto; lia. Qed.
Lemma num_eq_uint_uint a b : num_eq (NUint a) (NUint b) = (a =? b).
Proof. exact (num_eq_int_int a b). Qed.
Lemma num_eq_double a b : valid_double a = true -> valid_double b = true ->
  num_eq (NDouble a) (NDouble b) = d_eq a b.
Proof.
  intros Ha Hb. unfold num_eq; cbn [NumCompare].
  pose proof (DoubleCompare_ok a b Ha Hb) as H. rewrite <- SFcompare_spec in H by auto.
  unfold d_eq. rewrite <- H. destruct (DoubleCompare a b); reflexivity.
Qed.
Lemma num_eq_int_uint a b : in_int64 a = true -> in_uint64 b = true ->
  num_eq (NInt a) (NUint b) = (a =? b).
Proof.
  intros Ha Hb. unfold num_eq; cbn [NumCompare].
  pose proof (UintCompareInt_ok b a Hb Ha) as H.
  destruct (Z.compare_spec b a), (a =? b) eqn:E; try lia;
    destruct (UintCompareInt b a); cbn in *; congruence.
Qed.

(* ---- ValueEqual on numbers agrees with numeric equality ---- *)
Lemma ValueEqual_num a b x y : node_ok a -> node_ok b -> number_of a = Some x ->
  number_of b = Some y -> ValueEqual a b = num_eq x y.
Proof.
  intros Ha Hb H1 H2. destruct a; try discriminate; destruct b; try discriminate;
    inversion H1; inversion H2; subst; cbn [ValueEqual];
    rewrite ?num_eq_int_int, ?num_eq_uint_uint, ?num_eq_double by auto; reflexivity.
Qed.
Lemma EqualImpl_num a b x y : node_ok a -> node_ok b -> number_of a = Some x ->
  number_of b = Some y -> EqualImpl true a b = Val (Some (num_eq x y)).
Proof.
  intros Ha Hb H1 H2. destruct a; try discriminate; destruct b; try discriminate;
    inversion H1; inversion H2; subst; cbn [EqualImpl NumberFromValue];
    rewrite ?num_eq_int_int, ?num_eq_uint_uint, ?num_eq_double by auto; reflexivity.
Qed.
Lemma number_of_ok a x : node_ok a -> number_of a = Some x -> number_ok x.
Proof. destruct a; cbn; try discriminate; intros H [= <-]; auto. Qed.

(* ---- looking a key up with its alternatives ---- *)

Lemma lossless_int_keys n : number_ok n -> exists b, LosslessConvertibleToInt n = Val b /\
  (b = true -> exists z, denotes_int n z /\ in_int64 z = true /\ AsInt n = Val z) /\
  (b = false -> forall z, denotes_int n z -> in_int64 z = false).
Proof.
  intros H. destruct (Lossless_int_ok n H) as [(b & E & B) A]. exists b. split; auto. split.
  - intros Hb. apply B in Hb as (z & D & I). exists z. auto.
  - intros -> z D. destruct (in_int64 z) eqn:I; auto.
    assert (false = true) by (apply B; eauto). discriminate.
Qed.
Lemma lossless_uint_keys n : number_ok n -> exists b, LosslessConvertibleToUint n = Val b /\
  (b = true -> exists z, denotes_int n z /\ in_uint64 z = true /\ AsUint n = Val z) /\
  (b = false -> forall z, denotes_int n z -> in_uint64 z = false).
Proof.
  intros H. destruct (Lossless_uint_ok n H) as [(b & E & B) A]. exists b. split; auto. split.
  - intros Hb. apply B in Hb as (z & D & I). exists z. auto.
  - intros -> z D. destruct (in_uint64 z) eqn:I; auto.
    assert (false = true) by (apply B; eauto). discriminate.
Qed.

(* The result of looking for n among int keys, resp. uint keys. *)
Lemma find_int_ok m n : number_ok n -> Forall key_ok (map fst m) ->
  exists r, find_int m n = Val r /\
    (forall v, r = Some v -> exists z, denotes_int n z /\ In (KInt z, v) m) /\
    (r = None -> forall z, denotes_int n z -> ~ In (KInt z) (map fst m)).
Proof.
  intros Hn Hm. unfold find_int. destruct (lossless_int_keys n Hn) as (b & E & B1 & B2).
  rewrite E. cbn [obind]. destruct b.
  - destruct (B1 eq_refl) as (z & D & I & A). rewrite A. cbn [obind MapFind key_of_value].
    exists (find_key (KInt z) m). split; auto. split.
    + intros v F. exists z. split; auto. now apply find_key_in.
    + intros F z' D'. rewrite (denotes_unique _ _ _ D' D). now apply find_key_none.
  - exists None. split; auto. split; [discriminate|]. intros _ z D I.
    rewrite Forall_forall in Hm. specialize (Hm _ I). cbn in Hm.
    specialize (B2 eq_refl z D). congruence.
Qed.
Lemma find_uint_ok m n : number_ok n -> Forall key_ok (map fst m) ->
  exists r, find_uint m n = Val r /\
    (forall v, r = Some v -> exists z, denotes_int n z /\ In (KUint z, v) m) /\
    (r = None -> forall z, denotes_int n z -> ~ In (KUint z) (map fst m)).
Proof.
  intros Hn Hm. unfold find_uint. destruct (lossless_uint_keys n Hn) as (b & E & B1 & B2).
  rewrite E. cbn [obind]. destruct b.
  - destruct (B1 eq_refl) as (z & D & I & A). rewrite A. cbn [obind MapFind key_of_value].
    exists (find_key (KUint z) m). split; auto. split.
    + intros v F. exists z. split; auto. now apply find_key_in.
    + intros F z' D'. rewrite (denotes_unique _ _ _ D' D). now apply find_key_none.
  - exists None. split; auto. split; [discriminate|]. intros _ z D I.
    rewrite Forall_forall in Hm. specialize (Hm _ I). cbn in Hm.
    specialize (B2 eq_refl z D). congruence.
Qed.

(* the lookup of an lhs key in rhs made by MapEqual *)
Definition find_alt (k : mkey) (rhs : entries) : out (option value) :=
  match MapFind rhs (value_of_key k) with
  | Some w => Val (Some w)
  | None => CheckAlternativeNumericType (value_of_key k) rhs
  end.

Lemma alt_unfold k rhs : CheckAlternativeNumericType (value_of_key k) rhs =
  match k with
  | KInt i => find_uint rhs (NInt i)
  | KUint u => obind (find_int rhs (NUint u)) Val
  | _ => Val None
  end.
Proof.
  destruct k; try reflexivity. unfold find_int, CheckAlternativeNumericType.
  cbn [value_of_key NumberFromValue]. destruct (LosslessConvertibleToInt (NUint u)) as [[]| |]; cbn [obind]; auto.
  destruct (AsInt (NUint u)); cbn [obind MapFind key_of_value]; auto. destruct (find_key (KInt a) rhs); auto.
Qed.

Lemma find_alt_ok k rhs : key_ok k -> Forall key_ok (map fst rhs) ->
  exists r, find_alt k rhs = Val r /\
    (forall w, r = Some w -> exists k', In (k', w) rhs /\ same_id k k') /\
    (r = None -> forall k', In k' (map fst rhs) -> ~ same_id k k') /\
    (forall w, find_key k rhs = Some w -> r = Some w).
Proof.
  intros Hk Hm. unfold find_alt. rewrite MapFind_key.
  destruct (find_key k rhs) as [w|] eqn:F.
  - exists (Some w). split; auto. split; [|split; [discriminate|congruence]].
    intros w' [= <-]. exists k. split; [now apply find_key_in|reflexivity].
  - apply find_key_none in F. rewrite alt_unfold. unfold same_id. destruct k as [b|i|u|s]; cbn [id_of].
    + exists None. split; auto. split; [discriminate|]. split; [|discriminate].
      intros _ [] I; cbn; congruence.
    + destruct (find_uint_ok rhs (NInt i)) as (r & E & R1 & R2); auto.
      exists r. split; auto. split; [|split; [|discriminate]].
      * intros w Hw. destruct (R1 w Hw) as (z & D & I). apply denotes_NInt in D. subst. eexists. split; [exact I|reflexivity].
      * intros Hr k' I. destruct k'; cbn; try congruence; intros [= ->]; auto.
        apply (R2 Hr u); auto. now apply denotes_NInt.
    + destruct (find_int_ok rhs (NUint u)) as (r & E & R1 & R2); auto.
      rewrite E. cbn [obind].
      exists r. split; auto. split; [|split; [|discriminate]].
      * intros w Hw. destruct (R1 w Hw) as (z & D & I). apply denotes_NUint in D. subst. eexists. split; [exact I|reflexivity].
      * intros Hr k' I. destruct k'; cbn; try congruence; intros [= ->]; auto.
        apply (R2 Hr i); auto. now apply denotes_NUint.
    + exists None. split; auto. split; [discriminate|]. split; [|discriminate].
      intros _ [] I; cbn; congruence.
Qed.

Lemma Forall2_length {A B} (R : A -> B -> Prop) l l' : Forall2 R l l' -> List.length l = List.length l'.
Proof. induction 1; cbn; congruence. Qed.

(* ---- EqualImpl is total on well-formed values ---- *)

Definition heq (a b : value) : Prop := EqualImpl true a b = Val (Some true).
Definition decides (r : out (option bool)) (P : Prop) : Prop :=
  exists b, r = Val (Some b) /\ (b = true <-> P).

Lemma ListEqual_loop_ok eq xs ys :
  (forall x y, In x xs -> In y ys -> exists b, eq x y = Val (Some b)) ->
  List.length xs = List.length ys ->
  decides (ListEqual_loop eq xs ys) (Forall2 (fun x y => eq x y = Val (Some true)) xs ys).
Proof.
  revert ys. induction xs as [|x xs IH]; destruct ys as [|y ys]; cbn [List.length]; try lia; intros T L.
  - exists true. split; auto. split; auto.
  - cbn. destruct (T x y) as [b E]; cbn; auto. rewrite E. cbn [obind]. destruct b.
    + destruct (IH ys) as (b & E' & B); [|lia|].
      { intros. apply T; cbn; auto. }
      exists b. split; auto. rewrite B. split; [constructor; auto|]. intros F. inversion F; auto.
    + exists false. split; auto. split; [discriminate|]. intros F. inversion F; congruence.
Qed.

Lemma MapEqual_loop_ok eq (rhs lhs : entries) :
  (forall e w, In e lhs -> In w (map snd rhs) -> exists b, eq (snd e) w = Val (Some b)) ->
  Forall key_ok (map fst rhs) -> Forall key_ok (map fst lhs) ->
  decides (MapEqual_loop true eq rhs lhs)
    (Forall (fun e => exists w, find_alt (fst e) rhs = Val (Some w) /\
                                eq (snd e) w = Val (Some true)) lhs).
Proof.
  intros T Hr Hl. induction lhs as [|[k v] lhs IH].
  - exists true. split; auto. split; auto.
  - apply Forall_cons_iff in Hl as [Hk Hl].
    destruct IH as (b & E & B); [intros; apply T; cbn; auto|auto|].
    destruct (find_alt_ok k rhs Hk Hr) as (r & R & R1 & R2 & R3).
    cbn. fold (find_alt k rhs). rewrite R. cbn [obind]. destruct r as [w|].
    + destruct (R1 w eq_refl) as (k' & I & _).
      destruct (T (k, v) w) as [b' E']; [cbn; auto|apply in_map_iff; now exists (k', w)|].
      cbn [snd] in E'. rewrite E'. cbn [obind]. destruct b'.
      * fold (MapEqual_loop true eq rhs). exists b. split; auto. rewrite B. split.
        -- intros F. constructor; auto. exists w. auto.
        -- intros F. now apply Forall_cons_iff in F.
      * exists false. split; auto. split; [discriminate|]. intros F.
        apply Forall_cons_iff in F as [(w' & F1 & F2) _]. cbn in *. congruence.
    + exists false. split; auto. split; [discriminate|]. intros F.
      apply Forall_cons_iff in F as [(w' & F1 & F2) _]. cbn in *. congruence.
Qed.

Lemma ok_list l x : value_ok (VList l) -> In x l -> value_ok x.
Proof. apply everywhere_list_in. Qed.
Lemma ok_map m e : value_ok (VMap m) -> In e m -> value_ok (snd e).
Proof. apply everywhere_map_in. Qed.
Lemma ok_map_keys m : value_ok (VMap m) -> NoDup (map fst m) /\ Forall key_ok (map fst m).
Proof. intros H. apply everywhere_map in H. apply H. Qed.
Lemma ok_node v : value_ok v -> node_ok v.
Proof. destruct v; cbn; tauto. Qed.
Lemma in_snd (m : entries) w : In w (map snd m) -> exists k, In (k, w) m.
Proof. rewrite in_map_iff. intros ([k w'] & <- & H). eauto. Qed.

Ltac okt :=
  match goal with
  | I : In ?x ?l, H : everywhere _ (VList ?l) |- _ => exact (everywhere_list_in _ l x H I)
  | I : In ?e ?m, H : everywhere _ (VMap ?m) |- _ => exact (everywhere_map_in _ m e H I)
  | I : In ?x ?l, H : value_ok (VList ?l) |- _ => exact (everywhere_list_in _ l x H I)
  | I : In ?e ?m, H : value_ok (VMap ?m) |- _ => exact (everywhere_map_in _ m e H I)
  | I : In ?x ?l, H : unambiguous (VList ?l) |- _ => exact (everywhere_list_in _ l x H I)
  | I : In ?e ?m, H : unambiguous (VMap ?m) |- _ => exact (everywhere_map_in _ m e H I)
  | I : In ?x ?l, H : nan_free (VList ?l) |- _ => exact (everywhere_list_in _ l x H I)
  | I : In ?e ?m, H : nan_free (VMap ?m) |- _ => exact (everywhere_map_in _ m e H I)
  | I : In ?x ?l, H : no_uint_keys (VList ?l) |- _ => exact (everywhere_list_in _ l x H I)
  | I : In ?e ?m, H : no_uint_keys (VMap ?m) |- _ => exact (everywhere_map_in _ m e H I)
  end.

Lemma EqualImpl_total a : forall b, value_ok a -> value_ok b ->
  exists r, EqualImpl true a b = Val (Some r).
Proof.
  induction a using value_ind'; intros b' Ha Hb;
    try (destruct b'; cbn [EqualImpl NumberFromValue is_error is_unknown orb]; eauto; destruct Hb as [[] _]; fail);
    try (destruct Ha as [[] _]; fail).
  - destruct b'; cbn [EqualImpl NumberFromValue is_error is_unknown orb]; eauto; try (destruct Hb as [[] _]; fail).
    destruct (Nat.eqb (List.length l) (List.length l0)) eqn:L; cbn [negb]; eauto.
    apply Nat.eqb_eq in L. rewrite Forall_forall in H.
    destruct (ListEqual_loop_ok (EqualImpl true) l l0) as (b & E & _); eauto.
    intros x y Ix Iy. apply H; auto; okt.
  - destruct b'; cbn [EqualImpl NumberFromValue is_error is_unknown orb]; eauto; try (destruct Hb as [[] _]; fail).
    destruct (Nat.eqb (List.length m) (List.length m0)) eqn:L; cbn [negb]; eauto.
    rewrite Forall_forall in H.
    destruct (MapEqual_loop_ok (EqualImpl true) m0 m) as (b & E & _); eauto.
    + intros e w Ie Iw. apply in_snd in Iw as (k & Iw).
      apply H; auto; [okt|]. apply (ok_map _ _ Hb Iw).
    + apply ok_map_keys; auto.
    + apply ok_map_keys; auto.
Qed.

Lemma heq_list xs ys : value_ok (VList xs) -> value_ok (VList ys) ->
  (heq (VList xs) (VList ys) <-> Forall2 heq xs ys).
Proof.
  intros Hx Hy. unfold heq at 1. cbn [EqualImpl].
  destruct (Nat.eqb (List.length xs) (List.length ys)) eqn:L; cbn [negb].
  - apply Nat.eqb_eq in L.
    destruct (ListEqual_loop_ok (EqualImpl true) xs ys) as (b & E & B); auto.
    { intros. apply EqualImpl_total; okt. }
    rewrite E. split; intros F; [injection F as ->; now apply B|]. apply B in F. now subst.
  - split; [discriminate|]. intros F. apply Forall2_length in F. apply Nat.eqb_neq in L. lia.
Qed.

Lemma heq_map_gen m n : value_ok (VMap m) -> value_ok (VMap n) ->
  (heq (VMap m) (VMap n) <-> List.length m = List.length n /\
     forall e, In e m -> exists w, find_alt (fst e) n = Val (Some w) /\ heq (snd e) w).
Proof.
  intros Hm Hn. unfold heq at 1. cbn [EqualImpl].
  destruct (Nat.eqb (List.length m) (List.length n)) eqn:L; cbn [negb].
  - apply Nat.eqb_eq in L.
    destruct (MapEqual_loop_ok (EqualImpl true) n m) as (b & E & B).
    { intros e w Ie Iw. apply in_snd in Iw as (k & Iw).
      apply EqualImpl_total; [okt|]. apply (ok_map _ _ Hn Iw). }
    { now apply ok_map_keys. } { now apply ok_map_keys. }
    rewrite E. split.
    + intros F. injection F as ->. split; auto. destruct B as [B _]. specialize (B eq_refl).
      rewrite Forall_forall in B. exact B.
    + intros [_ F]. do 2 f_equal. apply B. now apply Forall_forall.
  - split; [discriminate|]. intros [F _]. apply Nat.eqb_neq in L. lia.
Qed.

Lemma nodup_ids_unique m k k' v v' : NoDup (map (fun e : mkey * value => id_of (fst e)) m) ->
  In (k, v) m -> In (k', v') m -> same_id k k' -> (k, v) = (k', v').
Proof.
  induction m as [|e m IH]; cbn [In map]; [tauto|]. intros N I I' S.
  apply NoDup_cons_iff in N as [N1 N2].
  destruct I as [->|I], I' as [E|I']; auto.
  - exfalso. apply N1. apply in_map_iff. exists (k', v'). split; auto.
  - subst e. exfalso. apply N1. apply in_map_iff. exists (k, v). split; auto.
Qed.

Lemma heq_map m n : value_ok (VMap m) -> value_ok (VMap n) -> distinct_ids (VMap n) ->
  (heq (VMap m) (VMap n) <-> List.length m = List.length n /\
     forall e, In e m -> exists f, In f n /\ same_id (fst e) (fst f) /\ heq (snd e) (snd f)).
Proof.
  intros Hm Hn D. rewrite heq_map_gen by auto. apply and_iff_compat_l.
  destruct (ok_map_keys _ Hm) as [_ Km]. destruct (ok_map_keys _ Hn) as [_ Kn].
  rewrite Forall_forall in Km.
  split; intros H e I; specialize (H e I).
  - destruct H as (w & F & E).
    destruct (find_alt_ok (fst e) n) as (r & R & R1 & _); auto. { apply Km. now apply in_map. }
    rewrite R in F. injection F as ->. destruct (R1 w eq_refl) as (k' & I' & S).
    exists (k', w). auto.
  - destruct H as ([k' w] & I' & S & E). cbn [fst snd] in *. exists w. split; auto.
    destruct (find_alt_ok (fst e) n) as (r & R & R1 & R2 & R3); auto. { apply Km. now apply in_map. }
    rewrite R. destruct r as [w'|].
    + destruct (R1 w' eq_refl) as (k'' & I'' & S'').
      assert (X : (k', w) = (k'', w')).
      { eapply nodup_ids_unique; eauto. unfold same_id in *. congruence. }
      congruence.
    + exfalso. eapply R2; eauto. apply in_map_iff. now exists (k', w).
Qed.

(* ---- pairing entries off ---- *)

Lemma pairing {A B J} (f : A -> J) (g : B -> J) (R : A -> B -> Prop) (m : list A) :
  NoDup (map f m) -> forall n, List.length m = List.length n ->
  (forall e, In e m -> exists e', In e' n /\ f e = g e' /\ R e e') ->
  exists n', Permutation n n' /\ Forall2 (fun e e' => f e = g e' /\ R e e') m n'.
Proof.
  induction m as [|e m IH]; intros N n L H.
  - destruct n; [|discriminate]. exists []. auto.
  - apply NoDup_cons_iff in N as [N1 N2].
    destruct (H e) as (e' & I & E & r); [left; auto|].
    apply in_split in I as (n1 & n2 & ->).
    destruct (IH N2 (n1 ++ n2)) as (n' & P & F).
    + rewrite app_length in *. cbn in *. lia.
    + intros x Ix. destruct (H x) as (x' & Ix' & Ex & Rx); [right; auto|].
      exists x'. split; auto. apply in_app_or in Ix'. apply in_or_app.
      destruct Ix' as [|[<-|]]; auto. exfalso. apply N1. rewrite E, <- Ex. now apply in_map.
    + exists (e' :: n'). split; [|auto]. rewrite <- Permutation_middle. now constructor.
Qed.

Lemma Forall2_in_l {A B} (R : A -> B -> Prop) l l' x : Forall2 R l l' -> In x l ->
  exists y, In y l' /\ R x y.
Proof. induction 1; cbn; [tauto|]. intros [->|I]; eauto. destruct IHForall2 as (z & ? & ?); eauto. Qed.
Lemma Forall2_in_r {A B} (R : A -> B -> Prop) l l' y : Forall2 R l l' -> In y l' ->
  exists x, In x l /\ R x y.
Proof. induction 1; cbn; [tauto|]. intros [->|I]; eauto. destruct IHForall2 as (z & ? & ?); eauto. Qed.
Lemma Forall2_impl_in {A B} (R S : A -> B -> Prop) l l' :
  (forall x y, In x l -> In y l' -> R x y -> S x y) -> Forall2 R l l' -> Forall2 S l l'.
Proof. intros H F. induction F; constructor; [apply H; cbn; auto|]. apply IHF. intros; apply H; cbn; auto. Qed.

(* ---- symmetry ---- *)

Lemma unamb_list l x : unambiguous (VList l) -> In x l -> unambiguous x.
Proof. apply everywhere_list_in. Qed.
Lemma unamb_map m e : unambiguous (VMap m) -> In e m -> unambiguous (snd e).
Proof. apply everywhere_map_in. Qed.
Lemma unamb_node v : unambiguous v -> distinct_ids v.
Proof. destruct v; cbn; tauto. Qed.

Lemma Forall2_flip_in {A} (R S : A -> A -> Prop) l l' :
  (forall x y, In x l -> In y l' -> R x y -> S y x) -> Forall2 R l l' -> Forall2 S l' l.
Proof. intros H F. induction F; constructor; [apply H; cbn; auto|]. apply IHF. intros; apply H; cbn; auto. Qed.

Lemma ValueEqual_list xs ys : ValueEqual (VList xs) (VList ys) = true <->
  Forall2 (fun x y => ValueEqual x y = true) xs ys.
Proof.
  cbn [ValueEqual]. split.
  - destruct (Nat.eqb (List.length xs) (List.length ys)) eqn:L; cbn [negb]; [|discriminate].
    apply Nat.eqb_eq in L. revert ys L. induction xs as [|x xs IH]; destruct ys as [|y ys]; cbn [List.length]; try lia; intros L; cbn.
    + constructor.
    + destruct (ValueEqual x y) eqn:E; [|discriminate]. intros. constructor; auto.
  - intros F. rewrite (proj2 (Nat.eqb_eq _ _) (Forall2_length _ _ _ F)). cbn [negb].
    induction F; cbn; auto. now rewrite H.
Qed.

Lemma ValueEqual_map m n : NoDup (map fst n) -> ValueEqual (VMap m) (VMap n) = true <->
  List.length m = List.length n /\
  forall e, In e m -> exists f, In f n /\ fst e = fst f /\ ValueEqual (snd e) (snd f) = true.
Proof.
  intros N. cbn [ValueEqual].
  destruct (Nat.eqb (List.length m) (List.length n)) eqn:L; cbn [negb].
  2: { apply Nat.eqb_neq in L. split; [discriminate|tauto]. }
  apply Nat.eqb_eq in L. transitivity (forall e, In e m -> exists f, In f n /\ fst e = fst f /\ ValueEqual (snd e) (snd f) = true); [|tauto].
  clear L. induction m as [|[k v] m IH]; cbn [map_equal_loop]; [split; cbn; tauto|].
  rewrite MapFind_key. destruct (find_key k n) as [w|] eqn:F.
  - destruct (ValueEqual v w) eqn:E.
    + fold (map_equal_loop ValueEqual n). rewrite IH. split.
      * intros H e [<-|I]; auto. exists (k, w). cbn. split; [now apply find_key_in|auto].
      * intros H e I. apply H. cbn; auto.
    + split; [discriminate|]. intros H. destruct (H (k, v)) as ([k' w'] & I & Ek & Ev); [cbn; auto|].
      cbn in *. subst. apply in_find_key in I; auto. congruence.
  - split; [discriminate|]. intros H. destruct (H (k, v)) as ([k' w'] & I & Ek & Ev); [cbn; auto|].
    cbn in *. subst. apply in_find_key in I; auto. congruence.
Qed.

Lemma nodup_fst_pair (m : entries) : NoDup (map fst m) -> NoDup (map (fun e => fst e) m).
Proof. auto. Qed.

Lemma ValueEqual_sym1 a : forall b, value_ok a -> value_ok b -> ValueEqual a b = true -> ValueEqual b a = true.
Proof.
  induction a using value_ind'; intros b' Ha Hb E;
    try (destruct b'; cbn [ValueEqual] in E; try discriminate; try (destruct o; discriminate);
         cbn [ValueEqual]; auto;
         first [ rewrite Bool.eqb_true_iff in *; congruence
               | rewrite Z.eqb_eq in *; congruence
               | rewrite bytes_eqb_eq in *; congruence
               | rewrite duration_eqb_eq in *; congruence
               | rewrite time_eqb_eq in *; congruence
               | rewrite String.eqb_eq in *; congruence
               | rewrite num_eq_sym; [auto|apply (ok_node _ Hb)|apply (ok_node _ Ha)]
               | idtac ]; fail).
  - destruct b'; try discriminate;
    [ change (ValueEqual (VDouble d) (VInt i)) with (num_eq (NDouble d) (NInt i)) in E; cbn [ValueEqual];
      rewrite num_eq_sym; [auto|apply (ok_node _ Hb)|apply (ok_node _ Ha)]
    | change (ValueEqual (VDouble d) (VUint u)) with (num_eq (NDouble d) (NUint u)) in E; cbn [ValueEqual];
      rewrite num_eq_sym; [auto|apply (ok_node _ Hb)|apply (ok_node _ Ha)]
    | ].
    cbn [ValueEqual] in *. rewrite <- num_eq_double in * by (try apply (ok_node _ Hb); try apply (ok_node _ Ha)).
    rewrite num_eq_sym; [auto|apply (ok_node _ Hb)|apply (ok_node _ Ha)].
  - destruct b'; try discriminate. rewrite ValueEqual_list in *.
    eapply Forall2_flip_in; [|exact E]. intros x y Ix Iy. rewrite Forall_forall in H.
    apply H; auto; okt.
  - destruct b'; try discriminate.
    destruct (ok_map_keys _ Ha) as [Na _]. destruct (ok_map_keys _ Hb) as [Nb _].
    rewrite ValueEqual_map in * by auto. destruct E as [L E]. split; [lia|].
    destruct (pairing fst fst (fun e f => ValueEqual (snd e) (snd f) = true) m Na m0 L E) as (n' & P & F).
    intros f If. assert (I' : In f n') by (eapply Permutation_in; eauto).
    destruct (Forall2_in_r _ _ _ _ F I') as (e & Ie & Ek & Ev). exists e. split; auto. split; auto.
    rewrite Forall_forall in H. apply (H e Ie); auto; [apply (ok_map _ _ Ha Ie)|apply (ok_map _ _ Hb If)].
  - destruct b' as [| | | | | | | | | | | |[y|]| |]; try discriminate. cbn [ValueEqual] in *. apply IHa; auto.
    + destruct Ha; auto. + destruct Hb; auto.
Qed.
Lemma ValueEqual_sym a b : value_ok a -> value_ok b -> ValueEqual a b = ValueEqual b a.
Proof.
  intros Ha Hb. destruct (ValueEqual a b) eqn:E.
  - symmetry. apply ValueEqual_sym1; auto.
  - destruct (ValueEqual b a) eqn:E'; auto. apply ValueEqual_sym1 in E'; auto. congruence.
Qed.

(* heq of values of different constructors, or scalars, in one step *)
Lemma heq_opt a b : heq (VOptional a) (VOptional b) <-> ValueEqual (VOptional a) (VOptional b) = true.
Proof. unfold heq. cbn [EqualImpl]. split; congruence. Qed.

Lemma heq_sym1 a : forall b, value_ok a -> value_ok b -> unambiguous a -> unambiguous b ->
  heq a b -> heq b a.
Proof.
  induction a using value_ind'; intros b' Ha Hb Ua Ub E;
  try (destruct b'; unfold heq in *;
    first
    [ rewrite (EqualImpl_num _ _ _ _ (ok_node _ Ha) (ok_node _ Hb) eq_refl eq_refl) in E;
      rewrite (EqualImpl_num _ _ _ _ (ok_node _ Hb) (ok_node _ Ha) eq_refl eq_refl);
      rewrite num_eq_sym; [exact E|exact (ok_node _ Hb)|exact (ok_node _ Ha)]
    | cbn [EqualImpl NumberFromValue is_error is_unknown orb] in *;
      first [ discriminate E | reflexivity
            | injection E as E; do 2 f_equal;
              first [ rewrite Bool.eqb_true_iff in *; congruence
                    | rewrite bytes_eqb_eq in *; congruence
                    | rewrite duration_eqb_eq in *; congruence
                    | rewrite time_eqb_eq in *; congruence
                    | rewrite String.eqb_eq in *; congruence ] ] ]; fail).
  - destruct b'; try discriminate. rewrite heq_list in * by auto.
    eapply Forall2_flip_in; [|exact E]. intros x y Ix Iy. rewrite Forall_forall in H.
    apply H; auto; okt.
  - destruct b'; try discriminate. 
    rewrite heq_map in * by (auto; now apply unamb_node). destruct E as [L E]. split; [lia|].
    destruct (pairing (fun e => id_of (fst e)) (fun e => id_of (fst e))
      (fun e f => heq (snd e) (snd f)) m (unamb_node _ Ua) m0 L) as (n' & P & F).
    { intros e Ie. destruct (E e Ie) as (f & If & S & R). exists f. auto. }
    intros f If. assert (I' : In f n') by (eapply Permutation_in; eauto).
    destruct (Forall2_in_r _ _ _ _ F I') as (e & Ie & Ek & Ev). exists e. split; auto. split.
    { unfold same_id. auto. }
    rewrite Forall_forall in H. apply (H e Ie); auto; okt.
  - destruct b'; try discriminate. rewrite heq_opt in *. apply ValueEqual_sym1; auto.
  - destruct b'; try discriminate. rewrite heq_opt in *. apply ValueEqual_sym1; auto.
Qed.

Lemma EqualImpl_sym a b : value_ok a -> value_ok b -> unambiguous a -> unambiguous b ->
  EqualImpl true a b = EqualImpl true b a.
Proof.
  intros Ha Hb Ua Ub.
  destruct (EqualImpl_total a b Ha Hb) as [r Er]. destruct (EqualImpl_total b a Hb Ha) as [s Es].
  rewrite Er, Es. do 2 f_equal. destruct r, s; auto.
  - apply heq_sym1 in Er; auto. unfold heq in Er. congruence.
  - apply heq_sym1 in Es; auto. unfold heq in Es. congruence.
Qed.

(* ---- reflexivity ---- *)

Lemma d_eq_refl d : valid_double d = true -> double_value d <> None -> d_eq d d = true.
Proof.
  intros H N. rewrite <- num_eq_double by auto. apply num_eq_refl; auto.
Qed.

Lemma ValueEqual_refl v : value_ok v -> nan_free v -> ValueEqual v v = true.
Proof.
  induction v using value_ind'; intros Hv Nv; cbn [ValueEqual];
    rewrite ?Bool.eqb_reflx, ?Z.eqb_refl, ?bytes_eqb_refl, ?String.eqb_refl; auto.
  - apply d_eq_refl; [apply Hv|apply Nv].
  - now apply duration_eqb_eq.
  - now apply time_eqb_eq.
  - apply ValueEqual_list. rewrite Forall_forall in H.
    assert (X : forall x, In x l -> ValueEqual x x = true) by (intros x Ix; apply H; auto; okt).
    clear -X. induction l; constructor; [|apply IHl; intros]; apply X; cbn; auto.
  - apply ValueEqual_map; [apply ok_map_keys; auto|]. split; auto. intros e Ie. exists e.
    repeat split; auto. rewrite Forall_forall in H. apply H; auto; okt.
  - apply IHv; [apply Hv|apply Nv].
  - destruct Hv as [[] _].
  - destruct Hv as [[] _].
Qed.

Lemma EqualImpl_refl h v : value_ok v -> nan_free v -> EqualImpl h v v = Val (Some true).
Proof.
  induction v using value_ind'; intros Hv Nv; cbn [EqualImpl];
    rewrite ?Bool.eqb_reflx, ?Z.eqb_refl, ?bytes_eqb_refl, ?String.eqb_refl; auto.
  - rewrite d_eq_refl; [auto|apply Hv|apply Nv].
  - now rewrite (proj2 (duration_eqb_eq d d)).
  - now rewrite (proj2 (time_eqb_eq t t)).
  - rewrite Nat.eqb_refl. cbn [negb]. rewrite Forall_forall in H.
    assert (X : forall x, In x l -> EqualImpl h x x = Val (Some true)) by (intros x Ix; apply H; auto; okt).
    clear -X. induction l as [|x l IH]; auto. cbn. rewrite X by (cbn; auto). cbn [obind].
    apply IH. intros. apply X. cbn; auto.
  - rewrite Nat.eqb_refl. cbn [negb]. rewrite Forall_forall in H.
    destruct (ok_map_keys _ Hv) as [Nd _].
    assert (X : forall e, In e m -> EqualImpl h (snd e) (snd e) = Val (Some true)) by (intros e Ie; apply H; auto; okt).
    assert (Y : forall l, (forall e, In e l -> In e m) -> MapEqual_loop h (EqualImpl h) m l = Val (Some true)).
    { induction l as [|[k v] l IH]; intros S; auto. cbn. rewrite MapFind_key.
      rewrite (in_find_key k m v) by (auto; apply S; cbn; auto). cbn [obind].
      pose proof (X (k, v) ltac:(apply S; cbn; auto)) as X'. cbn [snd] in X'. rewrite X'. cbn [obind]. apply IH. intros. apply S. cbn; auto. }
    now apply Y.
  - now rewrite ValueEqual_refl.
  - destruct Hv as [[] _].
  - destruct Hv as [[] _].
Qed.

(* ---- Value::Equal against ValueEqualImpl ---- *)

Lemma ValueEqual_heq a : forall b, value_ok a -> value_ok b -> ValueEqual a b = true -> heq a b.
Proof.
  induction a using value_ind'; intros b' Ha Hb E;
  try (destruct b'; try discriminate E; unfold heq in *;
    first
    [ rewrite (EqualImpl_num _ _ _ _ (ok_node _ Ha) (ok_node _ Hb) eq_refl eq_refl);
      rewrite (ValueEqual_num _ _ _ _ (ok_node _ Ha) (ok_node _ Hb) eq_refl eq_refl) in E; congruence
    | cbn [EqualImpl ValueEqual] in *; congruence ]; fail).
  - destruct b'; try discriminate. rewrite heq_list by auto. rewrite ValueEqual_list in E.
    eapply Forall2_impl_in; [|exact E]. intros x y Ix Iy. rewrite Forall_forall in H.
    apply H; auto; okt.
  - destruct b'; try discriminate. destruct (ok_map_keys _ Hb) as [Nb Kb]. destruct (ok_map_keys _ Ha) as [_ Ka].
    rewrite ValueEqual_map in E by auto. rewrite heq_map_gen by auto. destruct E as [L E]. split; auto.
    intros e Ie. destruct (E e Ie) as ([k w] & If & Ek & Ev). exists w.
    rewrite Forall_forall in H, Ka. destruct (find_alt_ok (fst e) m0) as (r & R & _ & _ & R3); auto.
    { apply Ka. now apply in_map. }
    rewrite R. cbn [fst snd] in *. rewrite (R3 w) by (rewrite Ek; now apply in_find_key).
    split; auto. apply H; auto; [okt|]. apply (ok_map _ _ Hb If).
  all: destruct b'; try discriminate; now apply heq_opt.
Qed.

Lemma no_uint_node v : no_uint_keys v -> no_uint_key v.
Proof. destruct v; cbn; tauto. Qed.
Lemma no_uint_in m k : no_uint_key (VMap m) -> In k (map fst m) -> match k with KUint _ => False | _ => True end.
Proof. cbn. rewrite Forall_forall. intros H I. apply in_map_iff in I as (e & <- & I). now apply H. Qed.

Lemma same_id_eq k k' : match k with KUint _ => False | _ => True end ->
  match k' with KUint _ => False | _ => True end -> same_id k k' -> k = k'.
Proof. destruct k, k'; cbn; try tauto; unfold same_id; cbn; congruence. Qed.

Lemma heq_ValueEqual a : forall b, value_ok a -> value_ok b -> no_uint_keys a -> no_uint_keys b ->
  heq a b -> ValueEqual a b = true.
Proof.
  induction a using value_ind'; intros b' Ha Hb Ua Ub E;
  try (destruct b'; unfold heq in *;
    first
    [ rewrite (EqualImpl_num _ _ _ _ (ok_node _ Ha) (ok_node _ Hb) eq_refl eq_refl) in E;
      rewrite (ValueEqual_num _ _ _ _ (ok_node _ Ha) (ok_node _ Hb) eq_refl eq_refl); congruence
    | cbn [EqualImpl ValueEqual NumberFromValue is_error is_unknown orb] in *; congruence ]; fail).
  - destruct b'; try discriminate. rewrite heq_list in E by auto. rewrite ValueEqual_list.
    eapply Forall2_impl_in; [|exact E]. intros x y Ix Iy. rewrite Forall_forall in H.
    apply H; auto; okt.
  - destruct b'; try discriminate. destruct (ok_map_keys _ Hb) as [Nb Kb]. destruct (ok_map_keys _ Ha) as [_ Ka].
    rewrite ValueEqual_map by auto. rewrite heq_map_gen in E by auto. destruct E as [L E]. split; auto.
    intros e Ie. destruct (E e Ie) as (w & F & Ev).
    rewrite Forall_forall in H, Ka. destruct (find_alt_ok (fst e) m0) as (r & R & R1 & _ & R3); auto.
    { apply Ka. now apply in_map. }
    rewrite R in F. injection F as ->. destruct (R1 w eq_refl) as (k' & I' & S).
    exists (k', w). cbn [fst snd]. split; auto. split.
    + apply same_id_eq; auto.
      * apply (no_uint_in m); [now apply no_uint_node|now apply in_map].
      * apply (no_uint_in m0); [now apply no_uint_node|]. apply in_map_iff. now exists (k', w).
    + apply H; auto; okt.
  all: destruct b'; try discriminate; now apply heq_opt.
Qed.

(* ---- equality is the documented equality ---- *)

Lemma match_entries {J} (f : mkey -> J) (R : value -> value -> Prop) (m n : entries) :
  NoDup (map (fun e => f (fst e)) m) ->
  (List.length m = List.length n /\
     (forall e, In e m -> exists e', In e' n /\ f (fst e) = f (fst e') /\ R (snd e) (snd e'))) <->
  exists n', Permutation n n' /\ Forall2 (fun e e' => f (fst e) = f (fst e') /\ R (snd e) (snd e')) m n'.
Proof.
  intros N. split.
  - intros [L H]. exact (pairing (fun e => f (fst e)) (fun e => f (fst e)) (fun e e' => R (snd e) (snd e')) m N n L H).
  - intros (n' & P & F). split.
    + rewrite (Forall2_length _ _ _ F). symmetry. now apply Permutation_length.
    + intros e I. destruct (Forall2_in_l _ _ _ _ F I) as (e' & I' & H). exists e'. split; auto.
      eapply Permutation_in; [symmetry; exact P|exact I'].
Qed.

Lemma equal_values_map K m n : equal_values K (VMap m) (VMap n) <->
  exists n', Permutation n n' /\
    Forall2 (fun e f => K (fst e) (fst f) /\ equal_values K (snd e) (snd f)) m n'.
Proof.
  split.
  - intros H. inversion H; subst; try discriminate. eauto.
  - intros (n' & P & F). eapply EqMap; eauto.
Qed.
Lemma equal_values_list K xs ys : equal_values K (VList xs) (VList ys) <-> Forall2 (equal_values K) xs ys.
Proof. split; [|apply EqList]. intros H. inversion H; subst; try discriminate. auto. Qed.

Lemma Forall2_iff_in {A B} (R S : A -> B -> Prop) l l' :
  (forall x y, In x l -> In y l' -> (R x y <-> S x y)) -> (Forall2 R l l' <-> Forall2 S l l').
Proof. intros H. split; apply Forall2_impl_in; intros; apply H; auto. Qed.

Ltac eqv_scalar Ha Hb :=
  match goal with b' : value |- _ =>
    destruct b';
    first
    [ rewrite (ValueEqual_num _ _ _ _ (ok_node _ Ha) (ok_node _ Hb) eq_refl eq_refl);
      split; [intros; eapply EqNum; [reflexivity|reflexivity|auto]
             |let X := fresh in intros X; inversion X; subst;
              repeat match goal with Y : number_of _ = Some _ |- _ => cbn in Y; injection Y as <- end; auto]
    | cbn [ValueEqual]; split;
      [ first [ discriminate
              | rewrite Bool.eqb_true_iff; intros <-; constructor
              | rewrite bytes_eqb_eq; intros <-; constructor
              | rewrite duration_eqb_eq; intros <-; constructor
              | rewrite time_eqb_eq; intros <-; constructor
              | rewrite String.eqb_eq; intros <-; constructor
              | constructor ]
      | let X := fresh in intros X; inversion X; subst; try discriminate;
        rewrite ?Bool.eqb_reflx, ?bytes_eqb_refl, ?String.eqb_refl;
        rewrite ?(proj2 (duration_eqb_eq _ _) eq_refl), ?(proj2 (time_eqb_eq _ _) eq_refl); auto ] ]
  end.

Lemma ValueEqual_spec a : forall b, value_ok a -> value_ok b ->
  (ValueEqual a b = true <-> equal_values eq a b).
Proof.
  induction a using value_ind'; intros b' Ha Hb; try (eqv_scalar Ha Hb; fail).
  - destruct b'; try (cbn [ValueEqual]; split; [discriminate|]; intros X; inversion X; discriminate).
    rewrite ValueEqual_list, equal_values_list. rewrite Forall_forall in H.
    apply Forall2_iff_in. intros x y Ix Iy. apply H; auto; okt.
  - destruct b'; try (cbn [ValueEqual]; split; [discriminate|]; intros X; inversion X; discriminate).
    destruct (ok_map_keys _ Ha) as [Na _]. destruct (ok_map_keys _ Hb) as [Nb _].
    rewrite ValueEqual_map, equal_values_map by auto.
    rewrite (match_entries (fun k => k) (fun v w => ValueEqual v w = true) m m0) by exact Na.
    rewrite Forall_forall in H.
    split; intros (n' & P & F); exists n'; split; auto;
      eapply Forall2_impl_in; [|exact F| |exact F]; cbn beta;
      intros e f Ie If [K V]; split; auto;
      apply (Permutation_in _ (Permutation_sym P)) in If; (apply H; auto; okt).
  - destruct b'; try (cbn [ValueEqual]; split; [discriminate|]; intros X; inversion X; discriminate).
    destruct o as [y|]; cbn [ValueEqual].
    + split; [discriminate|]; intros X; inversion X; discriminate.
    + split; [intros _; apply EqNone|auto].
  - destruct b'; try (cbn [ValueEqual]; split; [discriminate|]; intros X; inversion X; discriminate).
    destruct o as [y|]; cbn [ValueEqual].
    + rewrite IHa by (try apply Ha; try apply Hb). split; [apply EqSome|].
      intros X; inversion X; subst; try discriminate; auto.
    + split; [discriminate|]; intros X; inversion X; discriminate.
Qed.

Lemma heq_spec a : forall b, value_ok a -> value_ok b -> unambiguous a -> unambiguous b ->
  plain_optionals a -> plain_optionals b -> (heq a b <-> cel_equal a b).
Proof.
  unfold cel_equal.
  induction a using value_ind'; intros b' Ha Hb Ua Ub Pa Pb;
  try (destruct b';
    first
    [ unfold heq; rewrite (EqualImpl_num _ _ _ _ (ok_node _ Ha) (ok_node _ Hb) eq_refl eq_refl);
      split; [intros [=]; eapply EqNum; [reflexivity|reflexivity|auto]
             |let X := fresh in intros X; inversion X; subst;
              repeat match goal with Y : number_of _ = Some _ |- _ => cbn in Y; injection Y as <- end; congruence]
    | unfold heq; cbn [EqualImpl NumberFromValue is_error is_unknown orb]; split;
      [ intros E; injection E as E; revert E;
        first [ discriminate
              | rewrite Bool.eqb_true_iff; intros <-; constructor
              | rewrite bytes_eqb_eq; intros <-; constructor
              | rewrite duration_eqb_eq; intros <-; constructor
              | rewrite time_eqb_eq; intros <-; constructor
              | rewrite String.eqb_eq; intros <-; constructor
              | constructor ]
      | let X := fresh in intros X; inversion X; subst; try discriminate;
        rewrite ?Bool.eqb_reflx, ?bytes_eqb_refl, ?String.eqb_refl;
        rewrite ?(proj2 (duration_eqb_eq _ _) eq_refl), ?(proj2 (time_eqb_eq _ _) eq_refl); auto ] ]; fail).
  - destruct b'; try (split; [discriminate|]; intros X; inversion X; discriminate).
    split; [intros; constructor|reflexivity].
  - destruct b'; try (split; [discriminate|]; intros X; inversion X; discriminate).
    rewrite heq_list, equal_values_list by auto. rewrite Forall_forall in H.
    apply Forall2_iff_in. intros x y Ix Iy.
    apply H; auto; try okt; [exact (everywhere_list_in _ _ _ Pa Ix)|exact (everywhere_list_in _ _ _ Pb Iy)].
  - destruct b'; try (split; [discriminate|]; intros X; inversion X; discriminate).
    rewrite heq_map, equal_values_map by (auto; now apply unamb_node).
    unfold same_id. rewrite (match_entries id_of heq m m0) by exact (unamb_node _ Ua).
    rewrite Forall_forall in H.
    split; intros (n' & P & F); exists n'; split; auto;
      eapply Forall2_impl_in; [|exact F| |exact F]; cbn beta;
      intros e f Ie If [K V]; split; auto;
      apply (Permutation_in _ (Permutation_sym P)) in If;
      (apply H; auto; first [okt|exact (everywhere_map_in _ _ _ Pa Ie)|exact (everywhere_map_in _ _ _ Pb If)]).
  - destruct b'; try (split; [discriminate|]; intros X; inversion X; discriminate).
    destruct o as [y|].
    + split; [discriminate|]; intros X; inversion X; discriminate.
    + split; [intros _; apply EqNone|reflexivity].
  - destruct b'; try (split; [discriminate|]; intros X; inversion X; discriminate).
    destruct o as [y|].
    + rewrite heq_opt. cbn [ValueEqual].
      assert (E : ValueEqual a y = true <-> heq a y).
      { split; [apply ValueEqual_heq|apply heq_ValueEqual]; try apply Ha; try apply Hb; try apply Pa; try apply Pb. }
      rewrite E, IHa by (try apply Ha; try apply Hb; try apply Ua; try apply Ub; try apply Pa; try apply Pb).
      split; [apply EqSome|]. intros X; inversion X; subst; try discriminate; auto.
    + split; [discriminate|]; intros X; inversion X; discriminate.
Qed.

(* ---- building maps ---- *)

Definition good_entry (e : value * value) : Prop :=
  key_of_value (fst e) <> None /\ is_error (snd e) = false /\ is_unknown (snd e) = false.

Lemma MapPut_val m k v m' : MapPut m k v = Val m' <->
  exists key, key_of_value k = Some key /\ is_error v = false /\ is_unknown v = false /\
    ~ In key (map fst m) /\ m' = m ++ [(key, v)].
Proof.
  unfold MapPut, CheckMapKey, CheckMapValue. split.
  - destruct k; cbn [obind key_of_value]; try discriminate;
    destruct v; cbn [obind is_error is_unknown]; try discriminate;
    match goal with |- context [find_key ?k m] => destruct (find_key k m) eqn:F end; try discriminate;
    apply find_key_none in F; intros [= <-]; eexists; repeat split; eauto.
  - intros (key & K & E & U & N & ->). apply find_key_none in N.
    destruct k; try discriminate; injection K as <-; destruct v; try discriminate; cbn [obind key_of_value];
    rewrite N; reflexivity.
Qed.
Lemma MapPut_out m k v : MapPut m k v <> UB.
Proof.
  unfold MapPut, CheckMapKey, CheckMapValue.
  destruct k; cbn [obind key_of_value]; try discriminate;
    destruct v; cbn [obind]; try discriminate;
    match goal with |- context [find_key ?k m] => destruct (find_key k m) eqn:F end; discriminate.
Qed.

Lemma MapPutAll_val kvs : forall m m', MapPutAll m kvs = Val m' ->
  exists new, m' = m ++ new /\
    map (fun e => Some (fst e)) new = map (fun e => key_of_value (fst e)) kvs /\
    map snd new = map snd kvs /\ Forall good_entry kvs /\ (NoDup (map fst m) -> NoDup (map fst m')).
Proof.
  induction kvs as [|[k v] kvs IH]; cbn [MapPutAll]; intros m m' H.
  - injection H as <-. exists []. rewrite app_nil_r. repeat split; auto.
  - destruct (MapPut m k v) as [m1| |] eqn:E; try discriminate. cbn [obind] in H.
    apply MapPut_val in E as (key & K & Er & U & N & ->).
    destruct (IH _ _ H) as (new & -> & E1 & E2 & G & ND).
    exists ((key, v) :: new). rewrite <- app_assoc in *. split; auto. cbn [map fst snd].
    rewrite E1, E2, K. repeat split; auto.
    + constructor; auto. repeat split; cbn; auto. congruence.
    + intros N0. apply ND. rewrite map_app. cbn [map fst].
      apply (Permutation_NoDup (Permutation_cons_append (map fst m) key)). now constructor.
Qed.

Lemma MapPutAll_ok kvs : forall m,
  Forall good_entry kvs ->
  NoDup (map (fun e => Some (fst e)) m ++ map (fun e : value * value => key_of_value (fst e)) kvs) ->
  exists m', MapPutAll m kvs = Val m'.
Proof.
  induction kvs as [|[k v] kvs IH]; cbn [MapPutAll]; intros m G N; eauto.
  apply Forall_cons_iff in G as [(G1 & G2 & G3) G]. cbn [fst snd] in *.
  destruct (key_of_value k) as [key|] eqn:K; [|congruence].
  assert (E : MapPut m k v = Val (m ++ [(key, v)])).
  { apply MapPut_val. exists key. repeat split; auto. intros I.
    cbn [map fst] in N. apply NoDup_remove_2 in N. rewrite K in N. apply N. apply in_or_app. left.
    apply in_map_iff in I as ((k0 & v0) & <- & I). apply in_map_iff. now exists (k0, v0). }
  rewrite E. cbn [obind]. apply IH; auto. rewrite map_app. cbn [map fst].
  rewrite <- app_assoc. cbn [app]. cbn [map fst] in N. now rewrite K in N.
Qed.

(* ---- membership in maps and lookup ---- *)

Definition has_key (m : entries) (k : value) : Prop :=
  exists k', In k' (map fst m) /\ key_matches k k'.

Lemma try_has_int_eq m n : try_has_int m n =
  obind (find_int m n) (fun r => Val (match r with Some _ => true | None => false end)).
Proof.
  unfold try_has_int, find_int. destruct (LosslessConvertibleToInt n) as [[]| |]; cbn [obind]; auto.
  destruct (AsInt n); cbn [obind MapHas MapFind key_of_value]; auto. destruct (find_key (KInt a) m); auto.
Qed.
Lemma try_has_uint_eq m n : try_has_uint m n =
  obind (find_uint m n) (fun r => Val (match r with Some _ => true | None => false end)).
Proof.
  unfold try_has_uint, find_uint. destruct (LosslessConvertibleToUint n) as [[]| |]; cbn [obind]; auto.
  destruct (AsUint n); cbn [obind MapHas MapFind key_of_value]; auto. destruct (find_key (KUint a) m); auto.
Qed.

Definition vdecides (r : out value) (P : Prop) : Prop :=
  exists b, r = Val (VBool b) /\ (b = true <-> P).
Lemma vdecides_iff r P Q : (P <-> Q) -> vdecides r Q -> vdecides r P.
Proof. intros H (b & E & B). exists b. tauto. Qed.

Lemma try_has_int_ok m n : number_ok n -> Forall key_ok (map fst m) ->
  exists b, try_has_int m n = Val b /\
    (b = true <-> exists z, denotes_int n z /\ In (KInt z) (map fst m)).
Proof.
  intros Hn Hm. rewrite try_has_int_eq. destruct (find_int_ok m n Hn Hm) as (r & E & R1 & R2).
  rewrite E. cbn [obind]. eexists. split; [reflexivity|]. destruct r as [v|].
  - split; auto. intros _. destruct (R1 v eq_refl) as (z & D & I). exists z. split; auto.
    apply in_map_iff. now exists (KInt z, v).
  - split; [discriminate|]. intros (z & D & I). exfalso. exact (R2 eq_refl z D I).
Qed.
Lemma try_has_uint_ok m n : number_ok n -> Forall key_ok (map fst m) ->
  exists b, try_has_uint m n = Val b /\
    (b = true <-> exists z, denotes_int n z /\ In (KUint z) (map fst m)).
Proof.
  intros Hn Hm. rewrite try_has_uint_eq. destruct (find_uint_ok m n Hn Hm) as (r & E & R1 & R2).
  rewrite E. cbn [obind]. eexists. split; [reflexivity|]. destruct r as [v|].
  - split; auto. intros _. destruct (R1 v eq_refl) as (z & D & I). exists z. split; auto.
    apply in_map_iff. now exists (KUint z, v).
  - split; [discriminate|]. intros (z & D & I). exfalso. exact (R2 eq_refl z D I).
Qed.

Lemma MapHas_true m k key : key_of_value k = Some key ->
  (is_true (MapHas m k) = true <-> In key (map fst m)).
Proof.
  intros K. assert (E : MapHas m k = VBool (match find_key key m with Some _ => true | None => false end)).
  { destruct k; try discriminate; cbn in *; injection K as <-; reflexivity. }
  rewrite E. destruct (find_key key m) eqn:F; cbn.
  - split; auto. intros _. apply find_key_in in F. apply in_map_iff. now exists (key, v).
  - split; [discriminate|]. intros I. apply find_key_none in F. tauto.
Qed.

Lemma has_key_num m k n : number_of k = Some n ->
  (has_key m k <-> (exists z, denotes_int n z /\ In (KInt z) (map fst m)) \/
                   (exists z, denotes_int n z /\ In (KUint z) (map fst m))).
Proof.
  intros N. unfold has_key. split.
  - intros (k' & I & M). destruct k; try discriminate; destruct k'; cbn [key_matches] in M; try tauto;
      destruct M as (n' & N' & D); rewrite N in N'; injection N' as <-; eauto.
  - intros [(z & D & I)|(z & D & I)]; [exists (KInt z)|exists (KUint z)]; split; auto;
      destruct k; try discriminate; cbn [key_matches]; eauto.
Qed.
Lemma has_key_bool m b : has_key m (VBool b) <-> In (KBool b) (map fst m).
Proof.
  unfold has_key. split; [|intros; exists (KBool b); cbn; auto].
  intros ([] & I & M); cbn in M; try tauto; try (destruct M as (? & [=] & _)). now subst.
Qed.
Lemma has_key_string m b : has_key m (VString b) <-> In (KString b) (map fst m).
Proof.
  unfold has_key. split; [|intros; exists (KString b); cbn; auto].
  intros ([] & I & M); cbn in M; try tauto; try (destruct M as (? & [=] & _)). now subst.
Qed.

Lemma EvaluateInMap_ok m k : lookup_kind k -> node_ok k -> Forall key_ok (map fst m) ->
  vdecides (EvaluateInMap k m) (has_key m k).
Proof.
  intros L Hk Hm. unfold EvaluateInMap.
  destruct k; try (destruct L; fail).
  - pose proof (MapHas_true m (VBool b) _ eq_refl) as T. rewrite <- (has_key_bool m b) in T.
    destruct (is_true (MapHas m (VBool b))); [exists true|exists false]; split; auto.
  - pose proof (MapHas_true m (VInt i) _ eq_refl) as T. apply (vdecides_iff _ _ _ (has_key_num m (VInt i) (NInt i) eq_refl)).
    destruct (is_true (MapHas m (VInt i))).
    + exists true. split; auto. split; auto. intros _. left. exists i. split; [now apply denotes_NInt|now apply T].
    + cbn [obind]. destruct (try_has_uint_ok m (NInt i) Hk Hm) as (b & E & B). rewrite E. cbn [obind].
      exists b. split; auto. rewrite B. split; auto. intros [(z & D & I)|]; auto.
      apply denotes_NInt in D. subst. apply T in I. discriminate.
  - pose proof (MapHas_true m (VUint u) _ eq_refl) as T. apply (vdecides_iff _ _ _ (has_key_num m (VUint u) (NUint u) eq_refl)).
    destruct (is_true (MapHas m (VUint u))).
    + exists true. split; auto. split; auto. intros _. right. exists u. split; [now apply denotes_NUint|now apply T].
    + destruct (try_has_int_ok m (NUint u) Hk Hm) as (b & E & B). rewrite E. cbn [obind].
      destruct b; cbn [obind].
      * exists true. split; auto. split; auto. intros _. left. now apply B.
      * exists false. split; auto. split; [discriminate|]. intros [H|(z & D & I)].
        -- apply B in H. discriminate.
        -- apply denotes_NUint in D. subst. apply T in I. discriminate.
  - apply (vdecides_iff _ _ _ (has_key_num m (VDouble d) (NDouble d) eq_refl)). cbn [MapHas key_of_value is_true].
    destruct (try_has_int_ok m (NDouble d) Hk Hm) as (b & E & B). rewrite E. cbn [obind].
    destruct b; cbn [obind].
    + exists true. split; auto. split; auto. intros _. left. now apply B.
    + destruct (try_has_uint_ok m (NDouble d) Hk Hm) as (b & E' & B'). rewrite E'. cbn [obind].
      exists b. split; auto. rewrite B'. split; auto. intros [H|]; auto. apply B in H. discriminate.
  - pose proof (MapHas_true m (VString s) _ eq_refl) as T. rewrite <- (has_key_string m s) in T.
    destruct (is_true (MapHas m (VString s))); [exists true|exists false]; split; auto.
Qed.

Lemma KeyInSet_ok m k : lookup_kind k -> node_ok k -> Forall key_ok (map fst m) ->
  (forall u, k <> VUint u) ->
  vdecides (KeyInSet true k m) (has_key m k).
Proof.
  intros L Hk Hm NU. 
  destruct k; try (destruct L; fail); cbn [KeyInSet].
  - unfold boolKeyInSet. pose proof (MapHas_true m (VBool b) _ eq_refl) as T. rewrite <- (has_key_bool m b) in T.
    cbn [MapHas key_of_value is_true] in *.
    destruct (find_key (KBool b) m); cbn in *; [exists true|exists false]; split; auto.
  - unfold intKeyInSet. pose proof (MapHas_true m (VInt i) _ eq_refl) as T. apply (vdecides_iff _ _ _ (has_key_num m (VInt i) (NInt i) eq_refl)).
    destruct (is_true (MapHas m (VInt i))) eqn:Q.
    + exists true. cbn [MapHas key_of_value is_true] in *. destruct (find_key (KInt i) m); [|discriminate].
      split; auto. split; auto. intros _. left. exists i. split; [now apply denotes_NInt|now apply T].
    + destruct (try_has_uint_ok m (NInt i) Hk Hm) as (b & E & B). unfold try_has_uint in E.
      exists b. rewrite B. split.
      * destruct (LosslessConvertibleToUint (NInt i)) as [[]| |]; cbn [obind] in *; try discriminate.
        -- destruct (AsUint (NInt i)); cbn [obind MapHas key_of_value] in *; try discriminate.
           injection E as <-. destruct (find_key (KUint a) m); reflexivity.
        -- now injection E as <-.
      * split; auto. intros [(z & D & I)|]; auto.
        apply denotes_NInt in D. subst. apply T in I. discriminate.
  - exfalso. eapply NU. reflexivity.
  - unfold doubleKeyInSet. apply (vdecides_iff _ _ _ (has_key_num m (VDouble d) (NDouble d) eq_refl)).
    destruct (try_has_int_ok m (NDouble d) Hk Hm) as (b & E & B). unfold try_has_int in E.
    destruct (LosslessConvertibleToInt (NDouble d)) as [b1| |]; try discriminate. cbn [obind] in *.
    rewrite E. cbn [obind].
    destruct b; cbn [obind].
    + exists true. split; auto. split; auto. intros _. left. now apply B.
    + destruct (try_has_uint_ok m (NDouble d) Hk Hm) as (b & E' & B'). unfold try_has_uint in E'.
      destruct (LosslessConvertibleToUint (NDouble d)) as [b2| |]; try discriminate. cbn [obind] in *.
      rewrite E'. cbn [obind].
      exists b. split; auto. rewrite B'. split; auto. intros [H|]; auto. apply B in H. discriminate.
  - unfold stringKeyInSet. pose proof (MapHas_true m (VString s) _ eq_refl) as T. rewrite <- (has_key_string m s) in T.
    cbn [MapHas key_of_value is_true] in *.
    destruct (find_key (KString s) m); cbn in *; [exists true|exists false]; split; auto.
Qed.

Lemma uintKeyInSet_eq h u m : in_uint64 u = true -> Forall key_ok (map fst m) ->
  uintKeyInSet h u m = Val (MapHas m (VUint u)).
Proof.
  intros Hu Hm. unfold uintKeyInSet. destruct h; auto.
  cbn [MapHas key_of_value is_true]. destruct (find_key (KUint u) m); auto.
  destruct (lossless_int_keys (NUint u) Hu) as (b & E & B1 & _). rewrite E. cbn [obind].
  destruct b; auto.
Qed.

(* indexing a map with heterogeneous keys *)
Lemma LookupInMap_ok m k : lookup_kind k -> node_ok k -> value_ok (VMap m) ->
  (exists k' v, In (k', v) m /\ key_matches k k' /\ LookupInMap true m k = Val v /\
     (forall key w, key_of_value k = Some key -> In (key, w) m -> w = v)) \/
  (~ has_key m k /\ LookupInMap true m k = Val (VError no_such_key)).
Proof.
  intros L Hk Hm. destruct (ok_map_keys _ Hm) as [Nd Kok]. unfold LookupInMap.
  assert (KM : forall k' key v, key_of_value k = Some k' -> find_key k' m = Some v ->
    key_of_value k = Some key -> forall w, In (key, w) m -> w = v).
  { intros k' key v K F K' w I. apply in_find_key in I; auto. congruence. }
  destruct (number_of k) as [n|] eqn:N.
  - assert (NF : NumberFromValue k = Some n) by (destruct k; try discriminate; exact N).
    rewrite NF.
    assert (Hn : number_ok n) by (eapply number_of_ok; eauto).
    rewrite (has_key_num m k n N).
    destruct (match k with VUint _ => MapFind m k | _ => None end) as [v|] eqn:R0.
    + left. destruct k; try discriminate. cbn in R0. exists (KUint u), v.
      split; [now apply find_key_in|]. split; [exists n; split; auto; injection N as <-; now apply denotes_NUint|].
      split; auto. intros key w K Iw. eapply KM; [reflexivity|eassumption|exact K|exact Iw].
    + destruct (find_int_ok m n Hn Kok) as (r1 & E1 & A1 & B1). rewrite E1. cbn [obind].
      destruct r1 as [v|].
      * left. destruct (A1 v eq_refl) as (z & D & I). exists (KInt z), v.
        split; auto. split; [destruct k; try discriminate; cbn; eauto|]. split; auto.
        intros key w K Iw. destruct k; try discriminate; cbn in K; injection K as <-; injection N as <-.
        -- apply denotes_NInt in D. subst. apply in_find_key in I, Iw; auto. congruence.
        -- apply find_key_none in R0. exfalso. apply R0. apply in_map_iff. now exists (KUint u, w).
      * destruct (find_uint_ok m n Hn Kok) as (r2 & E2 & A2 & B2). rewrite E2. cbn [obind].
        destruct r2 as [v|].
        -- left. destruct (A2 v eq_refl) as (z & D & I). exists (KUint z), v.
           split; auto. split; [destruct k; try discriminate; cbn; eauto|]. split; auto.
           intros key w K Iw. destruct k; try discriminate; cbn in K; injection K as <-; injection N as <-.
           ++ exfalso. apply (B1 eq_refl i). { now apply denotes_NInt. } apply in_map_iff. now exists (KInt i, w).
           ++ apply denotes_NUint in D. subst. apply in_find_key in I, Iw; auto. congruence.
        -- right. split; auto. intros [(z & D & I)|(z & D & I)]; [exact (B1 eq_refl z D I)|exact (B2 eq_refl z D I)].
  - assert (NF : NumberFromValue k = None) by (destruct k; try discriminate; auto). rewrite NF.
    destruct k; try discriminate; try (destruct L; fail); cbn [key_of_value MapGet].
    + destruct (find_key (KBool b) m) as [v|] eqn:F.
      * left. exists (KBool b), v. split; [now apply find_key_in|]. split; [reflexivity|]. split; auto.
        intros key w K Iw. eapply KM; [reflexivity|eassumption|exact K|exact Iw].
      * right. split; auto. rewrite has_key_bool. now apply find_key_none.
    + destruct (find_key (KString s) m) as [v|] eqn:F.
      * left. exists (KString s), v. split; [now apply find_key_in|]. split; [reflexivity|]. split; auto.
        intros key w K Iw. eapply KM; [reflexivity|eassumption|exact K|exact Iw].
      * right. split; auto. rewrite has_key_string. now apply find_key_none.
Qed.

Lemma LookupInList_ok l k : node_ok k -> Z.of_nat (List.length l) <= 9223372036854775807 ->
  (exists n z, number_of k = Some n /\ denotes_int n z /\ 0 <= z < Z.of_nat (List.length l) /\
     exists v, nth_error l (Z.to_nat z) = Some v /\ LookupInList true l k = Val v) \/
  ((forall n z, number_of k = Some n -> denotes_int n z -> ~ 0 <= z < Z.of_nat (List.length l)) /\
     exists s, LookupInList true l k = Val (VError s)).
Proof.
  intros Hk LEN. unfold LookupInList. destruct (number_of k) as [n|] eqn:N.
  - assert (NF : NumberFromValue k = Some n) by (destruct k; try discriminate; exact N). rewrite NF.
    assert (Hn : number_ok n) by (eapply number_of_ok; eauto).
    destruct (lossless_int_keys n Hn) as (b & E & B1 & B2). rewrite E. cbn [obind]. destruct b.
    + destruct (B1 eq_refl) as (z & D & I & A). rewrite A. cbn [obind].
      destruct ((z <? 0) || (Z.of_nat (List.length l) <=? z)) eqn:R.
      * right. split; [|eauto]. intros n' z' [= <-] D'. rewrite (denotes_unique _ _ _ D' D). lia.
      * left. exists n, z. split; auto. split; auto. split; [lia|].
        destruct (nth_error l (Z.to_nat z)) eqn:Q; eauto.
        apply nth_error_None in Q. lia.
    + right. split; [|eexists; reflexivity]. intros n' z [= <-] D R. specialize (B2 eq_refl z D).
      unfold in_int64, int64_min, int64_max in B2. lia.
  - right. split; [intros; discriminate|]. destruct k; try discriminate; cbn; eauto.
Qed.
