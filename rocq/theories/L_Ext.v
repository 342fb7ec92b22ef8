(* Lemmas about the list extension. *)
From Coq Require Import ZArith QArith List Bool Lia ZifyBool String Permutation Sorted.
From Verif Require Import Base M_Overflow M_Number M_Attr M_Value S_Num S_Value L_Float L_Number L_Value M_Ext S_Ext.
Import ListNotations.
Local Open Scope string_scope.
Open Scope list_scope.
Open Scope Z_scope.
Local Open Scope out_scope.

Lemma ok_in l x : value_ok (VList l) -> In x l -> value_ok x.
Proof. intros. eapply everywhere_list_in; eauto. Qed.
Lemma add_ok b v : value_ok v -> ListAdd b v = Val (b ++ [v]).
Proof. intros H. unfold ListAdd, CheckListElement. destruct v; try reflexivity; destruct H as [[] _]. Qed.
Lemma ok_list l : (forall x, In x l -> value_ok x) -> value_ok (VList l).
Proof. intros H. apply everywhere_list. split; [exact I|]. now apply Forall_forall. Qed.
Lemma get_ok l i v : nth_error l i = Some v -> ListGet l (Z.of_nat i) = v.
Proof. intros H. unfold ListGet. replace (Z.of_nat i <? 0) with false by lia. now rewrite Nat2Z.id, H. Qed.

(* ---- slice, reverse, range ---- *)
Lemma get_loop_ok l : value_ok (VList l) -> forall n i b, (i + n <= List.length l)%nat ->
  get_loop l n (Z.of_nat i) b = Val (b ++ firstn n (skipn i l)).
Proof.
  intros Hl. induction n as [|n IH]; intros i b H; cbn [get_loop].
  - now rewrite app_nil_r.
  - destruct (nth_error l i) as [v|] eqn:E.
    2:{ apply nth_error_None in E. lia. }
    rewrite (get_ok _ _ _ E), add_ok by (eapply ok_in, nth_error_In; eauto). cbn [obind].
    replace (Z.of_nat i + 1) with (Z.of_nat (S i)) by lia. rewrite IH by lia.
    f_equal. rewrite <- app_assoc. f_equal.
    assert (skipn i l = v :: skipn (S i) l) as ->; [|reflexivity].
    clear -E. revert l E. induction i as [|i IH]; intros [|x l] E; cbn in E; try discriminate.
    + now injection E as ->.
    + cbn [skipn]. rewrite IH; auto.
Qed.
Lemma reverse_loop_ok l : value_ok (VList l) -> forall n b, (n <= List.length l)%nat ->
  reverse_loop l n b = Val (b ++ rev (firstn n l)).
Proof.
  intros Hl. induction n as [|n IH]; intros b H; cbn [reverse_loop].
  - now rewrite app_nil_r.
  - destruct (nth_error l n) as [v|] eqn:E.
    2:{ apply nth_error_None in E. lia. }
    rewrite (get_ok _ _ _ E), add_ok by (eapply ok_in, nth_error_In; eauto). cbn [obind].
    rewrite IH by lia. f_equal.
    assert (firstn (S n) l = firstn n l ++ [v]) as ->.
    { clear -E. revert l E. induction n as [|n IH]; intros [|x l] E; cbn in E; try discriminate.
      + now injection E as ->.
      + change (firstn (S (S n)) (x :: l)) with (x :: firstn (S n) l). rewrite (IH _ E). reflexivity. }
    rewrite rev_app_distr. cbn. now rewrite <- app_assoc.
Qed.
Lemma range_loop_ok n : forall i b,
  range_loop n i b = Val (b ++ map (fun k => VInt (i + Z.of_nat k)) (seq 0 n)).
Proof.
  induction n as [|n IH]; intros i b; cbn [range_loop].
  - now rewrite app_nil_r.
  - unfold ListAdd at 1. cbn [CheckListElement obind]. rewrite IH, <- app_assoc. f_equal. f_equal.
    cbn [seq map app]. f_equal; [f_equal; lia|]. rewrite <- seq_shift, map_map.
    apply map_ext. intros k. f_equal. lia.
Qed.

(* ---- flatten ---- *)
Lemma flatten_elem_list d l b : flatten_elem d (VList l) b =
  if 0 <? d then flatten_list (d - 1) l b else ListAdd b (VList l).
Proof.
  cbn [flatten_elem]. destruct (0 <? d); [|reflexivity].
  revert b. induction l as [|x l IH]; intros b; [reflexivity|]. cbn [flatten_list].
  destruct (flatten_elem (d - 1) x b); cbn [obind]; auto.
Qed.
Lemma once_app a b : flatten_once (a ++ b) = flatten_once a ++ flatten_once b.
Proof. apply flat_map_app. Qed.
Lemma times_app n : forall a b, flatten_times n (a ++ b) = flatten_times n a ++ flatten_times n b.
Proof. induction n as [|n IH]; intros a b; cbn [flatten_times]; [auto|]. now rewrite once_app, IH. Qed.
Lemma times_nil n : flatten_times n [] = [].
Proof. induction n; auto. Qed.
Lemma times_atom n v : match v with VList _ => False | _ => True end -> flatten_times n [v] = [v].
Proof. intros H. induction n as [|n IH]; [reflexivity|]. cbn [flatten_times]. destruct v; try easy. Qed.

Lemma flatten_elem_ok v : forall n b, value_ok v ->
  flatten_elem (Z.of_nat n) v b = Val (b ++ flatten_times n [v]).
Proof.
  induction v using value_ind'; intros dn bl Hv;
    try (rewrite times_atom by exact I; apply add_ok; exact Hv).
  rewrite flatten_elem_list. destruct dn as [|dn]; [apply add_ok; exact Hv|].
  replace (0 <? Z.of_nat (S dn)) with true by lia.
  replace (Z.of_nat (S dn) - 1) with (Z.of_nat dn) by lia.
  cbn [flatten_times flatten_once flat_map]. rewrite app_nil_r.
  apply everywhere_list in Hv. destruct Hv as [_ Hv].
  revert bl. induction l as [|x l IHl]; intros bl; cbn [flatten_list].
  - now rewrite times_nil, app_nil_r.
  - apply Forall_cons_iff in H. apply Forall_cons_iff in Hv. destruct H as [H H'], Hv as [Hv Hv'].
    rewrite H by auto. cbn [obind]. rewrite IHl by auto. f_equal.
    change (x :: l) with ([x] ++ l). now rewrite (times_app dn [x] l), app_assoc.
Qed.
Lemma flatten_list_ok l : forall n b, value_ok (VList l) ->
  flatten_list (Z.of_nat n) l b = Val (b ++ flatten_times n l).
Proof.
  induction l as [|x l IH]; intros n b Hl; cbn [flatten_list].
  - now rewrite times_nil, app_nil_r.
  - apply everywhere_list in Hl. destruct Hl as [_ Hl]. apply Forall_cons_iff in Hl. destruct Hl as [Hx Hl].
    rewrite flatten_elem_ok by exact Hx. cbn [obind]. rewrite IH.
    + f_equal. change (x :: l) with ([x] ++ l). now rewrite (times_app n [x] l), app_assoc.
    + apply everywhere_list. split; auto. exact I.
Qed.
Lemma once_flat l : no_lists l -> flatten_once l = l.
Proof.
  induction 1 as [|x l H _ IH]; [reflexivity|]. cbn [flatten_once flat_map] in *.
  unfold flatten_once in IH. rewrite IH. destruct x; try easy.
Qed.
Lemma times_flat n : forall l, no_lists l -> flatten_times n l = l.
Proof. induction n as [|n IH]; intros l H; [reflexivity|]. cbn [flatten_times]. rewrite once_flat by auto. auto. Qed.
Lemma times_add n m : forall l, flatten_times (n + m) l = flatten_times m (flatten_times n l).
Proof. induction n as [|n IH]; intros l; [reflexivity|]. cbn. apply IH. Qed.

Fixpoint nesting (v : value) : nat :=
  match v with
  | VList l => S ((fix go (l : list value) : nat := match l with [] => O | x :: l' => Nat.max (nesting x) (go l') end) l)
  | _ => O
  end.
Fixpoint nestings (l : list value) : nat := match l with [] => O | x :: l' => Nat.max (nesting x) (nestings l') end.
Lemma nesting_list l : nesting (VList l) = S (nestings l).
Proof. reflexivity. Qed.
Lemma nestings_app a b : nestings (a ++ b) = Nat.max (nestings a) (nestings b).
Proof. induction a as [|x a IH]; [reflexivity|]. cbn [nestings app]. rewrite IH. lia. Qed.
Lemma once_nesting l : nestings (flatten_once l) = Nat.pred (nestings l).
Proof.
  induction l as [|x l IH]; [reflexivity|]. cbn [flatten_once flat_map]. fold (flatten_once l).
  rewrite nestings_app, IH. cbn [nestings].
  destruct x; try (cbn [nestings nesting]; lia). rewrite nesting_list. lia.
Qed.
Lemma times_nesting n : forall l, nestings (flatten_times n l) = (nestings l - n)%nat.
Proof.
  induction n as [|n IH]; intros l; cbn [flatten_times]; [lia|]. rewrite IH, once_nesting. lia.
Qed.
Lemma nesting_0 l : nestings l = O -> no_lists l.
Proof.
  induction l as [|x l IH]; intros H; constructor; cbn [nestings] in H; [|apply IH; lia].
  destruct x; auto. rewrite nesting_list in H. lia.
Qed.

(* ---- distinct ---- *)
Lemma existsb_seen v seen : value_ok v -> (forall y, In y seen -> value_ok y) ->
  (existsb (fun s => ValueEqual v s) seen = true <-> exists y, In y seen /\ same v y).
Proof.
  intros Hv Hs. rewrite existsb_exists. split; intros (y & I & E); exists y; split; auto; apply ValueEqual_spec; auto.
Qed.
Lemma heterogeneous_ok rest : forall seen kept b,
  (forall y, In y rest -> value_ok y) -> (forall y, In y seen -> value_ok y) ->
  (forall y, In y seen <-> In y kept) ->
  exists r, distinct_heterogeneous rest seen b = Val (b ++ r) /\ keeps_new kept rest r.
Proof.
  induction rest as [|v rest IH]; intros seen kept b Hr Hs P; cbn [distinct_heterogeneous].
  - exists []. split; [now rewrite app_nil_r|constructor].
  - assert (Hv : value_ok v) by (apply Hr; now left).
    assert (Hr' : forall y, In y rest -> value_ok y) by (intros; apply Hr; now right).
    destruct (existsb _ seen) eqn:E.
    + destruct (IH seen kept b Hr' Hs P) as (r & A & B). exists r. split; auto. apply KeepDrop; auto.
      apply existsb_seen in E; auto. destruct E as (y & I & S). exists y. split; auto. now apply P.
    + rewrite add_ok by auto. cbn [obind].
      destruct (IH (seen ++ [v]) (kept ++ [v]) (b ++ [v]) Hr') as (r & A & B).
      * intros y. rewrite in_app_iff. intros [I|[<-|[]]]; auto.
      * intros y. rewrite !in_app_iff, P. reflexivity.
      * exists (v :: r). rewrite A, <- app_assoc. split; [reflexivity|]. apply KeepAdd; auto.
        intros y I S. assert (existsb (fun s => ValueEqual v s) seen = true); [|congruence].
        apply existsb_seen; auto. exists y. split; auto. now apply P.
Qed.
Lemma same_hashable_ok k a b : In k [kIntT; kUintT; kBoolT; kStringT] ->
  kind_of a = k -> kind_of b = k -> value_ok a -> value_ok b -> (same_hashable a b = true <-> same a b).
Proof.
  intros Hk Ka Kb Ha Hb. unfold same. rewrite <- ValueEqual_spec by auto.
  destruct Hk as [<-|[<-|[<-|[<-|[]]]]]; destruct a; try discriminate; destruct b; try discriminate; reflexivity.
Qed.
Lemma homogeneous_ok reorder k : (forall l, Permutation l (reorder l)) -> In k [kIntT; kUintT; kBoolT; kStringT] ->
  forall rest seen b,
  (forall y, In y rest -> value_ok y) -> (forall y, In y seen -> value_ok y /\ kind_of y = k) ->
  exists r, distinct_homogeneous reorder k rest seen b = Val (b ++ r) /\ keeps_new seen rest r.
Proof.
  intros Hp Hk. induction rest as [|v rest IH]; intros seen b Hr Hs; cbn [distinct_homogeneous].
  - exists []. split; [now rewrite app_nil_r|constructor].
  - assert (Hv : value_ok v) by (apply Hr; now left).
    assert (Hr' : forall y, In y rest -> value_ok y) by (intros; apply Hr; now right).
    destruct (kind_eqb (kind_of v) k) eqn:K.
    2:{ apply heterogeneous_ok; auto.
        - intros y I. apply Hs. eapply Permutation_in; [|exact I]. apply Permutation_sym, Hp.
        - intros y. split; apply Permutation_in; [apply Permutation_sym|]; apply Hp. }
    assert (Kv : kind_of v = k) by (destruct (kind_of v), k; auto; discriminate).
    assert (X : existsb (same_hashable v) seen = true <-> exists y, In y seen /\ same v y).
    { rewrite existsb_exists. split; intros (y & I & E); exists y; split; auto;
        destruct (Hs y I); eapply same_hashable_ok; eauto. }
    destruct (existsb (same_hashable v) seen) eqn:E.
    + destruct (IH seen b Hr' Hs) as (r & A & B). exists r. split; auto. apply KeepDrop; auto. now apply X.
    + rewrite add_ok by auto. cbn [obind].
      destruct (IH (seen ++ [v]) (b ++ [v]) Hr') as (r & A & B).
      * intros y. rewrite in_app_iff. intros [I|[<-|[]]]; auto.
      * exists (v :: r). rewrite A, <- app_assoc. split; [reflexivity|]. apply KeepAdd; auto.
        intros y I S. assert (false = true); [|congruence]. apply X. eauto.
Qed.
Lemma distinct_ok reorder l : (forall l, Permutation l (reorder l)) -> value_ok (VList l) ->
  exists r, ListDistinct reorder l = Val (VList r) /\ keeps_new [] l r.
Proof.
  intros Hp Hl. assert (Hx : forall x, In x l -> value_ok x) by (intros; eapply ok_in; eauto).
  unfold ListDistinct. destruct l as [|a [|b l]].
  - exists []. split; auto. constructor.
  - exists [a]. split; auto. apply KeepAdd; [easy|]. constructor.
  - set (L := a :: b :: l) in *.
    assert (D : exists r, distinct_heterogeneous L [] [] = Val ([] ++ r) /\ keeps_new [] L r).
    { apply heterogeneous_ok; auto; [easy|tauto]. }
    assert (H : forall k, In k [kIntT; kUintT; kBoolT; kStringT] ->
      exists r, distinct_homogeneous reorder k L [] [] = Val ([] ++ r) /\ keeps_new [] L r).
    { intros k Hk. apply homogeneous_ok; auto. easy. }
    destruct (kind_of a) eqn:K;
      try (destruct D as (r & -> & D); exists r; split; [reflexivity|exact D]);
      match goal with |- context [distinct_homogeneous _ ?k] =>
        destruct (H k) as (r & -> & X); [cbn; tauto|exists r; split; [reflexivity|exact X]] end.
Qed.

Lemma keeps_new_sub kept l r : keeps_new kept l r -> forall x, In x r -> In x l.
Proof. induction 1; intros z I; [easy|right; auto|destruct I; [left|right]; auto]. Qed.

(* ---- sort ---- *)
Lemma iota_seq n : forall i, iota n (Z.of_nat i) = map Z.of_nat (seq i n).
Proof.
  induction n as [|n IH]; intros i; [reflexivity|]. cbn [iota seq map]. f_equal.
  replace (Z.of_nat i + 1) with (Z.of_nat (S i)) by lia. apply IH.
Qed.
Lemma gather_ok l idx : value_ok (VList l) -> forall b,
  (forall i, In i idx -> 0 <= i < Z.of_nat (List.length l)) ->
  gather l idx b = Val (b ++ map (ListGet l) idx).
Proof.
  intros Hl. induction idx as [|i idx IH]; intros b H; cbn [gather map].
  - now rewrite app_nil_r.
  - assert (value_ok (ListGet l i)).
    { destruct (nth_error l (Z.to_nat i)) as [v|] eqn:E.
      - pose proof (get_ok _ _ _ E) as G. rewrite Z2Nat.id in G by (specialize (H i (or_introl eq_refl)); lia).
        rewrite G. eapply ok_in, nth_error_In; eauto.
      - apply nth_error_None in E. specialize (H i (or_introl eq_refl)). lia. }
    rewrite add_ok by auto. cbn [obind]. rewrite IH by (intros; apply H; now right).
    now rewrite <- app_assoc.
Qed.
Lemma map_get_iota l : map (ListGet l) (iota (List.length l) 0) = l.
Proof.
  change 0 with (Z.of_nat 0). rewrite iota_seq, map_map.
  assert (forall n i, (i + n = List.length l)%nat -> map (fun x => ListGet l (Z.of_nat x)) (seq i n) = skipn i l) as H.
  { induction n as [|n IH]; intros i H; cbn [seq map].
    - rewrite skipn_all2; auto. lia.
    - destruct (nth_error l i) as [v|] eqn:E; [|apply nth_error_None in E; lia].
      rewrite IH by lia. rewrite (get_ok _ _ _ E).
      clear -E. revert l E. induction i as [|i IH]; intros [|x l] E; cbn in E; try discriminate.
      + now injection E as ->.
      + cbn [skipn]. now apply IH. }
  now rewrite (H (List.length l) O).
Qed.

Lemma bytes_ltb_lex a : forall b, bytes_ltb a b = true <-> lexicographic a b.
Proof.
  induction a as [|x a IH]; intros [|y b]; cbn [bytes_ltb].
  - split; [discriminate|]. intros (p & [(<- & z & b' & E)|(u & v & a' & b' & E & _)]); [discriminate|destruct p; discriminate].
  - split; auto. intros _. exists []. left. split; auto. exists y, b. reflexivity.
  - split; [discriminate|]. intros (p & [(<- & z & b' & E)|(u & v & a' & b' & _ & E & _)]); [|destruct p; discriminate].
    discriminate.
  - destruct (x <? y) eqn:L.
    { split; auto. intros _. exists []. right. exists x, y, a, b. repeat split. lia. }
    destruct (y <? x) eqn:G.
    { split; [discriminate|]. intros (p & [(<- & z & b' & E)|(u & v & a' & b' & E & F & D)]).
      - cbn in E. injection E as -> _. lia.
      - destruct p; cbn in *; injection E as -> ->; injection F as -> ->; lia. }
    assert (x = y) by lia. subst y. rewrite IH. split.
    + intros (p & [(<- & z & b' & E)|(u & v & a' & b' & E & F & D)]).
      * exists (x :: a). left. split; auto. exists z, b'. cbn. now rewrite E.
      * exists (x :: p). right. exists u, v, a', b'. cbn. now rewrite E, F.
    + intros (p & [(<- & z & b' & E)|(u & v & a' & b' & E & F & D)]).
      * cbn in E. injection E as ->. exists a. left. eauto.
      * destruct p as [|w p]; cbn in *; injection E as -> ->; injection F as ->; [lia|].
        exists p. right. exists u, v, a', b'. auto.
Qed.
Lemma d_lt_math x y : valid_double x = true -> valid_double y = true ->
  (d_lt x y = true <-> math_lt (NDouble x) (NDouble y)).
Proof.
  intros Hx Hy. unfold math_lt, math_cmp, d_lt. cbn [number_value]. rewrite SFcompare_spec by auto.
  destruct (spec_compare _ _) as [[]|]; split; congruence.
Qed.
Lemma key_ltb_ok k a b : sortable k -> kind_of a = k -> kind_of b = k -> value_ok a -> value_ok b ->
  (key_ltb a b = true <-> less a b).
Proof.
  intros _ Ka Kb Ha Hb. rewrite <- Kb in Ka. clear Kb.
  destruct a, b; try discriminate; cbn [key_ltb];
    try (split; [discriminate|intros X; inversion X; fail]).
  - destruct b, b0; cbn; split; intros X; try discriminate; try constructor; try reflexivity; inversion X.
  - rewrite Z.ltb_lt. split; intros X; [now constructor|now inversion X].
  - rewrite Z.ltb_lt. split; intros X; [now constructor|now inversion X].
  - rewrite d_lt_math by (apply Ha || apply Hb). split; intros X; [now constructor|now inversion X].
  - rewrite bytes_ltb_lex. split; intros X; [now constructor|now inversion X].
  - rewrite bytes_ltb_lex. split; intros X; [now constructor|now inversion X].
  - destruct d as [x|[]], d0 as [y|[]]; cbn; split; intros X; try discriminate; try constructor; try reflexivity;
      try (inversion X; fail); [lia|]. inversion X. lia.
  - destruct t as [x|[]], t0 as [y|[]]; cbn; split; intros X; try discriminate; try constructor; try reflexivity;
      try (inversion X; fail); [lia|]. inversion X. lia.
Qed.

Lemma bytes_ltb_irrefl a : bytes_ltb a a = false.
Proof. induction a as [|x a IH]; [reflexivity|]. cbn. now rewrite Z.ltb_irrefl. Qed.
Lemma bytes_ltb_cotrans a : forall b c, bytes_ltb a c = true -> bytes_ltb a b = true \/ bytes_ltb b c = true.
Proof.
  induction a as [|x a IH]; intros [|y b] [|z c]; cbn; auto; try discriminate.
  intros H. destruct (x <? z) eqn:E1; [|destruct (z <? x) eqn:E2; [discriminate|]].
  - destruct (x <? y) eqn:E3; auto. destruct (y <? z) eqn:E4; auto.
    lia.
  - destruct (x <? y) eqn:E3; auto. destruct (y <? z) eqn:E4; auto.
    replace (y <? x) with false by lia. replace (z <? y) with false by lia. auto.
Qed.
Lemma bytes_ltb_trans a : forall b c, bytes_ltb a b = true -> bytes_ltb b c = true -> bytes_ltb a c = true.
Proof.
  induction a as [|x a IH]; intros [|y b] [|z c]; cbn; auto; try discriminate.
  destruct (x <? y) eqn:E1; destruct (y <? z) eqn:E2; intros H1 H2.
  - replace (x <? z) with true by lia. reflexivity.
  - destruct (z <? y) eqn:E3; [discriminate|]. replace (x <? z) with true by lia. reflexivity.
  - destruct (y <? x) eqn:E3; [discriminate|]. replace (x <? z) with true by lia. reflexivity.
  - destruct (y <? x) eqn:E3; [discriminate|]. destruct (z <? y) eqn:E4; [discriminate|].
    replace (x <? z) with false by lia. replace (z <? x) with false by lia. eauto.
Qed.

Lemma d_lt_spec x y : valid_double x = true -> valid_double y = true ->
  (d_lt x y = true <-> spec_compare (double_value x) (double_value y) = Some Lt).
Proof.
  intros Hx Hy. unfold d_lt. rewrite SFcompare_spec by auto.
  destruct (spec_compare _ _) as [[]|]; split; congruence.
Qed.
Lemma ext_lt_cotrans a b c : ext_compare a c = Lt -> ext_compare a b = Lt \/ ext_compare b c = Lt.
Proof.
  destruct a as [|a|], b as [|b|], c as [|c|]; cbn; auto. rewrite <- !Qlt_alt. intros H.
  destruct (Qlt_le_dec a b); auto. right. eapply Qle_lt_trans; eauto.
Qed.
Lemma ext_lt_trans a b c : ext_compare a b = Lt -> ext_compare b c = Lt -> ext_compare a c = Lt.
Proof.
  destruct a as [|a|], b as [|b|], c as [|c|]; cbn; auto; try discriminate. rewrite <- !Qlt_alt. apply Qlt_trans.
Qed.
Lemma ext_irrefl a : ext_compare a a <> Lt.
Proof. destruct a as [|a|]; cbn; try discriminate. rewrite <- Qlt_alt. apply Qlt_irrefl. Qed.

(* a value that sort can order: of the kind, well formed, not NaN *)
Definition sort_key (k : kind) (v : value) : Prop :=
  kind_of v = k /\ value_ok v /\ match v with VDouble d => double_value d <> None | _ => True end.
Lemma key_ltb_irrefl k a : sortable k -> sort_key k a -> key_ltb a a = false.
Proof.
  intros Hk (Ka & Ha & Na). destruct a; cbn [key_ltb]; auto using Z.ltb_irrefl, bytes_ltb_irrefl.
  - now destruct b.
  - destruct (d_lt d d) eqn:E; auto. apply d_lt_spec in E; try apply Ha.
    destruct (double_value d); [|congruence]. cbn in E. injection E as E. now apply ext_irrefl in E.
  - destruct d as [x|[]]; cbn; auto using Z.ltb_irrefl.
  - destruct t as [x|[]]; cbn; auto using Z.ltb_irrefl.
Qed.
Lemma key_ltb_trans k a b c : sortable k -> sort_key k a -> sort_key k b -> sort_key k c ->
  key_ltb a b = true -> key_ltb b c = true -> key_ltb a c = true.
Proof.
  intros Hk (Ka & Ha & Na) (Kb & Hb & Nb) (Kc & Hc & Nc).
  destruct a; destruct b; try (cbn [key_ltb]; discriminate); destruct c; cbn [key_ltb]; try discriminate.
  - destruct b, b0, b1; cbn; auto.
  - lia.
  - lia.
  - rewrite !d_lt_spec by (apply Ha || apply Hb || apply Hc).
    destruct (double_value d), (double_value d0), (double_value d1); cbn; try discriminate.
    intros [= X] [= Y]. f_equal. eapply ext_lt_trans; eauto.
  - apply bytes_ltb_trans.
  - apply bytes_ltb_trans.
  - destruct d as [x|[]], d0 as [y|[]], d1 as [z|[]]; cbn; auto; try discriminate. lia.
  - destruct t as [x|[]], t0 as [y|[]], t1 as [z|[]]; cbn; auto; try discriminate. lia.
Qed.
Lemma key_ltb_cotrans k a b c : sortable k -> sort_key k a -> sort_key k b -> sort_key k c ->
  key_ltb a c = true -> key_ltb a b = true \/ key_ltb b c = true.
Proof.
  intros Hk (Ka & Ha & Na) (Kb & Hb & Nb) (Kc & Hc & Nc). rewrite <- Kb in Ka, Kc. clear Kb.
  destruct a; destruct b; try discriminate; destruct c; try discriminate; cbn [key_ltb]; try discriminate.
  - destruct b, b0, b1; cbn; auto.
  - lia.
  - lia.
  - rewrite !d_lt_spec by (apply Ha || apply Hb || apply Hc).
    destruct (double_value d), (double_value d0), (double_value d1); cbn; try discriminate; try congruence.
    intros [= X]. destruct (ext_lt_cotrans e e0 e1 X) as [-> | ->]; auto.
  - apply bytes_ltb_cotrans.
  - apply bytes_ltb_cotrans.
  - destruct d as [x|[]], d0 as [y|[]], d1 as [z|[]]; cbn; auto; try discriminate. lia.
  - destruct t as [x|[]], t0 as [y|[]], t1 as [z|[]]; cbn; auto; try discriminate. lia.
Qed.
Lemma key_strict_weak k keys : sortable k -> Forall (sort_key k) keys ->
  strict_weak (fun a b => key_ltb (ListGet keys a) (ListGet keys b)) (iota (List.length keys) 0).
Proof.
  intros Hk Hs.
  assert (G : forall i, In i (iota (List.length keys) 0) -> sort_key k (ListGet keys i)).
  { intros i I. rewrite Forall_forall in Hs. apply Hs. rewrite <- (map_get_iota keys) at 2. now apply in_map. }
  repeat split.
  - intros a I. eapply key_ltb_irrefl; eauto.
  - intros a b c I J K. eapply key_ltb_trans; eauto.
  - intros. destruct (key_ltb (ListGet keys a) (ListGet keys c)) eqn:E; auto.
    destruct (key_ltb_cotrans k _ (ListGet keys b) _ Hk (G a H) (G b H0) (G c H1) E); congruence.
  - intros. destruct (key_ltb (ListGet keys c) (ListGet keys a)) eqn:E; auto.
    destruct (key_ltb_cotrans k _ (ListGet keys b) _ Hk (G c H1) (G b H0) (G a H) E); congruence.
Qed.

(* insertion sort meets the contract of std::sort *)
Fixpoint insert (lt : Z -> Z -> bool) (x : Z) (l : list Z) : list Z :=
  match l with [] => [x] | y :: l' => if lt y x then y :: insert lt x l' else x :: l end.
Definition insertion_sort : sorter := fun lt l => Val (fold_right (insert lt) [] l).
Lemma insert_perm lt x l : Permutation (x :: l) (insert lt x l).
Proof.
  induction l as [|y l IH]; cbn; auto. destruct (lt y x); auto.
  eapply perm_trans; [apply perm_swap|]. now constructor.
Qed.
Lemma strict_weak_incl {A} (lt : A -> A -> bool) l l' : incl l l' -> strict_weak lt l' -> strict_weak lt l.
Proof. intros H (A1 & A2 & A3). split; [intros; auto|]. split; [intros a b c; intros; eapply (A2 a b c); auto|]. intros a b c; intros; eapply (A3 a b c); auto. Qed.
Lemma insert_sorted lt x l : strict_weak lt (x :: l) ->
  StronglySorted (fun a b => lt b a = false) l -> StronglySorted (fun a b => lt b a = false) (insert lt x l).
Proof.
  intros W S. induction S as [|y l S IH F]; cbn [insert]; [repeat constructor|].
  destruct (lt y x) eqn:E.
  - constructor.
    + apply IH. eapply strict_weak_incl; [|exact W]. intros z. cbn. tauto.
    + apply Forall_forall. intros z I. apply (Permutation_in _ (Permutation_sym (insert_perm lt x l))) in I.
      destruct I as [<-|I].
      * destruct (lt x y) eqn:E'; auto. destruct W as (W1 & W2 & _).
        rewrite <- (W1 x), (W2 x y x); cbn; auto.
      * rewrite Forall_forall in F. auto.
  - constructor; [constructor; auto|]. constructor; [auto|]. apply Forall_forall. intros z I.
    rewrite Forall_forall in F. specialize (F z I).
    destruct (lt z x) eqn:Z; auto. exfalso. destruct W as (W1 & W2 & W3).
    (* z < x, not z < y, not y < x *)
    destruct (lt y z) eqn:YZ.
    { rewrite (W2 y z x) in E; cbn; auto; discriminate. }
    destruct (lt x y) eqn:XY.
    { rewrite (W2 z x y) in F; cbn; auto; discriminate. }
    destruct (W3 z y x) as [X _]; cbn; auto. congruence.
Qed.
Lemma insertion_contract : sort_contract insertion_sort.
Proof.
  intros lt l W. eexists. split; [reflexivity|].
  assert (P : Permutation l (fold_right (insert lt) [] l)).
  { clear W. induction l as [|x l IH]; cbn [fold_right]; auto. eapply perm_trans; [|apply insert_perm]. now constructor. }
  split; auto. clear P. induction l as [|x l IH]; cbn [fold_right]; [constructor|].
  assert (P : Permutation l (fold_right (insert lt) [] l)).
  { clear. induction l as [|x l IH]; cbn [fold_right]; auto. eapply perm_trans; [|apply insert_perm]. now constructor. }
  apply insert_sorted.
  - eapply strict_weak_incl; [|exact W]. intros z [<-|I]; [now left|right]. eapply Permutation_in; [|exact I]. now apply Permutation_sym.
  - apply IH. eapply strict_weak_incl; [|exact W]. intros z; cbn; auto.
Qed.

Lemma sorted_map {A B} (f : A -> B) (P : A -> A -> Prop) (Q : B -> B -> Prop) l :
  (forall a b, In a l -> In b l -> P a b -> Q (f a) (f b)) -> StronglySorted P l -> StronglySorted Q (map f l).
Proof.
  intros H S. induction S as [|x l S IH F]; cbn [map]; constructor.
  - apply IH. intros; apply H; auto; now right.
  - rewrite Forall_forall in *. intros y I. apply in_map_iff in I. destruct I as (z & <- & I).
    apply H; [now left|now right|]. auto.
Qed.

Lemma sort_native_ok std_sort k l keys : sort_contract std_sort -> value_ok (VList l) -> sortable k ->
  List.length l = List.length keys -> Forall (sort_key k) keys ->
  exists idx, Permutation (iota (List.length l) 0) idx /\
    SortNative std_sort k l keys = Val (VList (map (ListGet l) idx)) /\
    StronglySorted (fun a b => ~ less b a) (map (ListGet keys) idx).
Proof.
  intros C Hl Hk Len Hs.
  destruct (C _ _ (key_strict_weak k keys Hk Hs)) as (idx & E & P & S).
  assert (SS : StronglySorted (fun a b => ~ less b a) (map (ListGet keys) idx)).
  { eapply sorted_map; [|exact S]. cbn. intros a b I J F L.
    assert (G : forall i, In i idx -> sort_key k (ListGet keys i)).
    { intros i I'. rewrite Forall_forall in Hs. apply Hs. rewrite <- (map_get_iota keys) at 2. apply in_map.
      eapply Permutation_in; [apply Permutation_sym|]; eauto. }
    destruct (G a I) as (K1 & O1 & _), (G b J) as (K2 & O2 & _).
    apply (key_ltb_ok k _ _ Hk K2 K1 O2 O1) in L. congruence. }
  unfold SortNative. destruct l as [|x [|y l]].
  - exists []. destruct keys; [|discriminate]. cbn in P. apply Permutation_nil in P. subst idx. repeat split; auto.
  - exists [0]. destruct keys as [|kx [|]]; try discriminate. repeat split; cbn; auto. repeat constructor.
  - exists idx. rewrite Len. split; auto.
    replace (forallb _ keys) with true.
    2:{ symmetry. apply forallb_forall. intros v I. rewrite Forall_forall in Hs. destruct (Hs v I) as (-> & _). now destruct k. }
    rewrite E. cbn [obind]. rewrite gather_ok; auto.
    intros i I. apply (Permutation_in _ (Permutation_sym P)) in I. rewrite Len. clear -I.
    change 0 with (Z.of_nat 0) in I. rewrite iota_seq in I. apply in_map_iff in I. destruct I as (j & <- & J).
    apply in_seq in J. lia.
Qed.
