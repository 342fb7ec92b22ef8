(* Property theorems C38: the lists extension. *)
From Coq Require Import ZArith QArith List Bool Lia ZifyBool String Permutation Sorted.
From Verif Require Import Base M_Overflow M_Number M_Attr M_Value S_Num S_Value L_Value P_Val M_Ext S_Ext L_Ext P_Sets.
Import ListNotations.
Local Open Scope string_scope.
Open Scope list_scope.
Open Scope Z_scope.

(* ---- slice ---- *)
Theorem C38_slice : forall l i j, value_ok (VList l) ->
  (0 <= i <= j /\ j <= Z.of_nat (List.length l) ->
     ListSlice l i j = Val (VList (firstn (Z.to_nat (j - i)) (skipn (Z.to_nat i) l)))) /\
  (~ (0 <= i <= j /\ j <= Z.of_nat (List.length l)) ->
     exists s, ListSlice l i j = Val (VError s) /\ st_code s = kInvalidArgument).
Proof.
  intros l i j Hl. unfold ListSlice. split.
  - intros H. replace ((i <? 0) || (j <? 0)) with false by lia. replace (j <? i) with false by lia.
    replace (Z.of_nat (List.length l) <? j) with false by lia.
    rewrite <- (Z2Nat.id i) at 2 by lia. rewrite get_loop_ok by (auto; lia). reflexivity.
  - intros H. destruct ((i <? 0) || (j <? 0)) eqn:E1; [eexists; split; reflexivity|].
    destruct (j <? i) eqn:E2; [eexists; split; reflexivity|].
    destruct (Z.of_nat (List.length l) <? j) eqn:E3; [eexists; split; reflexivity|]. lia.
Qed.
Print Assumptions C38_slice.

(* ---- reverse ---- *)
Theorem C38_reverse : forall l, value_ok (VList l) ->
  ListReverse l = Val (VList (rev l)) /\ ListReverse (rev l) = Val (VList l).
Proof.
  assert (R : forall l, value_ok (VList l) -> ListReverse l = Val (VList (rev l))).
  { intros l Hl. unfold ListReverse. rewrite reverse_loop_ok by auto. cbn [obind app]. now rewrite firstn_all. }
  intros l Hl. split; auto. rewrite R, rev_involutive; auto.
  apply ok_list. intros x I. apply (ok_in l); auto. now apply in_rev.
Qed.
Print Assumptions C38_reverse.

(* ---- flatten ---- *)
Theorem C38_flatten : forall l d, value_ok (VList l) ->
  (0 <= d -> ListFlatten l d = Val (VList (flatten_times (Z.to_nat d) l))) /\
  (d < 0 -> exists s, ListFlatten l d = Val (VError s) /\ st_code s = kInvalidArgument).
Proof.
  intros l d Hl. unfold ListFlatten. split; intros H.
  - replace (d <? 0) with false by lia. rewrite <- (Z2Nat.id d) at 1 by lia.
    rewrite flatten_list_ok by auto. reflexivity.
  - replace (d <? 0) with true by lia. eexists. split; reflexivity.
Qed.
Print Assumptions C38_flatten.
(* Some depth leaves no nested list; from then on flatten changes nothing. *)
Theorem C38_flatten_idempotent : forall l, value_ok (VList l) ->
  (no_lists l -> forall d, 0 <= d -> ListFlatten l d = Val (VList l)) /\
  (exists n, 0 <= n /\ forall d, n <= d -> exists r, ListFlatten l d = Val (VList r) /\ no_lists r /\
     ListFlatten l n = Val (VList r)).
Proof.
  intros l Hl. split.
  - intros N d Hd. rewrite (proj1 (C38_flatten l d Hl)) by auto. now rewrite times_flat.
  - exists (Z.of_nat (nestings l)). split; [lia|]. intros d Hd.
    assert (NL : no_lists (flatten_times (nestings l) l)).
    { apply nesting_0. rewrite times_nesting. lia. }
    exists (flatten_times (nestings l) l).
    rewrite (proj1 (C38_flatten l d Hl)) by lia.
    rewrite (proj1 (C38_flatten l (Z.of_nat (nestings l)) Hl)) by lia.
    rewrite Nat2Z.id. repeat split; auto. do 2 f_equal.
    replace (Z.to_nat d) with (nestings l + (Z.to_nat d - nestings l))%nat by lia.
    now rewrite times_add, times_flat.
Qed.
Print Assumptions C38_flatten_idempotent.

(* ---- range ---- *)
Theorem C38_range : forall limit n, in_int64 n = true -> 0 <= n <= limit ->
  ListRange limit n = Val (VList (map (fun k => VInt (Z.of_nat k)) (seq 0 (Z.to_nat n)))).
Proof.
  intros limit n Hn H. unfold ListRange, Reserve, c_uint64.
  assert (n < 2 ^ 64). { unfold in_int64, int64_max in Hn. change (2^64) with 18446744073709551616. lia. }
  rewrite Z.mod_small by lia. replace (n <=? limit) with true by lia. cbn [obind].
  rewrite range_loop_ok. reflexivity.
Qed.
Print Assumptions C38_range.
(* A negative argument asks the builder for more than 2^63 elements, which no
   allocation can provide: lists.range(-1) is not the empty list and not an
   error. *)
Theorem C38_range_negative_refuted : forall limit n, in_int64 n = true -> n < 0 -> limit < 2 ^ 63 ->
  ListRange limit n = UB.
Proof.
  intros limit n Hn H L. unfold ListRange, Reserve, c_uint64.
  assert (E : n mod 2 ^ 64 = n + 2 ^ 64).
  { symmetry. apply Z.mod_unique with (-1); [left|]; unfold in_int64, int64_min in Hn; change (2^64) with (2 * 2^63); lia. }
  rewrite E. replace (n + 2 ^ 64 <=? limit) with false; [reflexivity|].
  unfold in_int64, int64_min in Hn. change (2^64) with (2 * 2^63). lia.
Qed.
Print Assumptions C38_range_negative_refuted.

(* ---- distinct ---- *)
Theorem C38_distinct : forall reorder l, (forall l, Permutation l (reorder l)) -> value_ok (VList l) ->
  exists r, ListDistinct reorder l = Val (VList r) /\ keeps_new [] l r /\
    (* so: every element has an equal one in the result, and those differ *)
    (forall x, In x l -> In x r \/ exists y, In y r /\ same x y) /\
    (forall r1 x r2 y r3, r = r1 ++ x :: r2 ++ y :: r3 -> ~ same y x).
Proof.
  intros reorder l Hp Hl. destruct (distinct_ok reorder l Hp Hl) as (r & E & K). exists r.
  split; auto. split; auto. clear E. split.
  - assert (G : forall kept l r, keeps_new kept l r -> forall x, In x l -> In x r \/ exists y, (In y r \/ In y kept) /\ same x y).
    { clear. induction 1 as [|kept x l r (y & I & S) K IH|kept x l r N K IH]; intros z; [easy| |].
      - intros [<-|J]; [right; eauto|]. apply IH; auto.
      - intros [<-|J]; [left; now left|]. destruct (IH z J) as [J'|(y & [J'|J'] & S)].
        + left. now right.
        + right. exists y. split; auto. left. now right.
        + apply in_app_iff in J'. right. exists y. split; auto. destruct J' as [J'|[<-|[]]]; auto. left. now left. }
    intros x I. destruct (G _ _ _ K x I) as [J|(y & [J|[]] & S)]; eauto.
  - assert (G : forall kept l r, keeps_new kept l r -> 
       (forall x y, In x kept -> In y r -> ~ same y x) /\
       (forall r1 x r2 y r3, r = r1 ++ x :: r2 ++ y :: r3 -> ~ same y x)).
    { clear. induction 1 as [kept|kept x l r (y & I & S) K [IH1 IH2]|kept x l r N K [IH1 IH2]].
      - split; [easy|]. intros [|] ? ? ? ? E; discriminate.
      - split; auto.
      - split.
        + intros a b I [<-|J]; auto. apply IH1; auto. apply in_app_iff. auto.
        + intros [|c r1] a r2 b r3 E; injection E as -> E.
          * apply IH1; [apply in_app_iff; right; now left|]. rewrite E. apply in_app_iff. right. now left.
          * eapply IH2; eauto. }
    apply (G _ _ _ K).
Qed.
Print Assumptions C38_distinct.

(* When equality of the elements is transitive, exactly the first of each
   group of equal elements is kept. *)
Theorem C38_distinct_first : forall reorder l, (forall l, Permutation l (reorder l)) -> value_ok (VList l) ->
  transitive_on l -> exists r, ListDistinct reorder l = Val (VList r) /\ keeps_first [] l r.
Proof.
  intros reorder l Hp Hl T. destruct (distinct_ok reorder l Hp Hl) as (r & E & K). exists r. split; auto. clear E.
  assert (G : forall kept l' r, keeps_new kept l' r -> forall earlier, incl earlier l -> incl l' l ->
     incl kept earlier -> (forall x, In x earlier -> In x kept \/ exists y, In y kept /\ same x y) ->
     keeps_first earlier l' r).
  { clear K r. induction 1 as [kept|kept x l' r (y & I & S) K IH|kept x l' r N K IH]; intros earlier I1 I2 I3 C.
    - constructor.
    - assert (In x l) by (apply I2; now left). apply FirstDrop; [exists y; auto|]. apply IH.
      + intros z J. apply in_app_iff in J. destruct J as [J|[<-|[]]]; auto.
      + intros z J. apply I2. now right.
      + intros z J. apply in_app_iff. auto.
      + intros z J. apply in_app_iff in J. destruct J as [J|[<-|[]]]; eauto.
    - assert (In x l) by (apply I2; now left). apply FirstAdd.
      + intros y J S. destruct (C y J) as [J'|(z & J' & S')]; [now apply (N y)|].
        apply (N z J'). apply (T x y z); auto.
      + apply IH.
        * intros z J. apply in_app_iff in J. destruct J as [J|[<-|[]]]; auto.
        * intros z J. apply I2. now right.
        * intros z J. rewrite in_app_iff in *. destruct J as [J|[<-|[]]]; auto. right. now left.
        * intros z J. apply in_app_iff in J. destruct J as [J|[<-|[]]].
          -- destruct (C z J) as [J'|(w & J' & S)]; [left; apply in_app_iff; auto|].
             right. exists w. split; auto. apply in_app_iff. auto.
          -- left. apply in_app_iff. right. now left. }
  apply (G _ _ _ K); try easy.
Qed.
Print Assumptions C38_distinct_first.
(* Without transitivity a kept element can equal an earlier one. *)
Theorem C38_distinct_first_refuted : exists a b c, value_ok (VList [a; b; c]) /\ same c b /\
  forall reorder, (forall l, Permutation l (reorder l)) ->
    ListDistinct reorder [a; b; c] = Val (VList [a; c]).
Proof.
  exists (VInt (2 ^ 53)), (VDouble (double_of_Z (2 ^ 53))), (VInt (2 ^ 53 + 1)).
  split; [ok_value|]. split.
  - apply ValueEqual_spec; [ok_value|ok_value|]. vm_compute. reflexivity.
  - intros reorder P.
    assert (E : reorder [VInt (2 ^ 53)] = [VInt (2 ^ 53)]) by (apply Permutation_length_1_inv, P).
    cbn [ListDistinct kind_of distinct_homogeneous kind_eqb existsb obind ListAdd CheckListElement app].
    rewrite E. vm_compute. reflexivity.
Qed.
Print Assumptions C38_distinct_first_refuted.

(* ---- sort ---- *)
Lemma combine_iota keys : forall l : list value, List.length l = List.length keys ->
  combine keys l = map (fun i => (ListGet keys i, ListGet l i)) (iota (List.length l) 0).
Proof.
  intros l Len. rewrite <- (map_get_iota keys) at 1. rewrite <- (map_get_iota l) at 1. rewrite <- Len.
  generalize (iota (List.length l) 0). intros idx. induction idx as [|i idx IH]; cbn; [reflexivity|]. now rewrite IH.
Qed.
Theorem C38_sort_by_keys : forall std_sort k l keys, sort_contract std_sort -> sortable k ->
  value_ok (VList l) -> value_ok (VList keys) -> nan_free (VList keys) ->
  List.length l = List.length keys -> Forall (fun v => kind_of v = k) keys ->
  exists ps, Permutation (combine keys l) ps /\
    ListSortByAssociatedKeys std_sort l keys = Val (VList (map snd ps)) /\ ordered (map fst ps).
Proof.
  intros std_sort k l keys C Hk Hl Hks N Len Kd.
  assert (Hs : Forall (sort_key k) keys).
  { rewrite Forall_forall in *. intros v I. split; [auto|]. split; [eapply ok_in; eauto|].
    pose proof (everywhere_list_in _ _ _ N I) as Nv. destruct v; auto. apply Nv. }
  destruct (sort_native_ok std_sort k l keys C Hl Hk Len Hs) as (idx & P & E & S).
  exists (map (fun i => (ListGet keys i, ListGet l i)) idx).
  rewrite combine_iota by auto. split; [now apply Permutation_map|].
  rewrite !map_map. cbn [fst snd]. split; [|exact S].
  unfold ListSortByAssociatedKeys. replace (Nat.eqb (List.length l) (List.length keys)) with true by (symmetry; apply Nat.eqb_eq; auto).
  cbn [negb]. destruct keys as [|first keys].
  - destruct l; [|discriminate]. cbn in P. apply Permutation_nil in P. subst idx. reflexivity.
  - apply Forall_cons_iff in Kd. destruct Kd as [-> _].
    destruct Hk as [<-|[<-|[<-|[<-|[<-|[<-|[<-|[<-|[]]]]]]]]]; exact E.
Qed.
Print Assumptions C38_sort_by_keys.
Theorem C38_sort : forall std_sort k l, sort_contract std_sort -> sortable k ->
  value_ok (VList l) -> nan_free (VList l) -> Forall (fun v => kind_of v = k) l ->
  exists r, ListSort std_sort l = Val (VList r) /\ Permutation l r /\ ordered r.
Proof.
  intros std_sort k l C Hk Hl N Kd.
  destruct (C38_sort_by_keys std_sort k l l C Hk Hl Hl N eq_refl Kd) as (ps & P & E & O).
  assert (X : forall (l : list value) p, In p (combine l l) -> fst p = snd p).
  { clear. induction l as [|x l IH]; cbn; [easy|]. intros p [<-|I]; auto. }
  assert (Y : map snd ps = map fst ps).
  { apply map_ext_in. intros p I. symmetry. apply (X l). eapply Permutation_in; [apply Permutation_sym|]; eauto. }
  exists (map snd ps). split; [exact E|]. split; [|rewrite Y; exact O].
  assert (Z : map snd (combine l l) = l) by (clear; induction l; cbn; congruence).
  rewrite <- Z at 1. now apply Permutation_map.
Qed.
Print Assumptions C38_sort.
(* the errors *)
Theorem C38_sort_errors : forall std_sort l keys,
  (List.length l <> List.length keys \/
   (exists k0 ks, keys = k0 :: ks /\ ~ sortable (kind_of k0)) \/
   (exists k0 ks v, keys = k0 :: ks /\ In v ks /\ kind_of v <> kind_of k0)) ->
  exists s, ListSortByAssociatedKeys std_sort l keys = Val (VError s) /\ st_code s = kInvalidArgument.
Proof.
  intros std_sort l keys H. unfold ListSortByAssociatedKeys.
  destruct (Nat.eqb (List.length l) (List.length keys)) eqn:Len; [|eexists; split; reflexivity].
  apply Nat.eqb_eq in Len. cbn [negb].
  assert (K : forall k0 ks, keys = k0 :: ks -> ~ sortable (kind_of k0) ->
    exists s, ListSortByAssociatedKeys std_sort l keys = Val (VError s) /\ st_code s = kInvalidArgument).
  { intros k0 ks -> NS. unfold ListSortByAssociatedKeys. rewrite Len, Nat.eqb_refl. cbn [negb].
    unfold sortable in NS. cbn in NS.
    destruct (kind_of k0); try (exfalso; apply NS; tauto); eexists; split; reflexivity. }
  unfold ListSortByAssociatedKeys in K. rewrite Len, Nat.eqb_refl in K. cbn [negb] in K.
  destruct H as [H|[(k0 & ks & E & NS)|(k0 & ks & v & E & I & D)]]; [congruence|eapply K; eauto|].
  assert (Dec : sortable (kind_of k0) \/ ~ sortable (kind_of k0)).
  { unfold sortable. destruct (kind_of k0); cbn; intuition discriminate. }
  destruct Dec as [Sk|NS]; [|eapply K; eauto]. subst keys.
  destruct l as [|x [|y l]]; cbn in Len; try discriminate; [destruct ks; [destruct I|discriminate]|].
  assert (F : forallb (fun w => kind_eqb (kind_of w) (kind_of k0)) (k0 :: ks) = false).
  { destruct (forallb _ _) eqn:E; auto. rewrite forallb_forall in E. specialize (E v (or_intror I)).
    exfalso. apply D. destruct (kind_of v), (kind_of k0); auto; discriminate. }
  unfold SortNative. rewrite F.
  destruct (kind_of k0); try (eexists; split; reflexivity).
Qed.
Print Assumptions C38_sort_errors.

(* NaN is not comparable with anything, so operator< is not a strict weak
   order of [1.0, NaN, 0.0] and std::sort may do anything. *)
Definition strict_weakb (lt : Z -> Z -> bool) (l : list Z) : bool :=
  forallb (fun a => negb (lt a a)) l &&
  forallb (fun a => forallb (fun b => forallb (fun c =>
    (negb (lt a b && lt b c) || lt a c) &&
    ((lt a b || lt b a || lt b c || lt c b) || (negb (lt a c) && negb (lt c a)))) l) l) l.
Definition careless_sort : sorter := fun lt l => if strict_weakb lt l then insertion_sort lt l else UB.
Lemma careless_contract : sort_contract careless_sort.
Proof.
  intros lt l W. unfold careless_sort. replace (strict_weakb lt l) with true; [now apply insertion_contract|].
  symmetry. destruct W as (W1 & W2 & W3). apply andb_true_iff. split.
  - apply forallb_forall. intros a I. now rewrite W1.
  - apply forallb_forall. intros a I. apply forallb_forall. intros b J. apply forallb_forall. intros c K.
    apply andb_true_iff. split.
    + destruct (lt a b) eqn:E1, (lt b c) eqn:E2; cbn; auto. eauto.
    + destruct (lt a b) eqn:E1, (lt b a) eqn:E2, (lt b c) eqn:E3, (lt c b) eqn:E4; cbn; auto.
      destruct (W3 a b c I J K E1 E2 E3 E4) as [-> ->]. reflexivity.
Qed.
Theorem C38_sort_nan_refuted : exists std_sort l, sort_contract std_sort /\ value_ok (VList l) /\
  Forall (fun v => kind_of v = kDoubleT) l /\ ListSort std_sort l = UB.
Proof.
  exists careless_sort, [VDouble (double_of_Z 1); VDouble S754_nan; VDouble (double_of_Z 0)].
  split; [apply careless_contract|]. split; [ok_value|]. split; [repeat constructor|]. vm_compute. reflexivity.
Qed.
Print Assumptions C38_sort_nan_refuted.

Example C38_example :
  value_ok (VList [VList [VInt 1; VList [VInt 2]]; VInt 3]) /\
  ListFlatten [VList [VInt 1; VList [VInt 2]]; VInt 3] 1 = Val (VList [VInt 1; VList [VInt 2]; VInt 3]) /\
  ListFlatten [VList [VInt 1; VList [VInt 2]]; VInt 3] 5 = Val (VList [VInt 1; VInt 2; VInt 3]) /\
  ListSlice [VInt 1; VInt 2; VInt 3] 1 3 = Val (VList [VInt 2; VInt 3]) /\
  ListRange 100 3 = Val (VList [VInt 0; VInt 1; VInt 2]) /\
  ListDistinct (fun l => rev l) [VInt 1; VInt 2; VUint 1; VString [97]; VInt 1; VDouble (double_of_Z 2); VString [97]] =
    Val (VList [VInt 1; VInt 2; VString [97]]) /\
  sort_contract insertion_sort /\ sortable kStringT /\
  ListSort insertion_sort [VString [98]; VString [97; 98]; VString []; VString [97]] =
    Val (VList [VString []; VString [97]; VString [97; 98]; VString [98]]).
Proof. split; [ok_value|]. repeat (split; [vm_compute; reflexivity|]). split; [apply insertion_contract|]. split; [cbn; tauto|]. vm_compute. reflexivity. Qed.
Example C38_transitive : value_ok (VList [VInt 1; VInt 2; VInt 1]) /\ transitive_on [VInt 1; VInt 2; VInt 1].
Proof.
  split; [ok_value|].
  intros x y z [<-|[<-|[<-|[]]]] [<-|[<-|[<-|[]]]] [<-|[<-|[<-|[]]]]; unfold same;
    rewrite <- !ValueEqual_spec by ok_value; vm_compute; congruence.
Qed.
