(* Property theorems about the functions of optional values: C99-C103. *)
From Coq Require Import ZArith List Bool String Lia.
From Verif Require Import Base M_Overflow M_Number M_Attr M_Value M_Logic M_Expr M_Macro M_Registry
  S_Num S_Value S_Func L_Value L_Func.
From Verif Require Import M_Optional S_Optional L_Optional.
Import ListNotations.
Local Open Scope string_scope.
Open Scope list_scope.
Open Scope Z_scope.

(* an evaluator with a function of its own, registered first *)
Definition ex_own : reg_entry :=
  mkEntry false (mkOverload "_[?_]" false [Some kStringT; Some kIntT] true (fun _ => Val VNull)).
Definition ex_functions : registry :=
  static_overloads (snd (RegisterOptionalTypeFunctions true true (attempts [ex_own] []))).
Lemma ex_enabled : enabled ex_functions.
Proof.
  exists [ex_own], [], (snd (RegisterOptionalTypeFunctions true true (attempts [ex_own] []))).
  split; [|reflexivity]. rewrite (surjective_pairing (RegisterOptionalTypeFunctions _ _ _)) at 1.
  f_equal.
Qed.
Ltac ok := cbv [value_ok nan_free everywhere node_ok not_nan];
  cbn; repeat (split || constructor); cbn; try discriminate; intuition discriminate.

(* ------------------------------------------------------------------ C99 *)
(* m[?k] is what m[k] gives, as an optional: optional.none() exactly when m[k]
   fails because there is no such key. *)
Theorem C99_map_partial : forall R m k, enabled R -> value_ok (VMap m) -> value_ok k -> lookup_kind k ->
  exists r, PerformLookup true true (VMap m) k = Val r /\
    ((is_error r = false /\ call R "_[?_]" false [VMap m; k] = Val (VOptional (Some r))) \/
     (r = VError no_such_key /\ call R "_[?_]" false [VMap m; k] = Val (VOptional None))).
Proof.
  intros R m k He Hm Hk L. rewrite (call_index_map R He m k (ok_plain _ Hk)).
  destruct (index_map m k L (ok_node _ Hk) Hm) as (r & E1 & E2 & E3). exists r. split.
  - destruct k; try exact E1; destruct L.
  - rewrite E2. destruct (is_error r) eqn:Er.
    + right. rewrite (E3 eq_refl). split; reflexivity.
    + left. split; [reflexivity|]. destruct r; try discriminate; reflexivity.
Qed.
Print Assumptions C99_map_partial.
(* l[?i] on a list, with an int *)
Theorem C99_list_partial : forall R l i, enabled R -> value_ok (VList l) -> in_int64 i = true ->
  exists r, PerformLookup true true (VList l) (VInt i) = Val r /\
    ((0 <= i < Z.of_nat (List.length l) /\ nth_error l (Z.to_nat i) = Some r /\
      call R "_[?_]" false [VList l; VInt i] = Val (VOptional (Some r))) \/
     (~ 0 <= i < Z.of_nat (List.length l) /\ r = VError index_range_error /\
      call R "_[?_]" false [VList l; VInt i] = Val (VOptional None))).
Proof.
  intros R l i He Hl _. rewrite (call_index_list R He).
  destruct (index_list l i Hl) as (r & E1 & E2 & E3 & E4). exists r. split; [exact E1|]. rewrite E2.
  destruct (is_error r) eqn:Er.
  - right. destruct (E3 eq_refl) as [H ->]. split; [lia|]. split; reflexivity.
  - left. destruct (E4 eq_refl) as [H1 H2]. split.
    + split; [lia|]. assert (Z.to_nat i < List.length l)%nat by (apply nth_error_Some; congruence). lia.
    + split; [exact H2|]. destruct r; try discriminate; reflexivity.
Qed.
Print Assumptions C99_list_partial.
(* On an optional: none stays none, and the container inside is indexed; for a
   map this is what the plain index operator does too. *)
Theorem C99_chain : forall R m l k i, enabled R -> value_ok (VMap m) -> value_ok (VList l) ->
  value_ok k -> in_int64 i = true ->
  call R "_[?_]" false [VOptional None; k] = Val (VOptional None) /\
  call R "_[?_]" false [VOptional (Some (VMap m)); k] = call R "_[?_]" false [VMap m; k] /\
  call R "_[?_]" false [VOptional (Some (VList l)); VInt i] = call R "_[?_]" false [VList l; VInt i] /\
  (lookup_kind k -> call R "_[?_]" false [VMap m; k] = PerformLookup true true (VOptional (Some (VMap m))) k).
Proof.
  intros R m l k i He Hm Hl Hk Hi. pose proof (ok_plain _ Hk) as P.
  rewrite !(call_index_optional R He) by (auto; split; reflexivity).
  rewrite (call_index_map R He m k P), (call_index_list R He).
  split; [reflexivity|]. split; [reflexivity|]. split; [reflexivity|]. intros L.
  destruct (index_map m k L (ok_node _ Hk) Hm) as (r & E1 & E2 & E3). rewrite E2.
  assert (U : PerformLookup true true (VOptional (Some (VMap m))) k =
    obind (LookupInMap true m k) (fun r => match r with
      | VError s => if IsNoSuchKey s then Val (VOptional None) else Val (VOptional (Some r))
      | _ => Val (VOptional (Some r)) end)).
  { destruct k; try reflexivity. destruct L. }
  rewrite U, E1. cbn [obind]. destruct r; try reflexivity.
  injection (E3 eq_refl) as ->. reflexivity.
Qed.
Print Assumptions C99_chain.
Example C99_example : let m := [(KInt 1, VString [97]); (KUint 2, VNull)] in
  value_ok (VMap m) /\
  call ex_functions "_[?_]" false [VMap m; VUint 1] = Val (VOptional (Some (VString [97]))) /\
  call ex_functions "_[?_]" false [VMap m; VDouble (double_of_Z 2)] = Val (VOptional (Some VNull)) /\
  call ex_functions "_[?_]" false [VMap m; VInt (-1)] = Val (VOptional None) /\
  call ex_functions "_[?_]" false [VList [VNull]; VInt 0] = Val (VOptional (Some VNull)) /\
  call ex_functions "_[?_]" false [VOptional (Some (VList [VNull])); VInt 1] = Val (VOptional None).
Proof. split; [ok|]. repeat split; vm_compute; reflexivity. Qed.
(* l[k] takes an unsigned or floating-point index and l[?k] does not; and
   m[?null] is optional.none() although m[null] is not a missing key but an
   error. *)
Theorem C99_index_refuted :
  (exists R l k v s, enabled R /\ value_ok (VList l) /\ value_ok k /\
     PerformLookup true true (VList l) k = Val v /\ value_ok v /\
     call R "_[?_]" false [VList l; k] = Val (VError s)) /\
  (exists R m k s, enabled R /\ value_ok (VMap m) /\ value_ok k /\
     PerformLookup true true (VMap m) k = Val (VError s) /\ s <> no_such_key /\
     call R "_[?_]" false [VMap m; k] = Val (VOptional None)).
Proof.
  split.
  - exists ex_functions, [VInt 7], (VUint 0), (VInt 7). eexists.
    split; [apply ex_enabled|]. split; [ok|]. split; [ok|]. split; [vm_compute; reflexivity|].
    split; [ok|]. vm_compute. reflexivity.
  - exists ex_functions, [(KInt 1, VInt 7)], VNull, invalid_map_key.
    split; [apply ex_enabled|]. split; [ok|]. split; [ok|]. split; [vm_compute; reflexivity|].
    split; [discriminate|]. vm_compute. reflexivity.
Qed.
Print Assumptions C99_index_refuted.

(* ----------------------------------------------------------------- C100 *)
(* m.?f has a value exactly when has(m.f), and then it is m.f; the same as
   m[?"f"]. *)
Theorem C100_select_map : forall C R m f t, unk C = false -> enabled R -> value_ok (VMap m) ->
  exists b r t', SelectStep C f true (VMap m, t) = Val (VBool b, None) /\
    SelectStep C f false (VMap m, t) = Val (r, t') /\
    (b = false <-> is_error r = true) /\
    call R "_?._" false [VMap m; VString (bytes_of_string f)] =
      Val (VOptional (if b then Some r else None)) /\
    call R "_[?_]" false [VMap m; VString (bytes_of_string f)] =
      call R "_?._" false [VMap m; VString (bytes_of_string f)].
Proof.
  intros C R m f t Hu He Hm. unfold SelectStep, unknown_exact. rewrite Hu. cbn [andb].
  rewrite (call_select_map R He), (call_index_map R He) by (split; reflexivity).
  unfold SelectOptionalFieldMap. cbn [MapHas MapGet MapFind MapOptIndexOptionalValue key_of_value].
  destruct (find_key (KString (bytes_of_string f)) m) as [v|] eqn:E.
  - exists true, v. eexists. split; [reflexivity|]. split; [reflexivity|].
    assert (P : plain v).
    { apply ok_plain. apply find_key_in in E. exact (everywhere_map_in _ _ _ Hm E). }
    split; [|split; reflexivity]. destruct P as [P _]. rewrite P. split; discriminate.
  - exists false. eexists. eexists. split; [reflexivity|]. split; [reflexivity|].
    split; [split; reflexivity|split; reflexivity].
Qed.
Print Assumptions C100_select_map.
(* On an optional: none stays none, and the map inside is selected from, as the
   plain selection of an optional does. *)
Theorem C100_chain : forall C R m f t, unk C = false -> o_optional_types (cf_opts C) = true ->
  enabled R -> value_ok (VMap m) ->
  let name := VString (bytes_of_string f) in
  call R "_?._" false [VOptional None; name] = Val (VOptional None) /\
  call R "_?._" false [VOptional (Some (VMap m)); name] = call R "_?._" false [VMap m; name] /\
  (exists t', SelectStep C f false (VOptional None, t) = Val (VOptional None, t')) /\
  (exists o t', call R "_?._" false [VMap m; name] = Val (VOptional o) /\
     SelectStep C f false (VOptional (Some (VMap m)), t) = Val (VOptional o, t') /\
     SelectStep C f true (VOptional (Some (VMap m)), t) =
       Val (VBool match o with Some _ => true | None => false end, None)).
Proof.
  intros C R m f t Hu Ho He Hm name. unfold name.
  rewrite !(call_select_optional R He), (call_select_map R He).
  split; [reflexivity|]. split; [reflexivity|]. unfold SelectStep, unknown_exact. rewrite Hu, Ho. cbn [andb].
  split; [eexists; reflexivity|].
  unfold SelectOptionalFieldMap. cbn [MapHas MapFind key_of_value].
  destruct (find_key (KString (bytes_of_string f)) m) as [v|] eqn:E; eexists; eexists;
    (split; [reflexivity|split; reflexivity]).
Qed.
Print Assumptions C100_chain.
(* hasValue() and value() read back what was selected; value() of none is an error *)
Theorem C100_read_back : forall R v, enabled R -> value_ok v ->
  (exists o, call R "optional.of" false [v] = Val o /\
     call R "hasValue" true [o] = Val (VBool true) /\ call R "value" true [o] = Val v) /\
  (exists o, call R "optional.none" false [] = Val o /\
     call R "hasValue" true [o] = Val (VBool false) /\
     exists s, call R "value" true [o] = Val (VError s)).
Proof.
  intros R v He Hv. split.
  - exists (VOptional (Some v)). rewrite (call_of R He) by now apply ok_plain.
    rewrite (call_has_value R He), (call_value R He). repeat split.
  - exists (VOptional None). rewrite (call_none R He), (call_has_value R He), (call_value R He).
    split; [reflexivity|]. split; [reflexivity|]. eexists. reflexivity.
Qed.
Print Assumptions C100_read_back.
Example C100_example : let m := [(KString (bytes_of_string "a"), VInt 1)] in
  value_ok (VMap m) /\
  call ex_functions "_?._" false [VMap m; VString (bytes_of_string "a")] = Val (VOptional (Some (VInt 1))) /\
  call ex_functions "_?._" false [VOptional (Some (VMap m)); VString (bytes_of_string "b")] = Val (VOptional None).
Proof. split; [ok|]. split; vm_compute; reflexivity. Qed.

(* ----------------------------------------------------------------- C101 *)
(* optional.ofNonZeroValue(v) is none exactly when v equals the default of its
   kind, and holds v otherwise. *)
Theorem C101_non_zero : forall R v, enabled R -> value_ok v ->
  (zero v -> call R "optional.ofNonZeroValue" false [v] = Val (VOptional None)) /\
  (~ zero v -> call R "optional.ofNonZeroValue" false [v] = Val (VOptional (Some v))).
Proof.
  intros R v He Hv. pose proof (ok_plain _ Hv) as P. rewrite (call_non_zero R He v P).
  unfold OptionalOfNonZeroValue. rewrite <- (zero_spec v P).
  destruct (IsZeroValue v); split; intros H; try reflexivity; [now elim H|discriminate].
Qed.
Print Assumptions C101_non_zero.
(* which kinds have a zero value at all, spelled out *)
Theorem C101_zero_meaning : forall v, value_ok v -> (zero v <->
  v = VNull \/ v = VBool false \/ v = VInt 0 \/ v = VUint 0 \/
  (exists d, v = VDouble d /\ d_eq d (double_of_Z 0) = true) \/
  v = VString [] \/ v = VBytes [] \/ v = VDuration (DFin 0) \/ v = VTimestamp (TFin 0) \/
  v = VList [] \/ v = VMap []).
Proof.
  intros v Hv. rewrite <- (zero_spec v (ok_plain _ Hv)). split.
  - destruct v; cbn [IsZeroValue]; intros H; try discriminate.
    + auto.
    + destruct b; [discriminate|auto].
    + apply Z.eqb_eq in H. subst. auto.
    + apply Z.eqb_eq in H. subst. auto 6.
    + do 4 right. left. eauto.
    + destruct s; [auto 9|discriminate].
    + destruct s; [auto 10|discriminate].
    + destruct d; [|discriminate]. apply Z.eqb_eq in H. subst. auto 11.
    + destruct t; [|discriminate]. apply Z.eqb_eq in H. subst. auto 12.
    + destruct l; [auto 13|discriminate].
    + destruct m; [auto 14|discriminate].
  - intros [->|[->|[->|[->|[(d & -> & H)|[->|[->|[->|[->|[->| ->]]]]]]]]]]; try reflexivity. exact H.
Qed.
Print Assumptions C101_zero_meaning.
(* optional.ofNonZeroValue(v).orValue(d) equals v, for d the default of v's kind *)
Theorem C101_or_default : forall R v d, enabled R -> value_ok v -> nan_free v ->
  default (kind_of v) = Some d ->
  exists o, call R "optional.ofNonZeroValue" false [v] = Val o /\
    equals v (fst (EvalOptionalOr true (o, None) (d, None))).
Proof.
  intros R v d He Hv Hn Hd. destruct (C101_non_zero R v He Hv) as [H1 H2].
  pose proof (ok_plain _ Hv) as P. pose proof (zero_spec v P) as Z.
  destruct (IsZeroValue v) eqn:E.
  - assert (Zv : zero v) by now apply Z. exists (VOptional None). split; [auto|].
    destruct Zv as (d' & D & Q). rewrite Hd in D. injection D as <-.
    destruct (default_plain _ _ Hd) as [P1 P2]. destruct d; try discriminate; exact Q.
  - assert (Zv : ~ zero v) by (intros Q; apply Z in Q; discriminate).
    exists (VOptional (Some v)). split; [auto|]. cbn [EvalOptionalOr fst].
    apply equals_impl; auto. now apply EqualImpl_refl.
Qed.
Print Assumptions C101_or_default.
Example C101_example :
  zero (VDouble (S754_zero true)) /\ ~ zero (VOptional None) /\ ~ zero (VList [VNull]) /\
  value_ok (VDouble (S754_zero true)) /\ nan_free (VDouble (S754_zero true)) /\
  call ex_functions "optional.ofNonZeroValue" false [VOptional None] = Val (VOptional (Some (VOptional None))) /\
  call ex_functions "optional.ofNonZeroValue" false [VMap []] = Val (VOptional None).
Proof.
  split; [eexists; split; [reflexivity|vm_compute; reflexivity]|].
  split; [intros (d & H & _); discriminate|].
  split; [intros (d & [= <-] & H); vm_compute in H; discriminate|].
  split; [ok|]. split; [ok|]. split; vm_compute; reflexivity.
Qed.

(* ----------------------------------------------------------------- C102 *)
(* optional.unwrap(l) and l.unwrapOpt() are what the optionals of l hold, in
   order; an error if some element is not an optional. *)
Theorem C102_unwrap : forall R l, enabled R -> value_ok (VList l) ->
  (Forall is_optional l -> call R "optional.unwrap" false [VList l] = Val (VList (present l))) /\
  (~ Forall is_optional l ->
     exists s, call R "optional.unwrap" false [VList l] = Val (VError s) /\ st_code s = kInvalidArgument) /\
  call R "unwrapOpt" true [VList l] = call R "optional.unwrap" false [VList l].
Proof.
  intros R l He Hl. rewrite (call_unwrap R He), (call_unwrap_opt R He).
  pose proof (oks_plain _ (present_ok _ Hl)) as Hp. unfold ListUnwrapOpt. split; [|split; [|reflexivity]].
  - intros Ho. now rewrite unwrap_loop_ok.
  - intros Ho. rewrite unwrap_loop_bad by auto. eexists. split; reflexivity.
Qed.
Print Assumptions C102_unwrap.
(* unwrapping undoes optional.of, distributes over concatenation, and is the
   list literal with every element optional *)
Theorem C102_laws : forall C R l l', unk C = false -> enabled R ->
  value_ok (VList l) -> value_ok (VList l') -> Forall is_optional l -> Forall is_optional l' ->
  call R "unwrapOpt" true [VList (map (fun v => VOptional (Some v)) l)] = Val (VList l) /\
  (exists a b, call R "unwrapOpt" true [VList l] = Val (VList a) /\
     call R "unwrapOpt" true [VList l'] = Val (VList b) /\
     call R "unwrapOpt" true [VList (l ++ l')] = Val (VList (a ++ b))) /\
  (exists a, call R "unwrapOpt" true [VList l] = Val a /\
     ListStep C (repeat true (List.length l)) (map (fun v => (v, None)) l) = Val (a, None)).
Proof.
  intros C R l l' Hu He Hl Hl' Ho Ho'. rewrite !(call_unwrap_opt R He). unfold ListUnwrapOpt.
  pose proof (present_ok _ Hl) as Hp. pose proof (present_ok _ Hl') as Hp'.
  pose proof (oks_plain _ Hp) as P. pose proof (oks_plain _ Hp') as P'.
  assert (Fl : Forall plain l).
  { apply oks_plain. apply everywhere_list in Hl. apply Hl. }
  split; [|split].
  - rewrite unwrap_loop_ok.
    + now rewrite present_of.
    + apply Forall_forall. intros v Hv. apply in_map_iff in Hv. destruct Hv as (w & <- & _). eexists. reflexivity.
    + now rewrite present_of.
  - rewrite !unwrap_loop_ok; auto.
    + do 2 eexists. split; [reflexivity|]. split; [reflexivity|]. now rewrite present_app.
    + apply Forall_app. auto.
    + rewrite present_app. apply Forall_app. auto.
  - rewrite unwrap_loop_ok by auto. eexists. split; [reflexivity|]. unfold ListStep, literal_unknowns.
    rewrite map_fst_pair, Hu.
    assert (N : find is_error l = None).
    { clear - Fl. induction Fl as [|v l [E _] _ IH]; [reflexivity|]. cbn [find]. now rewrite E. }
    rewrite N, list_loop_unwrap by auto. reflexivity.
Qed.
Print Assumptions C102_laws.
(* l.first() is l[?0] and l.last() is l[?size(l) - 1] *)
Theorem C102_ends : forall R l, enabled R -> value_ok (VList l) ->
  call R "first" true [VList l] = call R "_[?_]" false [VList l; VInt 0] /\
  call R "last" true [VList l] =
    call R "_[?_]" false [VList l; VInt (Z.of_nat (List.length l) - 1)] /\
  (forall v l', l = v :: l' -> call R "first" true [VList l] = Val (VOptional (Some v))) /\
  (forall v l', l = l' ++ [v] -> call R "last" true [VList l] = Val (VOptional (Some v))).
Proof.
  intros R l He Hl. rewrite !(call_index_list R He), (call_first R He), (call_last R He).
  destruct (first_last l Hl) as [E1 E2]. split; [exact E1|]. split; [exact E2|]. split.
  - intros v l' ->. reflexivity.
  - intros v l' ->. unfold ListLast. rewrite app_length. cbn [List.length].
    assert (N : Nat.eqb (List.length l' + 1) 0 = false) by (apply Nat.eqb_neq; lia). rewrite N.
    replace (List.length l' + 1 - 1)%nat with (List.length l') by lia.
    rewrite nth_error_app2 by lia. now rewrite Nat.sub_diag.
Qed.
Print Assumptions C102_ends.
(* On values without errors inside, a call of any of the functions ends, in a
   value without errors inside or in an error: no optional holds an error. *)
Theorem C102_no_error_inside : forall R o args, enabled R -> In o optional_functions ->
  accepts o (ov_name o) (ov_receiver o) (map kind_of args) -> Forall value_ok args ->
  exists v, call R (ov_name o) (ov_receiver o) args = Val v /\ (value_ok v \/ is_error v = true).
Proof.
  intros R o args He Hi Ha Hok. rewrite (call_impl R o) by (auto using oks_plain).
  now apply impl_sound.
Qed.
Print Assumptions C102_no_error_inside.
Example C102_example : let l := [VOptional (Some (VInt 1)); VOptional None; VOptional (Some VNull)] in
  value_ok (VList l) /\ Forall is_optional l /\
  call ex_functions "unwrapOpt" true [VList l] = Val (VList [VInt 1; VNull]) /\
  call ex_functions "last" true [VList l] = Val (VOptional (Some (VOptional (Some VNull)))) /\
  call ex_functions "first" true [VList []] = Val (VOptional None).
Proof.
  split; [ok|]. split; [repeat (constructor; [eexists; reflexivity|]); constructor|].
  repeat split; vm_compute; reflexivity.
Qed.

(* ----------------------------------------------------------------- C103 *)
(* Optional types can be enabled exactly when both options are on and no
   registered function could be confused with one of theirs. *)
Theorem C103_enable : forall history q h,
  let r := attempts history [] in
  fst (RegisterOptionalTypeFunctions q h r) = None <->
  q = true /\ h = true /\
  (forall x d, In x r -> In d optional_functions ->
     ~ ambiguous (re_desc x) d /\ ~ strictness_conflict (re_desc x) d).
Proof.
  intros history q h r. assert (Ht : tidy r) by (apply attempts_tidy; constructor).
  unfold RegisterOptionalTypeFunctions. destruct q; cbn [negb]; [|split; [discriminate|intros (H & _); discriminate]].
  destruct h; cbn [negb]; [|split; [discriminate|intros (_ & H & _); discriminate]].
  rewrite (register_all_spec optional_functions r Ht). split.
  - intros [H _]. split; [reflexivity|]. split; [reflexivity|]. intros x d Hx Hd.
    specialize (H x d Hx Hd). unfold clash in H. cbn [re_desc] in H. tauto.
  - intros (_ & _ & H). split; [|apply functions_apart]. intros x d Hx Hd [C|C]; cbn [re_desc] in C;
      destruct (H x d Hx Hd); tauto.
Qed.
Print Assumptions C103_enable.
(* A second attempt always fails, at its first function, and changes nothing. *)
Theorem C103_once : forall history after r, RegisterOptionalTypeFunctions true true (attempts history []) = (None, r) ->
  let r' := attempts after r in
  fst (RegisterOptionalTypeFunctions true true r') <> None /\
  snd (RegisterOptionalTypeFunctions true true r') = r'.
Proof.
  intros history after r H r'. unfold r'. cbn [RegisterOptionalTypeFunctions negb] in *.
  destruct (register_all_attempts _ _ _ H) as [H1 H2].
  assert (Hi : In (mkEntry false optional_of) (attempts after r)) by (apply attempts_keeps; apply H2; is_in).
  assert (Ht : tidy (attempts after r)).
  { rewrite H1, <- !attempts_app. apply attempts_tidy. constructor. }
  unfold optional_functions. cbn [register_all].
  destruct (register_spec _ (mkEntry false optional_of) Ht) as [(_ & _ & Hn)|(E1 & E2 & _)].
  - elim (Hn _ Hi). apply self_clash.
  - destruct (register (mkEntry false optional_of) (attempts after r)) as [[s|] r1]; cbn [fst snd] in *; [|congruence].
    split; [discriminate|exact E1].
Qed.
Print Assumptions C103_once.
(* A failed attempt may leave some of the functions registered. *)
Theorem C103_all_or_none_refuted : exists history s r,
  RegisterOptionalTypeFunctions true true (attempts history []) = (Some s, r) /\
  In (mkEntry false optional_of) r /\ ~ In (mkEntry false optional_of) (attempts history []) /\
  ~ In (mkEntry false list_first) r.
Proof.
  exists [mkEntry false (mkOverload "last" true [None] true (fun _ => Val VNull));
          mkEntry false (mkOverload "first" true [None] true (fun _ => Val VNull))].
  eexists. eexists. split; [reflexivity|].
  split; [right; right; left; reflexivity|].
  split; intros H; apply (in_map (fun x => (ov_name (re_desc x), ov_kinds (re_desc x)))) in H;
    vm_compute in H; repeat (destruct H as [H|H]; [discriminate|]); exact H.
Qed.
Print Assumptions C103_all_or_none_refuted.
Example C103_example : fst (RegisterOptionalTypeFunctions true true (attempts [ex_own] [])) = None /\
  fst (RegisterOptionalTypeFunctions true false (attempts [ex_own] [])) <> None /\
  List.length ex_functions = 15%nat.
Proof. split; [reflexivity|]. split; [discriminate|reflexivity]. Qed.
