(* C46, C47: the two-variable comprehension macros and the optional macros. *)
From Coq Require Import ZArith List Bool String Ascii Lia Permutation.
From Verif Require Import Base M_Overflow M_Number M_Attr M_Value M_Logic M_Expr M_Plan M_Machine M_Registry
  M_Macro S_Func S_Eval S_Macro L_Func L_Macro L_Insert P_Func P_Eval P_Macro.
Import ListNotations.
Open Scope list_scope.
Open Scope Z_scope.

Lemma simple_vars_spec name v v2 k e : simple_vars name v v2 k = inl e <->
  exists x x2, v = EIdent x /\ v2 = EIdent x2 /\ simple_name x /\ simple_name x2 /\ x <> x2 /\ k x x2 = inl e.
Proof.
  unfold simple_vars, simple_name, kDeprecatedAccu.
  assert (S : forall v, match IsSimpleIdentifier v with
    | Some x => v = EIdent x /\ x <> ""%string /\ forall s, x <> String "."%char s
    | None => forall x, v = EIdent x -> x = ""%string \/ exists s, x = String "."%char s
    end).
  { intros w. unfold IsSimpleIdentifier. destruct w as [|s| | | | |]; try discriminate.
    destruct s as [|c s]; [intros x [= <-]; now left|]. destruct (Ascii.eqb_spec c ".").
    - subst. intros x [= <-]. right. eauto.
    - split; [reflexivity|]. split; [discriminate|]. intros s' [= E _]. now apply n. }
  pose proof (S v) as S1. pose proof (S v2) as S2. split.
  - destruct (IsSimpleIdentifier v) as [x|]; [|discriminate].
    destruct (IsSimpleIdentifier v2) as [x2|]; [|discriminate].
    destruct (String.eqb_spec x x2); [discriminate|]. destruct (String.eqb_spec x "__result__"); [discriminate|].
    destruct (String.eqb_spec x2 "__result__"); [discriminate|]. intros E. exists x, x2. tauto.
  - intros (x & x2 & -> & -> & (A1 & A2 & A3) & (B1 & B2 & B3) & Hn & E).
    destruct (IsSimpleIdentifier (EIdent x)) as [x'|].
    2: { destruct (S1 x eq_refl) as [H|[s H]]; [easy|now destruct (A3 s)]. }
    destruct S1 as ([= <-] & _).
    destruct (IsSimpleIdentifier (EIdent x2)) as [x2'|].
    2: { destruct (S2 x2 eq_refl) as [H|[s H]]; [easy|now destruct (B3 s)]. }
    destruct S2 as ([= <-] & _). apply String.eqb_neq in Hn, A2, B2. now rewrite Hn, A2, B2.
Qed.

(* Which calls expand: two different simple identifiers, neither __result__. *)
Theorem C46_expansions : forall accu range v v2 p f,
  let simple := exists x x2, v = EIdent x /\ v2 = EIdent x2 /\ simple_name x /\ simple_name x2 /\ x <> x2 in
  let expands o := exists e : expr, o = @inl expr string e in
  Forall (fun o => expands o <-> simple)
    [ExpandAllMacro2 accu range [v; v2; p]; ExpandExistsMacro2 accu range [v; v2; p];
     ExpandExistsOneMacro2 accu range [v; v2; p]; ExpandTransformList3Macro accu range [v; v2; f];
     ExpandTransformList4Macro accu range [v; v2; p; f]; ExpandTransformMap3Macro accu range [v; v2; f];
     ExpandTransformMap4Macro accu range [v; v2; p; f]; ExpandTransformMapEntry3Macro accu range [v; v2; f];
     ExpandTransformMapEntry4Macro accu range [v; v2; p; f]].
Proof.
  intros accu range v v2 p f simple expands.
  assert (G : forall name (k : string -> string -> expr),
              expands (simple_vars name v v2 (fun x x2 => inl (k x x2))) <-> simple).
  { intros name k. split.
    - intros (e & E). apply simple_vars_spec in E. destruct E as (x & x2 & H). exists x, x2. tauto.
    - intros (x & x2 & H). exists (k x x2). apply simple_vars_spec. exists x, x2. tauto. }
  repeat constructor; apply G.
Qed.
Print Assumptions C46_expansions.

Ltac vars H := apply simple_vars_spec in H;
  destruct H as (?x' & ?x2' & [= <-] & [= <-] & ?Sx & ?Sx2 & ?Hne & [= <-]).

(* exists, all, existsOne over indices and elements, or keys and values *)
Theorem C46_exists : forall C R accu range x x2 p e rho is_map items ps,
  plain_evaluation C -> reserved accu -> x <> accu -> x2 <> accu -> free accu p = false ->
  ExpandExistsMacro2 accu range [EIdent x; EIdent x2; p] = inl e ->
  ranges_over C R range rho is_map items -> each_yields C R p x x2 is_map items rho ps ->
  yields C R e rho (exists_result ps).
Proof.
  intros C R accu range x x2 p e rho is_map items ps [Hu Hb] Ha Hx Hx2 Hf He (rv & Hr & Hi) Hp. vars He.
  eapply exists_yields; eauto.
Qed.
Print Assumptions C46_exists.
Theorem C46_all : forall C R accu range x x2 p e rho is_map items ps,
  plain_evaluation C -> reserved accu -> x <> accu -> x2 <> accu -> free accu p = false ->
  ExpandAllMacro2 accu range [EIdent x; EIdent x2; p] = inl e ->
  ranges_over C R range rho is_map items -> each_yields C R p x x2 is_map items rho ps ->
  yields C R e rho (all_result ps).
Proof.
  intros C R accu range x x2 p e rho is_map items ps [Hu Hb] Ha Hx Hx2 Hf He (rv & Hr & Hi) Hp. vars He.
  eapply all_yields; eauto.
Qed.
Print Assumptions C46_all.
Theorem C46_exists_one : forall C R accu range x x2 p e rho is_map items ps,
  plain_evaluation C -> standard_plus R -> fast_equality (cf_opts C) R = true ->
  reserved accu -> x <> accu -> x2 <> accu -> free accu p = false ->
  ExpandExistsOneMacro2 accu range [EIdent x; EIdent x2; p] = inl e ->
  ranges_over C R range rho is_map items -> Z.of_nat (List.length items) <= int64_max ->
  each_yields C R p x x2 is_map items rho ps -> no_unknowns ps ->
  yields C R e rho (exists_one_result (condition_name C) ps).
Proof.
  intros C R accu range x x2 p e rho is_map items ps [Hu Hb] Hpl Hq Ha Hx Hx2 Hf He (rv & Hr & Hi) Hl Hp Hn.
  vars He. eapply exists_one_yields; eauto. now rewrite <- (forall2_len _ _ _ Hp).
Qed.
Print Assumptions C46_exists_one.

(* transformList: the images in order, where the predicate is true *)
Theorem C46_transform_list : forall C R accu range x x2 f e rho is_map items fs,
  plain_evaluation C -> standard_plus R -> reserved accu -> x <> accu -> x2 <> accu -> free accu f = false ->
  ExpandTransformList3Macro accu range [EIdent x; EIdent x2; f] = inl e ->
  ranges_over C R range rho is_map items ->
  each_yields C R f x x2 is_map items rho fs -> no_unknowns fs ->
  yields C R e rho (map_result fs).
Proof.
  intros C R accu range x x2 p e rho is_map items ps [Hu Hb] Hpl Ha Hx Hx2 Hf He (rv & Hr & Hi) Hp Hn.
  vars He. eapply map_yields; eauto.
Qed.
Print Assumptions C46_transform_list.
Theorem C46_transform_list_where : forall C R accu range x x2 p f e rho is_map items ps fs,
  plain_evaluation C -> standard_plus R -> reserved accu -> x <> accu -> x2 <> accu ->
  free accu p = false -> free accu f = false ->
  ExpandTransformList4Macro accu range [EIdent x; EIdent x2; p; f] = inl e ->
  ranges_over C R range rho is_map items ->
  each_yields C R p x x2 is_map items rho ps -> no_unknowns ps ->
  each_yields C R f x x2 is_map items rho fs -> no_unknowns fs ->
  yields C R e rho (map_filter_result (condition_name C) ps fs).
Proof.
  intros C R accu range x x2 p f e rho is_map items ps fs [Hu Hb] Hpl Ha Hx Hx2 Hf Hf' He (rv & Hr & Hi) Hp Hn Hp' Hn'.
  vars He. eapply map_filter_yields; eauto.
Qed.
Print Assumptions C46_transform_list_where.

(* transformMap: a map from the first variable to the image *)
Lemma key_rels C R f x x2 is_map items rho parts rv : iteration rv = Some (is_map, items) ->
  each_entry C R f x x2 is_map items rho parts ->
  Forall2 (key_rel C R x x2 rho is_map f) items parts.
Proof.
  intros Hi H. apply iteration_keys in Hi. revert Hi. induction H as [|kv part items parts Hkv Hps IH]; intros Hi;
    constructor.
  - split; [|exact Hkv]. now apply Forall_cons_iff in Hi.
  - apply IH. now apply Forall_cons_iff in Hi.
Qed.
Theorem C46_transform_map : forall C R reorder accu range x x2 f e rho is_map items parts,
  plain_evaluation C -> faithful_maps C -> standard_insert R reorder ->
  reserved accu -> x <> accu -> x2 <> accu -> free accu f = false ->
  ExpandTransformMap3Macro accu range [EIdent x; EIdent x2; f] = inl e ->
  ranges_over C R range rho is_map items -> each_entry C R f x x2 is_map items rho parts ->
  exists v, yields C R e rho v /\ is_collected parts v.
Proof.
  intros C R reorder accu range x x2 f e rho is_map items parts [Hu Hb] Hm Hins Ha Hx Hx2 Hf He (rv & Hr & Hi) Hp.
  vars He. eapply transform_yields with (rel := key_rel C R x x2 rho is_map f); eauto.
  - intros. eapply key_entry; eauto; [split; apply Sx|apply Sx2].
  - intros kv part. apply key_part.
  - eapply key_rels; eauto.
Qed.
Print Assumptions C46_transform_map.
Theorem C46_transform_map_where : forall C R reorder accu range x x2 p f e rho is_map items ps parts,
  plain_evaluation C -> faithful_maps C -> standard_insert R reorder ->
  reserved accu -> x <> accu -> x2 <> accu -> free accu p = false -> free accu f = false ->
  ExpandTransformMap4Macro accu range [EIdent x; EIdent x2; p; f] = inl e ->
  ranges_over C R range rho is_map items ->
  each_yields C R p x x2 is_map items rho ps -> no_unknowns ps ->
  each_entry C R f x x2 is_map items rho parts ->
  exists v, yields C R e rho v /\ is_collected_where (condition_name C) ps parts v.
Proof.
  intros C R reorder accu range x x2 p f e rho is_map items ps parts [Hu Hb] Hm Hins Ha Hx Hx2 Hfp Hf He (rv & Hr & Hi)
    Hps Hn Hp.
  vars He. eapply transform_filter_yields with (rel := key_rel C R x x2 rho is_map f); eauto.
  - intros. eapply key_entry; eauto; [split; apply Sx|apply Sx2].
  - intros kv part. apply key_part.
  - eapply key_rels; eauto.
Qed.
Print Assumptions C46_transform_map_where.
(* transformMapEntry: the union of the maps, a key given twice being an error *)
Theorem C46_transform_map_entry : forall C R reorder accu range x x2 f e rho is_map items parts,
  plain_evaluation C -> faithful_maps C -> standard_insert R reorder ->
  reserved accu -> x <> accu -> x2 <> accu -> free accu f = false ->
  ExpandTransformMapEntry3Macro accu range [EIdent x; EIdent x2; f] = inl e ->
  ranges_over C R range rho is_map items -> each_map C R f x x2 is_map items rho parts ->
  exists v, yields C R e rho v /\ is_collected parts v.
Proof.
  intros C R reorder accu range x x2 f e rho is_map items parts [Hu Hb] Hm Hins Ha Hx Hx2 Hf He (rv & Hr & Hi) Hp.
  vars He. eapply transform_yields with (rel := map_rel C R x x2 rho is_map f); eauto.
  - intros. eapply map_entry; eauto.
  - intros kv part. apply map_part_ok.
Qed.
Print Assumptions C46_transform_map_entry.
Theorem C46_transform_map_entry_where : forall C R reorder accu range x x2 p f e rho is_map items ps parts,
  plain_evaluation C -> faithful_maps C -> standard_insert R reorder ->
  reserved accu -> x <> accu -> x2 <> accu -> free accu p = false -> free accu f = false ->
  ExpandTransformMapEntry4Macro accu range [EIdent x; EIdent x2; p; f] = inl e ->
  ranges_over C R range rho is_map items ->
  each_yields C R p x x2 is_map items rho ps -> no_unknowns ps ->
  each_map C R f x x2 is_map items rho parts ->
  exists v, yields C R e rho v /\ is_collected_where (condition_name C) ps parts v.
Proof.
  intros C R reorder accu range x x2 p f e rho is_map items ps parts [Hu Hb] Hm Hins Ha Hx Hx2 Hfp Hf He (rv & Hr & Hi)
    Hps Hn Hp.
  vars He. eapply transform_filter_yields with (rel := map_rel C R x x2 rho is_map f); eauto.
  - intros. eapply map_entry; eauto.
  - intros kv part. apply map_part_ok.
Qed.
Print Assumptions C46_transform_map_entry_where.

(* Over a map, without errors: the same keys, mapped to the images. *)
Lemma collect_distinct new : forall m, NoDup (map fst (m ++ new)) ->
  collect m (map (fun e => inr [e]) new) = inl (m ++ new).
Proof.
  induction new as [|[k v] new IH]; intros m H; cbn [map collect]; [now rewrite app_nil_r|].
  cbn [existsb fst].
  assert (Hk : existsb (fun k' => key_eqb k k') (map fst m) = false).
  { destruct (existsb _ _) eqn:E; auto. apply in_existsb in E. rewrite map_app in H. cbn [map fst] in H.
    apply NoDup_remove_2 in H. elim H. apply in_or_app. now left. }
  rewrite Hk. cbn [orb]. rewrite IH; rewrite <- app_assoc; auto.
Qed.
Theorem C46_transform_map_of_map : forall C R reorder accu range x x2 f e rho m fs,
  plain_evaluation C -> faithful_maps C -> standard_insert R reorder ->
  reserved accu -> x <> accu -> x2 <> accu -> free accu f = false ->
  ExpandTransformMap3Macro accu range [EIdent x; EIdent x2; f] = inl e ->
  yields C R range rho (VMap m) -> NoDup (map fst m) ->
  each_yields C R f x x2 true (map_items m) rho fs -> Forall plain fs ->
  exists m', yields C R e rho (VMap m') /\ Permutation m' (combine (map fst m) fs).
Proof.
  intros C R reorder accu range x x2 f e rho m fs Hc Hm Hins Ha Hx Hx2 Hf He Hr Hd Hp Hpl.
  destruct (C46_transform_map C R reorder accu range x x2 f e rho true (map_items m)
              (map (fun e => inr [e]) (combine (map fst m) fs)) Hc Hm Hins Ha Hx Hx2 Hf He) as (v & Hv & Hcol).
  - exists (VMap m). split; auto.
  - clear Hd Hr He. unfold each_yields, map_items, each_entry in *. revert fs Hp Hpl.
    induction m as [|[k w] m IH]; intros fs Hp Hpl; inversion Hp; subst; cbn [map combine]; constructor.
    + apply Forall_cons_iff in Hpl. destruct Hpl as [[P1 P2] _]. exists y. split; [assumption|].
      cbn [fst]. assert (K : key_of_value (value_of_key k) = Some k) by (destruct k; reflexivity).
      destruct y; try discriminate; (split; [exact P2|]; exists k; split; [exact K|reflexivity]).
    + apply IH; [assumption|]. now apply Forall_cons_iff in Hpl.
  - unfold is_collected in Hcol. rewrite collect_distinct in Hcol.
    + destruct Hcol as (m' & -> & P). exists m'. split; [exact Hv|exact P].
    + cbn [app]. assert (E : map fst (combine (map fst m) fs) = map fst m); [|now rewrite E].
      assert (Hl : List.length (map fst m) = List.length fs).
      { rewrite <- (forall2_len _ _ _ Hp). unfold map_items. now rewrite !map_length. }
      revert Hl. generalize (map fst m). clear. intros l. revert fs.
      induction l as [|k l IH]; intros [|f fs] Hl; try discriminate; [reflexivity|].
      cbn [combine map fst]. f_equal. apply IH. now injection Hl.
Qed.
Print Assumptions C46_transform_map_of_map.

Definition ex_insert := map_insert (fun m => rev m).
Definition ex_insert_map := map_insert_map (fun m => rev m).
Definition ex_lib2 := static_overloads
  (attempts (map (mkEntry false) [add_int; concat_list; ex_insert; ex_insert_map]) []).
(* {1: 10, 2: 20}.transformMap(k, v, [k, v]) *)
Definition ex_range2 := EMap [(false, (ex_int 1, ex_int 10)); (false, (ex_int 2, ex_int 20))].
Definition ex_body2 := EList [(false, EIdent "k"); (false, EIdent "v")].
Definition ex_m2 : entries := [(KInt 1, VInt 10); (KInt 2, VInt 20)].
Example C46_ex : plain_evaluation ex_mc /\ faithful_maps ex_mc /\ standard_insert ex_lib2 (fun m => rev m) /\
  standard_plus ex_lib2 /\ free "@result" ex_body2 = false /\
  yields ex_mc ex_lib2 ex_range2 no_locals (VMap ex_m2) /\ NoDup (map fst ex_m2) /\
  each_yields ex_mc ex_lib2 ex_body2 "k" "v" true (map_items ex_m2) no_locals
    [VList [VInt 1; VInt 10]; VList [VInt 2; VInt 20]] /\
  (exists e, ExpandTransformMap3Macro "@result" ex_range2 [EIdent "k"; EIdent "v"; ex_body2] = inl e /\
     yields ex_mc ex_lib2 e no_locals
       (VMap [(KInt 2, VList [VInt 2; VInt 20]); (KInt 1, VList [VInt 1; VInt 10])])) /\
  (* transformMapEntry with a repeated key *)
  (let f := EMap [(false, (ex_int 1, EIdent "v"))] in
   each_map ex_mc ex_lib2 f "k" "v" true (map_items ex_m2) no_locals
     [inr [(KInt 1, VInt 10)]; inr [(KInt 1, VInt 20)]] /\
   is_collected [inr [(KInt 1, VInt 10)]; inr [(KInt 1, VInt 20)]] (VError duplicate_key)).
Proof.
  split; [split; reflexivity|]. split; [intros m; apply Permutation_refl|].
  split. { split; [eexists; reflexivity|]. split; [right; right; left; reflexivity|].
    split; [right; right; right; left; reflexivity|]. intros m. apply Permutation_sym, Permutation_rev. }
  split. { split; [eexists; reflexivity|]. split; [left; reflexivity|right; left; reflexivity]. }
  split; [reflexivity|]. split; [exists None; vm_compute; reflexivity|].
  split. { repeat constructor; cbn; intuition discriminate. }
  split. { repeat constructor; exists None; vm_compute; reflexivity. }
  split. { eexists. split; [reflexivity|]. eexists. vm_compute. reflexivity. }
  cbn zeta. split; [|vm_compute; reflexivity].
  repeat constructor; (eexists; split; [eexists; vm_compute; reflexivity|]); cbn;
    (split; [repeat constructor; intros []|split; [repeat constructor|reflexivity]]).
Qed.

(* ---- optMap and optFlatMap ---- *)
Section Optional.
  Variables (C : config) (R : registry) (rho : env) (target : expr).
  Hypothesis Hu : o_unknowns (cf_opts C) = false.
  Hypothesis Hb : builtin_logic C.
  Hypothesis Ho : standard_optional R.

  Definition known_names : list string := ["hasValue"; "value"; "optional.of"; "optional.none"].
  Lemma library_call fn (rcv : bool) l : In fn known_names ->
    call_outcome C R fn rcv (map (@Val vt) l) =
    apply_op C (OCall fn rcv (FindStaticOverloadsByArity R fn rcv (List.length l))) l.
  Proof.
    intros Hin. assert (E : sequence (map (@Val vt) l) = Val l).
    { induction l as [|v l IH]; [reflexivity|]. cbn [map sequence obind]. rewrite IH. reflexivity. }
    assert (G : forall fn', In fn' ["_&&_"; "_||_"; "_?_:_"; "_[_]"; "or"; "orValue"; "!_"; "_==_"; "_!=_"]%string ->
                String.eqb fn fn' = false).
    { intros fn' H. apply String.eqb_neq. intros <-. unfold known_names in Hin. cbn in Hin, H.
      intuition congruence. }
    assert (N1 : is_nsf_name fn = false) by (destruct Hin as [<-|[<-|[<-|[<-|[]]]]]; reflexivity).
    assert (N2 : is_in_name fn = false) by (destruct Hin as [<-|[<-|[<-|[<-|[]]]]]; reflexivity).
    unfold call_outcome. rewrite !G by (cbn; tauto). rewrite N1, N2. cbn [orb]. rewrite !andb_false_r.
    rewrite map_length, E. reflexivity.
  Qed.
  Lemma library_value fn rcv o args tr : In fn known_names -> In o R -> ov_strict o = true ->
    accepts o fn rcv (map kind_of args) -> Forall plain args -> List.length tr = List.length args ->
    call_outcome C R fn rcv (map (@Val vt) (combine args tr)) =
    match ov_impl o args with Val v => Val (v, None) | Err e => Err e | UB => UB end.
  Proof.
    intros Hn Hin Hs Hacc Hpl Hlen. rewrite library_call by exact Hn. destruct Ho as (Hr & _).
    destruct (C27_one_call C R fn rcv (combine args tr) Hr) as (_ & G & _).
    assert (E : call_args (o_unknowns (cf_opts C)) (cf_pats C) (combine args tr) = args).
    { unfold call_args. rewrite Hu. clear G. revert tr Hlen. clear. induction args as [|a l IH]; intros [|t tr] Hl;
        try discriminate; [reflexivity|]. cbn [combine map fst]. f_equal. apply IH. now injection Hl. }
    rewrite E in G. destruct (G o Hin Hacc) as [H _]; [|exact H].
    intros _ v Hv. rewrite Forall_forall in Hpl. exact (Hpl v Hv).
  Qed.
  Lemma library_error fn rcv o s t : In fn known_names -> In o R -> ov_name o = fn -> ov_strict o = true ->
    call_outcome C R fn rcv [@Val vt (VError s, t)] = Val (VError s, None).
  Proof.
    intros Hn Hin Ho' Hs. change [@Val vt (VError s, t)] with (map (@Val vt) [(VError s, t)]).
    rewrite library_call by exact Hn. destruct Ho as (Hr & _).
    destruct (C27_one_call C R fn rcv [(VError s, t)] Hr) as (G & _).
    assert (E : call_args (o_unknowns (cf_opts C)) (cf_pats C) [(VError s, t)] = [VError s])
      by (unfold call_args; now rewrite Hu).
    rewrite E in G. destruct (G [] s [] eq_refl eq_refl) as [H _]; [|exact H].
    intros o' H1 H2. exact (reached_strict R fn o Hr Hin Ho' Hs o' H1 H2).
  Qed.
  Lemma member_call fn a : meaning C R (NewMemberCall fn a) rho = call_outcome C R fn true [meaning C R a rho].
  Proof. reflexivity. Qed.

  Lemma has_value_of o t : meaning C R target rho = Val (VOptional o, t) ->
    meaning C R (NewMemberCall "hasValue" target) rho =
    Val (VBool match o with Some _ => true | None => false end, None).
  Proof.
    intros E. rewrite member_call, E. destruct Ho as (_ & _ & _ & _ & H1).
    apply (library_value "hasValue" true optional_has_value [VOptional o] [t]); auto.
    - left. reflexivity.
    - split; [reflexivity|]. split; [reflexivity|]. constructor; [now right|constructor].
    - repeat constructor.
  Qed.
  Lemma value_of v t : meaning C R target rho = Val (VOptional (Some v), t) ->
    meaning C R (NewMemberCall "value" target) rho = Val (v, None).
  Proof.
    intros E. rewrite member_call, E. destruct Ho as (_ & _ & _ & H1 & _).
    apply (library_value "value" true optional_value [VOptional (Some v)] [t]); auto.
    - right. left. reflexivity.
    - split; [reflexivity|]. split; [reflexivity|]. constructor; [now right|constructor].
    - repeat constructor.
  Qed.
  Lemma none_of r : meaning C R (NewCall "optional.none" []) r = Val (VOptional None, None).
  Proof.
    rewrite meaning_call. destruct Ho as (_ & _ & H1 & _).
    apply (library_value "optional.none" false optional_none [] []); auto.
    - right. right. right. left. reflexivity.
    - split; [reflexivity|]. split; [reflexivity|constructor].
  Qed.
  Lemma of_value v t : plain v ->
    call_outcome C R "optional.of" false [@Val vt (v, t)] = Val (VOptional (Some v), None).
  Proof.
    intros Hv. destruct Ho as (_ & H1 & _).
    apply (library_value "optional.of" false optional_of [v] [t]); auto.
    - right. right. left. reflexivity.
    - split; [reflexivity|]. split; [reflexivity|]. constructor; [now left|constructor].
  Qed.
  (* the body is evaluated with the variable bound to the content *)
  Lemma bind_body x v body t : meaning C R target rho = Val (VOptional (Some v), t) ->
    meaning C R (EComp "#unused" "" x (NewList []) (NewMemberCall "value" target)
                   (NewBoolConst false) (EIdent x) body) rho =
    meaning C R body (bind_local x (Val (v, None)) rho).
  Proof. intros E. rewrite <- (value_of _ _ E). reflexivity. Qed.
End Optional.

(* optional.of(v).optMap(x, f): an optional of f's value with x = v; none stays
   none; errors of f and of the operand are the result. *)
Theorem C47_opt_map : forall C R target x f e rho ov,
  plain_evaluation C -> o_short_circuiting (cf_opts C) = true -> standard_optional R ->
  ExpandOptMapMacro target [EIdent x; f] = inl e -> yields C R target rho (VOptional ov) ->
  match ov with
  | None => yields C R e rho (VOptional None)
  | Some v => forall fv, yields C R f (bind_local x (Val (v, None)) rho) fv -> is_unknown fv = false ->
      yields C R e rho (if is_error fv then fv else VOptional (Some fv))
  end.
Proof.
  intros C R target x f e rho ov [Hu Hb] Hsc Ho He (t & Ht).
  apply simple_var_spec in He. destruct He as (x' & [= <-] & Sx & [= <-]).
  destruct ov as [v|].
  - intros fv (tf & Hf) Hn. unfold yields. rewrite meaning_call. cbn [map].
    rewrite (has_value_of C R rho target Hu Ho _ _ Ht), call_cond. cbn [obind].
    unfold sc. rewrite Hsc. cbn [BoolCheck fst is_true]. rewrite meaning_call. cbn [map].
    rewrite (bind_body C R rho target Hu Ho x v f t Ht), Hf.
    destruct (is_error fv) eqn:E.
    + destruct fv; try discriminate. eexists. apply library_error with (o := optional_of); auto.
      * right. right. left. reflexivity.
      * apply Ho.
    + eexists. apply of_value; auto. split; auto.
  - unfold yields. rewrite meaning_call. cbn [map].
    rewrite (has_value_of C R rho target Hu Ho _ _ Ht), call_cond. cbn [obind].
    unfold sc. rewrite Hsc. cbn [BoolCheck fst is_true]. exists None. apply none_of; auto.
Qed.
Print Assumptions C47_opt_map.
(* optFlatMap: f's value itself *)
Theorem C47_opt_flat_map : forall C R target x f e rho ov,
  plain_evaluation C -> o_short_circuiting (cf_opts C) = true -> standard_optional R ->
  ExpandOptFlatMapMacro target [EIdent x; f] = inl e -> yields C R target rho (VOptional ov) ->
  match ov with
  | None => yields C R e rho (VOptional None)
  | Some v => forall fv, yields C R f (bind_local x (Val (v, None)) rho) fv -> yields C R e rho fv
  end.
Proof.
  intros C R target x f e rho ov [Hu Hb] Hsc Ho He (t & Ht).
  apply simple_var_spec in He. destruct He as (x' & [= <-] & Sx & [= <-]).
  destruct ov as [v|].
  - intros fv (tf & Hf). unfold yields. rewrite meaning_call. cbn [map].
    rewrite (has_value_of C R rho target Hu Ho _ _ Ht), call_cond. cbn [obind].
    unfold sc. rewrite Hsc. cbn [BoolCheck fst is_true].
    rewrite (bind_body C R rho target Hu Ho x v f t Ht). eauto.
  - unfold yields. rewrite meaning_call. cbn [map].
    rewrite (has_value_of C R rho target Hu Ho _ _ Ht), call_cond. cbn [obind].
    unfold sc. rewrite Hsc. cbn [BoolCheck fst is_true]. exists None. apply none_of; auto.
Qed.
Print Assumptions C47_opt_flat_map.
(* the operand's error is the result *)
Theorem C47_error_operand : forall C R target x f e rho s,
  plain_evaluation C -> o_short_circuiting (cf_opts C) = true -> standard_optional R ->
  In (inl e) [ExpandOptMapMacro target [EIdent x; f]; ExpandOptFlatMapMacro target [EIdent x; f]] ->
  yields C R target rho (VError s) -> yields C R e rho (VError s).
Proof.
  intros C R target x f e rho s [Hu Hb] Hsc Ho He (t & Ht).
  assert (E : meaning C R (NewMemberCall "hasValue" target) rho = Val (VError s, None)).
  { rewrite member_call, Ht. apply library_error with (o := optional_has_value); auto.
    - left. reflexivity.
    - apply Ho. }
  destruct He as [He|[He|[]]]; apply simple_var_spec in He; destruct He as (x' & [= <-] & Sx & [= <-]);
    unfold yields; rewrite meaning_call; cbn [map]; rewrite E, call_cond; cbn [obind];
    unfold sc; rewrite Hsc; cbn [BoolCheck fst]; eexists; reflexivity.
Qed.
Print Assumptions C47_error_operand.

Definition ex_lib3 := static_overloads (attempts (map (mkEntry false)
  [add_int; concat_list; optional_of; optional_none; optional_value; optional_has_value]) []).
Definition ex_some := ECall "optional.of" None [ex_int 4].
Example C47_ex : plain_evaluation ex_mc /\ standard_optional ex_lib3 /\
  yields ex_mc ex_lib3 ex_some no_locals (VOptional (Some (VInt 4))) /\
  exists e, ExpandOptMapMacro ex_some [EIdent "x"; ECall "_+_" None [EIdent "x"; ex_int 1]] = inl e /\
    yields ex_mc ex_lib3 e no_locals (VOptional (Some (VInt 5))).
Proof.
  split; [split; reflexivity|].
  split. { split; [eexists; reflexivity|]. repeat split; cbn; auto 10. }
  split; [exists None; vm_compute; reflexivity|].
  eexists. split; [reflexivity|]. eexists. vm_compute. reflexivity.
Qed.
