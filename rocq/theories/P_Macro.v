(* C26: the comprehension macros. *)
From Coq Require Import ZArith List Bool String Ascii Lia.
From Verif Require Import Base M_Overflow M_Number M_Attr M_Value M_Logic M_Expr M_Plan M_Machine M_Registry
  M_Macro S_Func S_Eval S_Macro L_Func L_Macro P_Func P_Eval.
Import ListNotations.
Open Scope list_scope.
Open Scope Z_scope.

(* Which calls expand: the variable is a simple identifier other than
   __result__. *)
Definition simple_name (x : string) : Prop :=
  x <> ""%string /\ x <> "__result__"%string /\ forall s, x <> String "."%char s.
Lemma simple_var_spec name v k e : simple_var name v k = inl e <->
  exists x, v = EIdent x /\ simple_name x /\ k x = inl e.
Proof.
  unfold simple_var, IsSimpleIdentifier, simple_name, kDeprecatedAccu. split.
  - destruct v as [|s| | | | |]; try discriminate. destruct s as [|c s]; [discriminate|].
    destruct (Ascii.eqb_spec c "."); [discriminate|].
    destruct (String.eqb_spec (String c s) "__result__"); [discriminate|].
    intros Hk. exists (String c s). split; [reflexivity|]. split; [|exact Hk].
    split; [discriminate|]. split; [exact n0|]. intros s' [= E _]. now apply n.
  - intros (x & -> & (H1 & H2 & H3) & Hk). destruct x as [|c s]; [easy|].
    destruct (Ascii.eqb_spec c "."); [subst; now destruct (H3 s)|].
    apply String.eqb_neq in H2. now rewrite H2.
Qed.
Theorem C26_expansions : forall accu range v p f,
  let simple := exists x, v = EIdent x /\ simple_name x in
  let expands o := exists e : expr, o = @inl expr string e in
  (expands (ExpandAllMacro accu range [v; p]) <-> simple) /\
  (expands (ExpandExistsMacro accu range [v; p]) <-> simple) /\
  (expands (ExpandExistsOneMacro accu range [v; p]) <-> simple) /\
  (expands (ExpandMap2Macro accu range [v; f]) <-> simple) /\
  (expands (ExpandMap3Macro accu range [v; p; f]) <-> simple) /\
  (expands (ExpandFilterMacro accu range [v; p]) <-> simple).
Proof.
  intros accu range v p f simple expands.
  assert (G : forall name (k : string -> expr), expands (simple_var name v (fun x => inl (k x))) <-> simple).
  { intros name k. split.
    - intros (e & E). apply simple_var_spec in E. destruct E as (x & E & H & _). exists x. auto.
    - intros (x & E & H). exists (k x). apply simple_var_spec. eauto. }
  repeat split; try apply G.
Qed.
Print Assumptions C26_expansions.

Section Statements.
  Variables (C : config) (R : registry) (accu : string) (range : expr) (x : string) (rho : env).
  Variables (is_map : bool) (items : list (value * value)).
  Hypothesis Hc : plain_evaluation C.
  Hypothesis Ha : reserved accu.
  Hypothesis Hx : x <> accu.
  Hypothesis Hr : ranges_over C R range rho is_map items.

  Lemma empty_accu : ""%string <> accu.
  Proof. destruct Ha as [->| ->]; discriminate. Qed.
  Ltac go e H := apply simple_var_spec in H; destruct H as (?x' & [= <-] & ?Hsx & [= <-]).

  Lemma exists_ok e p ps : ExpandExistsMacro accu range [EIdent x; p] = inl e ->
    free accu p = false -> each_yields C R p x "" is_map items rho ps ->
    yields C R e rho (exists_result ps).
  Proof.
    intros He Hf Hp. go e He. destruct Hc as [Hu Hb]. destruct Hr as (rv & Hrv & Hi).
    eapply exists_yields; eauto using empty_accu.
  Qed.
  Lemma all_ok e p ps : ExpandAllMacro accu range [EIdent x; p] = inl e ->
    free accu p = false -> each_yields C R p x "" is_map items rho ps ->
    yields C R e rho (all_result ps).
  Proof.
    intros He Hf Hp. go e He. destruct Hc as [Hu Hb]. destruct Hr as (rv & Hrv & Hi).
    eapply all_yields; eauto using empty_accu.
  Qed.
  Hypothesis Hplus : standard_plus R.
  Lemma exists_one_ok e p ps : ExpandExistsOneMacro accu range [EIdent x; p] = inl e ->
    fast_equality (cf_opts C) R = true -> Z.of_nat (List.length items) <= int64_max ->
    free accu p = false -> each_yields C R p x "" is_map items rho ps -> no_unknowns ps ->
    yields C R e rho (exists_one_result (condition_name C) ps).
  Proof.
    intros He Hq Hl Hf Hp Hn. go e He. destruct Hc as [Hu Hb]. destruct Hr as (rv & Hrv & Hi).
    eapply exists_one_yields; eauto using empty_accu. now rewrite <- (forall2_len _ _ _ Hp).
  Qed.
  Lemma map_ok e f fs : ExpandMap2Macro accu range [EIdent x; f] = inl e ->
    free accu f = false -> each_yields C R f x "" is_map items rho fs -> no_unknowns fs ->
    yields C R e rho (map_result fs).
  Proof.
    intros He Hf Hp Hn. go e He. destruct Hc as [Hu Hb]. destruct Hr as (rv & Hrv & Hi).
    eapply map_yields; eauto using empty_accu.
  Qed.
  Lemma map_filter_ok e p f ps fs : ExpandMap3Macro accu range [EIdent x; p; f] = inl e ->
    free accu p = false -> each_yields C R p x "" is_map items rho ps -> no_unknowns ps ->
    free accu f = false -> each_yields C R f x "" is_map items rho fs -> no_unknowns fs ->
    yields C R e rho (map_filter_result (condition_name C) ps fs).
  Proof.
    intros He Hf Hp Hn Hf' Hp' Hn'. go e He. destruct Hc as [Hu Hb]. destruct Hr as (rv & Hrv & Hi).
    eapply map_filter_yields; eauto using empty_accu.
  Qed.
  Lemma filter_ok e p ps : ExpandFilterMacro accu range [EIdent x; p] = inl e ->
    free accu p = false -> each_yields C R p x "" is_map items rho ps -> no_unknowns ps ->
    Forall plain (elements is_map items) ->
    yields C R e rho (filter_result (condition_name C) ps (elements is_map items)).
  Proof.
    intros He Hf Hp Hn Hpl. go e He. destruct Hc as [Hu Hb]. destruct Hr as (rv & Hrv & Hi).
    assert (Hi' : each_yields C R (EIdent x) x "" is_map items rho (elements is_map items)).
    { unfold each_yields, elements. clear Hp Hrv Hi Hpl Hr. induction items as [|kv l IH]; constructor; auto.
      destruct Hsx as (H1 & _ & H3). exists None. unfold in_scope. change (String.eqb "" "") with true. cbn beta iota.
      destruct x as [|c s]; [easy|]. cbn [meaning]. unfold bind_local. rewrite String.eqb_refl.
      destruct c as [[] [] [] [] [] [] [] []]; try reflexivity. now destruct (H3 s). }
    assert (E : filter_result (condition_name C) ps (elements is_map items) =
                map_filter_result (condition_name C) ps (elements is_map items)).
    { unfold filter_result, map_filter_result. destruct (find no_bool (rev ps)); [reflexivity|].
      unfold map_result. destruct (find is_error (kept ps (elements is_map items))) as [v|] eqn:Ef; [|reflexivity].
      exfalso. apply find_some in Ef. destruct Ef as [Hin He]. unfold kept in Hin. apply in_map_iff in Hin.
      destruct Hin as ([p' v'] & Ev & Hin). cbn in Ev. subst v'. apply filter_In in Hin. destruct Hin as [Hin _].
      apply in_combine_r in Hin. rewrite Forall_forall in Hpl. destruct (Hpl _ Hin). congruence. }
    rewrite E. eapply map_filter_yields; eauto using empty_accu.
    - cbn [free]. now apply String.eqb_neq.
    - apply Forall_forall. intros v Hv. rewrite Forall_forall in Hpl. apply Hpl in Hv. apply Hv.
  Qed.
End Statements.

(* range.exists(x, p): true if p is true for some element, whatever it is for
   the others; otherwise the first error; otherwise false *)
Theorem C26_exists : forall C R accu range x p e rho is_map items ps,
  plain_evaluation C -> reserved accu -> x <> accu -> free accu p = false ->
  ExpandExistsMacro accu range [EIdent x; p] = inl e ->
  ranges_over C R range rho is_map items -> each_yields C R p x "" is_map items rho ps ->
  yields C R e rho (exists_result ps).
Proof. intros. eapply exists_ok; eauto. Qed.
Print Assumptions C26_exists.

Theorem C26_all : forall C R accu range x p e rho is_map items ps,
  plain_evaluation C -> reserved accu -> x <> accu -> free accu p = false ->
  ExpandAllMacro accu range [EIdent x; p] = inl e ->
  ranges_over C R range rho is_map items -> each_yields C R p x "" is_map items rho ps ->
  yields C R e rho (all_result ps).
Proof. intros. eapply all_ok; eauto. Qed.
Print Assumptions C26_all.

Theorem C26_exists_one : forall C R accu range x p e rho is_map items ps,
  plain_evaluation C -> standard_plus R -> fast_equality (cf_opts C) R = true ->
  reserved accu -> x <> accu -> free accu p = false ->
  ExpandExistsOneMacro accu range [EIdent x; p] = inl e ->
  ranges_over C R range rho is_map items -> Z.of_nat (List.length items) <= int64_max ->
  each_yields C R p x "" is_map items rho ps -> no_unknowns ps ->
  yields C R e rho (exists_one_result (condition_name C) ps).
Proof. intros. eapply exists_one_ok; eauto. Qed.
Print Assumptions C26_exists_one.

Theorem C26_map : forall C R accu range x f e rho is_map items fs,
  plain_evaluation C -> standard_plus R -> reserved accu -> x <> accu -> free accu f = false ->
  ExpandMap2Macro accu range [EIdent x; f] = inl e ->
  ranges_over C R range rho is_map items ->
  each_yields C R f x "" is_map items rho fs -> no_unknowns fs ->
  yields C R e rho (map_result fs).
Proof. intros. eapply map_ok; eauto. Qed.
Print Assumptions C26_map.

Theorem C26_map_where : forall C R accu range x p f e rho is_map items ps fs,
  plain_evaluation C -> standard_plus R -> reserved accu -> x <> accu ->
  free accu p = false -> free accu f = false ->
  ExpandMap3Macro accu range [EIdent x; p; f] = inl e ->
  ranges_over C R range rho is_map items ->
  each_yields C R p x "" is_map items rho ps -> no_unknowns ps ->
  each_yields C R f x "" is_map items rho fs -> no_unknowns fs ->
  yields C R e rho (map_filter_result (condition_name C) ps fs).
Proof. intros. eapply map_filter_ok; eauto. Qed.
Print Assumptions C26_map_where.

Theorem C26_filter : forall C R accu range x p e rho is_map items ps,
  plain_evaluation C -> standard_plus R -> reserved accu -> x <> accu -> free accu p = false ->
  ExpandFilterMacro accu range [EIdent x; p] = inl e ->
  ranges_over C R range rho is_map items -> Forall plain (elements is_map items) ->
  each_yields C R p x "" is_map items rho ps -> no_unknowns ps ->
  yields C R e rho (filter_result (condition_name C) ps (elements is_map items)).
Proof. intros. eapply filter_ok; eauto. Qed.
Print Assumptions C26_filter.

(* A range that is neither a list nor a map: its error, or a type error. *)
Theorem C26_bad_range : forall C R accu range x p f e rho rv,
  plain_evaluation C -> yields C R range rho rv -> iteration rv = None ->
  In (inl e) [ExpandAllMacro accu range [EIdent x; p]; ExpandExistsMacro accu range [EIdent x; p];
              ExpandExistsOneMacro accu range [EIdent x; p]; ExpandMap2Macro accu range [EIdent x; f];
              ExpandMap3Macro accu range [EIdent x; p; f]; ExpandFilterMacro accu range [EIdent x; p]] ->
  yields C R e rho (if is_error rv || is_unknown rv then rv
                    else VError (no_matching_overload "<iter_range>")).
Proof.
  intros C R accu range x p f e rho rv Hc (t & Hr) Hi Hin.
  assert (G : forall y init cond step res, (forall k, cond <> EConst (VBool k) \/ k = true) ->
    yields C R (EComp x "" y range init cond step res) rho
      (if is_error rv || is_unknown rv then rv else VError (no_matching_overload "<iter_range>"))).
  { intros y init cond step res Hcond. unfold yields. cbn [meaning].
    assert (Hb : IsBind x "" range cond = false).
    { unfold IsBind. destruct cond as [v| | | | | |]; auto. destruct v as [|[]| | | | | | | | | | | | |]; auto.
      destruct (Hcond false) as [H|H]; [now contradict H|discriminate]. }
    rewrite Hb, Hr. cbn [obind]. unfold comp_init. cbn [fst].
    destruct rv; try discriminate; eexists; reflexivity. }
  repeat (destruct Hin as [Hin|Hin]; [apply simple_var_spec in Hin;
    destruct Hin as (x' & [= <-] & _ & [= <-]); apply G; intros []; auto; left; discriminate|]).
  destruct Hin.
Qed.
Print Assumptions C26_bad_range.

(* Down to the planned program, within the iteration budget.  Missing: with
   short-circuiting, expressions that hold both a cel.bind and a comprehension
   that can end early (see C21). *)
Theorem C26_run_partial : forall C R e v P, 0 <= o_max_iterations (cf_opts C) ->
  o_short_circuiting (cf_opts C) = false \/ has_bind e = false \/ has_early_exit e = false ->
  yields C R e no_locals v -> plan (cf_opts C) R e = Val P ->
  exists r, evaluates C P r /\ (outcome r = Val v \/ out_of_budget C r).
Proof.
  intros C R e v P HN Hs (t & Hv) HP. destruct (C21_plan_correct_partial C R e P HN Hs HP) as (r & Hr & H).
  exists r. split; [exact Hr|]. destruct H as [H|H]; [|auto]. rewrite Hv in H. destruct H as (s & ->). now left.
Qed.
Print Assumptions C26_run_partial.

(* ---- a case: [2, 0, 4], predicate 4 / x == 2 with an error at 0 ---- *)
Definition ex_div_error : status := mkStatus kInvalidArgument "divide by zero".
Definition ex_div : overload := mkOverload "_/_" false [Some kIntT; Some kIntT] true
  (fun args => match args with
               | [VInt a; VInt b] => if b =? 0 then Val (VError ex_div_error) else Val (VInt (Z.quot a b))
               | _ => UB end).
Definition ex_lib := static_overloads
  (attempts (map (mkEntry false) [add_int; concat_list; ex_div]) []).
Definition ex_range := EList (map (fun i => (false, ex_int i)) [2; 0; 4]).
Definition ex_pred := ECall "_==_" None [ECall "_/_" None [ex_int 4; EIdent "x"]; ex_int 2].
Definition ex_mc := ex_config true 0.
Definition ex_items := [(VInt 0, VInt 2); (VInt 1, VInt 0); (VInt 2, VInt 4)].
Definition ex_ps := [VBool true; VError ex_div_error; VBool false].
Lemma ex_lib_plus : standard_plus ex_lib.
Proof.
  split; [eexists; reflexivity|]. split.
  - left. reflexivity.
  - right. left. reflexivity.
Qed.
Example C26_ex : plain_evaluation ex_mc /\ reserved "@result" /\ free "@result" ex_pred = false /\
  fast_equality (cf_opts ex_mc) ex_lib = true /\
  ranges_over ex_mc ex_lib ex_range no_locals false ex_items /\ Forall plain (elements false ex_items) /\
  each_yields ex_mc ex_lib ex_pred "x" "" false ex_items no_locals ex_ps /\ no_unknowns ex_ps /\
  exists_result ex_ps = VBool true /\ all_result ex_ps = VBool false /\
  exists_one_result (condition_name ex_mc) ex_ps = VError ex_div_error /\
  filter_result (condition_name ex_mc) [VBool true; VBool false; VBool true] (elements false ex_items)
    = VList [VInt 2; VInt 4] /\
  exists e P, ExpandExistsMacro "@result" ex_range [EIdent "x"; ex_pred] = inl e /\
    plan (cf_opts ex_mc) ex_lib e = Val P /\ has_bind e = false.
Proof.
  split; [split; reflexivity|]. split; [now left|]. split; [reflexivity|]. split; [vm_compute; reflexivity|].
  split. { exists (VList [VInt 2; VInt 0; VInt 4]). split; [exists None; vm_compute; reflexivity|reflexivity]. }
  split; [repeat constructor|].
  split. { repeat constructor; exists None; vm_compute; reflexivity. }
  split; [repeat constructor|]. repeat (split; [vm_compute; reflexivity|]).
  eexists. eexists. split; [reflexivity|]. split; vm_compute; reflexivity.
Qed.
