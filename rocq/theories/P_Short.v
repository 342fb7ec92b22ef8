(* C20: short-circuiting does not change results. *)
From Coq Require Import ZArith List Bool String Ascii Lia.
From Verif Require Import Base M_Overflow M_Number M_Attr M_Value M_Logic M_Expr M_Plan M_Machine M_Registry
  M_Macro S_Value S_Eval S_Short L_Seval L_Eval L_Meaning L_Short P_Eval.
Import ListNotations.
Local Open Scope string_scope.
Open Scope list_scope.
Open Scope Z_scope.

(* The full statement would be: for every C with unknown tracking off, R, e, and
   programs P and Q planned for e with and without short-circuiting, if Q
   returns w then P returns w.  It fails in four ways (the refutations below).
   Proved: P returns w, or w is the error of a ternary with a non-boolean
   condition, which P reports under another name; for every expression whose
   comprehensions are those of the macros (settled_loops, see C20_macros), on a
   host that makes no unknown values and whose non-strict functions do not tell
   those two errors apart, when the slots of cel.bind variables are
   apart from those the short-circuiting program leaves set (stale_free; see
   C21), and unless P runs into the iteration limit. *)
Theorem C20_same_result_partial : forall C R e k P Q w r,
  o_unknowns (cf_opts C) = false -> o_fast_builtins (cf_opts C) = true ->
  0 <= o_max_iterations (cf_opts C) ->
  host_known C R -> blind renamed R -> constants_known e -> settled_loops e ->
  elaborate (cf_opts C) R e = Val k -> stale_free (with_short true C) k ->
  plan (cf_opts (with_short true C)) R e = Val P ->
  plan (cf_opts (with_short false C)) R e = Val Q ->
  evaluates (with_short false C) Q r -> outcome r = Val w ->
  exists r', evaluates (with_short true C) P r' /\
    ((exists v, outcome r' = Val v /\ same_value v w) \/ out_of_budget (with_short true C) r').
Proof.
  intros C R e k P Q w r Hu Hb HN HR HB Hc Hs Hk Hst HP HQ Hr Hw.
  assert (Hel : forall b e, elaborate (cf_opts (with_short b C)) R e = elaborate (cf_opts C) R e).
  { intros b e0. clear. induction e0 using expr_ind'; cbn [elaborate].
    - reflexivity.
    - reflexivity.
    - now rewrite IHe0.
    - rewrite (map_out_ext _ (elaborate (cf_opts C) R) args H0). destruct t as [x|]; [rewrite H|]; reflexivity.
    - now rewrite (map_out_ext _ (fun p => elaborate (cf_opts C) R (snd p)) l H).
    - erewrite map_out_ext; [reflexivity|]. eapply Forall_impl; [|exact H]. intros p [-> ->]. reflexivity.
    - now rewrite IHe0_1, IHe0_2, IHe0_3, IHe0_4, IHe0_5. }
  destruct (C21_plan_correct_slots_apart_partial (with_short true C) R e k HN
              (eq_trans (Hel true e) Hk) Hst) as (P' & r1 & HP' & Hr1 & Hm1).
  assert (P' = P) by congruence. subst P'.
  destruct (C21_plan_correct_partial (with_short false C) R e Q HN (or_introl eq_refl) HQ) as (r0 & Hr0 & Hm0).
  pose proof (evaluates_det _ _ _ _ Hr Hr0). subst r0.
  exists r1. split; [exact Hr1|]. destruct Hm1 as [Hm1|Hm1]; [left|now right].
  destruct Hm0 as [Hm0|(_ & s & -> & _)]; [|discriminate Hw].
  assert (Hsim : sim renamed (meaning (with_short true C) R e no_locals) (meaning (with_short false C) R e no_locals)).
  { apply (sim_meaning C R Hu renamed HR HB (conj eq_refl eq_refl)); auto. intros y. exact I. }
  unfold agrees in Hm0. destruct (meaning (with_short false C) R e no_locals) as [x'|er|] eqn:E0.
  - destruct Hm0 as (s & ->). cbn [outcome] in Hw. injection Hw as <-.
    destruct (Hsim x' eq_refl) as (x & E1 & Hx & _). rewrite E1 in Hm1. destruct Hm1 as (s1 & ->).
    exists (fst x). split; [reflexivity|exact Hx].
  - destruct Hm0 as (s & ->). discriminate Hw.
  - subst r. discriminate Hw.
Qed.
Print Assumptions C20_same_result_partial.

(* In particular without cel.bind, and with cel.bind if no comprehension of the
   expression is left early by its condition. *)
Theorem C20_same_result_syntax_partial : forall C R e P Q w r,
  o_unknowns (cf_opts C) = false -> o_fast_builtins (cf_opts C) = true ->
  o_max_iterations (cf_opts C) = 0 ->
  host_known C R -> blind renamed R -> constants_known e -> settled_loops e ->
  has_bind e = false \/ has_early_exit e = false ->
  plan (cf_opts (with_short true C)) R e = Val P ->
  plan (cf_opts (with_short false C)) R e = Val Q ->
  evaluates (with_short false C) Q r -> outcome r = Val w ->
  exists r' v, evaluates (with_short true C) P r' /\ outcome r' = Val v /\ same_value v w.
Proof.
  intros C R e P Q w r Hu Hb HN HR HB Hc Hs Hx HP HQ Hr Hw.
  destruct (plan_core_of _ _ _ _ HP) as (k & Hk & _).
  assert (Hk' : elaborate (cf_opts (with_short true C)) R e = Val k) by exact Hk.
  pose proof (stale_free_syntax (with_short true C) R e k Hk' (or_intror Hx)) as Hst.
  destruct (C20_same_result_partial (with_short true C) R e k P Q w r) as (r' & H1 & H2); auto.
  - change (o_max_iterations (cf_opts (with_short true C))) with (o_max_iterations (cf_opts C)). lia.
  - destruct H2 as [(v & H2 & H3)|(H0 & _)]; [eauto|].
    cbn in H0. rewrite HN in H0. lia.
Qed.
Print Assumptions C20_same_result_syntax_partial.

(* The comprehensions of every macro of the standard and the comprehensions
   libraries are settled. *)
Theorem C20_macros : forall accu range args e x x2 y g i c s b,
  accu = "@result" \/ accu = "__result__" ->
  In (inl e) [ExpandAllMacro accu range args; ExpandExistsMacro accu range args;
     ExpandExistsOneMacro accu range args; ExpandMap2Macro accu range args;
     ExpandMap3Macro accu range args; ExpandFilterMacro accu range args;
     ExpandAllMacro2 accu range args; ExpandExistsMacro2 accu range args;
     ExpandExistsOneMacro2 accu range args; ExpandTransformList3Macro accu range args;
     ExpandTransformList4Macro accu range args; ExpandTransformMap3Macro accu range args;
     ExpandTransformMap4Macro accu range args; ExpandTransformMapEntry3Macro accu range args;
     ExpandTransformMapEntry4Macro accu range args] ->
  e = EComp x x2 y g i c s b -> x <> accu -> x2 <> accu -> settled x x2 y c s = true.
Proof.
  intros accu range args e x x2 y g i c s b Ha H He Hx Hx2.
  assert (Hl : local_name x x2 accu = true).
  { unfold local_name. apply String.eqb_neq in Hx, Hx2. rewrite Hx, Hx2. destruct Ha as [->| ->]; reflexivity. }
  assert (Hy : y = accu -> settled x x2 y (EConst (VBool true)) s = true) by reflexivity.
  assert (HA : forall p, settled x x2 accu (NewCall "@not_strictly_false" [NewAccuIdent accu])
            (NewCall "_&&_" [NewAccuIdent accu; p]) = true).
  { intros p. unfold settled, NewCall, NewAccuIdent. rewrite Hl. cbn [is_name]. rewrite String.eqb_refl. reflexivity. }
  assert (HE : forall p, settled x x2 accu (NewCall "@not_strictly_false" [NewCall "!_" [NewAccuIdent accu]])
            (NewCall "_||_" [NewAccuIdent accu; p]) = true).
  { intros p. unfold settled, NewCall, NewAccuIdent. rewrite Hl. cbn [is_name is_not_name]. rewrite String.eqb_refl. reflexivity. }
  subst e. cbn [In] in H.
  repeat (destruct H as [H|H]); try contradiction;
  unfold ExpandAllMacro, ExpandExistsMacro, ExpandExistsOneMacro, ExpandMap2Macro, ExpandMap3Macro,
    ExpandFilterMacro, ExpandAllMacro2, ExpandExistsMacro2, ExpandExistsOneMacro2, ExpandTransformList3Macro,
    ExpandTransformList4Macro, ExpandTransformMap3Macro, ExpandTransformMap4Macro,
    ExpandTransformMapEntry3Macro, ExpandTransformMapEntry4Macro, simple_var, simple_vars in H;
  repeat match type of H with
    | context [match ?d with _ => _ end] => is_var d; destruct d; try discriminate H
    end;
  repeat match type of H with
    | context [match ?d with _ => _ end] => destruct d; try discriminate H
    end;
  injection H as <- <- <- <- <- <- <- <-; auto.
Qed.
Print Assumptions C20_macros.

(* ---- a case that meets the hypotheses ---- *)
(* [1, 2].exists(x, x == 1) || (a ? true : true), with a an int *)
Definition ex_short := ECall "_||_" None [ex_exists;
  ECall "_?_:_" None [EIdent "a"; EConst (VBool true); EConst (VBool true)]].
Example C20_ex : let C := ex_config true 0 in
  host_known C [] /\ blind renamed [] /\ constants_known ex_short /\ settled_loops ex_short /\ has_bind ex_short = false /\
  exists P Q r, plan (cf_opts (with_short true C)) [] ex_short = Val P /\
    plan (cf_opts (with_short false C)) [] ex_short = Val Q /\
    evaluates (with_short false C) Q r /\ outcome r = Val (VBool true).
Proof.
  split.
  { split; [constructor|]. split; [|auto]. intros x v. cbn.
    destruct (String.eqb x "a"); [|discriminate]. intros [= <-]. split; [reflexivity|exact I]. }
  split; [constructor|].
  split; [cbn [constants_known ex_short ex_exists]; repeat split; reflexivity|].
  split; [reflexivity|]. split; [reflexivity|].
  eexists. eexists. eexists. split; [vm_compute; reflexivity|]. split; [vm_compute; reflexivity|].
  split; [exists 200%nat; eexists; split; [vm_compute; reflexivity|reflexivity]|]. reflexivity.
Qed.

(* ---- what fails ---- *)
(* 7 ? true : true: the error names differ *)
Theorem C20_error_name_refuted : exists C R e P Q r0 r1, o_unknowns (cf_opts C) = false /\
  plan (cf_opts (with_short true C)) R e = Val P /\ plan (cf_opts (with_short false C)) R e = Val Q /\
  evaluates (with_short true C) P r1 /\ evaluates (with_short false C) Q r0 /\
  outcome r1 = Val (VError (no_matching_overload "<jump_condition>")) /\
  outcome r0 = Val (VError (no_matching_overload "_?_:_")).
Proof.
  exists (ex_config true 0), [], (ECall "_?_:_" None [ex_int 7; ex_int 1; ex_int 2]).
  do 4 eexists. split; [reflexivity|]. split; [vm_compute; reflexivity|]. split; [vm_compute; reflexivity|].
  split; [exists 200%nat; eexists; split; [vm_compute; reflexivity|reflexivity]|].
  split; [exists 200%nat; eexists; split; [vm_compute; reflexivity|reflexivity]|].
  split; reflexivity.
Qed.
Print Assumptions C20_error_name_refuted.
(* [1, 2].exists(x, x == 1) && cel.bind(y, false, y): an error and false, because
   of the slot the short-circuiting program leaves set *)
Theorem C20_bind_refuted : exists C R e P Q r0 r1, o_unknowns (cf_opts C) = false /\ settled_loops e /\
  plan (cf_opts (with_short true C)) R e = Val P /\ plan (cf_opts (with_short false C)) R e = Val Q /\
  evaluates (with_short true C) P r1 /\ evaluates (with_short false C) Q r0 /\
  outcome r1 = Val (VError (no_matching_overload "_&&_")) /\ outcome r0 = Val (VBool false).
Proof.
  exists (ex_config true 0), [], ex_leak.
  do 4 eexists. split; [reflexivity|]. split; [reflexivity|].
  split; [vm_compute; reflexivity|]. split; [vm_compute; reflexivity|].
  split; [exists 200%nat; eexists; split; [vm_compute; reflexivity|reflexivity]|].
  split; [exists 200%nat; eexists; split; [vm_compute; reflexivity|reflexivity]|].
  split; reflexivity.
Qed.
Print Assumptions C20_bind_refuted.
(* A comprehension of a user's own macro: over [1, 2], accumulator 0, going on
   while the accumulator is 0, step x: the last element instead of the first. *)
Theorem C20_custom_loop_refuted : exists C R e P Q r0 r1, o_unknowns (cf_opts C) = false /\
  plan (cf_opts (with_short true C)) R e = Val P /\ plan (cf_opts (with_short false C)) R e = Val Q /\
  evaluates (with_short true C) P r1 /\ evaluates (with_short false C) Q r0 /\
  outcome r1 = Val (VInt 1) /\ outcome r0 = Val (VInt 2).
Proof.
  exists (ex_config true 0), [],
    (EComp "x" "" "r" (EList [(false, ex_int 1); (false, ex_int 2)]) (ex_int 0)
       (ECall "_==_" None [EIdent "r"; ex_int 0]) (EIdent "x") (EIdent "r")).
  do 4 eexists. split; [reflexivity|]. split; [vm_compute; reflexivity|]. split; [vm_compute; reflexivity|].
  split; [exists 200%nat; eexists; split; [vm_compute; reflexivity|reflexivity]|].
  split; [exists 200%nat; eexists; split; [vm_compute; reflexivity|reflexivity]|].
  split; reflexivity.
Qed.
Print Assumptions C20_custom_loop_refuted.
(* A condition the host made unknown although unknown tracking is off: the
   unknown value, and an error. *)
Theorem C20_unknown_value_refuted : exists C R e P Q r0 r1 s, o_unknowns (cf_opts C) = false /\
  plan (cf_opts (with_short true C)) R e = Val P /\ plan (cf_opts (with_short false C)) R e = Val Q /\
  evaluates (with_short true C) P r1 /\ evaluates (with_short false C) Q r0 /\
  outcome r1 = Val (VUnknown s) /\ outcome r0 = Val (VError (no_matching_overload "_?_:_")).
Proof.
  exists (mkConfig (mkOptions false true 0 true true false true) (fun _ => Val (Some (VUnknown []))) [] (fun m => m)),
    [], (ECall "_?_:_" None [EIdent "a"; ex_int 1; ex_int 2]).
  do 5 eexists. split; [reflexivity|]. split; [vm_compute; reflexivity|]. split; [vm_compute; reflexivity|].
  split; [exists 200%nat; eexists; split; [vm_compute; reflexivity|reflexivity]|].
  split; [exists 200%nat; eexists; split; [vm_compute; reflexivity|reflexivity]|].
  split; reflexivity.
Qed.
Print Assumptions C20_unknown_value_refuted.
