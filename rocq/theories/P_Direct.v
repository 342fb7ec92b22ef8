(* The recursive evaluator: C22, C52, C53, C54. *)
From Coq Require Import ZArith List Bool String Ascii Lia.
From Verif Require Import Base M_Overflow M_Number M_Attr M_Value M_Logic M_Expr M_Plan M_Machine M_Direct
  M_Macro S_Value S_Eval S_Short S_Direct L_Seval L_Alloc L_Budget L_Core L_Eval L_Meaning L_Short L_DTree L_DSim L_DRun
  L_DDepth L_DBudget L_InPlace L_InPlace2 L_Range L_DSafe L_DRange P_Eval.
Import ListNotations.
Local Open Scope string_scope.
Open Scope list_scope.
Open Scope Z_scope.

Lemma recursive_plan_core O R limit e r : recursive_plan O R limit e = Val r ->
  exists k, elaborate O R e = Val k /\ r = resolved k /\
    match limit with Some n => fits n (fun _ => 0%nat) r = true | None => True end.
Proof.
  unfold recursive_plan. destruct (elaborate O R e) as [k|er|]; cbn [obind]; try discriminate.
  destruct limit as [n|].
  - destruct (fits n (fun _ => 0%nat) (resolved k)) eqn:E; intros H; [|discriminate].
    injection H as <-. eauto.
  - intros H. injection H as <-. eauto.
Qed.

(* ------------------------------------------------------------------ C52 *)
(* A recursion limit decides only whether planning succeeds: a program that was
   planned under a limit runs as it does without one, and is not stopped for
   nesting too deep. *)
Theorem C52_recursion_limit : forall C R n e r mv,
  recursive_plan (cf_opts C) R (Some n) e = Val r ->
  recursive_plan (cf_opts C) R None e = Val r /\
  direct_run C mv (Some n) r = direct_run C mv None r.
Proof.
  intros C R n e r mv H. destruct (recursive_plan_core _ _ _ _ _ H) as (k & Hk & -> & Hf).
  split; [unfold recursive_plan; rewrite Hk; reflexivity|]. now apply direct_run_limit.
Qed.
Print Assumptions C52_recursion_limit.

(* The largest nesting of steps in the planned tree decides. *)
Theorem C52_accepted : forall O R e k n, elaborate O R e = Val k ->
  (recursive_plan O R (Some n) e = Val (resolved k) \/ recursive_plan O R (Some n) e = Err depth_error) /\
  (forall m, (n <= m)%nat -> recursive_plan O R (Some n) e = Val (resolved k) ->
     recursive_plan O R (Some m) e = Val (resolved k)) /\
  exists m, recursive_plan O R (Some m) e = Val (resolved k).
Proof.
  intros O R e k n Hk. unfold recursive_plan. rewrite Hk. cbn [obind].
  split; [destruct (fits n (fun _ => 0%nat) (resolved k)); auto|]. split.
  - intros m Hm. destruct (fits n (fun _ => 0%nat) (resolved k)) eqn:E; [|discriminate].
    intros _. now rewrite (fits_mono n m Hm _ _ E).
  - destruct (fits_some (resolved k) (fun _ => 0%nat)) as (m & Hm). exists m. now rewrite Hm.
Qed.
Print Assumptions C52_accepted.
(* [1, 2].exists(x, x == 1) nests 4 steps deep *)
Example C52_ex : exists r,
  recursive_plan (cf_opts (ex_config true 0)) [] (Some 4%nat) ex_exists = Val r /\
  recursive_plan (cf_opts (ex_config true 0)) [] (Some 3%nat) ex_exists = Err depth_error /\
  outcome (direct_run (ex_config true 0) (fun v => v) (Some 4%nat) r) = Val (VBool true).
Proof. eexists. split; [vm_compute; reflexivity|]. split; vm_compute; reflexivity. Qed.

(* ------------------------------------------------------------------ C53 *)
(* The iteration budget, for the recursive evaluator, whatever the recursion
   limit, the unknowns and the loop steps. *)
Theorem C53_iteration_budget : forall C mv limit r N, 0 < N ->
  let rN := direct_run (with_budget N C) mv limit r in
  let r0 := direct_run (with_budget 0 C) mv limit r in
  bodies rN <= N - 1 /\
  (outcome r0 <> UB ->
   if bodies r0 <=? N - 1
   then outcome rN = outcome r0 /\ bodies rN = bodies r0 /\ calls rN = calls r0
   else outcome rN = Err budget_exceeded /\ bodies rN = N - 1).
Proof.
  intros C mv limit r N HN rN r0. set (CN := with_budget N C).
  pose proof (direct_budget CN mv HN limit r) as H.
  change (with_budget 0 CN) with (with_budget 0 C) in H.
  change (direct_run CN mv limit r) with rN in H. fold r0 in H. clearbody rN.
  assert (Hex : forall q, @exceeded CN value q -> outcome q = Err budget_exceeded /\ bodies q = N - 1)
    by (intros q (s & -> & Hs); split; [reflexivity|exact Hs]).
  assert (Hval : forall s0 sN, eqv CN s0 sN -> e_loops sN = e_loops s0 /\ e_log sN = e_log s0).
  { intros s0 sN (_ & H2 & H3 & _). unfold loops in *. split; [|auto]. lia. }
  destruct r0 as [v s0|er s0|w|]; cbn [L_Budget.rel] in H.
  - change (o_max_iterations (cf_opts CN)) with N in H. unfold loops in H.
    destruct H as [(H1 & sN & E & H2)|[H1 H2]].
    + destruct (Hval _ _ H2) as [H3 H4]. rewrite E.
      cbn [bodies outcome calls]. rewrite H3, H4.
      split; [lia|]. intros _. destruct (Z.leb_spec (Z.of_nat (e_loops s0)) (N - 1)); [auto|lia].
    + destruct (Hex _ H2) as [H3 H4]. split; [lia|]. intros _. cbn [bodies].
      destruct (Z.leb_spec (Z.of_nat (e_loops s0)) (N - 1)); [lia|auto].
  - change (o_max_iterations (cf_opts CN)) with N in H. unfold loops in H.
    destruct H as [(H1 & sN & E & H2)|[H1 H2]].
    + destruct (Hval _ _ H2) as [H3 H4]. rewrite E.
      cbn [bodies outcome calls]. rewrite H3, H4.
      split; [lia|]. intros _. destruct (Z.leb_spec (Z.of_nat (e_loops s0)) (N - 1)); [auto|lia].
    + destruct (Hex _ H2) as [H3 H4]. split; [lia|]. intros _. cbn [bodies].
      destruct (Z.leb_spec (Z.of_nat (e_loops s0)) (N - 1)); [lia|auto].
  - split; [destruct H as [->|H]; [cbn; lia|apply Hex in H; lia]|]. intros Hn. now cbn in Hn.
  - split; [destruct H as [->|H]; [cbn; lia|apply Hex in H; lia]|]. intros Hn. now cbn in Hn.
Qed.
Print Assumptions C53_iteration_budget.
(* planning does not depend on the budget *)
Theorem C53_same_plan : forall C R limit e n,
  recursive_plan (cf_opts (with_budget n C)) R limit e = recursive_plan (cf_opts C) R limit e.
Proof. intros. unfold recursive_plan. now rewrite elaborate_budget. Qed.
Print Assumptions C53_same_plan.
Example C53_ex : exists r, recursive_plan (cf_opts (ex_config true 0)) [] None ex_exists = Val r /\
  (let r0 := direct_run (ex_config true 0) (fun v => v) None r in
   outcome r0 = Val (VBool true) /\ bodies r0 = 2) /\
  outcome (direct_run (ex_config true 3) (fun v => v) None r) = Val (VBool true) /\
  outcome (direct_run (ex_config true 2) (fun v => v) None r) = Err budget_exceeded.
Proof. eexists. split; [vm_compute; reflexivity|]. vm_compute. auto. Qed.

(* ------------------------------------------------------------------ C54 *)
(* A recursive program never reads an empty slot and never nests too deep: it
   ends with a value, with an error status, or in undefined behaviour; the last
   only if the host's functions or variables misbehave, or the expression has
   constants that are no CEL values.  mv is what moved-from values hold. *)
Theorem C54_recursive_well_behaved : forall C R limit e r mv,
  recursive_plan (cf_opts C) R limit e = Val r ->
  (forall w, direct_run C mv limit r <> RFault w) /\
  (host_ok C R -> constants_ok e -> (forall v, in_range v -> in_range (mv v)) ->
   (exists v s, direct_run C mv limit r = RVal v s /\ in_range v) \/
   (exists er s, direct_run C mv limit r = RErr er s)).
Proof.
  intros C R limit e r mv Hr. destruct (recursive_plan_core _ _ _ _ _ Hr) as (k & Hk & -> & Hf).
  assert (Hd : direct_run C mv limit (resolved k) = direct_run C mv None (resolved k)).
  { destruct limit as [n|]; [now apply direct_run_limit|reflexivity]. }
  rewrite Hd. clear Hd. pose proof (direct_no_fault C mv k) as Hn. split; [exact Hn|].
  intros (HR & Hv & Hm) Hc Hmv.
  pose proof (direct_ok C mv Hmv Hv Hm None k (elaborate_kok (cf_opts C) R HR e k Hc Hk)) as Ho.
  destruct (direct_run C mv None (resolved k)) as [v s|er s|w|]; eauto.
  - now elim (Hn w).
  - destruct Ho.
Qed.
Print Assumptions C54_recursive_well_behaved.
Example C54_ex : host_ok (ex_config true 0) [] /\ constants_ok ex_leak /\
  exists r, recursive_plan (cf_opts (ex_config true 0)) [] (Some 9%nat) ex_leak = Val r.
Proof.
  destruct C23_ex as (H1 & H2 & _). split; [exact H1|]. split; [exact H2|].
  eexists. vm_compute. reflexivity.
Qed.

(* ------------------------------------------------------------------ C22 *)
Lemma with_budget_0 C : o_max_iterations (cf_opts C) = 0 -> with_budget 0 C = C.
Proof. destruct C as [[u s m f h o w] v p r]. cbn. intros ->. reflexivity. Qed.
Lemma jump_error loose :
  equal_errors loose (no_matching_overload "_?_:_") (no_matching_overload "<jump_condition>").
Proof. right. split; reflexivity. Qed.

(* The full statement would be: for every C, R, e, the recursive program r and
   the iterative program P planned for e return the same value, all errors
   counting as the same.  It fails in five ways (the refutations below).
   Proved, first against the reference semantics of the iterative program
   (C21): when that gives w, so does the recursive program, unless it runs into
   the iteration limit; errors may differ (loose), or only in the name of a
   ternary's error, with fewer literals allowed.  For unknown tracking off,
   a host that makes no unknowns, whose non-strict functions do not tell errors
   apart, map literals with distinct constant keys or at most one entry, and
   loop steps that do not read the accumulator once they have started to write
   it, as those of the macros (C22_macros). *)
Theorem C22_recursive_meaning_partial : forall loose C R e limit r mv x,
  o_unknowns (cf_opts C) = false -> 0 <= o_max_iterations (cf_opts C) ->
  host_known C R -> blind (equal_errors loose) R -> constants_known e ->
  plain_literals loose e -> steps_in_place e = true ->
  recursive_plan (cf_opts C) R limit e = Val r ->
  meaning C R e no_locals = Val x ->
  let rd := direct_run C mv limit r in
  (exists v, outcome rd = Val v /\ same_up_to (equal_errors loose) v (fst x)) \/ out_of_budget C rd.
Proof.
  intros loose C R e limit r mv x Hu HN HR HB Hc Hp Hs Hr Hx rd.
  destruct (recursive_plan_core _ _ _ _ _ Hr) as (k & Hk & -> & Hf).
  assert (Hd : rd = direct_run C mv None (resolved k)).
  { unfold rd. destruct limit as [n|]; [now apply direct_run_limit|reflexivity]. }
  rewrite Hd. clear rd Hd. set (C0 := with_budget 0 C).
  assert (Hk0 : elaborate (cf_opts C0) R e = Val k) by (unfold C0; now rewrite elaborate_budget).
  assert (HR0 : host_known C0 R) by exact HR.
  pose proof (sim_elaborate C0 R Hu loose HR0 HB (jump_error loose) e Hc Hp k Hk0 no_locals no_locals) as Hsim.
  specialize (Hsim ltac:(intros y; exact I)). unfold C0 in Hsim. rewrite eval_budget in Hsim.
  fold C0 in Hsim. rewrite <- (elaborate_meaning C R e k Hk) in Hsim.
  destruct (Hsim x Hx) as (y & Hy & Hxy & _).
  pose proof (direct_dir C0 mv k Hu eq_refl (alias_free_resolved k (elab_steps (cf_opts C) R e k Hs Hk))) as Ha.
  rewrite Hy in Ha. destruct Ha as (s & Ha).
  destruct (Z.eq_dec (o_max_iterations (cf_opts C)) 0) as [Hz|Hz].
  - left. exists (fst y). unfold C0 in Ha. rewrite (with_budget_0 C Hz) in Ha. rewrite Ha. split; [reflexivity|exact Hxy].
  - assert (HN' : 0 < o_max_iterations (cf_opts C)) by lia.
    pose proof (direct_budget C mv HN' None (resolved k)) as Hb. fold C0 in Hb. rewrite Ha in Hb.
    destruct Hb as [(_ & sN & -> & _)|(_ & Hb)]; [left; exists (fst y); split; [reflexivity|exact Hxy]|right].
    split; auto.
Qed.
Print Assumptions C22_recursive_meaning_partial.

(* The recursive program against the iterative program: when the latter returns
   w, so does the former.  In addition the slots of cel.bind variables must be
   apart from those the iterative program leaves set (stale_free, see C21). *)
Theorem C22_programs_agree_slots_apart_partial : forall loose C R e k limit P r mv rP w,
  o_unknowns (cf_opts C) = false -> 0 <= o_max_iterations (cf_opts C) ->
  host_known C R -> blind (equal_errors loose) R -> constants_known e ->
  plain_literals loose e -> steps_in_place e = true ->
  elaborate (cf_opts C) R e = Val k -> stale_free C k ->
  recursive_plan (cf_opts C) R limit e = Val r -> plan (cf_opts C) R e = Val P ->
  evaluates C P rP -> outcome rP = Val w ->
  let rd := direct_run C mv limit r in
  (exists v, outcome rd = Val v /\ same_up_to (equal_errors loose) v w) \/ out_of_budget C rd.
Proof.
  intros loose C R e k limit P r mv rP w Hu HN HR HB Hc Hp Hs Hk Hst Hr HP Hev Hw.
  destruct (C21_plan_correct_slots_apart_partial C R e k HN Hk Hst) as (P' & r1 & HP' & Hr1 & Hm).
  assert (P' = P) by congruence. subst P'. pose proof (evaluates_det _ _ _ _ Hr1 Hev). subst r1.
  destruct Hm as [Hm|(_ & s & -> & _)]; [|discriminate Hw].
  destruct (meaning C R e no_locals) as [x|er|] eqn:E; cbn [agrees] in Hm.
  - destruct Hm as (s & ->). cbn [outcome] in Hw. injection Hw as <-.
    now apply (C22_recursive_meaning_partial loose C R e limit r mv x).
  - destruct Hm as (s & ->). discriminate Hw.
  - subst rP. discriminate Hw.
Qed.
Print Assumptions C22_programs_agree_slots_apart_partial.

(* In particular with all errors counting as the same, without iteration limit,
   and without cel.bind, without a loop that its condition may leave early, or
   without short-circuiting. *)
Theorem C22_programs_agree_partial : forall C R e limit P r mv rP w,
  o_unknowns (cf_opts C) = false -> o_max_iterations (cf_opts C) = 0 ->
  host_known C R -> blind (fun _ _ => True) R -> constants_known e ->
  plain_literals true e -> steps_in_place e = true ->
  o_short_circuiting (cf_opts C) = false \/ has_bind e = false \/ has_early_exit e = false ->
  recursive_plan (cf_opts C) R limit e = Val r -> plan (cf_opts C) R e = Val P ->
  evaluates C P rP -> outcome rP = Val w ->
  exists v, outcome (direct_run C mv limit r) = Val v /\
    (v = w \/ exists a b, v = VError a /\ w = VError b).
Proof.
  intros C R e limit P r mv rP w Hu HN HR HB Hc Hp Hs Hx Hr HP Hev Hw.
  destruct (recursive_plan_core _ _ _ _ _ Hr) as (k & Hk & _).
  assert (HB' : blind (equal_errors true) R).
  { eapply Forall_impl; [|exact HB]. intros o [Ho|Ho]; [now left|right]. intros args args' H w0 Hw0.
    assert (Hany : forall v w, same_up_to (equal_errors true) v w <-> same_up_to (fun _ _ => True) v w).
    { intros v v'. unfold same_up_to, equal_errors. split; (intros [->|(a & b & _ & H1 & H2)]; [now left|right]; exists a, b; auto). }
    assert (H' : Forall2 (same_up_to (fun _ _ => True)) args args').
    { clear - H Hany. induction H as [|a b l l' Hab Hl IH]; constructor; auto. now apply Hany. }
    destruct (Ho args args' H' w0 Hw0) as (v & Hv & Hvw). exists v. split; [exact Hv|]. now apply Hany. }
  destruct (C22_programs_agree_slots_apart_partial true C R e k limit P r mv rP w) as [(v & Hv & Hvw)|(H0 & _)];
    auto; [lia|now apply (stale_free_syntax C R e k)| |lia].
  exists v. split; auto. destruct Hvw as [->|(a & b & _ & H1 & H2)]; eauto.
Qed.
Print Assumptions C22_programs_agree_partial.

(* The loops of every macro of the standard, optional, bindings and
   comprehensions libraries are such: an expansion has steps_in_place when the
   parts written by the user have and do not read the accumulator variable,
   which the parser names "@result", no name a user can write. *)
Theorem C22_macros : forall accu range args e,
  In (inl e) [ExpandHasMacro args; ExpandAllMacro accu range args; ExpandExistsMacro accu range args;
     ExpandExistsOneMacro accu range args; ExpandMap2Macro accu range args;
     ExpandMap3Macro accu range args; ExpandFilterMacro accu range args;
     ExpandOptMapMacro range args; ExpandOptFlatMapMacro range args;
     ExpandAllMacro2 accu range args; ExpandExistsMacro2 accu range args;
     ExpandExistsOneMacro2 accu range args; ExpandTransformList3Macro accu range args;
     ExpandTransformList4Macro accu range args; ExpandTransformMap3Macro accu range args;
     ExpandTransformMap4Macro accu range args; ExpandTransformMapEntry3Macro accu range args;
     ExpandTransformMapEntry4Macro accu range args] \/
  ExpandBindMacro range args = Some (inl e) ->
  Forall (fun a => steps_in_place a = true /\ mentions accu a = false) (range :: args) ->
  steps_in_place e = true /\ mentions accu e = false.
Proof.
  intros accu range args e H Ha.
  assert (Hb : forall a, mentions accu a = false -> bound_from accu a = false) by (intros; now apply bound_from_mentions).
  assert (Hr : String.eqb accu accu = true) by apply String.eqb_refl.
  apply Forall_cons_iff in Ha. destruct Ha as [[Hr1 Hr2] Ha].
  destruct H as [H|H]; [cbn [In] in H; repeat (destruct H as [H|H]); try contradiction|];
  unfold ExpandHasMacro, ExpandAllMacro, ExpandExistsMacro, ExpandExistsOneMacro, ExpandMap2Macro, ExpandMap3Macro,
    ExpandFilterMacro, ExpandOptMapMacro, ExpandOptFlatMapMacro, ExpandBindMacro,
    ExpandAllMacro2, ExpandExistsMacro2, ExpandExistsOneMacro2, ExpandTransformList3Macro,
    ExpandTransformList4Macro, ExpandTransformMap3Macro, ExpandTransformMap4Macro,
    ExpandTransformMapEntry3Macro, ExpandTransformMapEntry4Macro, simple_var, simple_vars in H;
  repeat match type of H with
    | context [match ?d with _ => _ end] => is_var d; destruct d; try discriminate H
    end;
  repeat match type of H with
    | context [match ?d with _ => _ end] => destruct d eqn:?; try discriminate H
    end.
  all: repeat match goal with
    | Hx : Forall _ (_ :: _) |- _ => apply Forall_cons_iff in Hx; destruct Hx as [[? ?] Hx]
    end; injection H as <-.
  all: unfold all_comp, exists_comp, exists_one_comp, map_comp, map_filter_comp, transform_map_comp,
    transform_map_filter_comp, NewCall, NewMemberCall, NewAccuIdent, NewBoolConst, NewIntConst, NewList.
  all: repeat match goal with Hx : IsSimpleIdentifier ?v = Some _ |- _ =>
      let H' := fresh in assert (H' : steps_in_place v = true /\ mentions accu v = false) by auto;
      destruct v as [|[|? ?]| | | | |]; try discriminate Hx; clear Hx; destruct H' as [_ H'] end.
  all: cbn -[String.eqb loop_binds IsBind]; cbn -[String.eqb loop_binds IsBind] in *.
  all: assert (Hl : forall x x2, loop_binds x x2 accu accu = true)
    by (intros x x2; unfold loop_binds; rewrite Hr; now rewrite orb_true_r).
  all: rewrite ?Hl, ?Hr.
  all: repeat match goal with
    | Hm : mentions _ ?a = false |- _ =>
        rewrite ?Hm; try rewrite (Hb a Hm); clear Hm
    | Hm : steps_in_place ?a = true |- _ => rewrite ?Hm; clear Hm
    | Hm : String.eqb _ _ = false |- _ => try rewrite Hm; clear Hm
    end.
  all: rewrite ?andb_false_r.
  all: repeat match goal with |- context [into ?z ?a] => generalize (into z a); intro end.
  all: repeat match goal with |- context [IsBind ?x ?y ?g ?c] => generalize (IsBind x y g c); intro end.
  all: clear; split; repeat match goal with b : bool |- _ => destruct b end; reflexivity.
Qed.
Print Assumptions C22_macros.

(* ---- cases that meet the hypotheses ---- *)
(* [1, 2].exists(x, x == 1) && {1: a} == {1: a, 2: a ? 1 : 2} *)
Definition ex_direct := ECall "_&&_" None [ex_exists;
  ECall "_==_" None [EMap [(false, (ex_int 1, EIdent "a"))];
    EMap [(false, (ex_int 1, EIdent "a"));
          (false, (ex_int 2, ECall "_?_:_" None [EIdent "a"; ex_int 1; ex_int 2]))]]].
Example C22_ex : let C := ex_config true 0 in
  host_known C [] /\ blind (equal_errors false) [] /\ constants_known ex_direct /\
  plain_literals false ex_direct /\ steps_in_place ex_direct = true /\ has_bind ex_direct = false /\
  exists P r, plan (cf_opts C) [] ex_direct = Val P /\
    recursive_plan (cf_opts C) [] (Some 5%nat) ex_direct = Val r /\
    (exists rP, evaluates C P rP /\
       outcome rP = Val (VError (no_matching_overload "<jump_condition>"))) /\
    outcome (direct_run C (fun v => v) (Some 5%nat) r) = Val (VError (no_matching_overload "_?_:_")).
Proof.
  split.
  { split; [constructor|]. split; [|auto]. intros x v. cbn.
    destruct (String.eqb x "a"); [|discriminate]. intros [= <-]. split; [reflexivity|exact I]. }
  split; [constructor|].
  split; [cbn [constants_known ex_direct ex_exists]; repeat split; reflexivity|].
  split.
  { cbn [plain_literals ex_direct ex_exists]. repeat split; auto.
    - left. split; [|auto]. exists [KInt 1]. split; [reflexivity|]. repeat constructor. intros [].
    - left. split; [|auto]. exists [KInt 1; KInt 2]. split; [reflexivity|].
      constructor; [intros [H|[]]; discriminate H|]. repeat constructor. intros []. }
  split; [reflexivity|]. split; [reflexivity|].
  eexists. eexists. split; [vm_compute; reflexivity|]. split; [vm_compute; reflexivity|].
  split; [|vm_compute; reflexivity].
  eexists. split; [exists 200%nat; eexists; split; [vm_compute; reflexivity|reflexivity]|]. reflexivity.
Qed.

(* ---- what fails ---- *)
Definition programs_differ (C : config) (R : registry) (e : expr) (w v : out value) : Prop :=
  exists P r rP, plan (cf_opts C) R e = Val P /\ recursive_plan (cf_opts C) R None e = Val r /\
    evaluates C P rP /\ outcome rP = w /\ outcome (direct_run C (fun v => v) None r) = v.
Ltac differ := eexists; eexists; eexists; (split; [vm_compute; reflexivity|]);
  (split; [vm_compute; reflexivity|]);
  (split; [exists 200%nat; eexists; split; [vm_compute; reflexivity|reflexivity]|]);
  split; vm_compute; reflexivity.
(* A loop over [true, false] from false with the step x || acc: the recursive
   program writes x to acc before it reads acc. *)
Theorem C22_loop_step_refuted : exists C R e, o_unknowns (cf_opts C) = false /\
  programs_differ C R e (Val (VBool true)) (Val (VBool false)).
Proof.
  exists (ex_config true 0), [],
    (EComp "x" "" "acc" (EList [(false, EConst (VBool true)); (false, ex_false)]) ex_false (EConst (VBool true))
       (ECall "_||_" None [EIdent "x"; EIdent "acc"]) (EIdent "acc")).
  split; [reflexivity|]. differ.
Qed.
Print Assumptions C22_loop_step_refuted.
(* {1: 1, 1: 2, 3: !1} is an error value for the iterative program and fails
   evaluation in the recursive one. *)
Theorem C22_map_literal_refuted : exists C R e, o_unknowns (cf_opts C) = false /\
  programs_differ C R e (Val (VError (no_matching_overload "!_")))
    (Err (mkStatus kAlreadyExists "duplicate key in map")).
Proof.
  exists (ex_config true 0), [],
    (EMap [(false, (ex_int 1, ex_int 1)); (false, (ex_int 1, ex_int 2));
           (false, (ex_int 3, ECall "!_" None [ex_int 1]))]).
  split; [reflexivity|]. differ.
Qed.
Print Assumptions C22_map_literal_refuted.
(* [1, 2].exists(x, x == 1) && cel.bind(y, false, y): the iterative program
   reads y from a slot the loop left set (C25), the recursive one does not. *)
Theorem C22_bind_refuted : exists C R e, o_unknowns (cf_opts C) = false /\
  programs_differ C R e (Val (VError (no_matching_overload "_&&_"))) (Val (VBool false)).
Proof. exists (ex_config true 0), [], ex_leak. split; [reflexivity|]. differ. Qed.
Print Assumptions C22_bind_refuted.
(* has(a.f) with a an optional that holds 5: evaluation fails in the iterative
   program, the recursive one returns an error value. *)
Theorem C22_has_optional_refuted : exists C R e s, o_unknowns (cf_opts C) = false /\
  programs_differ C R e (Err s) (Val (VError s)).
Proof.
  exists (mkConfig (mkOptions false true 0 true true true true)
            (fun x => Val (Some (VOptional (Some (VInt 5))))) [] (fun m => m)), [],
    (ESelect (EIdent "a") "f" true).
  eexists. split; [reflexivity|]. differ.
Qed.
Print Assumptions C22_has_optional_refuted.
(* With unknown tracking: {a: 1} with a unknown, and (a || false) == false with
   a.* unknown, where the recursive program takes the attribute of a for that
   of a || false. *)
Theorem C22_unknown_key_refuted : exists C R e a er, o_unknowns (cf_opts C) = true /\
  programs_differ C R e (Val (VUnknown [a])) (Val (VError er)).
Proof.
  exists (mkConfig (mkOptions true true 0 true true false true) (fun x => Val (Some (VInt 7)))
            [mkPattern [97] []] (fun m => m)), [], (EMap [(false, (EIdent "a", ex_int 1))]).
  eexists. eexists. split; [reflexivity|]. differ.
Qed.
Print Assumptions C22_unknown_key_refuted.
Theorem C22_unknown_trail_refuted : exists C R e a, o_unknowns (cf_opts C) = true /\
  programs_differ C R e (Val (VBool true)) (Val (VUnknown [a])).
Proof.
  exists (mkConfig (mkOptions true true 0 true true false true) (fun x => Val (Some (VBool false)))
            [mkPattern [97] [None]] (fun m => m)), [],
    (ECall "_==_" None [ECall "_||_" None [EIdent "a"; ex_false]; ex_false]).
  eexists. split; [reflexivity|]. differ.
Qed.
Print Assumptions C22_unknown_trail_refuted.
