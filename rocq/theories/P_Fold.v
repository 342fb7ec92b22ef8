(* Property theorems about constant folding: C61. *)
From Coq Require Import ZArith List Bool String Lia.
From Verif Require Import Base M_Overflow M_Number M_Attr M_Value M_Logic M_Expr M_Plan M_Machine
  S_Arith S_Num S_Value S_Eval L_Seval L_Alloc L_Safe L_Eval L_Range P_Eval.
From Verif Require Import M_Fold S_Fold L_Fold.
Import ListNotations.
Local Open Scope string_scope.
Open Scope list_scope.
Open Scope Z_scope.

Lemma fold_plan_of O R H reorder e P : fold_plan O R H reorder e = Val P ->
  exists b k, fold_elab O R H (run_subplan H O reorder) e = Val (b, k) /\ P = plan_core (o_short_circuiting O) k.
Proof.
  unfold fold_plan. destruct (fold_elab O R H (run_subplan H O reorder) e) as [[b k]|er|]; cbn [obind];
    intros E; inversion E. eauto.
Qed.

(* ------------------------------------------------------------------ C61 *)
(* a program of four functions: host.f doubles, host.now reads the evaluation
   context (7 at run time, 0 at plan time), host.fail fails, _+_ adds *)
Definition ex_f := mkOverload "host.f" false [None] true
  (fun l => match l with [VInt n] => Val (VInt (if (0 <=? n) && (n <? 1000) then 2 * n else 0)) | _ => Val VNull end).
Definition ex_now := mkOverload "host.now" false [] true (fun _ => Val (VInt 7)).
Definition ex_fail := mkOverload "host.fail" false [] true (fun _ => Err (mkStatus kUnknown "no")).
Definition ex_R := [ex_f; ex_now; ex_fail].
Definition ex_H := mkHost (fun o => String.eqb (ov_name o) "host.now") (fun _ => false)
  (fun o _ => Val (VInt 0)).
(* [host.f(host.f(21)), a, host.f(host.now())] *)
Definition ex_list := EList [(false, ECall "host.f" None [ECall "host.f" None [ex_int 21]]);
  (false, EIdent "a"); (false, ECall "host.f" None [ECall "host.now" None []])].
(* [1, 2].exists(x, host.f(3) == 6 && host.f(x) == 4) *)
Definition ex_loop :=
  EComp "x" "" "@result" (EList [(false, ex_int 1); (false, ex_int 2)]) ex_false
    (ECall "@not_strictly_false" None [ECall "!_" None [EIdent "@result"]])
    (ECall "_||_" None [EIdent "@result";
       ECall "_&&_" None [ECall "_==_" None [ECall "host.f" None [ex_int 3]; ex_int 6];
         ECall "_==_" None [ECall "host.f" None [EIdent "x"]; ex_int 4]]])
    (EIdent "@result").

(* With the same variables, the folded program ends as the unfolded one does,
   with the same value or status, after as many loop bodies, and calls the same
   functions with the same arguments in the same order, save those left out. *)
Theorem C61_same_result : forall C R H e P P' r r',
  plan (cf_opts C) R e = Val P -> fold_plan (cf_opts C) R H (cf_reorder C) e = Val P' ->
  evaluates C P r -> evaluates C P' r' ->
  outcome r' = outcome r /\ bodies r' = bodies r /\ thinned (calls r') (calls r).
Proof.
  intros C R H e P P' r r' HP HP' Hr Hr'.
  destruct (plan_core_of _ _ _ _ HP) as (k & Hk & ->).
  destruct (fold_plan_of _ _ _ _ _ _ HP') as (b & k' & Hk' & ->).
  apply evaluates_seval in Hr, Hr'.
  destruct (fold_spec C R H e) as [[Hf _]|Hs]; [rewrite Hf in Hk'; discriminate|].
  rewrite Hk in Hs. destruct Hs as (b1 & k1 & E & Hf & _). rewrite Hk' in E. injection E as <- <-.
  pose proof (folds_run C H k k' Hf) as Hsim. subst r r'.
  destruct (seval C (resolved k) no_lazy est_init) as [x s|er s|w|],
    (seval C (resolved k') no_lazy est_init) as [x' s'|er' s'|w'|]; cbn [res_sim] in Hsim; try tauto.
  - destruct Hsim as [-> (_ & _ & Hl & _ & Ht)]. cbn [final outcome bodies calls].
    rewrite Hl. auto.
  - destruct Hsim as [-> (_ & _ & Hl & _ & Ht)]. cbn [final outcome bodies calls]. rewrite Hl. auto.
  - cbn. auto using thinned_nil.
  - cbn. auto using thinned_nil.
Qed.
Print Assumptions C61_same_result.
Example C61_same_result_ex : let C := ex_config true 0 in
  exists P P' r r', plan (cf_opts C) ex_R ex_loop = Val P /\
    fold_plan (cf_opts C) ex_R ex_H (cf_reorder C) ex_loop = Val P' /\
    evaluates C P r /\ evaluates C P' r' /\
    outcome r = Val (VBool true) /\ List.length (calls r) = 4%nat /\ List.length (calls r') = 2%nat.
Proof.
  cbv zeta. eexists. eexists. eexists. eexists. split; [reflexivity|]. split; [reflexivity|].
  split; [apply evaluates_seval; reflexivity|]. split; [apply evaluates_seval; reflexivity|].
  split; [vm_compute; reflexivity|]. split; vm_compute; reflexivity.
Qed.

(* Folding refuses exactly the expressions planning refuses, with the same
   status; evaluating at plan time crashes for none of them. *)
Theorem C61_same_plans : forall C R H e, host_ok C R -> constants_ok e ->
  match plan (cf_opts C) R e, fold_plan (cf_opts C) R H (cf_reorder C) e with
  | Val _, Val _ => True
  | Err er, Err er' => er' = er
  | UB, UB => True
  | _, _ => False
  end.
Proof.
  intros C R H e Hh Hc. unfold plan, fold_plan.
  destruct (fold_spec C R H e) as [[_ Hb]|Hs]; [now elim Hb|].
  destruct (elaborate (cf_opts C) R e) as [k|er|]; cbn [obind].
  - destruct Hs as (b & k' & E & _). now rewrite E.
  - now rewrite Hs.
  - now rewrite Hs.
Qed.
Print Assumptions C61_same_plans.
Example C61_same_plans_ex : let C := ex_config true 0 in
  host_ok C ex_R /\ constants_ok ex_list /\
  (exists P, fold_plan (cf_opts C) ex_R ex_H (cf_reorder C) ex_list = Val P) /\
  (exists er, fold_plan (cf_opts C) ex_R ex_H (cf_reorder C) (EIdent "") = Err er).
Proof.
  cbv zeta. split; [|split; [|split]].
  - split; [|split].
    + apply Forall_cons; [|apply Forall_cons; [|apply Forall_cons; [|apply Forall_nil]]]; intros args _ Hm; cbn.
      * destruct args as [|v [|]]; try discriminate. destruct v; cbn; try tauto.
        match goal with |- context [if ?c then _ else _] => destruct c eqn:E end; (split; [|exact I]);
          [unfold in_int64, int64_min, int64_max; change (match i with 0 => 0 | Z.pos y => Z.pos y~0 | Z.neg z => Z.neg z~0 end) with (2 * i); lia|reflexivity].
      * auto.
      * exact I.
    + intros x. cbn. destruct (String.eqb x "a"); cbn; auto.
    + intros m. cbn. apply Permutation.Permutation_refl.
  - cbn. repeat split; lia.
  - eexists. reflexivity.
  - eexists. reflexivity.
Qed.

(* What the optimizer runs at plan time is the evaluator itself, without
   variables or attribute patterns. *)
Theorem C61_plan_time_run : forall H O reorder k r,
  evaluates (plan_config O reorder) (plan_core (o_short_circuiting O) (core_at H k)) r <->
  r = run_subplan H O reorder k.
Proof. intros H O reorder k r. exact (evaluates_seval (plan_config O reorder) (core_at H k) r). Qed.
Print Assumptions C61_plan_time_run.

(* A constant expression whose value is known is wholly evaluated at plan time:
   what is left is one constant step, so that nothing is called at run time. *)
Theorem C61_constant_expressions : forall C R H e P P' r r' v,
  constant_expr (fun o => h_contextual H o || h_lazy H o) R e = true ->
  plan (cf_opts C) R e = Val P -> fold_plan (cf_opts C) R H (cf_reorder C) e = Val P' ->
  evaluates C P r -> outcome r = Val v -> is_unknown v = false ->
  p_main P' = [SConst v] /\ (evaluates C P' r' -> outcome r' = Val v /\ calls r' = []).
Proof.
  intros C R H e P P' r r' v Hc HP HP' Hr Hv Hu.
  destruct (plan_core_of _ _ _ _ HP) as (k & Hk & ->).
  destruct (fold_plan_of _ _ _ _ _ _ HP') as (b & k' & Hk' & ->).
  apply evaluates_seval in Hr. subst r.
  destruct (seval C (resolved k) no_lazy est_init) as [[w t] s|er s|w|] eqn:E; cbn [final outcome] in Hv; try discriminate.
  injection Hv as ->.
  pose proof (const_folded C R H e k b k' (v, t) s Hk Hk' Hc E Hu) as Hk0. cbn [fst] in Hk0. subst k'.
  split; [reflexivity|]. intros Hr'. apply (evaluates_seval C) in Hr'. subst r'. split; reflexivity.
Qed.
Print Assumptions C61_constant_expressions.
Example C61_constant_expressions_ex : let C := ex_config true 0 in
  let e := ECall "host.f" None [ESelect (EMap [(false, (EConst (VString [107]), ECall "host.f" None [ex_int 21]))]) "k" false] in
  constant_expr (fun o => h_contextual ex_H o || h_lazy ex_H o) ex_R e = true /\
  exists P P' r, plan (cf_opts C) ex_R e = Val P /\
    fold_plan (cf_opts C) ex_R ex_H (cf_reorder C) e = Val P' /\ evaluates C P r /\ outcome r = Val (VInt 84).
Proof.
  cbv zeta. split; [vm_compute; reflexivity|]. eexists. eexists. eexists. split; [reflexivity|].
  split; [reflexivity|]. split; [apply evaluates_seval; reflexivity|]. vm_compute. reflexivity.
Qed.
(* ... and a call to a function that reads the evaluation context is kept,
   though its arguments are folded and its plan time behaviour is another *)
Example C61_contextual_kept : exists P r, let C := ex_config true 0 in
  fold_plan (cf_opts C) ex_R ex_H (cf_reorder C) ex_list = Val P /\ evaluates C P r /\
  outcome r = Val (VList [VInt 84; VInt 7; VInt 14]) /\ List.length (calls r) = 2%nat.
Proof.
  eexists. eexists. cbv zeta. split; [reflexivity|]. split; [apply evaluates_seval; reflexivity|].
  split; vm_compute; reflexivity.
Qed.
