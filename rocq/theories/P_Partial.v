(* C32: what partial evaluation finds holds of every completion. *)
From Coq Require Import ZArith List Bool String Ascii Lia.
From Verif Require Import Base M_Overflow M_Number M_Attr M_Value M_Logic M_Expr M_Plan M_Machine M_Registry
  M_Macro S_Value S_Attr S_Eval S_Short L_Value L_Seval L_Eval L_Meaning L_Short P_Eval.
From Verif Require Import S_Partial L_Partial.
Import ListNotations.
Local Open Scope string_scope.
Open Scope list_scope.
Open Scope Z_scope.

(* Marking attributes unknown does not change the program. *)
Theorem C32_same_program : forall C R e vars, plan (cf_opts (completed C vars)) R e = plan (cf_opts C) R e.
Proof.
  intros C R e vars. unfold plan.
  assert (H : forall e, elaborate (cf_opts (completed C vars)) R e = elaborate (cf_opts C) R e); [|now rewrite H].
  clear e. intros e. induction e using expr_ind'; cbn [elaborate].
  - reflexivity.
  - reflexivity.
  - now rewrite IHe.
  - rewrite (map_out_ext _ (elaborate (cf_opts C) R) args H0). destruct t as [x|]; [rewrite H|]; reflexivity.
  - now rewrite (map_out_ext _ (fun p => elaborate (cf_opts C) R (snd p)) l H).
  - erewrite map_out_ext; [reflexivity|]. eapply Forall_impl; [|exact H]. intros p [-> ->]. reflexivity.
  - now rewrite IHe1, IHe2, IHe3, IHe4, IHe5.
Qed.
Print Assumptions C32_same_program.

(* The full statement would be: for every C with unknown tracking on, R, e,
   program P of e and variables vars' that complete those of C, if P returns a
   value v that is not unknown, then with vars' and nothing marked unknown it
   returns v.  It fails in the ways shown below.  Proved: if it returns w, then
   v and w are both errors, or the same value except below attributes marked
   unknown; for expressions of the source language (see S_Partial), with
   short-circuiting on, strict functions, and either exact index keys
   (heterogeneous equality off) or no numbers in the patterns if the index
   operator is used, and no or/orValue on optionals. *)
Theorem C32_completion_partial : forall C R e vars' index optional P r r' v w,
  o_unknowns (cf_opts C) = true -> o_short_circuiting (cf_opts C) = true ->
  o_fast_builtins (cf_opts C) = true -> 0 <= o_max_iterations (cf_opts C) ->
  completes (cf_pats C) (cf_vars C) vars' ->
  host_known (completed C vars') R -> all_strict R -> constants_known e ->
  source index optional e = true ->
  (index = true -> o_heterogeneous (cf_opts C) = false \/ no_numbers (cf_pats C)) ->
  (optional = true -> o_optional_types (cf_opts C) = false) ->
  has_bind e = false \/ has_early_exit e = false ->
  plan (cf_opts C) R e = Val P ->
  evaluates C P r -> outcome r = Val v -> is_unknown v = false ->
  evaluates (completed C vars') P r' -> outcome r' = Val w ->
  same_result (cf_pats C) v w.
Proof.
  intros C R e vars' index optional P r r' v w Hu Hs Hf HN HV HK HR Hc He Hi Ho Hb HP Hr Hv Hn Hr' Hw.
  assert (HP' : plan (cf_opts (completed C vars')) R e = Val P) by now rewrite C32_same_program.
  destruct (C21_plan_correct_partial C R e P HN (or_intror Hb) HP) as (r0 & H0 & M).
  pose proof (evaluates_det _ _ _ _ Hr H0). subst r0.
  destruct (C21_plan_correct_partial (completed C vars') R e P HN (or_intror Hb) HP') as (r0 & H1 & M').
  pose proof (evaluates_det _ _ _ _ Hr' H1). subst r0.
  destruct M as [M|(_ & ? & -> & _)]; [|discriminate Hv].
  destruct M' as [M'|(_ & ? & -> & _)]; [|discriminate Hw].
  assert (Hcov : cov C (meaning C R e no_locals) (meaning (completed C vars') R e no_locals)).
  { eapply (cov_meaning C R vars' index optional); eauto. intros z. exact I. }
  destruct (meaning C R e no_locals) as [x|?|]; cbn [agrees] in M;
    [destruct M as (? & ->)|destruct M as (? & ->); discriminate Hv|subst r; discriminate Hv].
  destruct (meaning (completed C vars') R e no_locals) as [y|?|]; cbn [agrees] in M';
    [destruct M' as (? & ->)|destruct M' as (? & ->); discriminate Hw|subst r'; discriminate Hw].
  cbn [outcome] in Hv, Hw. apply Val_inj in Hv, Hw. subst v w.
  destruct (proj2 Hcov x y eq_refl eq_refl) as [U|[[U1 U2]|U]].
  - rewrite U in Hn. discriminate Hn.
  - left. auto.
  - right. destruct (snd x) as [a|]; cbn [agree_t] in U; [right; eauto|left; exact U].
Qed.
Print Assumptions C32_completion_partial.

(* For a result that is no container: exactly the same value, or both errors. *)
Theorem C32_scalar_partial : forall C R e vars' index optional P r r' v w,
  o_unknowns (cf_opts C) = true -> o_short_circuiting (cf_opts C) = true ->
  o_fast_builtins (cf_opts C) = true -> 0 <= o_max_iterations (cf_opts C) ->
  completes (cf_pats C) (cf_vars C) vars' ->
  host_known (completed C vars') R -> all_strict R -> constants_known e ->
  source index optional e = true ->
  (index = true -> o_heterogeneous (cf_opts C) = false \/ no_numbers (cf_pats C)) ->
  (optional = true -> o_optional_types (cf_opts C) = false) ->
  has_bind e = false \/ has_early_exit e = false ->
  plan (cf_opts C) R e = Val P ->
  evaluates C P r -> outcome r = Val v -> is_unknown v = false -> is_container v = false ->
  evaluates (completed C vars') P r' -> outcome r' = Val w ->
  v = w \/ (is_error v = true /\ is_error w = true).
Proof.
  intros C R e vars' index optional P r r' v w Hu Hs Hf HN HV HK HR Hc He Hi Ho Hb HP Hr Hv Hn Hnc Hr' Hw.
  assert (H : same_result (cf_pats C) v w) by (eapply C32_completion_partial; eassumption).
  destruct H as [H|[H|(a & H)]]; auto.
  destruct H; auto; discriminate Hnc.
Qed.
Print Assumptions C32_scalar_partial.

(* A boolean is therefore final: what a policy decides with part of its input
   does not depend on the rest. *)
Theorem C32_decision_partial : forall C R e vars' index optional P r r' b w,
  o_unknowns (cf_opts C) = true -> o_short_circuiting (cf_opts C) = true ->
  o_fast_builtins (cf_opts C) = true -> 0 <= o_max_iterations (cf_opts C) ->
  completes (cf_pats C) (cf_vars C) vars' ->
  host_known (completed C vars') R -> all_strict R -> constants_known e ->
  source index optional e = true ->
  (index = true -> o_heterogeneous (cf_opts C) = false \/ no_numbers (cf_pats C)) ->
  (optional = true -> o_optional_types (cf_opts C) = false) ->
  has_bind e = false \/ has_early_exit e = false ->
  plan (cf_opts C) R e = Val P ->
  evaluates C P r -> outcome r = Val (VBool b) ->
  evaluates (completed C vars') P r' -> outcome r' = Val w -> w = VBool b.
Proof.
  intros C R e vars' index optional P r r' b w Hu Hs Hf HN HV HK HR Hc He Hi Ho Hb HP Hr Hv Hr' Hw.
  assert (H : VBool b = w \/ (is_error (VBool b) = true /\ is_error w = true))
    by (eapply C32_scalar_partial; try eassumption; reflexivity).
  destruct H as [H|[H _]]; [auto|discriminate H].
Qed.
Print Assumptions C32_decision_partial.

(* ---- a case that meets the hypotheses ---- *)
(* variable x, with x.b marked unknown *)
Definition ex_x := bytes_of_string "x".
Definition ex_key (k : string) (v : value) := (KString (bytes_of_string k), v).
Definition ex_partial (sc : bool) (pats : list pattern) (x : value) : config :=
  mkConfig (mkOptions true sc 0 true true true true)
    (fun y => Val (if String.eqb y "x" then Some x else None)) pats (fun m => m).
Definition ex_vars (x : value) : string -> out (option value) :=
  fun y => Val (if String.eqb y "x" then Some x else None).
Definition ex_b_unknown : list pattern := [mkPattern ex_x [Some (QString (bytes_of_string "b"))]].
Definition ex_a_true := VMap [ex_key "a" (VBool true)].
Definition ex_ab (v : value) := VMap [ex_key "a" (VBool true); ex_key "b" v].
Definition ex_sel (f : string) := ESelect (EIdent "x") f false.


(* the map gets entry b, or another entry b *)
Lemma ex_completes x v : x = ex_a_true \/ (exists u, x = ex_ab u) ->
  completes ex_b_unknown (ex_vars x) (ex_vars (ex_ab v)).
Proof.
  intros Hx y _. unfold ex_vars. destruct (String.eqb_spec y "x") as [->|Hy]; [|reflexivity].
  assert (Hb : forall k, ~ marked ex_b_unknown (child (root "x") (qualifier_of (value_of_key k))) ->
    key_eqb (KString (bytes_of_string "b")) k = false).
  { intros k Hk. destruct (key_eqb (KString (bytes_of_string "b")) k) eqn:E; [|reflexivity].
    exfalso. apply Hk. destruct k as [| | |s]; try discriminate E.
    cbn [key_eqb] in E. apply bytes_eqb_eq in E. subst s.
    eexists. split; [left; reflexivity|]. split; [reflexivity|].
    exists [QString (bytes_of_string "b")], []. split; [reflexivity|]. constructor; [split; [reflexivity|discriminate]|constructor]. }
  assert (Hf : forall k, ~ marked ex_b_unknown (child (root "x") (qualifier_of (value_of_key k))) ->
    forall l, x = VMap l -> find_key k l = find_key k [ex_key "a" (VBool true)] /\
      find_key k [ex_key "a" (VBool true); ex_key "b" v] = find_key k [ex_key "a" (VBool true)]).
  { intros k Hk l El. specialize (Hb k Hk).
    destruct Hx as [->|[u ->]]; injection El as <-; unfold ex_key; cbn [find_key]; rewrite Hb; auto. }
  assert (Hl : exists l, x = VMap l) by (destruct Hx as [->|[u ->]]; eexists; reflexivity).
  destruct Hl as [l El]. rewrite El. apply agree_map.
  - exists (child (root "x") (QString (bytes_of_string "b"))). split.
    + split; [reflexivity|]. eexists. exists []. reflexivity.
    + eexists. split; [left; reflexivity|]. split; [reflexivity|].
      exists [QString (bytes_of_string "b")], []. split; [reflexivity|]. constructor; [split; [reflexivity|discriminate]|constructor].
  - intros k Hk. destruct (Hf k Hk l El) as [-> ->]. tauto.
  - intros k a b Hk E1 E2. destruct (Hf k Hk l El) as [E3 E4]. rewrite E3 in E1. rewrite E4 in E2.
    assert (a = b) by congruence. subst b. apply agree_same.
Qed.

(* x.b || x.a, x.a true and x.b unknown: true, whatever x.b is *)
Definition ex_or := ECall "_||_" None [ex_sel "b"; ex_sel "a"].
Example C32_ex : forall v, known v -> let C := ex_partial true ex_b_unknown ex_a_true in
  completes (cf_pats C) (cf_vars C) (ex_vars (ex_ab v)) /\
  host_known (completed C (ex_vars (ex_ab v))) [] /\ all_strict [] /\ constants_known ex_or /\
  source false false ex_or = true /\ has_bind ex_or = false /\
  exists P r, plan (cf_opts C) [] ex_or = Val P /\ evaluates C P r /\ outcome r = Val (VBool true).
Proof.
  intros v Hv C. split; [apply ex_completes; auto|].
  split. { split; [constructor|]. split; [|auto]. intros y w E. change (ex_vars (ex_ab v) y = Val (Some w)) in E. unfold ex_vars in E.
    destruct (String.eqb y "x"); [|discriminate E]. assert (w = ex_ab v) by congruence. subst w.
    cbn. repeat split; auto. }
  split; [constructor|]. split; [cbn; auto|]. split; [reflexivity|]. split; [reflexivity|].
  eexists. eexists. split; [vm_compute; reflexivity|].
  split; [exists 200%nat; eexists; split; [vm_compute; reflexivity|reflexivity]|]. reflexivity.
Qed.
(* and so with a comprehension: [x.b, x.a].exists(y, y) *)
Definition ex_any := EComp "y" "" "@result" (EList [(false, ex_sel "b"); (false, ex_sel "a")]) (EConst (VBool false))
  (ECall "@not_strictly_false" None [ECall "!_" None [EIdent "@result"]])
  (ECall "_||_" None [EIdent "@result"; EIdent "y"]) (EIdent "@result").
Example C32_loop_ex : source false false ex_any = true /\ has_bind ex_any = false /\ constants_known ex_any.
Proof. split; [reflexivity|]. split; [reflexivity|]. cbn. repeat split; auto. Qed.

(* ---- what fails ---- *)
(* Evaluating e with x and then with x' gives v and w. *)
Definition runs (C : config) (x' : value) (e : expr) (v : value) (w : out value) : Prop :=
  completes (cf_pats C) (cf_vars C) (ex_vars x') /\
  exists P r r', plan (cf_opts C) [] e = Val P /\ evaluates C P r /\ outcome r = Val v /\
    evaluates (completed C (ex_vars x')) P r' /\ outcome r' = w.
Ltac run := do 3 eexists; split; [vm_compute; reflexivity|];
  split; [exists 200%nat; eexists; split; [vm_compute; reflexivity|reflexivity]|];
  split; [vm_compute; reflexivity|];
  split; [exists 200%nat; eexists; split; [vm_compute; reflexivity|reflexivity]|];
  vm_compute; reflexivity.
(* x itself, with x.b unknown, is returned as it is *)
Theorem C32_container_refuted : exists C x', o_short_circuiting (cf_opts C) = true /\
  runs C x' (EIdent "x") ex_a_true (Val (ex_ab (VInt 1))).
Proof.
  exists (ex_partial true ex_b_unknown ex_a_true), (ex_ab (VInt 1)). split; [reflexivity|].
  split; [apply ex_completes; auto|run].
Qed.
Print Assumptions C32_container_refuted.
(* (true ? x : x).b with x.b unknown: without short-circuiting the ternary forgets
   which attribute it chose, and the value given for x.b is used *)
Theorem C32_exhaustive_refuted : exists C x', o_short_circuiting (cf_opts C) = false /\
  runs C x' (ESelect (ECall "_?_:_" None [EConst (VBool true); EIdent "x"; EIdent "x"]) "b" false)
    (VBool false) (Val (VBool true)).
Proof.
  exists (ex_partial false ex_b_unknown (ex_ab (VBool false))), (ex_ab (VBool true)). split; [reflexivity|].
  split; [apply ex_completes; eauto|run].
Qed.
Print Assumptions C32_exhaustive_refuted.
(* x.orValue({}).b with x.b unknown, x an optional map: so does orValue, with
   short-circuiting too *)
Theorem C32_optional_refuted : exists C x', o_short_circuiting (cf_opts C) = true /\
  runs C x' (ESelect (ECall "orValue" (Some (EIdent "x")) [EMap []]) "b" false)
    (VBool false) (Val (VBool true)).
Proof.
  exists (ex_partial true ex_b_unknown (VOptional (Some (ex_ab (VBool false))))), (VOptional (Some (ex_ab (VBool true)))).
  split; [reflexivity|]. split; [|run].
  intros y Hy. pose proof (ex_completes (ex_ab (VBool false)) (VBool true) (or_intror (ex_intro _ _ eq_refl)) y Hy) as H.
  unfold ex_vars in H. cbn [ex_partial cf_vars]. unfold ex_vars. destruct (String.eqb y "x"); [|reflexivity].
  now apply agree_optional.
Qed.
Print Assumptions C32_optional_refuted.
(* x[1u] with x[1] unknown, x a map: the lookup tries the int key 1 as well, the
   pattern does not *)
Definition ex_one (v : value) := VMap [(KInt 1, v)].
Theorem C32_number_refuted : exists C x', o_short_circuiting (cf_opts C) = true /\
  runs C x' (ECall "_[_]" None [EIdent "x"; EConst (VUint 1)]) (VBool false) (Val (VBool true)).
Proof.
  exists (ex_partial true [mkPattern ex_x [Some (QInt 1)]] (ex_one (VBool false))), (ex_one (VBool true)).
  split; [reflexivity|]. split; [|run].
  intros y _. cbn [ex_partial cf_vars cf_pats]. unfold ex_vars. destruct (String.eqb_spec y "x") as [->|]; [|reflexivity].
  assert (Hm : marked [mkPattern ex_x [Some (QInt 1)]] (child (root "x") (QInt 1))).
  { eexists. split; [left; reflexivity|]. split; [reflexivity|].
    exists [QInt 1], []. split; [reflexivity|]. constructor; [split; [reflexivity|discriminate]|constructor]. }
  assert (Hk : forall k, ~ marked [mkPattern ex_x [Some (QInt 1)]] (child (root "x") (qualifier_of (value_of_key k))) ->
     key_eqb (KInt 1) k = false).
  { intros k Hk. destruct k as [|i| |]; try reflexivity. cbn [key_eqb]. destruct (Z.eqb_spec 1 i) as [<-|]; [|reflexivity].
    now destruct Hk. }
  apply agree_map.
  - eexists. split; [|exact Hm]. split; [reflexivity|]. eexists. exists []. reflexivity.
  - intros k H. cbn [find_key]. rewrite (Hk k H). tauto.
  - intros k v w H. cbn [find_key]. rewrite (Hk k H). discriminate.
Qed.
Print Assumptions C32_number_refuted.
(* @not_strictly_false(x), as a call of its own, of an unknown x is true *)
Definition ex_x_unknown : list pattern := [mkPattern ex_x []].
Lemma ex_any_value x x' : completes ex_x_unknown (ex_vars x) (ex_vars x').
Proof.
  intros y Hy. unfold ex_vars. destruct (String.eqb_spec y "x") as [->|]; [|reflexivity].
  exfalso. apply Hy. eexists. split; [left; reflexivity|]. split; [reflexivity|].
  exists [], []. split; [reflexivity|constructor].
Qed.
Theorem C32_not_strictly_false_refuted : exists C x', o_short_circuiting (cf_opts C) = true /\
  runs C x' (ECall "@not_strictly_false" None [EIdent "x"]) (VBool true) (Val (VBool false)).
Proof.
  exists (ex_partial true ex_x_unknown VNull), (VBool false). split; [reflexivity|]. split; [apply ex_any_value|run].
Qed.
Print Assumptions C32_not_strictly_false_refuted.
(* {x: 1, "a": 2} == {} || true with x unknown is true; with x = "a" there is no
   result, as the map literal has a duplicate key *)
Theorem C32_status_refuted : exists C x', o_short_circuiting (cf_opts C) = true /\
  runs C x' (ECall "_||_" None [ECall "_==_" None
      [EMap [(false, (EIdent "x", ex_int 1)); (false, (EConst (VString (bytes_of_string "a")), ex_int 2))]; EMap []];
      EConst (VBool true)]) (VBool true) (Err duplicate_key).
Proof.
  exists (ex_partial true ex_x_unknown VNull), (VString (bytes_of_string "a")). split; [reflexivity|].
  split; [apply ex_any_value|run].
Qed.
Print Assumptions C32_status_refuted.
