(* Property theorems about the evaluator: C21, C23, C24, C25, C29. *)
From Coq Require Import ZArith List Bool String Lia.
From Verif Require Import Base M_Overflow M_Number M_Attr M_Value M_Logic M_Expr M_Plan M_Machine
  S_Arith S_Num S_Value S_Eval L_Seval L_Alloc L_Safe L_Budget L_Tree L_Core L_Stale L_Once L_Eval
  L_Range L_Meaning.
Import ListNotations.
Local Open Scope string_scope.
Open Scope list_scope.
Open Scope Z_scope.

(* ---- examples used below ---- *)

Definition ex_config (sc : bool) (n : Z) : config :=
  mkConfig (mkOptions false sc n true true false true)
    (fun x => Val (if String.eqb x "a" then Some (VInt 7) else None)) [] (fun m => m).
Definition ex_false := EConst (VBool false).
Definition ex_int (i : Z) := EConst (VInt i).
(* [1, 2].exists(x, x == 1) *)
Definition ex_exists :=
  EComp "x" "" "@result" (EList [(false, ex_int 1); (false, ex_int 2)]) ex_false
    (ECall "@not_strictly_false" None [ECall "!_" None [EIdent "@result"]])
    (ECall "_||_" None [EIdent "@result"; ECall "_==_" None [EIdent "x"; ex_int 1]])
    (EIdent "@result").
(* cel.bind(y, e, b) *)
Definition ex_bind (e b : expr) := EComp "#unused" "" "y" (EList []) e ex_false (EIdent "y") b.
(* [1, 2].exists(x, x == 1) && cel.bind(y, false, y) *)
Definition ex_leak := ECall "_&&_" None [ex_exists; ex_bind ex_false (EIdent "y")].

(* ------------------------------------------------------------------ C23 *)
(* Every run of a planned program ends, in a way that does not depend on how
   long one waits, and the machine's fault outcomes (stack underflow, jump out
   of range, slot out of range or read while unset, absent iterator or
   subexpression, wrong stack size) do not occur: it ends at the end of the main
   path (turn_of gives TDone only with an empty call stack), with one value and
   no iterator left, or with an error status returned by a step, or in
   undefined behaviour; the last only if the host's functions or variables
   misbehave, or the expression has constants that are no CEL values. *)
Theorem C23_evaluation_well_behaved : forall C R e P, plan (cf_opts C) R e = Val P ->
  exists n t, run C P n m_init = Some t /\
    (forall n' t', run C P n' m_init = Some t' -> t' = t) /\
    ((exists x s, t = TDone [x] [] s) \/ (exists er s, t = TErr er s) \/ t = TUB) /\
    (host_ok C R -> constants_ok e ->
     (exists x s, t = TDone [x] [] s /\ in_range (fst x)) \/ (exists er s, t = TErr er s)).
Proof.
  intros C R e P HP. destruct (plan_core_of _ _ _ _ HP) as (k & Hk & ->). fold (sc C).
  destruct (machine_seval C k) as (t & (n & Hr) & Ht). exists n, t. split; [exact Hr|].
  split; [intros n' t' H'; now rewrite (run_det _ _ _ _ _ _ _ H' Hr)|].
  pose proof (resolved_no_fault C k) as Hf. split.
  - destruct (seval C (resolved k) no_lazy est_init) as [x s|er s|w|]; subst t; eauto.
    now elim (Hf w).
  - intros (HR & Hv & Hm) Hc.
    pose proof (resolved_ok C Hv Hm k (elaborate_kok (cf_opts C) R HR e k Hc Hk)) as Ho.
    destruct (seval C (resolved k) no_lazy est_init) as [x s|er s|w|]; subst t; cbn [okr] in Ho.
    + left. exists x, s. split; [reflexivity|apply Ho].
    + right. eauto.
    + now elim (Hf w).
    + destruct Ho.
Qed.
Print Assumptions C23_evaluation_well_behaved.
Example C23_ex : host_ok (ex_config true 0) [] /\ constants_ok ex_leak /\
  exists P, plan (cf_opts (ex_config true 0)) [] ex_leak = Val P.
Proof.
  split; [|split; [|eexists; vm_compute; reflexivity]].
  - split; [constructor|]. split; [|intros m; apply Permutation.Permutation_refl]. intros x. cbn.
    destruct (String.eqb x "a"); [|exact I]. split; [reflexivity|exact I].
  - cbn [constants_ok ex_leak ex_exists ex_bind]. repeat split; reflexivity.
Qed.

(* ------------------------------------------------------------------ C24 *)
Theorem C24_iteration_budget : forall C R e N P, 0 < N ->
  plan (cf_opts (with_budget N C)) R e = Val P ->
  plan (cf_opts (with_budget 0 C)) R e = Val P /\
  exists rN r0, evaluates (with_budget N C) P rN /\ evaluates (with_budget 0 C) P r0 /\
    bodies rN <= N - 1 /\
    (r0 <> RUB ->
     if bodies r0 <=? N - 1
     then outcome rN = outcome r0 /\ bodies rN = bodies r0 /\ calls rN = calls r0
     else outcome rN = Err budget_exceeded /\ bodies rN = N - 1).
Proof.
  intros C R e N P HN HP. rewrite plan_budget in *. split; [exact HP|].
  destruct (plan_core_of _ _ _ _ HP) as (k & Hk & ->).
  set (CN := with_budget N C).
  exists (final (seval CN (resolved k) no_lazy est_init)),
         (final (seval (with_budget 0 C) (resolved k) no_lazy est_init)).
  split; [now apply (evaluates_seval CN)|]. split; [now apply (evaluates_seval (with_budget 0 C))|].
  pose proof (final_rel CN HN k) as H. cbn zeta in H. change (with_budget 0 CN) with (with_budget 0 C) in H.
  change (o_max_iterations (cf_opts CN)) with N in H.
  assert (Hex : forall r, @exceeded CN value r ->
             outcome r = Err budget_exceeded /\ bodies r = N - 1)
    by (intros r (s & -> & Hs); split; [reflexivity|exact Hs]).
  destruct (final (seval (with_budget 0 C) (resolved k) no_lazy est_init)) as [v s0|er s0|w|].
  - cbn [bodies outcome calls]. fold (loops s0). destruct H as [(H1 & sN & -> & H2 & H3)|[H1 H2]].
    + cbn [bodies outcome calls]. fold (loops sN). rewrite H2. split; [lia|]. intros _.
      destruct (Z.leb_spec (loops s0) (N - 1)); [|lia]. auto.
    + apply Hex in H2. destruct H2 as [H2 H3]. split; [lia|]. intros _.
      destruct (Z.leb_spec (loops s0) (N - 1)); [lia|]. auto.
  - cbn [bodies outcome calls]. fold (loops s0). destruct H as [(H1 & sN & -> & H2 & H3)|[H1 H2]].
    + cbn [bodies outcome calls]. fold (loops sN). rewrite H2. split; [lia|]. intros _.
      destruct (Z.leb_spec (loops s0) (N - 1)); [|lia]. auto.
    + apply Hex in H2. destruct H2 as [H2 H3]. split; [lia|]. intros _.
      destruct (Z.leb_spec (loops s0) (N - 1)); [lia|]. auto.
  - destruct H.
  - split; [|now intros []]. destruct H as [->|H]; [cbn; lia|]. apply Hex in H. destruct H. lia.
Qed.
Print Assumptions C24_iteration_budget.
(* Without a limit, what an evaluation returns is what it returns with any
   large enough limit: in particular not the budget error. *)
Theorem C24_no_limit : forall C R e P r, plan (cf_opts (with_budget 0 C)) R e = Val P ->
  evaluates (with_budget 0 C) P r -> r <> RUB ->
  forall N, bodies r < N -> exists rN, evaluates (with_budget N C) P rN /\
    outcome rN = outcome r /\ bodies rN = bodies r.
Proof.
  intros C R e P r HP Hr Hub N HN.
  assert (H0 : 0 <= bodies r) by (destruct r; cbn; lia).
  assert (HP' : plan (cf_opts (with_budget N C)) R e = Val P) by (rewrite plan_budget in *; exact HP).
  destruct (C24_iteration_budget C R e N P ltac:(lia) HP') as (_ & rN & r0 & H1 & H2 & H3 & H4).
  pose proof (evaluates_det _ _ _ _ H2 Hr). subst r0. specialize (H4 Hub).
  destruct (Z.leb_spec (bodies r) (N - 1)); [|lia]. exists rN. tauto.
Qed.
Print Assumptions C24_no_limit.
(* [1, 2].exists(x, x == 1) runs one body (and looks at the second element),
   which a budget of 3 allows and a budget of 2 does not *)
Example C24_ex : exists P, plan (cf_opts (ex_config true 0)) [] ex_exists = Val P /\
  (exists r, evaluates (ex_config true 0) P r /\ outcome r = Val (VBool true) /\ bodies r = 2) /\
  (exists r, evaluates (ex_config true 3) P r /\ outcome r = Val (VBool true)) /\
  (exists r, evaluates (ex_config true 2) P r /\ outcome r = Err budget_exceeded /\ bodies r = 1).
Proof.
  eexists. split; [vm_compute; reflexivity|].
  split; [|split]; (eexists; split; [exists 200%nat; eexists; split; [vm_compute; reflexivity|reflexivity]|]);
    vm_compute; auto.
Qed.

(* ------------------------------------------------------------------ C21 *)
(* The full statement would be, for every C, R, e and P with
   plan (cf_opts C) R e = Val P:
     exists r, evaluates C P r /\
       (agrees (meaning C R e no_locals) r \/ out_of_budget C r)
   It fails (C21_refuted).  Proved: it holds for every expression whose plan
   keeps the slots of cel.bind variables apart from the iteration slots of
   comprehensions that can end early (stale_free), and so when short-circuiting
   is off, when the expression has no cel.bind, and when no comprehension of it
   can end early. *)
Theorem C21_plan_correct_slots_apart_partial : forall C R e k, 0 <= o_max_iterations (cf_opts C) ->
  elaborate (cf_opts C) R e = Val k -> stale_free C k ->
  exists P r, plan (cf_opts C) R e = Val P /\ evaluates C P r /\
    (agrees (meaning C R e no_locals) r \/ out_of_budget C r).
Proof.
  intros C R e k HN Hk Hst. exists (plan_core (sc C) k), (final (seval C (resolved k) no_lazy est_init)).
  split; [unfold plan; now rewrite Hk|]. split; [now apply evaluates_seval|].
  rewrite (elaborate_meaning C R e k Hk). destruct (agrees_budget C k HN Hst) as [H|[H0 H]]; [now left|].
  right. split; [exact H0|exact H].
Qed.
Print Assumptions C21_plan_correct_slots_apart_partial.
Theorem C21_plan_correct_partial : forall C R e P, 0 <= o_max_iterations (cf_opts C) ->
  o_short_circuiting (cf_opts C) = false \/ has_bind e = false \/ has_early_exit e = false ->
  plan (cf_opts C) R e = Val P ->
  exists r, evaluates C P r /\ (agrees (meaning C R e no_locals) r \/ out_of_budget C r).
Proof.
  intros C R e P HN Hs HP. destruct (plan_core_of _ _ _ _ HP) as (k & Hk & _).
  destruct (C21_plan_correct_slots_apart_partial C R e k HN Hk (stale_free_syntax C R e k Hk Hs))
    as (P' & r & HP' & H1 & H2).
  assert (P = P') by congruence. subst P'. eauto.
Qed.
Print Assumptions C21_plan_correct_partial.
Example C21_ex : exists P, plan (cf_opts (ex_config true 0)) [] ex_exists = Val P /\ has_bind ex_exists = false /\
  meaning (ex_config true 0) [] ex_exists no_locals = Val (VBool true, None) /\
  exists Q, plan (cf_opts (ex_config false 0)) [] ex_leak = Val Q /\
  meaning (ex_config false 0) [] ex_leak no_locals = Val (VBool false, None).
Proof. eexists. split; [vm_compute; reflexivity|]. split; [reflexivity|]. split; [vm_compute; reflexivity|].
  eexists. split; vm_compute; reflexivity. Qed.
(* stale_free also holds of expressions with both: the bind's slot is apart when
   the bind encloses the comprehension *)
Example C21_slots_apart_ex : exists k, elaborate (cf_opts (ex_config true 0)) []
    (ex_bind ex_false (ECall "_||_" None [EIdent "y"; ex_exists])) = Val k /\
  stale_free (ex_config true 0) k.
Proof.
  eexists. split; [vm_compute; reflexivity|]. intros _ n Hb He.
  vm_compute in Hb, He. destruct Hb as [<-|Hb]; [|tauto].
  repeat (destruct He as [He|He]; try tauto); destruct He as [_ [He|He]]; discriminate He.
Qed.
(* [1, 2].exists(x, x == 1) && cel.bind(y, false, y) means false, and its
   program returns an error: y is read from the slot exists left set. *)
Theorem C21_refuted : exists C R e P r, o_max_iterations (cf_opts C) = 0 /\
  plan (cf_opts C) R e = Val P /\ meaning C R e no_locals = Val (VBool false, None) /\
  evaluates C P r /\ outcome r = Val (VError (no_matching_overload "_&&_")).
Proof.
  exists (ex_config true 0), [], ex_leak. eexists. eexists. split; [reflexivity|].
  split; [vm_compute; reflexivity|]. split; [vm_compute; reflexivity|].
  split; [exists 200%nat; eexists; split; [vm_compute; reflexivity|reflexivity]|]. reflexivity.
Qed.
Print Assumptions C21_refuted.

(* ------------------------------------------------------------------ C25 *)
(* Replacing any sub-expression a of any expression by another one b (for
   instance a comprehension by the constant it evaluates to) that has the same
   value in every environment does not change what the whole returns.  The full
   statement is without the stale_free hypotheses; it fails (C25_refuted). *)
Theorem C25_siblings_unaffected_partial : forall C c a b, 0 <= o_max_iterations (cf_opts C) ->
  stale_free C (plug c a) -> stale_free C (plug c b) ->
  (forall rho, eval C a rho = eval C b rho) ->
  forall ra rb, evaluates C (plan_core (sc C) (plug c a)) ra ->
                evaluates C (plan_core (sc C) (plug c b)) rb ->
  out_of_budget C ra \/ out_of_budget C rb \/ outcome ra = outcome rb.
Proof.
  intros C c a b HN Ha Hb Hab ra rb Ra Rb.
  apply evaluates_seval in Ra. apply evaluates_seval in Rb. subst ra rb.
  destruct (agrees_budget C _ HN Ha) as [H|[H0 H]]; [|left; split; auto].
  destruct (agrees_budget C _ HN Hb) as [G|[G0 G]]; [|right; left; split; auto].
  right. right. rewrite (eval_plug C c a b Hab no_locals) in H.
  destruct (eval C (plug c b) no_locals) as [x|er|]; cbn [agrees] in *.
  - destruct H as (s & ->), G as (s' & ->). reflexivity.
  - destruct H as (s & ->), G as (s' & ->). reflexivity.
  - now rewrite H, G.
Qed.
Print Assumptions C25_siblings_unaffected_partial.
(* The reference semantics the theorem refers to is lexically scoped: it does
   not depend on variables the expression does not have free. *)
Theorem C25_lexical_scope_partial : forall C e rho rho',
  (forall x, reads x e = true -> rho x = rho' x) -> eval C e rho = eval C e rho'.
Proof. intros. now apply eval_free. Qed.
Print Assumptions C25_lexical_scope_partial.
Definition ex_core (e : expr) : core :=
  match elaborate (cf_opts (ex_config true 0)) [] e with Val k => k | _ => KConst VNull end.
Example C25_ex : stale_free (ex_config true 0) (plug (CLogic1 OpAnd CHole (KVar "a")) (ex_core ex_exists)) /\
  stale_free (ex_config true 0) (plug (CLogic1 OpAnd CHole (KVar "a")) (KConst (VBool true))) /\
  (forall rho, eval (ex_config true 0) (ex_core ex_exists) rho =
               eval (ex_config true 0) (KConst (VBool true)) rho).
Proof.
  split; [|split].
  - intros _ n Hb. vm_compute in Hb. tauto.
  - intros _ n Hb. vm_compute in Hb. tauto.
  - intros rho. vm_compute. reflexivity.
Qed.
Theorem C25_refuted : exists C a v b ra rb, o_max_iterations (cf_opts C) = 0 /\
  (forall rho, eval C a rho = eval C (KConst v) rho) /\
  evaluates C (plan_core (sc C) (KLogic OpAnd a b)) ra /\
  evaluates C (plan_core (sc C) (KLogic OpAnd (KConst v) b)) rb /\
  outcome ra <> outcome rb.
Proof.
  exists (ex_config true 0), (ex_core ex_exists), (VBool true), (ex_core (ex_bind ex_false (EIdent "y"))).
  eexists. eexists. split; [reflexivity|]. split; [intros rho; vm_compute; reflexivity|].
  split; [exists 200%nat; eexists; split; [vm_compute; reflexivity|reflexivity]|].
  split; [exists 200%nat; eexists; split; [vm_compute; reflexivity|reflexivity]|].
  discriminate.
Qed.
Print Assumptions C25_refuted.

(* ------------------------------------------------------------------ C29 *)
(* The initialiser of a bind is evaluated at most once, and not at all when the
   body does not read the variable. *)
Theorem C29_initialised_at_most_once : forall C y e1 e2 r,
  evaluates C (plan_core (sc C) (KBind y e1 e2)) r ->
  (initialised (root_index (KBind y e1 e2)) r <= if reads y e2 then 1 else 0)%nat.
Proof.
  intros C y e1 e2 r H. apply evaluates_seval in H. subst r.
  pose proof (bind_inits C y e1 e2) as H. cbn zeta in H.
  destruct (seval C (resolved (KBind y e1 e2)) no_lazy est_init); exact H.
Qed.
Print Assumptions C29_initialised_at_most_once.
(* In every context it means its body with the initialiser in place of the
   variable.  The full statement is without the stale_free hypotheses; it fails
   (C29_refuted). *)
Theorem C29_means_substitution_partial : forall C c y e1 e2, 0 <= o_max_iterations (cf_opts C) ->
  stale_free C (plug c (KBind y e1 e2)) -> stale_free C (plug c (subst y e1 e2)) ->
  (forall z, reads z e1 = true -> binds z e2 = false) ->
  forall r r', evaluates C (plan_core (sc C) (plug c (KBind y e1 e2))) r ->
               evaluates C (plan_core (sc C) (plug c (subst y e1 e2))) r' ->
  out_of_budget C r \/ out_of_budget C r' \/ outcome r = outcome r'.
Proof.
  intros C c y e1 e2 HN Ha Hb Hcap. apply C25_siblings_unaffected_partial; auto.
  intros rho. cbn [eval]. symmetry. apply eval_subst; auto.
  - unfold bind_local. now rewrite String.eqb_refl.
  - intros z Hz. unfold bind_local. now rewrite Hz.
Qed.
Print Assumptions C29_means_substitution_partial.
Example C29_ex : let C := ex_config true 0 in
  let e2 := ex_core (ECall "_||_" None [EIdent "y"; ECall "_==_" None [EIdent "y"; EIdent "a"]]) in
  let e1 := ex_core (ECall "_==_" None [EIdent "a"; ex_int 8]) in
  let c := CLogic2 OpOr (KVar "b") CHole in
  stale_free C (plug c (KBind "y" e1 e2)) /\ stale_free C (plug c (subst "y" e1 e2)) /\
  (forall z, reads z e1 = true -> binds z e2 = false) /\
  exists r, evaluates C (plan_core (sc C) (KBind "y" e1 e2)) r /\ outcome r = Val (VBool false) /\
            initialised (root_index (KBind "y" e1 e2)) r = 1%nat.
Proof.
  cbv zeta. split; [|split; [|split]].
  - intros _ n _ He. vm_compute in He. tauto.
  - intros _ n Hb. vm_compute in Hb. tauto.
  - intros z _. reflexivity.
  - eexists. split; [exists 200%nat; eexists; split; [vm_compute; reflexivity|reflexivity]|].
    split; reflexivity.
Qed.
Theorem C29_refuted : exists C a y e1 e2 r r', o_max_iterations (cf_opts C) = 0 /\
  (forall z, reads z e1 = true -> binds z e2 = false) /\
  evaluates C (plan_core (sc C) (KLogic OpAnd a (KBind y e1 e2))) r /\
  evaluates C (plan_core (sc C) (KLogic OpAnd a (subst y e1 e2))) r' /\
  outcome r <> outcome r'.
Proof.
  exists (ex_config true 0), (ex_core ex_exists), "y", (KConst (VBool false)), (KVar "y").
  eexists. eexists. split; [reflexivity|]. split; [reflexivity|].
  split; [exists 200%nat; eexists; split; [vm_compute; reflexivity|reflexivity]|].
  split; [exists 200%nat; eexists; split; [vm_compute; reflexivity|reflexivity]|].
  discriminate.
Qed.
Print Assumptions C29_refuted.
