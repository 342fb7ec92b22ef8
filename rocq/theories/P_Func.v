(* Property theorems about function calls and registration: C27, C28. *)
From Coq Require Import ZArith List Bool String Lia Permutation.
From Verif Require Import Base M_Overflow M_Number M_Attr M_Value M_Logic M_Expr M_Plan M_Machine
  M_Registry S_Func S_Eval L_Seval L_Alloc L_Eval L_Meaning L_Log L_Func.
Import ListNotations.
Local Open Scope string_scope.
Open Scope list_scope.
Open Scope Z_scope.

(* ---- examples used below ---- *)
Definition ex_kind_of (n : string) (rcv : bool) (ks : list (option kind)) (strict : bool) (r : Z) :=
  mkEntry false (mkOverload n rcv ks strict (fun _ => Val (VInt r))).
(* f(int), f(string), f(any) as a method, g(any) non-strict, and a lazy f(bool) *)
Definition ex_f_int := ex_kind_of "f" false [Some kIntT] true 1.
Definition ex_f_str := ex_kind_of "f" false [Some kStringT] true 2.
Definition ex_f_meth := ex_kind_of "f" true [None] true 3.
Definition ex_f_any := ex_kind_of "f" false [None] true 4.
Definition ex_g := ex_kind_of "g" false [None] false 5.
Definition ex_f_lazy := mkEntry true (mkOverload "f" false [Some kBoolT] true (fun _ => UB)).
Definition ex_registrations := [ex_f_int; ex_f_str; ex_f_meth; ex_g; ex_f_lazy].

(* ------------------------------------------------------------------ C28 *)
(* Over any history of registration attempts, static and lazy, failed ones
   included, at most one registered overload accepts a call. *)
Theorem C28_at_most_one_overload : forall history name receiver ks x y,
  In x (attempts history []) -> In y (attempts history []) ->
  accepts (re_desc x) name receiver ks -> accepts (re_desc y) name receiver ks -> x = y.
Proof.
  intros h name rcv ks x y. apply accept_unique. apply attempts_tidy. constructor.
Qed.
Print Assumptions C28_at_most_one_overload.
Example C28_one_ex : List.length (attempts (ex_registrations ++ [ex_f_any; ex_g]) []) = 5%nat /\
  accepts (re_desc ex_f_str) "f" false [kStringT] /\ ~ accepts (re_desc ex_f_int) "f" false [kStringT].
Proof.
  split; [reflexivity|]. split.
  { split; [reflexivity|]. split; [reflexivity|]. constructor; [now right|constructor]. }
  intros (_ & _ & H).
  inversion H as [|? ? ? ? [H1|H1] _]; discriminate.
Qed.

(* A registration is rejected exactly when some call could not tell it from a
   registered overload, or when it or a registered overload of its name is
   non-strict; it then leaves the registry as it was. *)
Theorem C28_rejection : forall history x,
  let r := attempts history [] in
  let result := register x r in
  (fst result <> None <->
   exists y, In y r /\ (ambiguous (re_desc y) (re_desc x) \/
                        strictness_conflict (re_desc y) (re_desc x))) /\
  (fst result <> None -> snd result = r) /\
  (fst result = None -> snd result = r ++ [x]).
Proof.
  intros h x r result.
  assert (Ht : tidy r) by (apply attempts_tidy; constructor).
  destruct (register_spec r x Ht) as [(H1 & H2 & H3)|(H1 & H2 & H3)]; fold result in H1, H2.
  - split; [split; [congruence|]|split; congruence].
    intros (y & Hy & Hc). elim (H3 y Hy). exact Hc.
  - split; [split; auto|split; [auto|congruence]].
Qed.
Print Assumptions C28_rejection.
Example C28_rejection_ex :
  fst (register ex_f_any (attempts ex_registrations [])) <> None /\
  fst (register ex_g (attempts [ex_f_int] [])) = None.
Proof. split; [discriminate|reflexivity]. Qed.

(* If every registration of a list succeeds, then every registration of every
   reordering of the list succeeds, and every call resolves to the same
   overload and has the same outcome. *)
Definition all_succeed (l : list reg_entry) : Prop := attempts l [] = l.
Theorem C28_order_independent : forall l l', Permutation l l' -> all_succeed l ->
  all_succeed l' /\
  (forall name receiver args,
     ResolveStatic (FindStatic (attempts l []) name receiver (List.length args)) args =
     ResolveStatic (FindStatic (attempts l' []) name receiver (List.length args)) args) /\
  (forall unknowns patterns name receiver args,
     CallFunction unknowns patterns name receiver
       (FindStatic (attempts l []) name receiver (List.length args)) args =
     CallFunction unknowns patterns name receiver
       (FindStatic (attempts l' []) name receiver (List.length args)) args).
Proof.
  intros l l' Hp Hs.
  assert (Hl' : all_succeed l').
  { apply succeed_pairs. apply succeed_pairs in Hs. eapply pairs_perm; eauto. }
  assert (Hr : forall name rcv n args, List.length args = n ->
     ResolveStatic (FindStatic (attempts l []) name rcv n) args =
     ResolveStatic (FindStatic (attempts l' []) name rcv n) args).
  { intros name rcv n args Hn. apply resolve_in_unique.
    - intros o p Ho Hq Mo Mp. apply in_static in Ho, Hq.
      destruct Ho as (x & Hx & _ & <- & X1 & X2 & _), Hq as (y & Hy & _ & <- & Y1 & Y2 & _).
      f_equal. eapply C28_at_most_one_overload; eauto;
        (split; [eassumption|split; [eassumption|apply kinds_match_spec; eassumption]]).
    - intros o. rewrite !in_static. unfold all_succeed in *. rewrite Hs, Hl'.
      split; intros (x & Hx & H); exists x; (split; [|exact H]).
      + eapply Permutation_in; eauto.
      + eapply Permutation_in; [apply Permutation_sym|]; eauto. }
  split; [exact Hl'|]. split; [intros; now apply Hr|].
  intros u pats name rcv args. unfold CallFunction, accepted.
  rewrite (Hr name rcv (List.length args)); [reflexivity|].
  unfold call_args, CheckForPartialUnknowns. destruct u; apply map_length.
Qed.
Print Assumptions C28_order_independent.
Example C28_order_ex : all_succeed ex_registrations /\ all_succeed (rev ex_registrations) /\
  ~ all_succeed (ex_registrations ++ [ex_f_any]).
Proof. split; [reflexivity|]. split; [reflexivity|]. intros H. vm_compute in H. discriminate. Qed.

(* ------------------------------------------------------------------ C27 *)
(* The evaluator's registry is the static part of a registry reached by some
   history of registrations. *)
Definition reached (R : registry) : Prop :=
  exists history, R = static_overloads (attempts history []).

(* A call of a registered function on such operands, planned and run with
   unknown processing off: an error among the operands of a function none of
   whose overloads is non-strict is the result, the leftmost one, and nothing is
   invoked; otherwise the overload accepting the operand kinds is invoked once,
   on exactly the operand values, and gives the result; without one nothing is
   invoked and the result is the no-matching-overload error. *)
Theorem C27_calls_end_to_end : forall C R fn target args input P r,
  reached R -> ~ In fn operator_names -> o_unknowns (cf_opts C) = false ->
  Forall2 (operand_value C) (call_operands target args) input ->
  plan (cf_opts C) R (ECall fn target args) = Val P -> evaluates C P r ->
  (forall before s after, input = before ++ VError s :: after ->
     forallb (fun v => negb (is_error v)) before = true ->
     (forall o, In o R -> ov_name o = fn -> ov_strict o = true) ->
     outcome r = Val (VError s) /\ calls r = []) /\
  (forall o, In o R -> accepts o fn (is_method target) (map kind_of input) ->
     (ov_strict o = true -> forall v, In v input -> is_error v = false /\ is_unknown v = false) ->
     outcome r = ov_impl o input /\
     (ov_impl o input <> UB -> calls r = [(fn, input)])) /\
  ((forall o, In o R -> ~ accepts o fn (is_method target) (map kind_of input)) ->
     (forall v, In v input -> is_error v = false) ->
     exists msg, outcome r = Val (VError (no_matching_overload msg)) /\ calls r = []).
Proof.
  intros C R fn target args input P r HR Hfn Hu Hin HP Hev.
  destruct (plan_core_of _ _ _ _ HP) as (k & Hk & ->). fold (sc C) in Hev. apply evaluates_seval in Hev.
  destruct (call_seval C R fn target args input k Hfn Hu Hin Hk) as (vs & Hvs & E).
  rewrite E in Hev.
  assert (Ha : call_args (unk C) (cf_pats C) vs = input).
  { unfold call_args, unk. now rewrite Hu. }
  assert (Hlen : List.length vs = List.length input) by (rewrite <- Hvs; symmetry; apply map_length).
  set (ovs := FindStaticOverloadsByArity R fn (is_method target) (List.length vs)) in *.
  assert (Hov : forall o, In o ovs -> In o R /\ ov_name o = fn /\ ov_receiver o = is_method target).
  { intros o Ho. apply in_by_arity in Ho. tauto. }
  assert (Hev' : outcome r = match accepted ovs input with
                             | Some o => ov_impl o input
                             | None => Val (NoOverloadResult false fn (is_method target) input)
                             end /\
                 (match accepted ovs input with Some o => ov_impl o input <> UB | None => True end ->
                  calls r = match accepted ovs input with Some _ => [(fn, input)] | None => [] end)).
  { subst r. unfold do_op. cbn [apply_op op_invokes]. rewrite Ha. unfold CallFunction. rewrite Ha.
    destruct (accepted ovs input) as [o|].
    - destruct (ov_impl o input) as [v|er|]; cbn; (split; [reflexivity|intros; first [reflexivity|congruence]]).
    - unfold unk. rewrite Hu. cbn. auto. }
  destruct Hev' as [Ho Hc]. split; [|split].
  - intros before s after Hi Hb Hst.
    assert (Hex : existsb (fun a => is_unknown a || is_error a) input = true).
    { rewrite Hi. apply existsb_exists. exists (VError s). split; [apply in_app_iff; right; now left|reflexivity]. }
    assert (Hacc : accepted ovs input = None).
    { unfold accepted. destruct (ResolveStatic ovs input) as [o|] eqn:Er; [|reflexivity].
      unfold ResolveStatic in Er. apply find_some in Er. destruct Er as [Er _]. apply Hov in Er.
      unfold ShouldAcceptOverload. rewrite Hex, (Hst o) by tauto. reflexivity. }
    rewrite Hacc in Ho, Hc. rewrite Ho, Hc by exact I. split; [|reflexivity].
    unfold NoOverloadResult. rewrite Hi, (find_app_none _ _ _ Hb). reflexivity.
  - intros o HoR Hacc Hst.
    assert (Hr : accepted ovs input = Some o).
    { unfold accepted, ovs. rewrite Hlen, (resolve_unique R fn (is_method target) input o).
      - unfold ShouldAcceptOverload. destruct (existsb _ input) eqn:Ex; [|reflexivity].
        destruct (ov_strict o) eqn:Es; [|reflexivity]. exfalso. apply existsb_exists in Ex.
        destruct Ex as (v & Hv & Hx). destruct (Hst eq_refl v Hv) as [E1 E2]. rewrite E1, E2 in Hx. discriminate.
      - destruct HR as (h & ->). apply static_tidy.
      - exact HoR.
      - exact Hacc. }
    rewrite Hr in Ho, Hc. auto.
  - intros Hno Herr.
    assert (Hr : accepted ovs input = None).
    { unfold accepted. destruct (ResolveStatic ovs input) as [o|] eqn:Er; [|reflexivity].
      unfold ResolveStatic in Er. apply find_some in Er. destruct Er as [Er Em]. apply Hov in Er.
      elim (Hno o); [tauto|]. split; [tauto|]. split; [tauto|]. now apply kinds_match_spec. }
    rewrite Hr in Ho, Hc. rewrite Ho, Hc by exact I. unfold NoOverloadResult.
    destruct (List.find is_error input) as [e|] eqn:Ef.
    + apply find_some in Ef. rewrite (Herr e) in Ef by tauto. now destruct Ef.
    + eauto.
Qed.
Print Assumptions C27_calls_end_to_end.

(* In every evaluation of every program, whatever the operands of its calls are
   and with unknown processing on or off, every implementation invoked is that
   of a registered overload accepting the kinds of the arguments it is passed,
   and, unless it is non-strict, none of these is an error or unknown. *)
Theorem C27_invocations_proper : forall C R e P r, plan (cf_opts C) R e = Val P -> evaluates C P r ->
  Forall (proper_invocation R) (calls r).
Proof.
  intros C R e P r HP Hev. destruct (plan_core_of _ _ _ _ HP) as (k & Hk & ->). fold (sc C) in Hev.
  apply evaluates_seval in Hev. subst r.
  pose proof (seval_inv C (planned_op R) (Forall (proper_invocation R))) as H.
  assert (Hop : forall op args log, planned_op R op (List.length args) ->
            Forall (proper_invocation R) log -> Forall (proper_invocation R) (op_invokes C op args ++ log)).
  { intros op args log Hq Hl. apply Forall_app. split; [|exact Hl]. now apply invokes_proper. }
  assert (Hr : rops (planned_op R) (resolved k)).
  { unfold resolved. destruct (alloc _ _ _ _) eqn:E. cbn [fst]. eapply alloc_rops; [exact E|].
    eapply elaborate_kops; eauto. }
  assert (H0 : Forall (proper_invocation R) (e_log est_init)) by constructor.
  specialize (H Hop (resolved k) no_lazy est_init Hr H0 (fun _ _ _ => I)).
  destruct (seval C (resolved k) no_lazy est_init); cbn [final calls inv] in *; auto.
Qed.
Print Assumptions C27_invocations_proper.

(* One call on any operand values, with unknown processing on or off: what the
   operands' attributes make of them is the input of the call. *)
Theorem C27_one_call : forall C R fn receiver operands, reached R ->
  let call := OCall fn receiver (FindStaticOverloadsByArity R fn receiver (List.length operands)) in
  let input := call_args (o_unknowns (cf_opts C)) (cf_pats C) operands in
  (forall before s after, input = before ++ VError s :: after ->
     forallb (fun v => negb (is_error v)) before = true ->
     (forall o, In o R -> ov_name o = fn -> ov_strict o = true) ->
     apply_op C call operands = Val (VError s, None) /\ op_invokes C call operands = []) /\
  (forall o, In o R -> accepts o fn receiver (map kind_of input) ->
     (ov_strict o = true -> forall v, In v input -> is_error v = false /\ is_unknown v = false) ->
     apply_op C call operands = match ov_impl o input with
                                | Val v => Val (v, None) | Err e => Err e | UB => UB end /\
     op_invokes C call operands = [(fn, input)]) /\
  ((forall o, In o R -> ~ accepts o fn receiver (map kind_of input)) ->
     (forall v, In v input -> is_error v = false /\ is_unknown v = false) ->
     exists msg, apply_op C call operands = Val (VError (no_matching_overload msg), None) /\
                 op_invokes C call operands = []).
Proof.
  intros C R fn rcv vs HR call input.
  assert (Hlen : List.length vs = List.length input).
  { unfold input, call_args, CheckForPartialUnknowns. destruct (o_unknowns _); symmetry; apply map_length. }
  unfold call. cbn [apply_op op_invokes]. unfold CallFunction, unk. fold input.
  set (ovs := FindStaticOverloadsByArity R fn rcv (List.length vs)) in *.
  assert (Hov : forall o, In o ovs -> In o R /\ ov_name o = fn /\ ov_receiver o = rcv).
  { intros o Ho. apply in_by_arity in Ho. tauto. }
  split; [|split].
  - intros before s after Hi Hb Hst.
    assert (Hex : existsb (fun a => is_unknown a || is_error a) input = true).
    { rewrite Hi. apply existsb_exists. exists (VError s). split; [apply in_app_iff; right; now left|reflexivity]. }
    assert (Hacc : accepted ovs input = None).
    { unfold accepted. destruct (ResolveStatic ovs input) as [o|] eqn:Er; [|reflexivity].
      unfold ResolveStatic in Er. apply find_some in Er. destruct Er as [Er _]. apply Hov in Er.
      unfold ShouldAcceptOverload. rewrite Hex, (Hst o) by tauto. reflexivity. }
    rewrite Hacc. split; [|reflexivity]. unfold NoOverloadResult. rewrite Hi, (find_app_none _ _ _ Hb). reflexivity.
  - intros o HoR Hacc Hst.
    assert (Hr : accepted ovs input = Some o).
    { unfold accepted, ovs. rewrite Hlen, (resolve_unique R fn rcv input o).
      - unfold ShouldAcceptOverload. destruct (existsb _ input) eqn:Ex; [|reflexivity].
        destruct (ov_strict o) eqn:Es; [|reflexivity]. exfalso. apply existsb_exists in Ex.
        destruct Ex as (v & Hv & Hx). destruct (Hst eq_refl v Hv) as [E1 E2]. rewrite E1, E2 in Hx. discriminate.
      - destruct HR as (h & ->). apply static_tidy.
      - exact HoR.
      - exact Hacc. }
    rewrite Hr. split; [destruct (ov_impl o input); reflexivity|reflexivity].
  - intros Hno Herr.
    assert (Hr : accepted ovs input = None).
    { unfold accepted. destruct (ResolveStatic ovs input) as [o|] eqn:Er; [|reflexivity].
      unfold ResolveStatic in Er. apply find_some in Er. destruct Er as [Er Em]. apply Hov in Er.
      elim (Hno o); [tauto|]. split; [tauto|]. split; [tauto|]. now apply kinds_match_spec. }
    rewrite Hr. unfold NoOverloadResult.
    destruct (List.find is_error input) as [e|] eqn:Ef.
    + apply find_some in Ef. destruct Ef as [Ef1 Ef2]. destruct (Herr e Ef1). congruence.
    + rewrite (merge_none input); [|intros v Hv; apply Herr; exact Hv].
      destruct (o_unknowns (cf_opts C)); cbn [obind]; eauto.
Qed.
Print Assumptions C27_one_call.

(* f(a, "x") with a = 7: the overloads f(int, string) and f(string, any) *)
Definition ex_regs2 := [ex_kind_of "f" false [Some kIntT; Some kStringT] true 1;
                        ex_kind_of "f" false [Some kStringT; None] true 2].
Definition ex_conf27 : config :=
  mkConfig (mkOptions false true 0 true true false true)
    (fun x => Val (if String.eqb x "a" then Some (VInt 7)
                   else if String.eqb x "err" then Some (VError (mkStatus kInternal "e"))
                   else None)) [] (fun m => m).
Example C27_ex :
  reached (static_overloads (attempts ex_regs2 [])) /\ ~ In "f" operator_names /\
  Forall2 (operand_value ex_conf27) (call_operands None [EIdent "a"; EConst (VString [120])])
    [VInt 7; VString [120]] /\
  Forall2 (operand_value ex_conf27) (call_operands None [EIdent "a"; EIdent "err"])
    ([VInt 7] ++ VError (mkStatus kInternal "e") :: []) /\
  accepts (re_desc (ex_kind_of "f" false [Some kIntT; Some kStringT] true 1)) "f" false
    (map kind_of [VInt 7; VString [120]]) /\
  (exists P, plan (cf_opts ex_conf27) (static_overloads (attempts ex_regs2 []))
     (ECall "f" None [EIdent "a"; EIdent "err"]) = Val P).
Proof.
  split; [exists ex_regs2; reflexivity|].
  split; [cbv; intuition discriminate|].
  split; [repeat constructor; cbn; repeat split; discriminate|].
  split; [repeat constructor; cbn; repeat split; discriminate|].
  split; [split; [reflexivity|split; [reflexivity|constructor; [now right|constructor; [now right|constructor]]]]|].
  eexists. vm_compute. reflexivity.
Qed.
