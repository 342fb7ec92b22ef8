(* C62-C65: policies. *)
From Coq Require Import ZArith List Bool String Ascii Lia.
From Verif Require Import Base M_Overflow M_Number M_Attr M_Value M_Logic M_Expr M_Machine M_Macro M_Registry
  S_Eval S_Macro S_Func L_Core L_Meaning L_Macro P_Eval P_Macro P_Macro2.
From Verif Require Import M_Policy S_Policy L_Policy L_Policy2 L_Policy3.
Import ListNotations.
Local Open Scope string_scope.
Open Scope list_scope.
Open Scope Z_scope.
Local Open Scope out_scope.

(* ---- a case ---- *)
Definition ex_pc := mkConfig (mkOptions false true 0 true true true true)
  (fun x => Val (if String.eqb x "age" then Some (VInt 7) else if String.eqb x "vip" then Some (VBool true) else None))
  [] (fun m => m).
Definition ex_equals a b := ECall "_==_" None [a; b].
(* variables: seven = age == 7
   match:
   - condition: vip
     rule: variables: same = variables.seven
           match: - condition: variables.same   output: "A"
                  - output: "B"
   - rule: match: - condition: variables.seven  output: "C"
   - output: "D" *)
Definition ex_out (s : Z) := EConst (VString [s]).
Definition ex_policy (cond : expr) :=
  Rule [("seven", ex_equals (EIdent "age") (ex_int 7))]
    [(Some cond, inr (Rule [("same", EIdent "variables.seven")]
        [(Some (EIdent "variables.same"), inl (ex_out 65)); (None, inl (ex_out 66))]));
     (None, inr (Rule [] [(Some (EIdent "variables.seven"), inl (ex_out 67))]));
     (None, inl (ex_out 68))].

Lemma ex_optional : standard_optional ex_lib3.
Proof. split; [eexists; reflexivity|]. repeat split; cbn; auto 10. Qed.

Lemma zero_unnests b : Unnest 0 b = Some b.
Proof. reflexivity. Qed.
Lemma compiled_inv h root o b : CompilePolicy h root = Val (Some (o, b)) ->
  exists b0, Compose root = Val (Some (o, b0)) /\ Unnest h b0 = Some b.
Proof.
  unfold CompilePolicy. destruct (negb (h =? 0) && (h <? 2)); [discriminate|].
  destruct (Compose root) as [[[o0 b0]|]| |]; cbn [obind]; try discriminate.
  destruct (Unnest h b0) as [b'|] eqn:E; [|discriminate]. intros [= -> ->]. eauto.
Qed.
Lemma composed_inv root o b : Compose root = Val (Some (o, b)) ->
  CheckMatchStructure root = true /\ o = negb (IsExhaustive root) /\ ComposeRule root [] [] = Val (o, b).
Proof.
  unfold Compose. destruct (CheckMatchStructure root) eqn:E; cbn [negb]; [|discriminate].
  destruct (ComposeRule root [] []) as [[o0 b0]| |]; cbn [obind fst]; try discriminate.
  destruct (Bool.eqb o0 (negb (IsExhaustive root))) eqn:Eo; [|discriminate].
  intros [= -> ->]. apply Bool.eqb_prop in Eo. auto.
Qed.
Lemma no_scopes n : scopes_ok [] n.
Proof. intros x i. unfold resolves. destruct (String.prefix "variable" x); discriminate. Qed.
Lemma see_all rho rho' : (forall x, String.prefix "@index" x = false -> rho' x = rho x) -> sees [] rho rho'.
Proof.
  intros H x Hx. unfold resolves. cbn [ResolvePolicyVariable].
  destruct (String.prefix "variable" x); now apply H.
Qed.

(* A policy is accepted exactly if it is well formed, and then composing it
   never fails: no internal error, no assertion. *)
Theorem C62_accepts : forall root, user_policy root = true ->
  (well_formed root -> exists optional b, CompilePolicy 0 root = Val (Some (optional, b))) /\
  (~ well_formed root -> CompilePolicy 0 root = Val None).
Proof.
  intros root Hup. destruct (rule_checked root) as [Hc _]. unfold CompilePolicy, Compose. cbn [Z.eqb negb andb]. split.
  - intros Hw. apply Hc in Hw. rewrite Hw. cbn [negb].
    destruct (compose_ok ex_pc ex_lib3 eq_refl eq_refl eq_refl ex_optional root Hup Hw [] [] (no_scopes _))
      as (new & e & E & _). rewrite E. cbn [obind fst]. rewrite Bool.eqb_reflx. cbn [obind]. rewrite zero_unnests. eauto.
  - intros Hw. destruct (CheckMatchStructure root) eqn:E; [|reflexivity]. elim Hw. now apply Hc.
Qed.
Print Assumptions C62_accepts.

Lemma unnest_meaning C R h b b' : Unnest h b = Some b' -> in_order 0 (fst b) -> closed (List.length (fst b)) (snd b) ->
  forall rho, block_meaning C R b' rho = block_meaning C R b rho.
Proof.
  unfold Unnest. destruct (h >? 0); [|intros [= <-]; reflexivity].
  unfold Slice. destruct (existsb _ _ || _) eqn:Ec; [discriminate|]. apply orb_false_iff in Ec as [_ Ec].
  destruct b as [init e]. cbn [fst snd] in *. intros E Ho Hcl rho.
  destruct (slice_ok C R h e Ec init Hcl) as (new & e' & Es & Hi & Hc' & Hm). rewrite Es in E. injection E as <-.
  unfold block_meaning. cbn [fst snd].
  rewrite Hm by (apply block_env_solves; apply in_order_app; auto).
  rewrite block_env_app. now apply block_env_later.
Qed.
Lemma composed_closed root o b : user_policy root = true -> Compose root = Val (Some (o, b)) ->
  in_order 0 (fst b) /\ closed (List.length (fst b)) (snd b).
Proof.
  intros Hup H. apply composed_inv in H as (H1 & H2 & H3).
  destruct (compose_ok ex_pc ex_lib3 eq_refl eq_refl eq_refl ex_optional root Hup H1 [] [] (no_scopes _))
    as (new & e & E & Ho & Hc & _). rewrite E in H3. injection H3 as _ <-. split; assumption.
Qed.

(* The compiled expression evaluates to what the first match of the policy
   gives; if the policy may have no output, to an optional of it. *)
Theorem C62_first_match : forall C R h root optional b rho,
  o_unknowns (cf_opts C) = false -> o_short_circuiting (cf_opts C) = true ->
  o_optional_types (cf_opts C) = true -> standard_optional R -> user_policy root = true ->
  CompilePolicy h root = Val (Some (optional, b)) ->
  match decide C R root rho with
  | Val d => verdict_unknown d = false -> exists t, block_meaning C R b rho = Val (verdict_value optional d, t)
  | Err s => block_meaning C R b rho = Err s
  | UB => block_meaning C R b rho = UB
  end.
Proof.
  intros C R h root o b rho Hu Hsc Hot Ho Hup H. apply compiled_inv in H as (b0 & H1 & H2).
  destruct (composed_closed root o b0 Hup H1) as [Hi Hcl].
  rewrite (unnest_meaning C R h b0 b H2 Hi Hcl). apply composed_inv in H1 as (G1 & -> & G3).
  destruct (compose_ok C R Hu Hsc Hot Ho root Hup G1 [] [] (no_scopes _)) as (new & e & E & _ & _ & Ha).
  rewrite E in G3. injection G3 as <-. cbn [app fst snd] in *. unfold block_meaning. cbn [fst snd].
  assert (A := Ha rho (block_env C R 0 new rho)).
  assert (A' := A (see_all _ _ (fun x Hx => block_env_user C R new rho x Hx)) (block_env_solves C R new rho Hi)).
  destruct (decide C R root rho) as [d| |]; cbn [agrees] in A'; auto.
  intros Hk. destruct A' as [A'|(_ & _ & A')]; [congruence|exact A'].
Qed.
Print Assumptions C62_first_match.

(* The result is an optional exactly if the rule may end without an output, and
   a rule that is said to always have an output has one. *)
Theorem C62_optional : forall h root optional b, CompilePolicy h root = Val (Some (optional, b)) ->
  (optional = false <-> always_outputs root) /\
  (optional = false -> forall C R rho, decide C R root rho <> Val NoMatch).
Proof.
  intros h root o b H. apply compiled_inv in H as (b0 & H1 & _). apply composed_inv in H1 as (G1 & -> & _).
  destruct (rule_checked root) as [Hc He]. apply Hc in G1.
  assert (E : negb (IsExhaustive root) = false <-> always_outputs root) by (rewrite negb_false_iff; auto).
  split; [exact E|]. intros G C R rho. apply always_decides. now apply E.
Qed.
Print Assumptions C62_optional.

Example C62_ex : user_policy (ex_policy (EIdent "vip")) = true /\ standard_optional ex_lib3 /\
  exists b, CompilePolicy 2 (ex_policy (EIdent "vip")) = Val (Some (false, b)) /\
    decide ex_pc ex_lib3 (ex_policy (EIdent "vip")) no_locals = Val (Output (VString [65])) /\
    block_meaning ex_pc ex_lib3 b no_locals = Val (VString [65], None).
Proof.
  split; [reflexivity|]. split; [exact ex_optional|]. eexists. split; [vm_compute; reflexivity|].
  split; vm_compute; reflexivity.
Qed.
(* a match after a default is reported *)
Example C62_ex_invalid : CompilePolicy 0 (Rule [] [(None, inl (ex_out 65)); (Some (EIdent "vip"), inl (ex_out 66))]) = Val None.
Proof. reflexivity. Qed.

(* Unnesting changes neither the value nor whether it is optional. *)
Theorem C63_unnesting : forall h root optional b optional' b',
  user_policy root = true ->
  CompilePolicy 0 root = Val (Some (optional, b)) -> CompilePolicy h root = Val (Some (optional', b')) ->
  optional' = optional /\ forall C R rho, block_meaning C R b' rho = block_meaning C R b rho.
Proof.
  intros h root o b o' b' Hup H0 H. apply compiled_inv in H0 as (b0 & E0 & U0). apply compiled_inv in H as (b1 & E1 & U1).
  rewrite E0 in E1. injection E1 as <- <-. injection U0 as <-. split; [reflexivity|]. intros C R rho.
  destruct (composed_closed root o b0 Hup E0) as [Hi Hcl]. now apply (unnest_meaning C R h).
Qed.
Print Assumptions C63_unnesting.
(* and it is refused only for a comprehension that cannot be taken apart *)
Theorem C63_refused : forall h root optional b, 2 <= h ->
  CompilePolicy 0 root = Val (Some (optional, b)) -> CompilePolicy h root = Val None ->
  exists e, (In e (fst b) \/ e = snd b) /\ cut_in_comprehension h e = true.
Proof.
  intros h root o b Hh H0 H. apply compiled_inv in H0 as (b0 & E0 & U0). injection U0 as <-.
  unfold CompilePolicy in H. rewrite E0 in H. replace (h =? 0) with false in H by (symmetry; apply Z.eqb_neq; lia).
  replace (h <? 2) with false in H by (symmetry; apply Z.ltb_ge; lia). cbn [negb andb obind] in H.
  unfold Unnest in H. replace (h >? 0) with true in H by (symmetry; apply Z.gtb_lt; lia).
  unfold Slice in H. destruct (existsb _ _ || _) eqn:Ec.
  - apply orb_true_iff in Ec as [Ec|Ec]; [|eauto]. apply existsb_exists in Ec as (e & H1 & H2). eauto.
  - destruct (slice h (snd b0) (fst b0)). discriminate.
Qed.
Print Assumptions C63_refused.
Example C63_ex : exists b b', CompilePolicy 0 (ex_policy (EIdent "vip")) = Val (Some (false, b)) /\
  CompilePolicy 2 (ex_policy (EIdent "vip")) = Val (Some (false, b')) /\ List.length (fst b) = 2%nat /\ List.length (fst b') = 5%nat.
Proof. eexists. eexists. split; [vm_compute; reflexivity|]. split; [vm_compute; reflexivity|]. split; reflexivity. Qed.

(* ---- the height limit ---- *)
Fixpoint tall (n : nat) : expr := match n with O => EIdent "x" | S m => ESelect (tall m) "f" false end.
Lemma tall_height n : height (tall n) = 1 + Z.of_nat n.
Proof. induction n as [|n IH]; [reflexivity|]. cbn [tall height]. rewrite IH. lia. Qed.
Lemma tall_user n : user_expr (tall n) = true.
Proof. induction n; auto. Qed.
Lemma tall_rename scopes n : MapVariables scopes (tall n) = tall n.
Proof.
  unfold MapVariables. induction n as [|n IH]; cbn [tall rename]; [reflexivity|]. now rewrite IH.
Qed.
Lemma tall_comp h n : cut_in_comprehension h (tall n) = false.
Proof. induction n; auto. Qed.

(* The documentation promises a height of at most the limit and a small, fixed
   margin.  The values of policy variables are never taken apart. *)
Theorem C64_variables_refuted : forall margin, exists root b, user_policy root = true /\
  CompilePolicy 2 root = Val (Some (false, b)) /\ height (Cleanup b) > 2 + margin.
Proof.
  intros margin. set (n := Z.to_nat margin).
  exists (Rule [("v", tall n)] [(None, inl (EIdent "variables.v"))]), ([tall n], EIdent "@index0").
  split; [cbn [user_policy forallb fst snd]; now rewrite tall_user|]. split.
  - unfold CompilePolicy, Compose. change (negb (2 =? 0) && (2 <? 2)) with false. rewrite ComposeRule_eq.
    cbn [ComposeRuleVariables app List.length]. rewrite tall_rename. cbn [CheckMatchStructure andb negb].
    change (compose_go _ _ _ _) with (Val (false, ([tall n], EIdent (index_name 0)))). cbn [obind fst].
    change (Bool.eqb false _) with true. cbn [obind andb negb]. cbv iota. cbn [obind].
    unfold Unnest, Slice. cbn [Z.gtb Z.compare fst snd existsb cut_in_comprehension]. rewrite tall_comp. reflexivity.
  - unfold Cleanup. cbn [fst snd map height]. unfold max_of. cbn [fold_right height]. rewrite tall_height.
    unfold n. lia.
Qed.
Print Assumptions C64_variables_refuted.

(* Nor do cuts at every second level bound what is left without variables: in
   c ? o1 : (c ? o2 : ...) with outputs of shrinking height every other level
   is jumped over. *)
Fixpoint steps (k : nat) : list (option expr * (expr + rule)) :=
  match k with
  | O => [(None, inl (ex_int 0))]
  | S k' => (Some (EIdent "c"), inl (tall (2 * k' + 1))) :: steps k'
  end.
Fixpoint steps_expr (k : nat) : expr :=
  match k with
  | O => ex_int 0
  | S k' => NewCall "_?_:_" [EIdent "c"; tall (2 * k' + 1); steps_expr k']
  end.
Lemma steps_cons k : exists m l, steps k = m :: l.
Proof. destruct k; cbn; eauto. Qed.
Lemma steps_exh k : exh_go false (steps k) = true.
Proof. induction k; auto. Qed.
Lemma steps_struct k : struct_go true false (steps k) = true.
Proof. induction k; auto. Qed.
Lemma steps_user k : forallb user_match (steps k) = true.
Proof. induction k as [|k IH]; [reflexivity|]. cbn [steps forallb]. unfold user_match at 1. cbn [fst snd]. now rewrite tall_user. Qed.
Lemma steps_compose k init : compose_go false [[]] (steps k) init = Val (false, (init, steps_expr k)).
Proof.
  induction k as [|k IH]; [reflexivity|]. cbn [steps compose_go IsTriviallyTrueCondition andb negb exhaustive_production obind fst snd].
  rewrite IH. cbn [obind fst snd]. rewrite tall_rename. reflexivity.
Qed.
Lemma steps_height k : height (steps_expr k) = 1 + 2 * Z.of_nat k.
Proof.
  induction k as [|k IH]; [reflexivity|]. cbn [steps_expr]. rewrite height_cond, IH, tall_height. cbn [height]. lia.
Qed.
Lemma steps_comp k : cut_in_comprehension 2 (steps_expr k) = false.
Proof.
  induction k as [|k IH]; [reflexivity|]. cbn [steps_expr]. unfold NewCall. cbn [cut_in_comprehension existsb].
  now rewrite tall_comp, IH.
Qed.
Lemma steps_slice k : forall init, exists new e, slice 2 (steps_expr k) init = (e, init ++ new) /\ height e >= 1 + Z.of_nat k.
Proof.
  induction k as [|k IH]; intros init.
  - exists [], (ex_int 0). rewrite app_nil_r. split; [reflexivity|]. cbn. lia.
  - assert (Hc : at_cut 2 (steps_expr (S k)) = false).
    { unfold at_cut. rewrite steps_height. apply Z.eqb_neq. rewrite Z.rem_mod_nonneg by lia.
      replace (1 + 2 * Z.of_nat (S k)) with (1 + Z.of_nat (S k) * 2) by lia. rewrite Z_mod_plus by lia. discriminate. }
    assert (Et : exists a na, slice 2 (tall (2 * k + 1)) init = (a, init ++ na)).
    { assert (G : forall n i, exists a na, slice 2 (tall n) i = (a, i ++ na)).
      { induction n as [|n IHn]; intros i.
        - exists (EIdent "x"), []. now rewrite app_nil_r.
        - destruct (IHn i) as (a & na & E). cbn [tall slice]. rewrite E.
          destruct (at_cut 2 (ESelect (tall n) "f" false)); [rewrite <- app_assoc|]; do 2 eexists; reflexivity. }
      apply G. }
    destruct Et as (a & na & Et). destruct (IH (init ++ na)) as (new & e & E & Hh).
    remember (tall (2 * k + 1)) as t. cbn [steps_expr] in Hc |- *. rewrite <- Heqt in *. unfold NewCall in *.
    cbn [slice map_state]. rewrite Hc. change (at_cut 2 (EIdent "c")) with false. cbv iota.
    rewrite Et, E, <- app_assoc. eexists. eexists. split; [reflexivity|].
    cbn [height map]. unfold max_of. cbn [fold_right]. lia.
Qed.
Theorem C64_height_limit_refuted : forall margin, exists root b, user_policy root = true /\ no_variables root /\
  CompilePolicy 2 root = Val (Some (false, b)) /\ height (Cleanup b) > 2 + margin.
Proof.
  intros margin. set (k := S (Z.to_nat (margin + 2))).
  destruct (steps_slice k []) as (new & e & E & Hh). exists (Rule [] (steps k)), (new, e).
  split; [exact (steps_user k)|]. split; [reflexivity|]. split.
  - unfold CompilePolicy, Compose. rewrite CheckMatchStructure_eq, ComposeRule_eq, IsExhaustive_eq.
    change (negb (2 =? 0) && (2 <? 2)) with false. cbn [ComposeRuleVariables].
    destruct (steps_cons k) as (m & l & Es). rewrite Es. rewrite <- Es. rewrite steps_struct, steps_exh. cbn [negb].
    rewrite steps_compose. cbn [obind fst Bool.eqb]. unfold Unnest, Slice. cbn [Z.gtb Z.compare fst snd existsb orb].
    rewrite steps_comp, E. reflexivity.
  - assert (P : height (Cleanup (new, e)) >= height e).
    { unfold Cleanup. cbn [fst snd]. destruct new; [lia|]. cbn [height map]. unfold max_of. cbn [fold_right]. lia. }
    unfold k in Hh. lia.
Qed.
Print Assumptions C64_height_limit_refuted.

(* What holds: without nested rules, and with expressions k high where k + 1 is
   below the limit, a policy is not refused and the margin is k + 3. *)
Theorem C64_height_partial : forall h k root optional b, 1 <= k -> k + 1 < h -> flat k root ->
  CompilePolicy 0 root = Val (Some (optional, b)) ->
  exists b', CompilePolicy h root = Val (Some (optional, b')) /\ height (Cleanup b') <= h + k + 3.
Proof.
  intros h k root o b Hk Hh Hf H0. apply compiled_inv in H0 as (b0 & E0 & U0). injection U0 as <-.
  assert (E1 := E0). apply composed_inv in E1 as (_ & _ & G). destruct root as [vars ms]. cbn [flat] in Hf.
  destruct Hf as [Hv Hm]. rewrite ComposeRule_eq in G.
  destruct (ComposeRuleVariables [] vars [] []) as [s init] eqn:Ev.
  assert (Hi := variables_height k [] vars Hv [] [] s init Ev (Forall_nil _)).
  destruct b0 as [init' e]. assert (Hch : init' = init /\ chain (k + 1) e).
  { destruct ms as [|m ms]; [discriminate|]. apply (flat_chain k _ _ (m :: ms) Hk Hm _ _ _ _ G). }
  destruct Hch as [-> Hch].
  destruct (chain_slice (k + 1) h e ltac:(lia) Hh Hch init) as (new & e' & Es & Hn & He).
  exists (init ++ new, e'). split.
  - unfold CompilePolicy. rewrite E0. replace (h =? 0) with false by (symmetry; apply Z.eqb_neq; lia).
    replace (h <? 2) with false by (symmetry; apply Z.ltb_ge; lia). cbn [negb andb obind].
    unfold Unnest. replace (h >? 0) with true by (symmetry; apply Z.gtb_lt; lia). unfold Slice. cbn [fst snd].
    rewrite (chain_no_comp (k + 1) h e Hh Hch).
    rewrite existsb_all_false; [cbn [orb]; rewrite Es; reflexivity|].
    intros a Ha. rewrite Forall_forall in Hi. apply no_cut_no_comp, has_cut_small. specialize (Hi a Ha). lia.
  - replace (h + k + 3) with (h + k + 1 + 2) by lia. apply cleanup_height; cbn [fst snd]; [lia| |].
    + assert (M := Z.mod_pos_bound (height e) h). lia.
    + apply Forall_app. split; (eapply Forall_impl; [|eassumption]); intros x Hx; cbv beta in Hx; lia.
Qed.
Print Assumptions C64_height_partial.
(* five matches, limit 4: from height 6 to 3 + 2 *)
Definition ex_flat := Rule [] (map (fun i => (Some (EIdent "c"), inl (EIdent "x"))) (seq 0 5)).
Example C64_ex : flat 1 ex_flat /\ exists b b', CompilePolicy 0 ex_flat = Val (Some (true, b)) /\
  CompilePolicy 4 ex_flat = Val (Some (true, b')) /\ height (Cleanup b) = 7 /\ height (Cleanup b') = 6.
Proof.
  split; [split; [constructor|cbn; repeat constructor; cbn; lia]|].
  eexists. eexists. split; [vm_compute; reflexivity|]. split; [vm_compute; reflexivity|]. split; vm_compute; reflexivity.
Qed.

(* ---- conditions that mean the same ---- *)
Definition any_condition (c c' : option expr) : Prop := True.
Definition both_literal (c c' : option expr) : Prop := unconditional c = unconditional c'.
Definition ex_nested (cond : expr) := Rule []
  [(Some cond, inr (Rule [] [(Some (EConst (VBool false)), inl (ex_out 65))])); (None, inl (ex_out 66))].
Definition ex_true := NewCall "_?_:_" [EConst (VBool true); EConst (VBool true); EConst (VBool false)].

(* One would expect that a condition can be replaced by one that always has the
   same value.  The literal true cannot: under it, and no other condition that
   is always true, the search goes on when the nested rule has no match. *)
Theorem C65_conditions_refuted : exists root root' optional b optional' b' t t',
  alike ex_pc ex_lib3 any_condition root root' /\ user_policy root = true /\ user_policy root' = true /\
  CompilePolicy 0 root = Val (Some (optional, b)) /\ CompilePolicy 0 root' = Val (Some (optional', b')) /\
  block_meaning ex_pc ex_lib3 b no_locals = Val (VString [66], t) /\
  block_meaning ex_pc ex_lib3 b' no_locals = Val (VOptional None, t').
Proof.
  exists (ex_nested (EConst (VBool true))), (ex_nested ex_true). do 6 eexists.
  split. { constructor; [constructor|]. constructor.
    - intros rho. reflexivity.
    - exact I.
    - constructor; [constructor|]. constructor; [intros rho; reflexivity|exact I|intros rho; reflexivity|constructor].
    - constructor; [exact I|exact I|intros rho; reflexivity|constructor]. }
  split; [reflexivity|]. split; [reflexivity|]. split; [vm_compute; reflexivity|]. split; [vm_compute; reflexivity|].
  split; vm_compute; reflexivity.
Qed.
Print Assumptions C65_conditions_refuted.

Scheme alike_min := Minimality for alike Sort Prop
  with alike_matches_min := Minimality for alike_matches Sort Prop.
Lemma alike_vars_env C R v v' : alike_vars C R v v' -> forall rho, with_variables C R v rho = with_variables C R v' rho.
Proof.
  unfold with_variables. induction 1 as [|x e e' v v' He Hv IH]; intros rho; cbn [fold_left fst snd]; [reflexivity|].
  now rewrite (He rho), IH.
Qed.
Lemma alike_decides C R r r' : alike C R both_literal r r' ->
  IsExhaustive r = IsExhaustive r' /\ forall rho, decide C R r rho = decide C R r' rho.
Proof.
  apply (alike_min C R both_literal
    (fun r r' => IsExhaustive r = IsExhaustive r' /\ forall rho, decide C R r rho = decide C R r' rho)
    (fun m m' => (forall d, exh_go d m = exh_go d m') /\ forall rho, decide_go C R rho m = decide_go C R rho m')).
  - intros v v' m m' Hv _ [IH1 IH2]. rewrite !IsExhaustive_eq. split; [auto|]. intros rho. rewrite !decide_eq.
    rewrite (alike_vars_env _ _ _ _ Hv). apply IH2.
  - split; reflexivity.
  - intros c c' e e' m m' Hc Hok He _ [IH1 IH2]. unfold both_literal in Hok. split.
    + intros d. cbn [exh_go exhaustive_production]. rewrite <- !trivial_eq, Hok, IH1. reflexivity.
    + intros rho. cbn [decide_go production_of]. rewrite Hok, (He rho), IH2.
      destruct c, c'; cbn [same_condition] in Hc; try contradiction; [now rewrite (Hc rho)|reflexivity].
  - intros c c' r0 r0' m m' Hc Hok _ [G1 G2] _ [IH1 IH2]. unfold both_literal in Hok. split.
    + intros d. cbn [exh_go exhaustive_production]. rewrite <- !trivial_eq, Hok, G1, IH1. reflexivity.
    + intros rho. cbn [decide_go production_of]. rewrite Hok, (G2 rho), IH2.
      destruct c, c'; cbn [same_condition] in Hc; try contradiction; [now rewrite (Hc rho)|reflexivity].
Qed.
(* Any other replacement, of conditions, outputs and variables alike, leaves the
   value as it was, whatever the height limits. *)
Theorem C65_replacement_partial : forall C R h h' root root' optional optional' b b' rho,
  o_unknowns (cf_opts C) = false -> o_short_circuiting (cf_opts C) = true ->
  o_optional_types (cf_opts C) = true -> standard_optional R ->
  user_policy root = true -> user_policy root' = true -> alike C R both_literal root root' ->
  CompilePolicy h root = Val (Some (optional, b)) -> CompilePolicy h' root' = Val (Some (optional', b')) ->
  optional = optional' /\
  match decide C R root rho with
  | Val d => verdict_unknown d = false ->
      exists v t t', block_meaning C R b rho = Val (v, t) /\ block_meaning C R b' rho = Val (v, t')
  | _ => block_meaning C R b rho = block_meaning C R b' rho
  end.
Proof.
  intros C R h h' root root' o o' b b' rho Hu Hsc Hot Ho U U' Ha H H'.
  destruct (alike_decides C R root root' Ha) as [He Hd].
  assert (M := C62_first_match C R h root o b rho Hu Hsc Hot Ho U H).
  assert (M' := C62_first_match C R h' root' o' b' rho Hu Hsc Hot Ho U' H').
  assert (Eo : o = o').
  { apply compiled_inv in H as (x & H & _). apply composed_inv in H as (_ & -> & _).
    apply compiled_inv in H' as (x' & H' & _). apply composed_inv in H' as (_ & -> & _). now rewrite He. }
  subst o'. split; [reflexivity|]. rewrite <- Hd in M'. destruct (decide C R root rho) as [d| |]; [|congruence|congruence].
  intros Hk. destruct (M Hk) as [t E]. destruct (M' Hk) as [t' E']. eauto.
Qed.
Print Assumptions C65_replacement_partial.
Example C65_ex : alike ex_pc ex_lib3 both_literal (ex_policy (EIdent "vip"))
  (ex_policy (NewCall "_?_:_" [EConst (VBool true); EIdent "vip"; EConst (VBool false)])).
Proof.
  constructor; [constructor; [intros rho; reflexivity|constructor]|].
  constructor; [intros rho; reflexivity|reflexivity| |].
  - constructor; [constructor; [intros rho; reflexivity|constructor]|].
    constructor; [intros rho; reflexivity|reflexivity|intros rho; reflexivity|].
    constructor; [exact I|reflexivity|intros rho; reflexivity|constructor].
  - constructor; [exact I|reflexivity| |].
    + constructor; [constructor|]. constructor; [intros rho; reflexivity|reflexivity|intros rho; reflexivity|constructor].
    + constructor; [exact I|reflexivity|intros rho; reflexivity|constructor].
Qed.
