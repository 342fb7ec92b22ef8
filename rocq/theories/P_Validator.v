(* C114 to C116: the validators of checked expressions. *)
From Coq Require Import ZArith String List Bool Lia.
From Verif Require Import Base M_Overflow M_Number M_Value M_Ast S_Ast L_Ast L_Ast2 L_Ast3 M_AstProto S_AstProto L_AstProto3.
From Verif Require Import M_Civil M_Convert.
From Verif Require Import M_Validator S_Validator L_Validator L_Validator2 L_Validator3.
Import ListNotations.
Open Scope list_scope.
Open Scope Z_scope.

(** ** C114 *)
(* The limit on the depth of trees. *)
Theorem C114_depth : forall fuel e md types max_depth h, Build fuel e = Some (Val md) -> tall e h ->
  exists valid issues, AstDepthValidator max_depth (mkContext md types) = Val (valid, issues) /\
    (valid = true <-> Z.of_nat h <= max_depth) /\ (issues = [] <-> valid = true).
Proof.
  intros fuel e md types m h B T. destruct (Build_sees fuel e md B) as (root & l & vs & R & _ & (h' & T' & Hh) & _).
  unfold AstDepthValidator. cbn [c_ast]. rewrite R. cbn [obind]. rewrite Hh, (tall_fun e h' h T' T).
  destruct (Z.ltb_spec m (Z.of_nat h)); eexists _, _; (split; [reflexivity|]); split; split; try lia; easy.
Qed.
Print Assumptions C114_depth.

(* The limit on nested comprehensions: along no way down the tree are there more
   comprehensions that may iterate; the one report names an expression below too
   many. *)
Theorem C114_nesting : forall fuel e md types limit, Build fuel e = Some (Val md) -> 0 <= limit ->
  exists valid issues, ComprehensionNestingLimitValidator limit (mkContext md types) = Val (valid, issues) /\
    (valid = true <-> forall above x, inside e above x -> nesting (x :: above) <= limit) /\
    (valid = true -> issues = []) /\
    (valid = false -> exists above x, inside e above x /\ limit < nesting (x :: above) /\
       issues = [mkIssue true (Some (expr_id x)) (NestingExceeds (nesting (x :: above)))]).
Proof.
  intros fuel e md types limit B L.
  destruct (over_found fuel e md types true (nesting_check limit) (nesting_issue limit) B) as (vs & K & E).
  { intros j n above x Sj _ N. eapply nesting_says; eauto. }
  unfold ComprehensionNestingLimitValidator. cbv zeta in E. rewrite E. eexists _, _. split; [reflexivity|].
  assert (U : found (nesting_issue limit) vs = [] <-> forall above x, inside e above x -> nesting (x :: above) <= limit).
  { rewrite found_nil. split.
    - intros H above x I. revert H. assert (G : forall above x, inside e above x -> (forall v, In v vs -> nesting_issue limit v = None) -> nesting (x :: above) <= limit).
      { clear above x I. intros above x I H. induction I as [|above y x I IH Cx].
        - specialize (H ([], e) (proj2 (K _ _) (inside_here e))). unfold nesting_issue in H. destruct (loops e) eqn:Le.
          + destruct (Z.ltb_spec limit (nesting [e])); [discriminate|assumption].
          + unfold nesting. cbn [filter]. rewrite Le. cbn. lia.
        - specialize (H (y :: above, x)) as Hx. rewrite K in Hx. specialize (Hx (inside_part e above y x I Cx)). unfold nesting_issue in Hx. destruct (loops x) eqn:Lx.
          + destruct (Z.ltb_spec limit (nesting (x :: y :: above))); [discriminate|assumption].
          + unfold nesting in IH |- *. cbn [filter] in IH |- *. rewrite Lx. exact IH. }
      intros H. now apply G.
    - intros H [above x] Hv. apply K in Hv. specialize (H _ _ Hv). unfold nesting_issue. destruct (Z.ltb_spec limit (nesting (x :: above))); [lia|]. now rewrite andb_false_r. }
  destruct (found (nesting_issue limit) vs) as [|y r] eqn:Ef; cbn [firstn].
  - split; [|split; [reflexivity|discriminate]]. rewrite <- U. split; reflexivity.
  - split; [rewrite <- U; split; discriminate|]. split; [discriminate|]. intros _.
    assert (In y (found (nesting_issue limit) vs)) as Hy by (rewrite Ef; now left). apply in_found in Hy as ([above x] & Hv & Fx).
    apply K in Hv. exists above, x. split; [exact Hv|]. unfold nesting_issue in Fx. destruct (loops x); [|discriminate]. cbn [andb] in Fx.
    destruct (Z.ltb_spec limit (nesting (x :: above))); [|discriminate]. injection Fx as <-. auto.
Qed.
Print Assumptions C114_nesting.
(* [1].all(x, [2].all(y, []... )), with the innermost range empty *)
Definition loop (id : Z) (range step : Expr) : Expr :=
  Comprehension id "x" "" "a" (Some range) (Some (Const (id + 1) (CBool true))) (Some (Const (id + 2) (CBool true))) (Some step) (Some (Ident (id + 3) "a")).
Definition nested : Expr :=
  loop 10 (ListE 20 [(Some (Const 21 (CInt 1)), false)]) (loop 30 (ListE 40 [(Some (Const 41 (CInt 2)), false)]) (loop 50 (ListE 60 []) (Const 61 (CBool true)))).
Example C114_used : exists md, Build 400 nested = Some (Val md) /\
  ComprehensionNestingLimitValidator 2 (mkContext md []) = Val (true, []) /\
  ComprehensionNestingLimitValidator 1 (mkContext md []) = Val (false, [mkIssue true (Some 30) (NestingExceeds 2)]) /\
  AstDepthValidator 4 (mkContext md []) = Val (true, []) /\ fst (match AstDepthValidator 3 (mkContext md []) with Val r => r | _ => (true, []) end) = false.
Proof. eexists. split; [vm_compute; reflexivity|]. repeat split. Qed.

(* A validator is valid when all its validations are, and reports all they report in
   turn. *)
Theorem C114_all : forall vs c rs, Forall2 (fun v r => v c = Val r) vs rs ->
  exists valid, Validate vs c = Val (valid, concat (map snd rs)) /\ (valid = true <-> Forall (fun r => fst r = true) rs).
Proof.
  intros vs c rs F. induction F as [|v r vs rs V F IH].
  - exists true. split; [reflexivity|]. split; [constructor|reflexivity].
  - destruct IH as (valid & E & H). unfold Validate in *. cbn [run_all map concat]. rewrite V. cbn [obind]. rewrite E. cbn [obind].
    exists (fst r && valid). split; [reflexivity|]. rewrite andb_true_iff, H. split; [intros [A B]; now constructor|]. intros A. inversion A; subst. auto.
Qed.
Print Assumptions C114_all.
(* A checked expression is kept when it was valid and the validator finds it so; earlier
   issues stay, and a result without one is left alone. *)
Theorem C114_update : forall vs r valid issues,
  match r_ast r with Some c => Validate vs c = Val (valid, issues) | None => valid = false /\ issues = [] end ->
  exists r', UpdateValidationResult vs r = Val r' /\ r_ast r' = (if valid then r_ast r else None) /\ r_issues r' = r_issues r ++ issues.
Proof.
  intros vs [a is] valid issues H. cbn in H. unfold UpdateValidationResult. destruct a as [c|]; cbn [r_ast r_issues] in *.
  - rewrite H. cbn [obind fst snd]. eexists. split; [reflexivity|]. split; reflexivity.
  - destruct H as [-> ->]. eexists. split; [reflexivity|]. cbn. now rewrite app_nil_r.
Qed.
Print Assumptions C114_update.
Example C114_update_used : exists md, Build 400 nested = Some (Val md) /\
  exists r, UpdateValidationResult [AstDepthValidator 10; ComprehensionNestingLimitValidator 1] (mkResult (Some (mkContext md [])) []) = Val r /\
    r_ast r = None /\ length (r_issues r) = 1%nat.
Proof. eexists. split; [vm_compute; reflexivity|]. eexists. split; [vm_compute; reflexivity|]. split; reflexivity. Qed.

(** ** C115 *)
Definition validator_of (f : conversion) : option (string * Validation) :=
  match f with
  | ToTimestamp => Some ("timestamp"%string, TimestampLiteralValidator)
  | ToDuration => Some ("duration"%string, DurationLiteralValidator)
  | _ => None
  end.
(* The validators of timestamps and durations report the literals whose conversion at
   run time is an error, with the range of timestamps checked, and no others. *)
Theorem C115_literals : forall fd ad o f name validation fuel e md types,
  validator_of f = Some (name, validation) -> enable_timestamp_duration_overflow_errors o = true ->
  Build fuel e = Some (Val md) ->
  exists valid issues, validation (mkContext md types) = Val (valid, issues) /\
    (valid = true <-> forall id k, literal_call e name id k -> ~ conversion_fails fd ad o f k) /\
    (valid = true <-> issues = []) /\
    (forall id, (exists x, In x issues /\ i_at x = Some id) <-> exists k, literal_call e name id k /\ conversion_fails fd ad o f k) /\
    (forall x, In x issues -> i_error x = true /\ exists id, i_at x = Some id).
Proof.
  intros fd ad o f name validation fuel e md types V O B.
  assert (W : exists wrong, validation = over_nodes false (literal_check name wrong) /\ forall k, conversion_fails fd ad o f k <-> exists m, wrong k = Some m).
  { destruct f; try discriminate; injection V as <- <-.
    - exists duration_literal. split; [reflexivity|]. intros k. apply duration_fails.
    - exists timestamp_literal. split; [reflexivity|]. intros k. now apply timestamp_fails. }
  destruct W as (wrong & -> & W).
  destruct (over_found fuel e md types false (literal_check name wrong) (literal_issue name wrong) B) as (vs & K & E).
  { intros j n above x Sj _ N. eapply literal_says; eauto. }
  cbv zeta in E. rewrite E. eexists _, _. split; [reflexivity|].
  assert (In1 : forall y, In y (found (literal_issue name wrong) vs) <-> exists id k m, literal_call e name id k /\ wrong k = Some m /\ y = mkIssue true (Some id) m).
  { intros y. rewrite in_found. split.
    - intros ([above x] & Hv & Fx). apply K in Hv. eapply literal_in; eauto.
    - intros (id & k & m & C & Wk & ->). destruct (literal_from name wrong e id k m C Wk) as (above & x & I & Fx). exists (above, x). split; [now apply K|exact Fx]. }
  assert (Emp : found (literal_issue name wrong) vs = [] <-> forall id k, literal_call e name id k -> ~ conversion_fails fd ad o f k).
  { split.
    - intros En id k C Fl. apply W in Fl as (m & Wk). assert (In (mkIssue true (Some id) m) (found (literal_issue name wrong) vs)) as H by (apply In1; eauto 7). rewrite En in H. easy.
    - intros H. destruct (found (literal_issue name wrong) vs) as [|y r] eqn:Ef; [reflexivity|]. destruct (proj1 (In1 y) (or_introl eq_refl)) as (id & k & m & C & Wk & _).
      exfalso. apply (H id k C). apply W. eauto. }
  split; [rewrite <- Emp; destruct (found (literal_issue name wrong) vs); split; congruence|].
  split; [destruct (found (literal_issue name wrong) vs); split; congruence|]. split.
  - intros id. split.
    + intros (y & Hy & Hat). apply In1 in Hy as (id' & k & m & C & Wk & ->). cbn in Hat. injection Hat as ->. exists k. split; [exact C|]. apply W. eauto.
    + intros (k & C & Fl). apply W in Fl as (m & Wk). exists (mkIssue true (Some id) m). split; [apply In1; eauto 7|reflexivity].
  - intros y Hy. apply In1 in Hy as (id' & k & m & C & Wk & ->). cbn. eauto.
Qed.
Print Assumptions C115_literals.
(* What they accept does not fail at run time whatever the options. *)
Theorem C115_accepted : forall fd ad o f name validation fuel e md types issues,
  validator_of f = Some (name, validation) -> Build fuel e = Some (Val md) -> validation (mkContext md types) = Val (true, issues) ->
  forall id k, literal_call e name id k -> ~ conversion_fails fd ad o f k.
Proof.
  intros fd ad o f name validation fuel e md types issues V B A id k C Fl.
  set (o' := mkConv true (enable_string_conversion o) (debug_build o)).
  destruct (C115_literals fd ad o' f name validation fuel e md types V eq_refl B) as (valid & is & E & H & _). rewrite A in E. injection E as <- <-.
  apply (proj1 H eq_refl id k C). destruct f; try discriminate.
  - apply (duration_fails fd ad o'). now apply (duration_fails fd ad o).
  - apply (timestamp_fails fd ad o' k eq_refl). now apply (timestamp_fails_any fd ad o).
Qed.
Print Assumptions C115_accepted.
(* [timestamp("1h"), timestamp(253402300800), duration("1h"), duration("x")] *)
Definition times : Expr :=
  let text s := map (fun a => Z.of_nat (Ascii.nat_of_ascii a)) (list_ascii_of_string s) in
  ListE 1 [(Some (Call 2 "timestamp" None [Const 3 (CString (text "1h"))]), false);
           (Some (Call 4 "timestamp" None [Const 5 (CInt 253402300800)]), false);
           (Some (Call 6 "duration" None [Const 7 (CString (text "1h"))]), false);
           (Some (Call 8 "duration" None [Const 9 (CString (text "x"))]), false)]%string.
Example C115_used : exists md, Build 100 times = Some (Val md) /\
  TimestampLiteralValidator (mkContext md []) = Val (false, [mkIssue true (Some 3) InvalidLiteral; mkIssue true (Some 5) InvalidLiteralRange]) /\
  DurationLiteralValidator (mkContext md []) = Val (false, [mkIssue true (Some 9) InvalidLiteral]).
Proof. eexists. split; [vm_compute; reflexivity|]. split; vm_compute; reflexivity. Qed.

(** ** C116 *)
(* Two types are equivalent for the validator when they are equal with wrappers taken
   for what they wrap ... *)
Theorem C116_types : forall a b, flawless a = true -> flawless b = true -> TypeEquiv a b = true <-> alike a b.
Proof. intros a b A B. now rewrite (equiv_alike a b A B). Qed.
Print Assumptions C116_types.
(* ... which is an equivalence. *)
Theorem C116_equivalence : forall a b c, flawless a = true -> flawless b = true -> flawless c = true ->
  TypeEquiv a a = true /\ (TypeEquiv a b = true -> TypeEquiv b a = true) /\ (TypeEquiv a b = true -> TypeEquiv b c = true -> TypeEquiv a c = true).
Proof.
  intros a b c A B C. rewrite !C116_types by assumption. split; [apply alike_refl|]. split; [apply alike_sym|apply alike_trans].
Qed.
Print Assumptions C116_equivalence.

(* An expression is accepted when, away from calls of the exempt functions, the elements
   of each list literal are alike, and so are the keys and the values of each map
   literal; otherwise elements are reported. *)
Theorem C116_homogeneous_partial : forall fuel e md types exempt, Build fuel e = Some (Val md) ->
  NoDup (map fst types) -> (forall id ps, In (id, SAbstract "optional_type" ps) types -> ps <> []) ->
  (forall id t, In (id, t) types -> flawless t = true) ->
  exists valid issues, HomogeneousLiteralValidator exempt (mkContext md types) = Val (valid, issues) /\
    (valid = true <-> forall above x, inside e above x -> ~ in_call_of exempt above ->
       match x with ListE _ elements => even_list types elements | MapE _ entries => even_map types entries | _ => True end) /\
    (valid = true <-> issues = []) /\
    (forall y, In y issues -> i_error y = true /\ exists above x, inside e above x /\ ~ in_call_of exempt above /\
       match x with
       | ListE _ elements => exists a o, In (a, o) elements /\ i_at y = Some (id_of a)
       | MapE _ entries => exists i k v o, In (i, k, v, o) entries /\ (i_at y = Some (id_of k) \/ i_at y = Some (id_of v))
       | _ => False
       end).
Proof.
  intros fuel e md types exempt B Nd Op So.
  pose (f := fun v : list Expr * Expr =>
    if existsb (fun a => match a with Call _ g _ _ => existsb (String.eqb g) exempt | _ => false end) (fst v) then None
    else match snd v with
         | ListE _ elements => match check_elements (mkContext md types) None elements with Val r => r | _ => None end
         | MapE _ entries => match check_entries (mkContext md types) None entries with Val r => r | _ => None end
         | _ => None
         end).
  assert (Ex : forall above, existsb (fun a => match a with Call _ g _ _ => existsb (String.eqb g) exempt | _ => false end) above = true <-> in_call_of exempt above).
  { intros above. rewrite existsb_exists. split.
    - intros (a & Ha & Ea). destruct a as [| | | |i g t args| | | |]; try discriminate. apply existsb_exists in Ea as (g' & G & Eg). apply String.eqb_eq in Eg as <-. exists i, g, t, args. auto.
    - intros (i & g & t & args & Ha & G). exists (Call i g t args). split; [exact Ha|]. apply existsb_exists. exists g. split; [exact G|apply String.eqb_refl]. }
  destruct (over_found fuel e md types false (homogeneous_check exempt) f B) as (vs & K & E).
  { intros j n above x (n' & N' & En & Kn & In' & C & L & _) _ N. rewrite N in N'. injection N' as <-. cbn [fst snd] in *.
    unfold homogeneous_check, InExemptFunction, f. cbn [fst snd c_ast]. rewrite En.
    destruct (exempt_up_says md exempt (n_parent n) above (length (m_nodes md)) C ltac:(lia)) as (b & Eb & Hb).
    assert (existsb (fun a => match a with Call _ g _ _ => existsb (String.eqb g) exempt | _ => false end) above = b) as ->.
    { destruct b; [apply Ex, Hb; reflexivity|]. apply not_true_is_false. intros H. apply Ex, Hb in H. discriminate. }
    destruct x as [| | | | |i els|i nm fs|i ens|]; try (now destruct b).
    - rewrite Eb. cbn [obind]. destruct b; [reflexivity|]. destruct (elements_say md types Nd Op So els None) as (r & Er & _); [discriminate|]. now rewrite Er.
    - rewrite Eb. cbn [obind]. destruct b; [reflexivity|]. destruct (entries_say md types Nd Op So ens None) as (r & Er & _); [discriminate|]. now rewrite Er. }
  unfold HomogeneousLiteralValidator. cbv zeta in E. rewrite E. eexists _, _. split; [reflexivity|].
  assert (Each : forall above x, f (above, x) = None <-> (~ in_call_of exempt above ->
       match x with ListE _ elements => even_list types elements | MapE _ entries => even_map types entries | _ => True end)).
  { intros above x. unfold f. cbn [fst snd]. rewrite <- Ex. destruct (existsb _ above).
    - split; [intros _ H; exfalso; now apply H|reflexivity].
    - destruct x as [| | | | |i els|i nm fs|i ens|]; try (now split).
      + destruct (elements_say md types Nd Op So els None) as (r & Er & Hr & _); [discriminate|]. rewrite Er, Hr. split; [intros [_ H] _; exact H|].
        intros H. split; [discriminate|]. now apply H.
      + destruct (entries_say md types Nd Op So ens None) as (r & Er & Hr & _); [discriminate|]. rewrite Er, Hr. split; [intros [_ H] _; exact H|].
        intros H. split; [discriminate|]. now apply H. }
  assert (U : found f vs = [] <-> forall above x, inside e above x -> ~ in_call_of exempt above ->
       match x with ListE _ elements => even_list types elements | MapE _ entries => even_map types entries | _ => True end).
  { rewrite found_nil. split.
    - intros H above x I. apply Each. apply H. now apply K.
    - intros H [above x] Hv. apply Each. apply H. now apply K. }
  split; [rewrite <- U; destruct (found f vs); split; congruence|]. split; [destruct (found f vs); split; congruence|].
  intros y Hy. apply in_found in Hy as ([above x] & Hv & Fx). apply K in Hv. unfold f in Fx. cbn [fst snd] in Fx.
  destruct (existsb _ above) eqn:Eb in Fx; [discriminate|].
  assert (Nx : ~ in_call_of exempt above) by (rewrite <- Ex; congruence).
  destruct x as [| | | | |i els|i nm fs|i ens|]; try discriminate.
  - destruct (elements_say md types Nd Op So els None) as (r & Er & _ & Rep); [discriminate|]. rewrite Er in Fx. destruct (Rep y Fx) as [R1 R2].
    split; [exact R1|]. exists above, (ListE i els). auto.
  - destruct (entries_say md types Nd Op So ens None) as (r & Er & _ & Rep); [discriminate|]. rewrite Er in Fx. destruct (Rep y Fx) as [R1 R2].
    split; [exact R1|]. exists above, (MapE i ens). auto.
Qed.
Print Assumptions C116_homogeneous_partial.
(* [a, b] and f([1, "s"]) with f exempt, where a is an int and b a wrapped int *)
Example C116_used :
  let int := SPrimitive PrInt64 in
  let types := [(2, int); (3, SWrapper PrInt64); (12, int); (13, SPrimitive PrString)] in
  let mixed := ListE 11 [(Some (Ident 12 "c"), false); (Some (Ident 13 "d"), false)] in
  let e := ListE 1 [(Some (Ident 2 "a"), false); (Some (Ident 3 "b"), false)] in
  (exists md, Build 100 e = Some (Val md) /\ HomogeneousLiteralValidator [] (mkContext md types) = Val (true, [])) /\
  (exists md, Build 100 (Call 10 "f" None [mixed]) = Some (Val md) /\ HomogeneousLiteralValidator ["f"] (mkContext md types) = Val (true, []) /\
     HomogeneousLiteralValidator ["g"] (mkContext md types) = Val (false, [mkIssue true (Some 13) (ExpectedType int (SPrimitive PrString))])).
Proof. cbv zeta. split; eexists; (split; [vm_compute; reflexivity|]); [reflexivity|split; reflexivity]. Qed.
(* An element of error type is like all others: [error, 1, "s"] is accepted, although
   1 and "s" are not alike, while [1, error, "s"] is not. *)
Theorem C116_error_refuted : exists e e' md md' types,
  Build 100 e = Some (Val md) /\ Build 100 e' = Some (Val md') /\
  e = ListE 1 [(Some (Ident 2 "x"), false); (Some (Ident 3 "y"), false); (Some (Ident 4 "z"), false)] /\
  e' = ListE 1 [(Some (Ident 3 "y"), false); (Some (Ident 2 "x"), false); (Some (Ident 4 "z"), false)] /\
  HomogeneousLiteralValidator [] (mkContext md types) = Val (true, []) /\
  exists issues, HomogeneousLiteralValidator [] (mkContext md' types) = Val (false, issues).
Proof.
  eexists _, _, _, _, [(2, SError); (3, SPrimitive PrInt64); (4, SPrimitive PrString)]. repeat (apply conj).
  3: reflexivity. 3: reflexivity. 1-2: vm_compute; reflexivity. 1: reflexivity. eexists; reflexivity.
Qed.
Print Assumptions C116_error_refuted.
(* An optional element whose type is optional_type without a parameter is undefined. *)
Theorem C116_parameter_refuted : exists e md types,
  Build 100 e = Some (Val md) /\ HomogeneousLiteralValidator [] (mkContext md types) = UB.
Proof.
  exists (ListE 1 [(Some (Ident 2 "x"), true)]). eexists _, [(2, SAbstract "optional_type" [])]. split; [vm_compute; reflexivity|reflexivity].
Qed.
Print Assumptions C116_parameter_refuted.

(** ** C117 *)
(* The validator of patterns reports the literal patterns of the functions given that
   are not regular expressions, and no others. *)
Theorem C117_patterns : forall ok config fuel e md types, Build fuel e = Some (Val md) ->
  exists valid issues, RegexPatternValidator ok config (mkContext md types) = Val (valid, issues) /\
    (valid = true <-> forall id s, pattern_of (pairs config) e id s -> ok s = true) /\
    (valid = true <-> issues = []) /\
    (forall id, (exists x, In x issues /\ i_at x = Some id) <-> exists s, pattern_of (pairs config) e id s /\ ok s = false) /\
    (forall x, In x issues -> i_error x = true /\ exists id, i_at x = Some id).
Proof.
  intros ok config fuel e md types B.
  destruct (over_found fuel e md types false (regex_check ok config) (regex_issue ok config) B) as (vs & K & E).
  { intros j n above x Sj _ N. eapply regex_says; eauto. }
  unfold RegexPatternValidator. cbv zeta in E. rewrite E. eexists _, _. split; [reflexivity|].
  assert (In1 : forall y, In y (found (regex_issue ok config) vs) <-> exists id s, pattern_of (pairs config) e id s /\ ok s = false /\ y = mkIssue true (Some id) InvalidLiteral).
  { intros y. rewrite in_found. split.
    - intros ([above x] & Hv & Fx). apply K in Hv. unfold regex_issue in Fx. cbn [snd] in Fx. destruct x as [| | | |i f t args| | | |]; try discriminate.
      apply (configs_say ok config i) in Fx as (b & k & a & id & s & Ec & Nb & Kk & En & Os & ->). exists id, s. split; [|auto].
      exists above, i, f, t, args, b, k, a. auto 10.
    - intros (id & s & (above & i & f & t & args & b & k & a & I & Ec & Nb & Kk & En) & Os & ->). exists (above, Call i f t args). split; [now apply K|].
      unfold regex_issue. cbn [snd]. apply (configs_say ok config i). exists b, k, a, id, s. auto 10. }
  assert (Emp : found (regex_issue ok config) vs = [] <-> forall id s, pattern_of (pairs config) e id s -> ok s = true).
  { split.
    - intros En id s P. destruct (ok s) eqn:Os; [reflexivity|]. assert (In (mkIssue true (Some id) InvalidLiteral) (found (regex_issue ok config) vs)) as H by (apply In1; eauto 6).
      rewrite En in H. easy.
    - intros H. destruct (found (regex_issue ok config) vs) as [|y r] eqn:Ef; [reflexivity|]. destruct (proj1 (In1 y) (or_introl eq_refl)) as (id & s & P & Os & _).
      exfalso. rewrite (H id s P) in Os. discriminate. }
  split; [rewrite <- Emp; destruct (found (regex_issue ok config) vs); split; congruence|].
  split; [destruct (found (regex_issue ok config) vs); split; congruence|]. split.
  - intros id. split.
    + intros (y & Hy & Hat). apply In1 in Hy as (id' & s & P & Os & ->). cbn in Hat. injection Hat as ->. eauto.
    + intros (s & P & Os). exists (mkIssue true (Some id) InvalidLiteral). split; [apply In1; eauto 6|reflexivity].
  - intros y Hy. apply In1 in Hy as (id' & s & P & Os & ->). cbn. eauto.
Qed.
Print Assumptions C117_patterns.
(* x.matches("(") and matches("(", "a"): the pattern is the second operand *)
Example C117_used :
  let ok s := match s with [40] => false | _ => true end in
  let config := [mkPattern "matches" 1; mkPattern "matches" 0] in
  (exists md, Build 100 (Call 1 "matches" (Some (Ident 2 "x")) [Const 3 (CString [40])]) = Some (Val md) /\
     RegexPatternValidator ok config (mkContext md []) = Val (false, [mkIssue true (Some 3) InvalidLiteral])) /\
  (exists md, Build 100 (Call 1 "matches" None [Const 2 (CString [40]); Const 3 (CString [97])]) = Some (Val md) /\
     RegexPatternValidator ok config (mkContext md []) = Val (true, [])).
Proof. cbv zeta. split; eexists; (split; [vm_compute; reflexivity|reflexivity]). Qed.
