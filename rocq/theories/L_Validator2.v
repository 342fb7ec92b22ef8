(* Lemmas on each validator. *)
From Coq Require Import ZArith String List Bool Lia.
From Verif Require Import Base M_Overflow M_Number M_Value M_Ast S_Ast L_Ast L_Ast2 L_Ast3 M_AstProto L_AstProto3.
From Verif Require Import M_Civil M_Convert.
From Verif Require Import M_Validator S_Validator L_Validator.
Import ListNotations.
Open Scope list_scope.
Open Scope Z_scope.

(** ** Nesting *)
Lemma loops_counted n : n_node_kind n = GetNodeKind (n_expr n) -> counted n = loops (n_expr n).
Proof.
  intros K. unfold counted. rewrite K. destruct (n_expr n) as [| | | | | | | |i v v2 a r ai lc ls re]; try reflexivity.
  cbn. destruct r as [[]|]; try reflexivity. now destruct elements.
Qed.
Lemma count_up_nesting md cur above fuel : chain md cur above -> (length above <= fuel)%nat -> count_up fuel md cur = Val (nesting above).
Proof.
  intros C. revert fuel. induction C as [|i n above N K C IH]; intros fuel L; [now destruct fuel|].
  destruct fuel as [|fuel]; [cbn in L; lia|]. cbn [count_up]. unfold at_index. rewrite N. cbn [obind].
  rewrite IH by (cbn in L; lia). cbn [obind]. rewrite (loops_counted n K). unfold nesting. cbn [filter].
  destruct (loops (n_expr n)); cbn [length]; [rewrite Nat2Z.inj_succ; f_equal; lia|reflexivity].
Qed.
Definition nesting_issue (limit : Z) (v : list Expr * Expr) : option issue :=
  let '(above, x) := v in
  if loops x && (limit <? nesting (x :: above)) then Some (mkIssue true (Some (expr_id x)) (NestingExceeds (nesting (x :: above)))) else None.
Lemma loops_kind x : loops x = (match GetNodeKind x with kComprehension => true | _ => false end) && negb (IsEmptyRangeComprehension x).
Proof. destruct x as [| | | | | | | |i v v2 a r ai lc ls re]; try reflexivity. cbn. destruct r as [[]|]; try reflexivity. now destruct elements. Qed.
Lemma nesting_says limit md types j n above x : sees md j (above, x) -> nth_error (m_nodes md) j = Some n ->
  nesting_check limit (mkContext md types) n = Val (nesting_issue limit (above, x)).
Proof.
  intros (n' & N' & E & K & I & C & L & _) N. rewrite N in N'. injection N' as <-. cbn [fst snd] in *.
  unfold nesting_check, nesting_issue. rewrite loops_kind, K, E. destruct (GetNodeKind x) eqn:G; cbn [negb andb]; try reflexivity.
  destruct (IsEmptyRangeComprehension x) eqn:R; [reflexivity|]. cbn [negb andb c_ast]. rewrite I.
  rewrite (count_up_nesting md (Some j) (x :: above)); [cbn [obind]; now destruct (limit <? nesting (x :: above))| |cbn; lia].
  rewrite <- E. apply (chain_node md j n above); [exact N|rewrite K, E; now symmetry|exact C].
Qed.
(** ** Literals *)
Definition literal_issue (function : string) (wrong : constant -> option complaint) (v : list Expr * Expr) : option issue :=
  match snd v with
  | Call _ f _ _ =>
      if String.eqb f function then
        match children (snd v) with
        | [Const id k] => match wrong k with Some m => Some (mkIssue true (Some id) m) | None => None end
        | _ => None
        end
      else None
  | _ => None
  end.
Lemma literal_says function wrong md types j n above x : sees md j (above, x) -> nth_error (m_nodes md) j = Some n ->
  literal_check function wrong (mkContext md types) n = Val (literal_issue function wrong (above, x)).
Proof.
  intros (n' & N' & E & _ & _ & _ & _ & C) N. rewrite N in N'. injection N' as <-. cbn [fst snd] in *.
  unfold literal_check, literal_issue. cbn [snd]. rewrite E. destruct x as [| | | |i f t args| | | |]; try reflexivity.
  destruct (String.eqb f function); [|reflexivity]. cbn [negb].
  destruct C as [|j1 c1 js cs (m & M & Em) C]; [reflexivity|]. destruct C as [|j2 c2 js cs' _ _]; [|now destruct c1].
  unfold at_index. cbn [c_ast]. rewrite M. cbn [obind]. rewrite Em. destruct c1; try reflexivity. now destruct (wrong c).
Qed.
Lemma literal_in function wrong e above x y : inside e above x -> literal_issue function wrong (above, x) = Some y ->
  exists id k m, literal_call e function id k /\ wrong k = Some m /\ y = mkIssue true (Some id) m.
Proof.
  intros I. unfold literal_issue. cbn [snd]. destruct x as [| | | |i f t args| | | |]; try discriminate.
  destruct (String.eqb_spec f function) as [->|]; [|discriminate]. destruct (children (Call i function t args)) as [|[] [|]] eqn:Ec; try discriminate.
  destruct (wrong c) as [m|] eqn:W; [|discriminate]. intros [= <-]. exists id, c, m. split; [|auto]. exists above, i, t, args. auto.
Qed.
Lemma literal_from function wrong e id k m : literal_call e function id k -> wrong k = Some m ->
  exists above x, inside e above x /\ literal_issue function wrong (above, x) = Some (mkIssue true (Some id) m).
Proof.
  intros (above & i & t & args & I & Ec) W. exists above, (Call i function t args). split; [exact I|].
  unfold literal_issue. cbn [snd]. rewrite String.eqb_refl, Ec, W. reflexivity.
Qed.
Section Fails.
  Variable fd : double -> list Z.
  Variable ad : list Z -> option double.
  Lemma range_time o t : enable_timestamp_duration_overflow_errors o = true ->
    (exists s, checked_timestamp o t = Val (VError s)) <-> (match ValidateTimestamp t with Val _ => false | _ => true end) = true.
  Proof.
    intros O. unfold checked_timestamp, ValidateTimestamp, error_value. rewrite O. cbn [andb].
    destruct (time_below t MinTimestampNs); cbn [orb]; [split; eauto|]. destruct (time_above t MaxTimestampNs); [split; eauto|split; [intros (s & E); discriminate|discriminate]].
  Qed.
  Lemma timestamp_fails o k : enable_timestamp_duration_overflow_errors o = true ->
    conversion_fails fd ad o ToTimestamp k <-> exists m, timestamp_literal k = Some m.
  Proof.
    intros O. unfold conversion_fails, timestamp_literal. split.
    - intros (v & s & V & C). destruct k; cbn in V; try discriminate; injection V as <-; cbn in C; try discriminate; injection C as C.
      + assert (H : exists s, checked_timestamp o (FromUnixSeconds n) = Val (VError s)) by eauto. apply range_time in H; [|exact O].
        destruct (ValidateTimestamp (FromUnixSeconds n)); [discriminate|eauto|eauto].
      + unfold string_to_timestamp in C. destruct (ParseTime s0) as [t|]; [|eauto].
        assert (H : exists s, checked_timestamp o t = Val (VError s)) by eauto. apply range_time in H; [|exact O].
        destruct (ValidateTimestamp t); [discriminate|eauto|eauto].
      + unfold TimestampValue in C. destruct (debug_build o); [destruct (ValidateTimestamp t)|]; discriminate.
    - intros (m & M). destruct k; try discriminate.
      + exists (VInt n). cbn. assert (H : exists s, checked_timestamp o (FromUnixSeconds n) = Val (VError s)).
        { apply range_time; [exact O|]. destruct (ValidateTimestamp (FromUnixSeconds n)); congruence. }
        destruct H as (s & ->). eauto.
      + exists (VString s). cbn. unfold string_to_timestamp, error_value. destruct (ParseTime s) as [t|]; [|eauto].
        assert (H : exists s, checked_timestamp o t = Val (VError s)).
        { apply range_time; [exact O|]. destruct (ValidateTimestamp t); congruence. }
        destruct H as (s' & ->). eauto.
  Qed.
  (* with the checks off only fewer literals fail *)
  Lemma timestamp_fails_any o k : conversion_fails fd ad o ToTimestamp k -> exists m, timestamp_literal k = Some m.
  Proof.
    intros (v & s & V & C). apply (timestamp_fails (mkConv true (enable_string_conversion o) (debug_build o)) k eq_refl).
    exists v. destruct k; cbn in V; try discriminate; injection V as <-; cbn in C |- *; try discriminate.
    - unfold checked_timestamp in *. cbn [enable_timestamp_duration_overflow_errors]. destruct (enable_timestamp_duration_overflow_errors o); cbn [andb] in *; [|discriminate].
      exists s. auto.
    - unfold string_to_timestamp, checked_timestamp in *. cbn [enable_timestamp_duration_overflow_errors].
      destruct (ParseTime s0) as [t|]; [|eauto]. destruct (enable_timestamp_duration_overflow_errors o); cbn [andb] in *; [|discriminate]. exists s. auto.
    - exists s. split; [reflexivity|]. exact C.
  Qed.
  Lemma duration_fails o k : conversion_fails fd ad o ToDuration k <-> exists m, duration_literal k = Some m.
  Proof.
    unfold conversion_fails, duration_literal. split.
    - intros (v & s & V & C). destruct k; cbn in V; try discriminate; injection V as <-; cbn in C; try discriminate; injection C as C.
      + unfold CreateDurationFromString in C. destruct (ParseDuration s0) as [d|]; [|eauto]. unfold or_error, DurationValue in C.
        destruct (ValidateDuration d) eqn:Ev; [|eauto|eauto]. destruct (debug_build o); try rewrite Ev in C; discriminate.
      + unfold DurationValue in C. destruct (debug_build o); [destruct (ValidateDuration d)|]; discriminate.
    - intros (m & M). destruct k; try discriminate. exists (VString s). cbn. unfold CreateDurationFromString, error_value.
      destruct (ParseDuration s) as [d|]; [|eauto]. unfold or_error, ValidateDuration, error_value in *.
      destruct (dur_below d MinDurationNs); [eauto|]. destruct (dur_above d MaxDurationNs); [eauto|discriminate].
  Qed.
End Fails.

(** ** Patterns *)
Section Patterns.
  Variable ok : list Z -> bool.
  Lemma arguments_snd i args : map snd (arguments i args) = args.
  Proof. revert i. induction args as [|a args IH]; intros i; cbn; [reflexivity|]. now rewrite IH. Qed.
  Lemma pattern_at i f target args k : pattern_expr target args k = if k <? 0 then None else nth_error (children (Call i f target args)) (Z.to_nat k).
  Proof.
    unfold pattern_expr, element_at, children. cbn [parts]. rewrite map_app, arguments_snd. destruct target as [t|]; cbn [present map app]; [|reflexivity].
    destruct (Z.eqb_spec k 0) as [->|]; [reflexivity|]. destruct (Z.ltb_spec k 0), (Z.ltb_spec (k - 1) 0); try lia; [reflexivity|].
    replace (Z.to_nat k) with (S (Z.to_nat (k - 1))) by lia. reflexivity.
  Qed.
  Definition pairs (config : list RegexPatternValidatorConfig) : list (string * Z) := map (fun k => (function_name k, pattern_arg_index k)) config.
  Definition regex_issue (config : list RegexPatternValidatorConfig) (v : list Expr * Expr) : option issue :=
    match snd v with Call _ f target args => check_configs ok config f target args | _ => None end.
  Lemma regex_says config md types j n above x : sees md j (above, x) -> nth_error (m_nodes md) j = Some n ->
    regex_check ok config (mkContext md types) n = Val (regex_issue config (above, x)).
  Proof.
    intros (n' & N' & E & _) N. rewrite N in N'. injection N' as <-. cbn [fst snd] in E. unfold regex_check, regex_issue. cbn [snd]. rewrite E. now destruct x.
  Qed.
  Lemma configs_say config i f target args y : check_configs ok config f target args = Some y <->
    exists before k after id s, pairs config = before ++ (f, k) :: after /\ ~ In f (map fst before) /\ 0 <= k /\
      nth_error (children (Call i f target args)) (Z.to_nat k) = Some (Const id (CString s)) /\ ok s = false /\ y = mkIssue true (Some id) InvalidLiteral.
  Proof.
    induction config as [|[g k] config IH]; cbn [check_configs pairs map function_name pattern_arg_index].
    - split; [discriminate|]. intros (b & k & a & id & s & E & _). destruct b; discriminate.
    - destruct (String.eqb_spec f g) as [<-|Ne].
      + unfold CheckPattern. rewrite (pattern_at i f). split.
        * destruct (Z.ltb_spec k 0); [discriminate|]. destruct (nth_error _ _) as [[|id c| | | | | | |]|] eqn:En; try discriminate.
          destruct c as [| | | | | | |s| |]; try discriminate. destruct (ok s) eqn:Os; cbn [negb]; [discriminate|]. intros [= <-].
          exists [], k, (pairs config), id, s. repeat split; auto.
        * intros (b & k' & a & id & s & E & Nb & K & En & Os & ->). destruct b as [|p b].
          -- injection E as <- _. destruct (Z.ltb_spec k 0); [lia|]. rewrite En, Os. reflexivity.
          -- injection E as <- _. exfalso. apply Nb. now left.
      + rewrite IH. split.
        * intros (b & k' & a & id & s & E & Nb & R). exists ((g, k) :: b), k', a, id, s. split; [cbn; f_equal; exact E|]. split; [|exact R].
          cbn. intros [->|H]; [now apply Ne|now apply Nb].
        * intros (b & k' & a & id & s & E & Nb & R). destruct b as [|p b]; [injection E as -> _ _; now exfalso|]. injection E as _ E.
          exists b, k', a, id, s. split; [exact E|]. split; [|exact R]. intros H. apply Nb. now right.
  Qed.
End Patterns.
