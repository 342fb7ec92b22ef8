(* Composition gives what the policy means. *)
From Coq Require Import ZArith List Bool String Ascii Lia.
From Verif Require Import Base M_Overflow M_Number M_Attr M_Value M_Logic M_Expr M_Machine M_Macro M_Registry
  S_Eval S_Macro S_Func L_Core L_Meaning L_Macro P_Macro2.
From Verif Require Import M_Policy S_Policy L_Policy.
Import ListNotations.
Local Open Scope string_scope.
Open Scope list_scope.
Open Scope Z_scope.
Local Open Scope out_scope.

Notation mtch := (option expr * (expr + rule))%type.
Definition on_nested (Q : rule -> Prop) (m : mtch) : Prop := match snd m with inl _ => True | inr r => Q r end.
Lemma rule_ind' (Q : rule -> Prop) :
  (forall vars ms, Forall (on_nested Q) ms -> Q (Rule vars ms)) -> forall r, Q r.
Proof.
  intros H. fix IH 1. intros [vars ms]. apply H.
  exact ((fix go (l : list mtch) : Forall (on_nested Q) l :=
            match l with
            | [] => Forall_nil _
            | m :: l' => @Forall_cons _ (on_nested Q) m l'
                           (match m with (c, inl e) => I | (c, inr r) => IH r end) (go l')
            end) ms).
Qed.

Lemma trivial_eq c : unconditional c = IsTriviallyTrueCondition c.
Proof. destruct c as [[[| [] | | | | | | | | | | | | |]| | | | | |]|]; reflexivity. Qed.

(* ---- the inner loops ---- *)
Definition exh_go := fix go (has_default : bool) (l : list mtch) : bool :=
  match l with
  | [] => has_default
  | (c, p) :: l' =>
      let has_default := has_default || (IsTriviallyTrueCondition c && exhaustive_production p) in
      if negb (IsTriviallyTrueCondition c) && negb (exhaustive_production p) then false
      else go has_default l'
  end.
Lemma IsExhaustive_eq vars ms : IsExhaustive (Rule vars ms) = exh_go false ms.
Proof. reflexivity. Qed.
Definition struct_go := fix go (valid seen : bool) (l : list mtch) : bool :=
  match l with
  | [] => valid
  | (c, p) :: l' =>
      let valid := valid && negb seen in
      let seen := seen || (IsTriviallyTrueCondition c && exhaustive_production p) in
      let valid := valid && match p with inl _ => true | inr r' => CheckMatchStructure r' end in
      go valid seen l'
  end.
Lemma CheckMatchStructure_eq vars ms : CheckMatchStructure (Rule vars ms) =
  match ms with [] => false | _ => struct_go true false ms end.
Proof. destruct ms; reflexivity. Qed.
Definition structure (m : mtch) : bool := match snd m with inl _ => true | inr r => CheckMatchStructure r end.
Definition is_default (m : mtch) : bool := IsTriviallyTrueCondition (fst m) && exhaustive_production (snd m).
Fixpoint struct_ok (l : list mtch) : Prop :=
  match l with
  | [] => True
  | m :: l' => (l' = [] \/ is_default m = false) /\ structure m = true /\ struct_ok l'
  end.
Lemma struct_invalid seen l : struct_go false seen l = false.
Proof. revert seen. induction l as [|[c p] l IH]; intros seen; cbn [struct_go andb]; auto. Qed.
Lemma struct_seen v l : l <> [] -> struct_go v true l = false.
Proof. intros H. destruct l as [|[c p] l]; [congruence|]. cbn [struct_go]. rewrite andb_false_r. apply struct_invalid. Qed.
Lemma struct_go_ok l : struct_go true false l = true <-> struct_ok l.
Proof.
  induction l as [|[c p] l IH]; cbn [struct_go struct_ok]; [tauto|].
  unfold is_default, structure. cbn [fst snd andb negb orb]. destruct p as [e|r].
  - cbn [exhaustive_production]. destruct (IsTriviallyTrueCondition c && true).
    + destruct l as [|m l]; [cbn; tauto|]. rewrite struct_seen by discriminate.
      split; [discriminate|]. intros ([H|H] & _); discriminate.
    + rewrite IH. tauto.
  - destruct (CheckMatchStructure r).
    + destruct (IsTriviallyTrueCondition c && exhaustive_production (inr r)).
      * destruct l as [|m l]; [cbn; tauto|]. rewrite struct_seen by discriminate.
        split; [discriminate|]. intros ([H|H] & _); discriminate.
      * rewrite IH. tauto.
    + rewrite struct_invalid. split; [discriminate|]. intros (_ & H & _). discriminate.
Qed.
Lemma exh_cons m l : is_default m = false -> exh_go false (m :: l) = true ->
  exh_go false l = true /\ exhaustive_production (snd m) = negb (IsTriviallyTrueCondition (fst m)).
Proof.
  destruct m as [c p]. unfold is_default. cbn [exh_go fst snd orb].
  destruct (IsTriviallyTrueCondition c) eqn:E, (exhaustive_production p) eqn:E2; cbn [negb andb]; intros; try discriminate; auto.
Qed.
Lemma exh_last m : exh_go false [m] = is_default m.
Proof.
  destruct m as [c p]. unfold is_default. cbn [exh_go fst snd orb].
  destruct (IsTriviallyTrueCondition c), (exhaustive_production p); reflexivity.
Qed.

Definition compose_go (needs_wrap : bool) (scopes1 : list scope) :=
        fix go (l : list (option expr * (expr + rule))) (init : list expr)
            : out (bool * (list expr * expr)) :=
          match l with
          | [] => Val (true, (init, NewCall "optional.none" []))
          | (c, p) :: l' =>
              let trivial := IsTriviallyTrueCondition c in
              let default := trivial && match l' with [] => true | _ => false end in
              if negb default && trivial && exhaustive_production p
              then Err (internal "detected unreachable match after validation")
              else
                composed <- match p with
                            | inl e => Val (false, (init, MapVariables scopes1 e))
                            | inr r' => ComposeRule r' scopes1 init
                            end ;;
                let is_wrapped := fst composed in
                let init2 := fst (snd composed) in
                let production :=
                  if needs_wrap && negb is_wrapped
                  then NewCall "optional.of" [snd (snd composed)]
                  else snd (snd composed) in
                if default then
                  if negb needs_wrap && is_wrapped then UB
                  else Val (needs_wrap, (init2, production))
                else
                  match c with
                  | Some condition =>
                      if negb trivial then
                        if negb needs_wrap && is_wrapped then UB
                        else
                          rest <- go l' init2 ;;
                          Val (fst rest, (fst (snd rest),
                            NewCall "_?_:_" [MapVariables scopes1 condition; production; snd (snd rest)]))
                      else if negb is_wrapped then
                        Err (internal "composition failed. expected optional wrapped rule but got a plain value")
                      else
                        rest <- go l' init2 ;;
                        Val (fst rest, (fst (snd rest),
                          ECall (if needs_wrap then "or" else "orValue") (Some production) [snd (snd rest)]))
                  | None =>
                      if negb is_wrapped then
                        Err (internal "composition failed. expected optional wrapped rule but got a plain value")
                      else
                        rest <- go l' init2 ;;
                        Val (fst rest, (fst (snd rest),
                          ECall (if needs_wrap then "or" else "orValue") (Some production) [snd (snd rest)]))
                  end
          end.
Lemma ComposeRule_eq vars ms scopes init : ComposeRule (Rule vars ms) scopes init =
  let (s, init1) := ComposeRuleVariables scopes vars [] init in
  match ms with [] => UB | _ => compose_go (negb (exh_go false ms)) (s :: scopes) ms init1 end.
Proof. reflexivity. Qed.

Section Compose.
  Variables (C : config) (R : registry).
  Hypothesis Hu : o_unknowns (cf_opts C) = false.
  Hypothesis Hsc : o_short_circuiting (cf_opts C) = true.
  Hypothesis Hot : o_optional_types (cf_opts C) = true.
  Hypothesis Ho : standard_optional R.

  Definition production_of (p : expr + rule) (rho1 : env) : out verdict :=
    match p with
    | inl e => x <- meaning C R e rho1 ;;
               Val (match fst x with VError s => Failure (VError s) | v => Output v end)
    | inr r' => decide C R r' rho1
    end.
  Definition decide_go (rho1 : env) := fix go (l : list (option expr * (expr + rule))) : out verdict :=
    match l with
    | [] => Val NoMatch
    | (c, p) :: l' =>
        if unconditional c then
          d <- production_of p rho1 ;; match d with NoMatch => go l' | _ => Val d end
        else
          x <- match c with Some e => meaning C R e rho1 | None => Val (VBool true, None) end ;;
          match fst x with
          | VBool true => production_of p rho1
          | VBool false => go l'
          | VError _ | VUnknown _ => Val (Failure (fst x))
          | _ => Val (Failure (VError (no_matching_overload "<jump_condition>")))
          end
    end.
  Lemma decide_eq vars ms rho : decide C R (Rule vars ms) rho = decide_go (with_variables C R vars rho) ms.
  Proof. reflexivity. Qed.

  (* the outcome of a composed expression is the one of the policy *)
  Definition agrees (wrapped : bool) (d : out verdict) (m : out vt) : Prop :=
    match d with
    | Val d =>
        verdict_unknown d = true \/
        (d = NoMatch -> wrapped = true) /\
        match d with Output v => is_error v = false | NoMatch => True | Failure v => is_error v = true end /\
        exists t, m = Val (verdict_value wrapped d, t)
    | Err s => m = Err s
    | UB => m = UB
    end.

  Lemma agrees_output e rhoS rhoF : meaning C R e rhoF = meaning C R e rhoS ->
    agrees false (production_of (inl e) rhoS) (meaning C R e rhoF).
  Proof.
    intros E. cbn [production_of]. rewrite E. destruct (meaning C R e rhoS) as [[v t]| |]; cbn [obind]; try reflexivity.
    cbn [fst]. destruct v; cbn [agrees verdict_unknown verdict_value]; (try (left; reflexivity)); right;
      (split; [discriminate|]); (split; [reflexivity|]); now exists t.
  Qed.
  Lemma of_out o : call_outcome C R "optional.of" false [o] =
    (x <- o ;; apply_op C (OCall "optional.of" false (FindStaticOverloadsByArity R "optional.of" false 1)) [x]).
  Proof.
    unfold call_outcome. change (is_nsf_name "optional.of") with false. change (is_in_name "optional.of") with false.
    cbn [String.eqb Ascii.eqb Bool.eqb List.length orb]. rewrite !andb_false_r. cbn [sequence]. now destruct o.
  Qed.
  Lemma agrees_wrap d m : agrees false d m -> agrees true d (call_outcome C R "optional.of" false [m]).
  Proof.
    destruct d as [d| |]; cbn [agrees].
    - intros [H|(H1 & H2 & t & ->)]; [now left|].
      destruct (verdict_unknown d) eqn:Eu; [now left|]. right. split; [auto|]. split; [auto|].
      destruct d as [v| |v]; cbn [verdict_value verdict_unknown] in *.
      + eexists. apply (of_value C R Hu Ho). now split.
      + now specialize (H1 eq_refl).
      + destruct v; try discriminate. eexists. apply library_error with (o := optional_of); auto.
        * right. right. left. reflexivity.
        * apply Ho.
    - intros ->. now rewrite of_out.
    - intros ->. now rewrite of_out.
  Qed.
  Lemma or_call (w : bool) (a b : out vt) : call_outcome C R (if w then "or" else "orValue") true [a; b] =
    (x <- a ;; match OptionalJump (negb w) x with
               | Some r => Val r
               | None => y <- b ;; Val (EvalOptionalOr (negb w) x y)
               end).
  Proof. destruct w; unfold call_outcome; cbn; rewrite Hot; unfold sc; rewrite Hsc; reflexivity. Qed.
  (* search goes on after a production without output *)
  Lemma agrees_or (w : bool) (d d' : out verdict) (a b : out vt) : agrees true d a -> agrees w d' b ->
    agrees w (d0 <- d ;; match d0 with NoMatch => d' | _ => Val d0 end)
      (call_outcome C R (if w then "or" else "orValue") true [a; b]).
  Proof.
    intros Ha Hb. rewrite or_call. destruct d as [d| |]; cbn [agrees obind] in *; [|now rewrite Ha|now rewrite Ha].
    destruct Ha as [H|(H1 & H2 & t & ->)].
    { destruct d; [now left|discriminate|now left]. }
    destruct d as [v| |v]; cbn [verdict_value] in *; cbn [obind OptionalJump fst].
    - right. split; [discriminate|]. split; [exact H2|]. destruct w; cbn [negb verdict_value]; eauto.
    - destruct d' as [d'| |]; cbn [agrees] in *; [|rewrite Hb; reflexivity|rewrite Hb; reflexivity].
      destruct Hb as [Hb|(G1 & G2 & t' & ->)]; [now left|].
      destruct (verdict_unknown d') eqn:Ek; [now left|]. right. split; [exact G1|]. split; [exact G2|].
      cbn [obind]. destruct d' as [v'| |v']; cbn [verdict_value verdict_unknown] in *.
      + destruct w; cbn [negb EvalOptionalOr fst]; [eauto|]. destruct v'; eauto; discriminate.
      + destruct w; [cbn [negb EvalOptionalOr fst]; eauto|now specialize (G1 eq_refl)].
      + destruct v'; try discriminate. cbn [EvalOptionalOr fst]. eauto.
    - destruct v; try discriminate. cbn [obind OptionalJump fst]. right. split; [discriminate|]. split; [auto|]. eauto.
  Qed.
  Lemma agrees_if (w : bool) (c : out vt) (p d' : out verdict) (a b : out vt) : agrees w p a -> agrees w d' b ->
    agrees w (x <- c ;; match fst x with
                        | VBool true => p
                        | VBool false => d'
                        | VError _ | VUnknown _ => Val (Failure (fst x))
                        | _ => Val (Failure (VError (no_matching_overload "<jump_condition>")))
                        end)
      (call_outcome C R "_?_:_" false [c; a; b]).
  Proof.
    intros Ha Hb. rewrite call_cond. destruct c as [[v t]| |]; cbn [obind]; [|reflexivity|reflexivity].
    unfold sc. rewrite Hsc. cbn [fst]. destruct v; cbn [BoolCheck fst];
      try (right; split; [discriminate|]; split; [reflexivity|]; eexists; reflexivity).
    - destruct b0; cbn [is_true]; assumption.
    - now left.
  Qed.

  (* ---- variables ---- *)
  Lemma scopes_push scopes s x n m : scopes_ok (s :: scopes) n -> (n < m)%nat ->
    scopes_ok (((variable_ident x, n) :: s) :: scopes) m.
  Proof.
    intros H Hm y i. unfold resolves. destruct (String.prefix "variable" y) eqn:Ep; [|discriminate].
    cbn [ResolvePolicyVariable]. unfold scope_find. cbn [find fst]. destruct (String.eqb (variable_ident x) y) eqn:E.
    - cbn [option_map snd]. intros [= <-]. apply String.eqb_eq in E. subst y. split; [apply ident_prefix|exact Hm].
    - intros Hi. destruct (H y i) as [H1 H2]; [|split; [exact H1|lia]]. unfold resolves. rewrite Ep. exact Hi.
  Qed.
  Lemma sees_push scopes s x n o rhoS rhoF : rhoF (index_name n) = Some o -> sees (s :: scopes) rhoS rhoF ->
    sees (((variable_ident x, n) :: s) :: scopes) (bind_local (variable_ident x) o rhoS) rhoF.
  Proof.
    intros Hn H y Hy. specialize (H y Hy). unfold resolves in *.
    destruct (String.prefix "variable" y) eqn:Ep.
    - cbn [ResolvePolicyVariable] in *. unfold scope_find in *. cbn [find fst]. unfold bind_local.
      destruct (String.eqb (variable_ident x) y) eqn:E; [|exact H]. cbn [option_map snd]. eauto.
    - rewrite H. unfold bind_local. destruct (String.eqb (variable_ident x) y) eqn:E; [|reflexivity].
      apply String.eqb_eq in E. subst y. rewrite ident_prefix' in Ep. discriminate.
  Qed.
  Lemma variables_ok scopes vars : forallb (fun p => user_expr (snd p)) vars = true -> forall s init,
    scopes_ok (s :: scopes) (List.length init) ->
    exists s' new, ComposeRuleVariables scopes vars s init = (s', init ++ new) /\
      in_order (List.length init) new /\ scopes_ok (s' :: scopes) (List.length (init ++ new)) /\
      forall rhoS rhoF, sees (s :: scopes) rhoS rhoF -> solves C R (init ++ new) rhoF ->
        sees (s' :: scopes) (with_variables C R vars rhoS) rhoF.
  Proof.
    induction vars as [|[x e] vars IH]; intros Hv s init Hok; cbn [ComposeRuleVariables].
    - exists s, []. rewrite app_nil_r. split; [reflexivity|]. split; [apply in_order_nil|]. split; [exact Hok|]. auto.
    - cbn [forallb snd] in Hv. apply andb_true_iff in Hv as [He Hv].
      set (e' := MapVariables (s :: scopes) e).
      destruct (IH Hv ((variable_ident x, List.length init) :: s) (init ++ [e'])) as (s' & new & E & Hn & Hs & Hsee).
      { rewrite app_length. cbn [List.length]. apply scopes_push; auto. lia. }
      exists s', (e' :: new). rewrite E. change (e' :: new) with ([e'] ++ new). rewrite app_assoc.
      split; [reflexivity|]. split; [|split; [exact Hs|]].
      + apply in_order_app; [apply in_order_one; now apply rename_closed|].
        now rewrite app_length in Hn.
      + intros rhoS rhoF H1 H2. unfold with_variables. cbn [fold_left fst snd].
        apply Hsee; [|exact H2]. apply sees_push; [|exact H1].
        assert (E' : nth_error ((init ++ [e']) ++ new) (List.length init) = Some e').
        { rewrite <- app_assoc, nth_error_app2, Nat.sub_diag by lia. reflexivity. }
        rewrite (H2 _ _ E'). f_equal. now apply rename_meaning with (n := List.length init).
  Qed.

  Definition composes (w : bool) (d : env -> out verdict) (scopes : list scope) (init : list expr)
      (c : out (bool * (list expr * expr))) : Prop :=
    exists new e, c = Val (w, (init ++ new, e)) /\ in_order (List.length init) new /\
      closed (List.length (init ++ new)) e /\
      forall rhoS rhoF, sees scopes rhoS rhoF -> solves C R (init ++ new) rhoF ->
        agrees w (d rhoS) (meaning C R e rhoF).

  Definition Q (r : rule) : Prop := user_policy r = true -> CheckMatchStructure r = true ->
    forall scopes init, scopes_ok scopes (List.length init) ->
    composes (negb (IsExhaustive r)) (decide C R r) scopes init (ComposeRule r scopes init).

  Lemma closed_call n fn args : Forall (closed n) args -> closed n (NewCall fn args).
  Proof.
    intros H i. unfold NewCall. cbn [free orb]. induction H as [|a l Ha Hl IH]; [discriminate|].
    rewrite orb_true_iff. intros [Hi|Hi]; auto.
  Qed.
  Lemma closed_member n fn a b : closed n a -> closed n b -> closed n (ECall fn (Some a) [b]).
  Proof. intros Ha Hb i. cbn [free]. rewrite !orb_true_iff. intros [H|[H|H]]; auto; discriminate. Qed.

  Definition user_match (m : mtch) : bool :=
    match fst m with Some e => user_expr e | None => true end
    && match snd m with inl e => user_expr e | inr r' => user_policy r' end.

  (* a production, wrapped as the rule wants *)
  Lemma production_ok p w scopes init :
    match p with inl e => user_expr e = true | inr r => Q r /\ user_policy r = true /\ CheckMatchStructure r = true end ->
    scopes_ok scopes (List.length init) -> (exhaustive_production p = false -> w = true) ->
    exists new e is_wrapped,
      match p with
      | inl e => Val (false, (init, MapVariables scopes e))
      | inr r' => ComposeRule r' scopes init
      end = Val (is_wrapped, (init ++ new, e)) /\ is_wrapped = negb (exhaustive_production p) /\
      in_order (List.length init) new /\
      let e' := if w && negb is_wrapped then NewCall "optional.of" [e] else e in
      closed (List.length (init ++ new)) e' /\
      forall rhoS rhoF, sees scopes rhoS rhoF -> solves C R (init ++ new) rhoF ->
        agrees w (production_of p rhoS) (meaning C R e' rhoF).
  Proof.
    intros Hp Hok Hw. destruct p as [e|r].
    - exists [], (MapVariables scopes e), false. rewrite app_nil_r. cbn [exhaustive_production negb].
      split; [reflexivity|]. split; [reflexivity|]. split; [apply in_order_nil|].
      assert (Hc := rename_closed scopes (List.length init) e Hok Hp).
      rewrite andb_true_r. destruct w; cbv zeta; split.
      + apply closed_call. constructor; auto.
      + intros rhoS rhoF H1 H2. rewrite meaning_call. cbn [map]. apply agrees_wrap.
        cbn [production_of]. rewrite (rename_meaning C R scopes (List.length init) Hok e Hp rhoS rhoF H1).
        exact (agrees_output e rhoS rhoS eq_refl).
      + exact Hc.
      + intros rhoS rhoF H1 H2.
        cbn [production_of]. rewrite (rename_meaning C R scopes (List.length init) Hok e Hp rhoS rhoF H1).
        exact (agrees_output e rhoS rhoS eq_refl).
    - destruct Hp as (HQ & H1 & H2). destruct (HQ H1 H2 scopes init Hok) as (new & e & E & Ho' & Hc & Ha).
      exists new, e, (negb (IsExhaustive r)). cbn [exhaustive_production] in *.
      split; [exact E|]. split; [reflexivity|]. split; [exact Ho'|].
      rewrite negb_involutive. destruct (IsExhaustive r) eqn:Ex; cbn [negb] in *.
      + rewrite andb_true_r. destruct w; cbv zeta; split; auto.
        * apply closed_call. constructor; auto.
        * intros rhoS rhoF G1 G2. rewrite meaning_call. cbn [map]. apply agrees_wrap. now apply Ha.
      + rewrite andb_false_r. rewrite (Hw eq_refl). cbv zeta. split; auto.
  Qed.

  Lemma compose_go_ok w scopes l : Forall (on_nested Q) l -> forallb user_match l = true -> struct_ok l ->
    (w = false -> l <> [] /\ exh_go false l = true) ->
    forall init, scopes_ok scopes (List.length init) ->
    composes w (fun rho => decide_go rho l) scopes init (compose_go w scopes l init).
  Proof.
    induction l as [|[c p] l IH]; intros HQ Hm Hs Hw init Hok.
    { cbn [compose_go decide_go]. destruct w; [|now destruct (Hw eq_refl)].
      exists [], (NewCall "optional.none" []). rewrite app_nil_r. split; [reflexivity|]. split; [apply in_order_nil|].
      split; [apply closed_call; constructor|]. intros rhoS rhoF _ _. rewrite (none_of C R Hu Ho). right.
      split; [auto|]. split; [exact I|]. now exists None. }
    inversion HQ as [|? ? HQ1 HQ2]; subst. cbn [forallb] in Hm. apply andb_true_iff in Hm as [Hm1 Hm2].
    destruct Hs as (Hd & Hst & Hs). unfold user_match in Hm1. cbn [fst snd] in Hm1. apply andb_true_iff in Hm1 as [Uc Up].
    assert (Hprod : match p with inl e => user_expr e = true
                    | inr r => Q r /\ user_policy r = true /\ CheckMatchStructure r = true end).
    { destruct p as [e|r]; auto. }
    assert (Hw' : exhaustive_production p = false -> IsTriviallyTrueCondition c = false \/ l = [] -> w = true).
    { intros He Hc. destruct w; [reflexivity|]. destruct (Hw eq_refl) as [_ Hx].
      destruct l as [|m l].
      - rewrite exh_last in Hx. unfold is_default in Hx. cbn [fst snd] in Hx. rewrite He, andb_false_r in Hx. discriminate.
      - destruct Hc as [Hc|Hc]; [|discriminate]. destruct Hd as [Hd|Hd]; [discriminate|].
        destruct (exh_cons _ _ Hd Hx) as [_ G]. cbn [fst snd] in G. rewrite He, Hc in G. discriminate. }
    assert (Hrest : IsTriviallyTrueCondition c = false \/ l <> [] -> w = false -> l <> [] /\ exh_go false l = true).
    { intros Hc ->. destruct (Hw eq_refl) as [_ Hx]. destruct l as [|m l].
      - destruct Hc as [Hc|Hc]; [|congruence]. rewrite exh_last in Hx. unfold is_default in Hx. cbn [fst snd] in Hx.
        rewrite Hc in Hx. discriminate.
      - split; [discriminate|]. destruct Hd as [Hd|Hd]; [discriminate|]. now apply (exh_cons (c, p)). }
    cbn [compose_go decide_go]. rewrite trivial_eq.
    destruct (IsTriviallyTrueCondition c) eqn:Et.
    - (* unconditional *)
      destruct l as [|m l].
      + cbn [andb negb]. destruct (production_ok p w scopes init Hprod Hok) as (new & e & iw & E & Ei & Hin & Hc & Ha).
        { intros; apply Hw'; auto. }
        rewrite E. cbn [obind fst snd]. set (e' := if w && negb iw then NewCall "optional.of" [e] else e) in *.
        cbv zeta in Hc, Ha.
        destruct (negb w && iw) eqn:Ew.
        { apply andb_true_iff in Ew as [E1 E2]. subst iw. apply negb_true_iff in E1, E2.
          rewrite (Hw' E2 (or_intror eq_refl)) in E1. discriminate. }
        exists new, e'. split; [reflexivity|]. split; [exact Hin|]. split; [exact Hc|].
        intros rhoS rhoF H1 H2. specialize (Ha rhoS rhoF H1 H2).
        destruct (production_of p rhoS) as [[]| |]; exact Ha.
      + destruct Hd as [Hd|Hd]; [discriminate|]. unfold is_default in Hd. cbn [fst snd] in Hd. rewrite Et in Hd. cbn [andb] in Hd.
        cbn [andb negb]. rewrite Hd.
        destruct p as [e0|r]; [discriminate|]. cbn [exhaustive_production] in Hd.
        destruct (HQ1 Up Hst scopes init Hok) as (new & e & E & Hin & Hc & Ha). rewrite Hd in *. cbn [negb] in *.
        rewrite E. cbn [obind fst snd]. rewrite andb_false_r. cbn [negb].
        assert (Hrest' : w = false -> m :: l <> [] /\ exh_go false (m :: l) = true) by (apply Hrest; right; discriminate).
        specialize (IH HQ2 Hm2 Hs Hrest' (init ++ new)).
        destruct IH as (new2 & e2 & E2 & Hin2 & Hc2 & Ha2).
        { intros x i Hx. destruct (Hok x i Hx). split; auto. rewrite app_length. lia. }
        set (rest := compose_go w scopes (m :: l) (init ++ new)) in *.
        assert (G : (match c with
                     | Some condition => rest0 <- rest ;;
                        Val (fst rest0, (fst (snd rest0), ECall (if w then "or" else "orValue") (Some e) [snd (snd rest0)]))
                     | None => rest0 <- rest ;;
                        Val (fst rest0, (fst (snd rest0), ECall (if w then "or" else "orValue") (Some e) [snd (snd rest0)]))
                     end) = Val (w, (init ++ new ++ new2, ECall (if w then "or" else "orValue") (Some e) [e2]))).
        { rewrite E2. cbn [obind fst snd]. rewrite <- app_assoc. now destruct c. }
        exists (new ++ new2), (ECall (if w then "or" else "orValue") (Some e) [e2]).
        split; [exact G|]. rewrite app_assoc. split; [|split].
        * apply in_order_app; auto. now rewrite app_length in Hin2.
        * apply closed_member; auto. apply closed_le with (1 := Hc). rewrite !app_length. lia.
        * intros rhoS rhoF H1 H2.
          change (meaning C R (ECall (if w then "or" else "orValue") (Some e) [e2]) rhoF) with
            (call_outcome C R (if w then "or" else "orValue") true [meaning C R e rhoF; meaning C R e2 rhoF]).
          apply (agrees_or w _ (decide_go rhoS (m :: l))).
          -- apply Ha; auto. now apply solves_app in H2.
          -- now apply Ha2.
    - (* conditional *)
      cbn [andb negb]. destruct c as [cond|]; [|discriminate].
      destruct (production_ok p w scopes init Hprod Hok) as (new & e & iw & E & Ei & Hin & Hc & Ha).
      { intros; apply Hw'; auto. }
      rewrite E. cbn [obind fst snd]. set (e' := if w && negb iw then NewCall "optional.of" [e] else e) in *.
      cbv zeta in Hc, Ha.
      destruct (negb w && iw) eqn:Ew.
      { apply andb_true_iff in Ew as [E1 E2]. subst iw. apply negb_true_iff in E1, E2.
        rewrite (Hw' E2 (or_introl eq_refl)) in E1. discriminate. }
      specialize (IH HQ2 Hm2 Hs (Hrest (or_introl eq_refl)) (init ++ new)).
      destruct IH as (new2 & e2 & E2 & Hin2 & Hc2 & Ha2).
      { intros x i Hx. destruct (Hok x i Hx). split; auto. rewrite app_length. lia. }
      rewrite E2. cbn [obind fst snd].
      exists (new ++ new2), (NewCall "_?_:_" [MapVariables scopes cond; e'; e2]). rewrite app_assoc.
      split; [reflexivity|]. split; [|split].
      + apply in_order_app; auto. now rewrite app_length in Hin2.
      + apply closed_call. constructor; [|constructor; [|constructor; auto]].
        * apply closed_le with (n := List.length init); [now apply rename_closed|rewrite !app_length; lia].
        * apply closed_le with (1 := Hc). rewrite !app_length. lia.
      + intros rhoS rhoF H1 H2. rewrite meaning_call. cbn [map].
        rewrite (rename_meaning C R scopes (List.length init) Hok cond Uc rhoS rhoF H1).
        apply agrees_if; [|now apply Ha2]. apply Ha; auto. now apply solves_app in H2.
  Qed.

  Lemma compose_ok r : Q r.
  Proof.
    induction r as [vars ms HQ] using rule_ind'. intros Hup Hcs scopes init Hok.
    rewrite ComposeRule_eq. rewrite CheckMatchStructure_eq in Hcs. rewrite IsExhaustive_eq.
    cbn [user_policy] in Hup. apply andb_true_iff in Hup as [Hv Hm].
    assert (Hok' : scopes_ok ([] :: scopes) (List.length init)) by exact Hok.
    destruct (variables_ok scopes vars Hv [] init Hok') as (s' & new & E & Hin & Hs & Hsee). rewrite E.
    destruct ms as [|m ms]; [discriminate|]. apply struct_go_ok in Hcs.
    destruct (compose_go_ok (negb (exh_go false (m :: ms))) (s' :: scopes) (m :: ms) HQ Hm Hcs) with (init := init ++ new)
      as (new2 & e & E2 & Hin2 & Hc & Ha); auto.
    { intros H. split; [discriminate|]. now apply negb_false_iff. }
    exists (new ++ new2), e. rewrite app_assoc. split; [exact E2|]. split; [|split; [exact Hc|]].
    - apply in_order_app; auto. now rewrite app_length in Hin2.
    - intros rhoS rhoF H1 H2. rewrite decide_eq. apply Ha; [|exact H2].
      apply Hsee; [exact H1|]. now apply solves_app in H2.
  Qed.
End Compose.
