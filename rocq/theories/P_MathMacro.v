(* C50: the macros math.greatest and math.least. *)
From Coq Require Import ZArith List Bool String Lia.
From Verif Require Import Base M_Overflow M_Number M_Attr M_Value M_Logic M_Expr M_Machine M_Registry
  M_Macro M_Math S_Func S_Num S_Value S_Math S_Eval S_Macro L_Func L_Macro P_Func P_Math P_Eval.
Import ListNotations.
Open Scope list_scope.
Open Scope Z_scope.
Local Open Scope out_scope.

Lemma math_call C R fn l : fn = kMathMax \/ fn = kMathMin ->
  call_outcome C R fn false (map Val l) =
  apply_op C (OCall fn false (FindStaticOverloadsByArity R fn false (List.length l))) l.
Proof.
  intros [-> | ->]; unfold call_outcome; rewrite map_length;
  (match goal with |- context [String.eqb ?f "_&&_"] =>
    change (String.eqb f "_&&_") with false; change (String.eqb f "_||_") with false;
    change (String.eqb f "_?_:_") with false; change (String.eqb f "_[_]") with false;
    change (is_nsf_name f) with false; change (String.eqb f "!_") with false;
    change (is_in_name f) with false; change (String.eqb f "_==_") with false;
    change (String.eqb f "_!=_") with false end);
  rewrite !andb_false_r; cbn [andb]; cbn beta iota;
  (assert (E : sequence (map Val l) = Val l) by
    (induction l as [|a l IH]; [reflexivity|cbn [map sequence]; cbn [obind]; now rewrite IH])); now rewrite E.
Qed.
Lemma numeric_plain v : numeric v -> is_error v = false /\ is_unknown v = false.
Proof. intros (n & H & _). destruct v; try discriminate; auto. Qed.
Lemma numeric_kind v : numeric v -> In (kind_of v) num_kinds.
Proof. intros (n & H & _). destruct v; try discriminate; cbn; auto. Qed.

Section Expand.
  Variables (C : config) (R : registry) (rho : env).
  Variables (name fn : string) (pick : number -> number -> number).
  Hypothesis Hfn : fn = kMathMax \/ fn = kMathMin.
  Hypothesis Hu : o_unknowns (cf_opts C) = false.
  Hypothesis HR : reached R.
  Hypothesis Hov : incl (pick_overloads fn pick) R.

  Lemma call_picks (l : list vt) o : In o (pick_overloads fn pick) ->
    Forall2 (fun d v => d = Some (kind_of v)) (ov_kinds o) (map fst l) ->
    Forall plain (map fst l) ->
    call_outcome C R fn false (map Val l) =
      match pick_overload fn pick (map fst l) with Val v => Val (v, None) | Err e => Err e | UB => UB end.
  Proof.
    intros Ho Hk Hp. rewrite math_call by exact Hfn.
    destruct (C27_one_call C R fn false l HR) as (_ & G & _).
    assert (E : call_args (o_unknowns (cf_opts C)) (cf_pats C) l = map fst l).
    { unfold call_args. now rewrite Hu. }
    rewrite E in G.
    assert (Ho' : ov_name o = fn /\ ov_receiver o = false /\ ov_impl o = pick_overload fn pick).
    { unfold pick_overloads, num_kinds in Ho. cbn [map flat_map app In] in Ho.
      repeat destruct Ho as [<-|Ho]; try (split; [|split]; reflexivity). destruct Ho. }
    destruct Ho' as (On & Or & Oi).
    destruct (G o) as [X _].
    - now apply Hov.
    - split; [exact On|]. split; [exact Or|].
      clear -Hk. induction Hk as [|d v ds vs H Hk IH]; [constructor|]. cbn [map]. constructor; auto.
    - intros _ v Hv. rewrite Forall_forall in Hp. now apply Hp.
    - rewrite X, Oi. reflexivity.
  Qed.

  Lemma own_overload o : In o (pick_overloads fn pick) -> ov_name o = fn /\ ov_strict o = true.
  Proof.
    intros Ho. unfold pick_overloads, num_kinds in Ho. cbn [map flat_map app In] in Ho.
    repeat destruct Ho as [<-|Ho]; try (split; reflexivity). destruct Ho.
  Qed.
  Lemma one_kind k : In k num_kinds \/ k = kListT ->
    exists o, In o (pick_overloads fn pick) /\ ov_kinds o = [Some k].
  Proof.
    intros H. exists (mkOverload fn false [Some k] true (pick_overload fn pick)). split; [|reflexivity].
    unfold pick_overloads. destruct H as [H|H]; [|subst k]; rewrite !in_app_iff.
    - left. apply in_map_iff. exists k. auto.
    - right. right. left. reflexivity.
  Qed.
  Lemma two_kinds k k' : In k num_kinds -> In k' num_kinds ->
    exists o, In o (pick_overloads fn pick) /\ ov_kinds o = [Some k; Some k'].
  Proof.
    intros H H'. exists (mkOverload fn false [Some k; Some k'] true (pick_overload fn pick)). split; [|reflexivity].
    unfold pick_overloads. rewrite !in_app_iff. right. left. apply in_flat_map. exists k. split; [exact H|].
    apply in_map_iff. exists k'. auto.
  Qed.
  Lemma every_strict o : In o R -> ov_name o = fn -> ov_strict o = true.
  Proof.
    intros Ho Hn. destruct HR as (h & E).
    destruct (ov_strict o) eqn:Es; [reflexivity|]. exfalso.
    assert (Ht : tidy (attempts h [])) by (apply attempts_tidy; constructor).
    assert (G : forall q, In q R -> ov_name q = fn -> o = q).
    { intros q Hq Hqn. rewrite E in Ho, Hq. unfold static_overloads in Ho, Hq. apply in_map_iff in Ho, Hq.
      destruct Ho as (eo & <- & Ho), Hq as (eq & <- & Hq). apply filter_In in Ho, Hq. f_equal.
      destruct (tidy_all _ Ht eo eq (proj1 Ho) (proj1 Hq)) as [H|H]; [exact H|]. elim H. right.
      split; [congruence|auto]. }
    destruct (one_kind kListT) as (p & Hp & Kp); [now right|].
    destruct (own_overload p Hp) as [Np Sp]. rewrite (G p (Hov p Hp) Np) in Es. congruence.
  Qed.

  Lemma args_meaning args vs : Forall2 (fun a v => yields C R a rho v) args vs ->
    exists l, map (fun a => meaning C R a rho) args = map Val l /\ map fst l = vs.
  Proof.
    induction 1 as [|a v args vs (t & Ha) _ (l & E1 & E2)]; [exists []; split; reflexivity|].
    exists ((v, t) :: l). cbn [map fst]. split; [now rewrite Ha, E1|now rewrite E2].
  Qed.
  Lemma list_literal args vs : Forall2 (fun a v => yields C R a rho v) args vs -> Forall plain vs ->
    meaning C R (NewList args) rho = Val (VList vs, None).
  Proof.
    intros H Hp. destruct (args_meaning args vs H) as (l & E1 & <-). unfold NewList. cbn [meaning].
    rewrite map_map. cbn [snd]. rewrite E1.
    assert (E : sequence (map Val l) = Val l).
    { clear. induction l as [|a l IH]; [reflexivity|]. cbn [map sequence obind]. now rewrite IH. }
    rewrite E. cbn [obind]. unfold ListStep.
    assert (F : find is_error (map fst l) = None).
    { clear -Hp. induction (map fst l) as [|v w IH]; [reflexivity|]. apply Forall_cons_iff in Hp.
      destruct Hp as [[Hv _] Hp]. cbn. rewrite Hv. auto. }
    rewrite F. unfold literal_unknowns, unk. rewrite Hu.
    assert (G : forall opts vs acc, Forall plain vs -> Forall (fun b => b = false) opts ->
      list_loop opts vs acc = Val (VList (acc ++ vs))).
    { clear. intros opts vs. revert opts. induction vs as [|v vs IH]; intros opts acc Hp Ho; cbn [list_loop];
        [now rewrite app_nil_r|].
      apply Forall_cons_iff in Hp. destruct Hp as [[P1 P2] Hp].
      assert (A : ListAdd acc v = Val (acc ++ [v])) by (destruct v; try discriminate; reflexivity).
      destruct opts as [|b opts].
      - rewrite A. cbn [obind]. rewrite IH by auto. now rewrite <- app_assoc.
      - apply Forall_cons_iff in Ho. destruct Ho as [-> Ho]. rewrite A. cbn [obind]. rewrite IH by auto.
        now rewrite <- app_assoc. }
    rewrite G; [reflexivity|exact Hp|]. rewrite map_map. apply Forall_map, Forall_forall. reflexivity.
  Qed.

  Lemma expands args e : ExpandPick name fn (EIdent "math") args = Some (inl e) ->
    args <> [] /\ e = NewCall fn (if Nat.leb (List.length args) 2 then args else [NewList args]).
  Proof.
    unfold ExpandPick. change (IsTargetNamespace _) with true. intros [= H].
    destruct args as [|a [|b [|c args]]].
    - discriminate.
    - destruct (negb _ && _); [discriminate|]. split; [discriminate|]. injection H as <-. reflexivity.
    - destruct (forallb _ _); [|discriminate]. split; [discriminate|]. injection H as <-. reflexivity.
    - destruct (forallb _ _); [|discriminate]. split; [discriminate|]. injection H as <-. reflexivity.
  Qed.

  Lemma expand_numbers args e vs : ExpandPick name fn (EIdent "math") args = Some (inl e) ->
    Forall2 (fun a v => yields C R a rho v) args vs -> Forall numeric vs ->
    yields C R e rho (pick_list fn pick vs).
  Proof.
    intros He Ha Hn. destruct (expands _ _ He) as (Hne & ->).
    assert (Hp : Forall plain vs) by (eapply Forall_impl; [|exact Hn]; apply numeric_plain).
    unfold yields. rewrite meaning_call.
    destruct (args_meaning args vs Ha) as (l & E1 & E2). exists None.
    destruct args as [|a [|b [|c args]]]; [congruence| | |].
    - cbn [List.length Nat.leb]. rewrite E1.
      assert (exists v, vs = [v]) as (v & ->) by (inversion Ha as [|? v ? ? _ Hr]; inversion Hr; eauto).
      apply Forall_cons_iff in Hn. destruct Hn as [Hv _].
      destruct (one_kind (kind_of v)) as (o & Ho & Ko); [left; now apply numeric_kind|].
      rewrite (call_picks l o); auto; [|rewrite Ko, E2; constructor; auto|now rewrite E2].
      rewrite E2. destruct Hv as (n & Hv & _). destruct v; try discriminate; reflexivity.
    - cbn [List.length Nat.leb]. rewrite E1.
      assert (exists v w, vs = [v; w]) as (v & w & ->).
      { inversion Ha as [|? v ? ? _ Hr]. inversion Hr as [|? w ? ? _ Hr']. inversion Hr'. eauto. }
      apply Forall_cons_iff in Hn. destruct Hn as [Hv Hn]. apply Forall_cons_iff in Hn. destruct Hn as [Hw _].
      destruct (two_kinds (kind_of v) (kind_of w)) as (o & Ho & Ko); [now apply numeric_kind|now apply numeric_kind|].
      rewrite (call_picks l o); auto; [|rewrite Ko, E2; constructor; auto|now rewrite E2].
      rewrite E2. destruct Hv as (n & Hv & _), Hw as (m & Hw & _).
      destruct v; try discriminate; destruct w; try discriminate; reflexivity.
    - cbn [List.length Nat.leb map]. rewrite (list_literal (a :: b :: c :: args) vs) by auto.
      destruct (one_kind kListT) as (o & Ho & Ko); [now right|].
      change [Val (VList vs, None)] with (map (@Val vt) [(VList vs, None)]).
      rewrite (call_picks [(VList vs, None)] o); auto.
      + rewrite Ko. constructor; auto.
      + constructor; [split; reflexivity|constructor].
  Qed.
  Lemma expand_list a e l : ExpandPick name fn (EIdent "math") [a] = Some (inl e) ->
    yields C R a rho (VList l) -> yields C R e rho (pick_list fn pick l).
  Proof.
    intros He (t & Ha). destruct (expands _ _ He) as (_ & ->). exists None. rewrite meaning_call.
    cbn [List.length Nat.leb map]. rewrite Ha.
    destruct (one_kind kListT) as (o & Ho & Ko); [now right|].
    change [Val (VList l, t)] with (map (@Val vt) [(VList l, t)]).
    rewrite (call_picks [(VList l, t)] o); auto.
    - rewrite Ko. constructor; auto.
    - constructor; [split; reflexivity|constructor].
  Qed.
  Lemma expand_error args e vs before s after : ExpandPick name fn (EIdent "math") args = Some (inl e) ->
    Forall2 (fun a v => yields C R a rho v) args vs ->
    vs = before ++ VError s :: after -> Forall (fun v => is_error v = false) before ->
    yields C R e rho (VError s).
  Proof.
    intros He Ha Hs Hb. destruct (expands _ _ He) as (Hne & ->). exists None. rewrite meaning_call.
    assert (Hb' : forallb (fun v => negb (is_error v)) before = true).
    { apply forallb_forall. intros v Hv. rewrite Forall_forall in Hb. now rewrite Hb. }
    destruct (args_meaning args vs Ha) as (l & E1 & E2).
    assert (Ec : forall l, call_args (o_unknowns (cf_opts C)) (cf_pats C) l = map fst l).
    { intros q. unfold call_args. now rewrite Hu. }
    destruct (Nat.leb (List.length args) 2).
    - rewrite E1, math_call by exact Hfn.
      destruct (C27_one_call C R fn false l HR) as (G & _). rewrite Ec in G.
      apply (G before s after); [congruence|exact Hb'|apply every_strict].
    - cbn [map].
      assert (EL : meaning C R (NewList args) rho = Val (VError s, None)).
      { unfold NewList. cbn [meaning]. rewrite map_map. cbn [snd]. rewrite E1.
        assert (E : sequence (map Val l) = Val l).
        { clear. induction l as [|a l IH]; [reflexivity|]. cbn [map sequence obind]. now rewrite IH. }
        rewrite E. cbn [obind]. unfold ListStep. rewrite E2, Hs.
        assert (F : find is_error (before ++ VError s :: after) = Some (VError s)).
        { clear -Hb. induction Hb as [|v w Hv _ IH]; [reflexivity|]. cbn. now rewrite Hv. }
        now rewrite F. }
      rewrite EL. change [Val (VError s, None)] with (map (@Val vt) [(VError s, None)]). rewrite math_call by exact Hfn.
      destruct (C27_one_call C R fn false [(VError s, None)] HR) as (G & _). rewrite Ec in G.
      apply (G [] s []); [reflexivity|reflexivity|apply every_strict].
  Qed.
End Expand.

(* The math library's two functions are registered, possibly among others. *)
Definition math_library (R : registry) : Prop := reached R /\ incl (max_overloads ++ min_overloads) R.
(* the arguments' values, in order *)
Definition arguments (C : config) (R : registry) (rho : env) (args : list expr) (vs : list value) : Prop :=
  Forall2 (fun a v => yields C R a rho v) args vs.

(* math.greatest(a, b, ...), for any number of arguments, is the greatest of
   the arguments' values (as C39 has it); math.greatest(list) is that of the
   list; the first argument that is an error is the result. *)
Theorem C50_greatest : forall C R rho args e,
  o_unknowns (cf_opts C) = false -> math_library R ->
  ExpandGreatest (EIdent "math") args = Some (inl e) ->
  (forall vs, arguments C R rho args vs -> Forall numeric vs -> yields C R e rho (MaxList vs)) /\
  (forall l, arguments C R rho args [VList l] -> yields C R e rho (MaxList l)) /\
  (forall before s after, arguments C R rho args (before ++ VError s :: after) ->
     Forall (fun v => is_error v = false) before -> yields C R e rho (VError s)).
Proof.
  intros C R rho args e Hu (HR & Hov) He.
  assert (Ho : incl (pick_overloads kMathMax MaxNumber) R) by (intros o Ho; apply Hov, in_app_iff; now left).
  split; [|split].
  - intros vs Hv Hn. eapply expand_numbers; eauto.
  - intros l Hl. inversion Hl as [|a ? ? ? Ha Hr]; subst. inversion Hr; subst. eapply expand_list; eauto.
  - intros b s a Hv Hb. eapply (expand_error) with (fn := kMathMax) (pick := MaxNumber); eauto.
Qed.
Print Assumptions C50_greatest.
Theorem C50_least : forall C R rho args e,
  o_unknowns (cf_opts C) = false -> math_library R ->
  ExpandLeast (EIdent "math") args = Some (inl e) ->
  (forall vs, arguments C R rho args vs -> Forall numeric vs -> yields C R e rho (MinList vs)) /\
  (forall l, arguments C R rho args [VList l] -> yields C R e rho (MinList l)) /\
  (forall before s after, arguments C R rho args (before ++ VError s :: after) ->
     Forall (fun v => is_error v = false) before -> yields C R e rho (VError s)).
Proof.
  intros C R rho args e Hu (HR & Hov) He.
  assert (Ho : incl (pick_overloads kMathMin MinNumber) R) by (intros o Ho; apply Hov, in_app_iff; now right).
  split; [|split].
  - intros vs Hv Hn. eapply expand_numbers; eauto.
  - intros l Hl. inversion Hl as [|a ? ? ? Ha Hr]; subst. inversion Hr; subst. eapply expand_list; eauto.
  - intros b s a Hv Hb. eapply (expand_error) with (fn := kMathMin) (pick := MinNumber); eauto.
Qed.
Print Assumptions C50_least.

(* An argument that cannot be a number: a literal of another type, a list or a
   map. *)
Definition no_number (e : expr) : Prop :=
  match e with
  | EConst v => number_of v = None
  | EList _ | EMap _ => True
  | _ => False
  end.
(* The calls of the macros that are rejected: no argument; an argument that
   cannot be a number, except that a sole argument may be a non-empty list of
   arguments that can. *)
Definition rejected (args : list expr) : Prop :=
  match args with
  | [] => True
  | [EList elems] => elems = [] \/ exists o a, In (o, a) elems /\ no_number a
  | _ => exists a, In a args /\ no_number a
  end.
Lemma valid_iff e : IsValidArgType e = false <-> no_number e.
Proof. destruct e; cbn; try (split; [discriminate|tauto]); try tauto. destruct v; cbn; split; auto; discriminate. Qed.
Lemma forallb_valid args : forallb IsValidArgType args = false <-> exists a, In a args /\ no_number a.
Proof.
  split.
  - induction args as [|a args IH]; [discriminate|]. cbn. destruct (IsValidArgType a) eqn:E; cbn.
    + intros H. destruct (IH H) as (b & Hb & Nb). eauto.
    + intros _. exists a. split; auto. now apply valid_iff.
  - intros (a & Ha & Na). apply valid_iff in Na. destruct (forallb _ args) eqn:E; [|reflexivity].
    rewrite forallb_forall in E. rewrite E in Na; [discriminate|exact Ha].
Qed.
Lemma forallb_valid_elems (elems : list (bool * expr)) :
  forallb (fun p => IsValidArgType (snd p)) elems = false <-> exists o a, In (o, a) elems /\ no_number a.
Proof.
  split.
  - induction elems as [|[o a] l IH]; [discriminate|]. cbn. destruct (IsValidArgType a) eqn:E; cbn.
    + intros H. destruct (IH H) as (q & b & Hb & Nb). eauto.
    + intros _. exists o, a. split; auto. now apply valid_iff.
  - intros (o & a & Ha & Na). apply valid_iff in Na. destruct (forallb _ elems) eqn:E; [|reflexivity].
    rewrite forallb_forall in E. specialize (E _ Ha). cbn in E. congruence.
Qed.

(* A call with another receiver is left alone; a call on `math` is rejected
   exactly as described. *)
Theorem C50_rejected : forall target args,
  (target <> EIdent "math" -> ExpandGreatest target args = None /\ ExpandLeast target args = None) /\
  (target = EIdent "math" ->
     (rejected args <-> exists m, ExpandGreatest target args = Some (inr m)) /\
     (rejected args <-> exists m, ExpandLeast target args = Some (inr m)) /\
     (~ rejected args <-> exists e, ExpandGreatest target args = Some (inl e)) /\
     (~ rejected args <-> exists e, ExpandLeast target args = Some (inl e))).
Proof.
  intros target args. split.
  - intros H. assert (E : IsTargetNamespace target = false).
    { destruct target; try reflexivity. cbn. destruct (String.eqb name "math") eqn:E; [|reflexivity].
      apply String.eqb_eq in E. congruence. }
    unfold ExpandGreatest, ExpandLeast, ExpandPick. now rewrite E.
  - intros ->.
    assert (G : forall name fn, (rejected args /\ exists m, ExpandPick name fn (EIdent "math") args = Some (inr m)) \/
                              (~ rejected args /\ exists e, ExpandPick name fn (EIdent "math") args = Some (inl e))).
    { intros name fn. unfold ExpandPick. change (IsTargetNamespace _) with true. cbn iota.
      assert (M : forall a b l, (exists c, In c (a :: b :: l) /\ no_number c) = rejected (a :: b :: l)) by (destruct a; reflexivity).
      destruct args as [|a [|b [|c args]]].
      - left. split; [exact I|eauto].
      - assert (X : negb (IsListLiteralWithValidArgs a) && negb (IsValidArgType a) = true <-> rejected [a]).
        { destruct a; cbn [rejected IsListLiteralWithValidArgs negb andb];
            try (rewrite negb_true_iff, valid_iff; split; [intros H; eexists; split; [left; reflexivity|exact H]|intros (x & [<-|[]] & H); exact H]).
          cbn [IsValidArgType negb]. rewrite andb_true_r, negb_true_iff. destruct elems as [|p l].
          - split; auto.
          - rewrite forallb_valid_elems. split; [auto|intros [H|H]; [discriminate|exact H]]. }
        destruct (_ && _); [left; split; [now apply X|eauto]|right; split; [|eauto]].
        intros H. apply X in H. discriminate.
      - rewrite <- M. rewrite <- forallb_valid. destruct (forallb _ _); [right|left]; split; eauto; discriminate.
      - rewrite <- M. rewrite <- forallb_valid. destruct (forallb _ _); [right|left]; split; eauto; discriminate. }
    unfold ExpandGreatest, ExpandLeast.
    destruct (G "math.greatest()" kMathMax)%string as [(A & m & B)|(A & m & B)];
    destruct (G "math.least()" kMathMin)%string as [(A' & m' & B')|(A' & m' & B')]; try contradiction;
      rewrite B, B'; repeat split; intros; eauto; try contradiction; try (destruct H as (? & H); discriminate).
Qed.
Print Assumptions C50_rejected.

Definition ex_math := static_overloads (attempts (map (mkEntry false) (max_overloads ++ min_overloads)) []).
Definition ex_conf := ex_config true 0.
Example C50_ex : math_library ex_math /\
  exists e, ExpandGreatest (EIdent "math") [EConst (VInt 3); EConst (VUint 9); EConst (VInt (-4))] = Some (inl e) /\
    yields ex_conf ex_math e no_locals (VUint 9).
Proof.
  split. { split; [eexists; reflexivity|]. replace ex_math with (max_overloads ++ min_overloads); [apply incl_refl|]. lazy [ex_math attempts]. reflexivity. }
  eexists. split; [reflexivity|]. eexists. vm_compute. reflexivity.
Qed.
