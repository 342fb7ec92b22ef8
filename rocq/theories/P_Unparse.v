(* Property C76: printing an expression and parsing the text. *)
From Coq Require Import ZArith String Ascii List Bool Lia ZifyBool.
From Verif Require Import Base M_Overflow M_Number M_Utf8 S_Utf8 M_Strings M_Attr M_Value M_Logic M_Expr
  M_Macro M_Balancer M_Namespace.
From Verif Require Import M_Lex M_Parse M_Unparse S_Unparse L_Unparse1 L_Unparse3 L_Unparse4 L_Unparse5.
Import ListNotations.
Open Scope list_scope.
Open Scope Z_scope.

(* The full claim: what is printed reads back as the same expression, up to the
   grouping of && and of ||. *)
Definition reads_back (c : config) (sd : double -> list Z) (e : expr) : Prop :=
  exists text e', Unparse sd e = Val text /\ Parse c text = Some e' /\ same_up_to_grouping e' e.

(* It holds of every printable expression whose text has at most 2^30 characters.
   Missing: the expressions of the refutations below, doubles, messages. *)
Theorem C76_round_trip_partial c sd e : printable c e ->
  exists text, Unparse sd e = Val text /\
    (Z.of_nat (List.length text) <= 2 ^ 30 ->
     exists e', Parse c text = Some e' /\ same_up_to_grouping e' e /\ printable c e').
Proof.
  intros P. destruct (unparse_parse c sd e P) as (t & U & H). exists t. split; [exact U|]. intros L. exists (norm c e).
  split; [now apply H|]. split; [exact (proj1 (printable_grouped c e P))|]. apply (again_printable c e P).
Qed.
Print Assumptions C76_round_trip_partial.

(* What was read back from printed text reads back exactly. *)
Theorem C76_stable_partial c sd e text e' text' : printable c e ->
  Unparse sd e = Val text -> Z.of_nat (List.length text) <= 2 ^ 30 -> Parse c text = Some e' ->
  Unparse sd e' = Val text' -> Z.of_nat (List.length text') <= 2 ^ 30 -> Parse c text' = Some e'.
Proof.
  intros P U L R U' L'. destruct (unparse_parse c sd e P) as (t & U1 & H). rewrite U in U1. injection U1 as <-.
  rewrite (H L) in R. injection R as <-.
  destruct (unparse_parse c sd (norm c e) (proj1 (again_printable c e P))) as (t & U1 & H').
  rewrite U' in U1. injection U1 as <-. rewrite (H' L'). now rewrite norm_norm.
Qed.
Print Assumptions C76_stable_partial.

(* Without && and || the text reads back as the very same expression, in every
   configuration; with them, in the configuration that does not balance, an
   expression whose chains are each one call does. *)
Lemma regroup_variadic c : c_variadic c = true -> forall e, printable c e -> norm c e = flat e.
Proof.
  intros V. assert (G : forall fn l, (2 <= List.length l)%nat -> group c fn l = ECall fn None l).
  { intros fn l N. unfold group. destruct (Z.of_nat (List.length l) <=? 2 ^ 30); [|reflexivity].
    unfold balanced. destruct l as [|first [|y rest]]; [cbn in N; lia..|]. rewrite V. cbn [map]. rewrite P_Balance.C33_variadic.
    cbn [erase map fst snd]. rewrite !map_map. cbn [erase snd]. now rewrite map_id. }
  intros e P. unfold norm.
  assert (A : (fun e => regroup c (flat e) = flat e /\
      forall fn, logical fn = true -> Forall (fun x => regroup c x = x) (parts fn (flat e))) e); [|apply A].
  pattern e. revert e P.
  assert (S : forall e, match e with ECall fn None _ => logical fn = false | _ => True end -> regroup c (flat e) = flat e ->
      regroup c (flat e) = flat e /\ forall fn, logical fn = true -> Forall (fun x => regroup c x = x) (parts fn (flat e))).
  { intros e N H. split; [exact H|]. intros fn Lg. rewrite (not_logical_parts e N fn Lg). now constructor. }
  assert (M : forall Q args, Forall (fun a => Q a /\ regroup c (flat a) = flat a /\
      forall fn, logical fn = true -> Forall (fun x => regroup c x = x) (parts fn (flat a))) args ->
      map (regroup c) (map flat args) = map flat args).
  { induction 1 as [|a l [_ [H _]] _ IH]; [reflexivity|]. cbn [map]. now rewrite H, IH. }
  apply printable_ind'.
  - intros v _. now apply S.
  - intros n _. now apply S.
  - intros o f _ [H _] _ _. apply S; [easy|]. cbn [flat regroup]. now rewrite H.
  - intros o f _ _ [H _] _ _. apply S; [easy|]. cbn [flat regroup]. now rewrite H.
  - intros a _ [H _] _. apply S; [easy|]. cbn. now rewrite H.
  - intros a _ [H _] _ _. apply S; [easy|]. cbn. now rewrite H.
  - intros fn l r I _ [Hl _] _ [Hr _]. pose proof (binary_not_logical fn I) as N. apply S; [exact N|].
    cbn [flat map]. rewrite N. cbn [regroup map]. now rewrite N, Hl, Hr.
  - intros fn args Lg N F.
    assert (X : (List.length args <= List.length (flat_map (parts fn) (map flat args)))%nat /\
                Forall (fun x => regroup c x = x) (flat_map (parts fn) (map flat args))).
    { clear N. induction F as [|a l [Pa [_ Ha]] _ [IHn IHf]]; [split; [reflexivity|constructor]|].
      cbn [map flat_map List.length]. destruct (printable_grouped c a Pa) as [_ Gr]. destruct (Gr fn Lg) as [L1 _].
      rewrite app_length. split; [lia|]. apply Forall_app. split; [now apply Ha|exact IHf]. }
    destruct X as [Ln Fx].
    assert (E : regroup c (flat (ECall fn None args)) = flat (ECall fn None args)).
    { cbn [flat]. rewrite Lg. cbn [regroup]. rewrite Lg.
      replace (map (regroup c) (flat_map (parts fn) (map flat args))) with (flat_map (parts fn) (map flat args)).
      - apply G. lia.
      - clear Ln. induction Fx as [|x l H _ IH]; [reflexivity|]. cbn [map]. now rewrite H, <- IH. }
    split; [exact E|]. intros fn' Lg'. cbn [flat]. rewrite Lg. cbn [parts]. destruct (String.eqb_spec fn fn') as [<-|Nf]; [exact Fx|].
    constructor; [|constructor]. cbn [flat] in E. now rewrite Lg in E.
  - intros x y z _ [Hx _] _ [Hy _] _ [Hz _]. apply S; [easy|]. cbn. now rewrite Hx, Hy, Hz.
  - intros a i _ [Ha _] _ _ [Hi _]. apply S; [easy|]. cbn. now rewrite Ha, Hi.
  - intros a i _ _ [Ha _] _ _ [Hi _]. apply S; [easy|]. cbn. now rewrite Ha, Hi.
  - intros a f _ _ [Ha _] _ _. apply S; [easy|]. cbn. now rewrite Ha.
  - intros fn args Nm _ _ F. pose proof (name_not_logical fn Nm) as N. apply S; [exact N|].
    cbn [flat]. rewrite N. cbn [regroup]. rewrite N. f_equal. exact (M _ args F).
  - intros fn t args W _ _ _ _ [Ht _] _ F. apply S; [easy|]. cbn [flat regroup]. rewrite Ht. f_equal. exact (M _ args F).
  - intros l F. apply S; [easy|]. cbn [flat regroup]. f_equal.
    induction F as [|[o a] l [_ [_ [Ha _]]] _ IH]; [reflexivity|]. cbn [map snd] in *. now rewrite IH, Ha.
  - intros l F. apply S; [easy|]. cbn [flat regroup]. f_equal.
    induction F as [|[o [k v]] l [_ [[_ [Hk _]] [_ [Hv _]]]] _ IH]; [reflexivity|]. cbn [map snd fst] in *. now rewrite IH, Hk, Hv.
  - intros x range p _ _ _ [Hr _] _ _ [Hp _]. apply S; [easy|].
    unfold all_comp, NewCall, NewAccuIdent, NewBoolConst. cbn. now rewrite Hr, Hp.
  - intros x range p _ _ _ [Hr _] _ _ [Hp _]. apply S; [easy|].
    unfold exists_comp, NewCall, NewAccuIdent, NewBoolConst. cbn. now rewrite Hr, Hp.
  - intros x range p _ _ _ [Hr _] _ _ [Hp _]. apply S; [easy|].
    unfold exists_one_comp, NewCall, NewAccuIdent, NewBoolConst, NewIntConst. cbn. now rewrite Hr, Hp.
  - intros x range p _ _ _ [Hr _] _ _ [Hp _]. apply S; [easy|].
    unfold map_comp, NewCall, NewAccuIdent, NewBoolConst, NewList. cbn. now rewrite Hr, Hp.
  - intros x range p f _ _ _ [Hr _] _ _ [Hp _] _ [Hf _]. apply S; [easy|].
    unfold map_filter_comp, NewCall, NewAccuIdent, NewBoolConst, NewList. cbn. now rewrite Hr, Hp, Hf.
Qed.
Theorem C76_exact_partial c sd e text : c_variadic c = true -> printable c e -> flat e = e ->
  Unparse sd e = Val text -> Z.of_nat (List.length text) <= 2 ^ 30 -> Parse c text = Some e.
Proof.
  intros V P F U L. destruct (unparse_parse c sd e P) as (t & U1 & H). rewrite U in U1. injection U1 as <-.
  now rewrite (H L), (regroup_variadic c V e P), F.
Qed.
Print Assumptions C76_exact_partial.

(* ---- a non-trivial case ---- *)
Definition all_on : config := mkConfig false true true true (fun _ => None).
Definition case : expr :=
  ECall "_?_:_" None
    [ECall "_&&_" None [ECall "_||_" None [ECall "b" (Some (EIdent "a")) [EConst (VInt (-1)); ECall "@in" None [EConst (VUint 2); EIdent "m"]];
                                           ECall "!_" None [ECall "f" None [EIdent "x"]]];
                        ESelect (EIdent "y") "z-1" false];
     ECall "_==_" None [ESelect (EIdent "r") "s" true;
                        ECall "_[?_]" None [EMap [(true, (EIdent "k", EList [(false, EConst (VInt 1)); (true, EIdent "b")]))]; EIdent "q"]];
     all_comp accu_name "v" ""
       (map_filter_comp accu_name "i" "" (EIdent "l") (ECall "_>_" None [EIdent "i"; EConst (VInt 0)])
          (ECall "-_" None [ESelect (EIdent "i") "n" false]))
       (ECall "_?_:_" None [EIdent "v"; EConst (VBool true); EConst VNull])].
Definition six (d : double) : list Z := codes "1.5".
Example C76_text : exists text, Unparse six case = Val text /\ of_codes text =
  "((a.b(-1, 2u in m) || !f(x)) && y.`z-1`) ? (has(r.s) == {?k: [1, ?b]}[?q]) : l.map(i, i > 0, -i.n).all(v, v ? true : null)"%string.
Proof. eexists. split; vm_compute; reflexivity. Qed.
Example C76_case : printable all_on case.
Proof.
  assert (W : forall s, LexisIsIdentifier s = true -> printable all_on (EIdent s)) by (intros s H; apply P_ident; now left).
  assert (N : forall n, -2 ^ 63 <= n < 2 ^ 63 -> printable all_on (EConst (VInt n))) by (intros n H; now apply P_const).
  apply P_cond.
  - apply P_logical; [reflexivity|cbn; lia|]. constructor; [|constructor; [|constructor]].
    + apply P_logical; [reflexivity|cbn; lia|]. constructor; [|constructor; [|constructor]].
      * apply P_method; try reflexivity; [discriminate|now apply W|]. constructor; [apply N; lia|]. constructor; [|constructor].
        apply P_binary; [cbn; tauto|apply P_const; cbn; lia|now apply W].
      * apply P_not; [|reflexivity]. apply P_call; [now left|discriminate|reflexivity|]. constructor; [now apply W|constructor].
    + apply P_select; [now apply W|reflexivity|]. right. repeat split; try reflexivity; [now left|discriminate].
  - apply P_binary; [cbn; tauto| |].
    + apply P_has; try reflexivity; [now apply W|]. now left.
    + apply P_opt_index; try reflexivity; [|now apply W]. apply P_map. repeat constructor; try (cbn; lia); now left.
  - apply P_all; try reflexivity; [now split| |].
    + apply P_map3; try reflexivity; [now split|now apply W| |].
      * apply P_binary; [cbn; tauto|now apply W|apply N; lia].
      * apply P_neg; try reflexivity. apply P_select; [now apply W|reflexivity|now left].
    + apply P_cond; [now apply W|now apply P_const|now apply P_const].
Qed.

(* ---- refutations: texts that parse, to expressions that do not read back ---- *)
Definition lost (c : config) (text : string) : Prop :=
  exists e, Parse c (codes text) = Some e /\ forall sd, ~ reads_back c sd e.
Lemma lost_by c text e t r : Parse c (codes text) = Some e -> (forall sd, Unparse sd e = Val t) -> Parse c t = r ->
  match r with Some e' => flat e' <> flat e | None => True end -> lost c text.
Proof.
  intros P U R N. exists e. split; [exact P|]. intros sd (t' & e' & U' & P' & S). rewrite U in U'. injection U' as <-.
  rewrite P' in R. subst r. exact (N S).
Qed.
Ltac lose := eapply lost_by; [vm_compute; reflexivity|intros sd; vm_compute; reflexivity|vm_compute; reflexivity|
  vm_compute; first [exact I|discriminate]].
(* A sign or a ! under a field selection, an index, a method call or a macro:
   the parentheses are dropped and the operator moves outside. *)
Theorem C76_postfix_refuted : lost all_on "(-x).f" /\ lost all_on "(!x)[0]" /\ lost all_on "(-x).f(y)" /\
  lost all_on "(-x).?f" /\ lost all_on "(-x)[?y]" /\ lost all_on "(!x).all(y, y)".
Proof. repeat match goal with |- _ /\ _ => split end; lose. Qed.
Print Assumptions C76_postfix_refuted.
(* A sign before a parenthesized number: printed without the parentheses, and
   read as a number. *)
Theorem C76_sign_refuted : lost all_on "-(1)" /\ lost all_on "-(-1)" /\ lost all_on "-((1).f)".
Proof. repeat match goal with |- _ /\ _ => split end; lose. Qed.
Print Assumptions C76_sign_refuted.
(* Two operators in a row: printed without parentheses; the text is refused, or
   the operators cancel. *)
Theorem C76_operators_refuted : lost all_on "!(-x)" /\ lost all_on "-(!x)" /\ lost all_on "!(!x)" /\ lost all_on "-(-x)".
Proof. repeat match goal with |- _ /\ _ => split end; lose. Qed.
Print Assumptions C76_operators_refuted.
(* has() of a field of a binary operation. *)
Theorem C76_has_refuted : lost all_on "has((a + b).f)" /\ lost all_on "has((a ? b : c).f)".
Proof. repeat match goal with |- _ /\ _ => split end; lose. Qed.
Print Assumptions C76_has_refuted.
(* Back-quoted fields spelled like the literals. *)
Theorem C76_field_refuted : lost all_on "a.`true`" /\ lost all_on "a.`null`" /\ lost all_on "a.?`false`".
Proof. repeat match goal with |- _ /\ _ => split end; lose. Qed.
Print Assumptions C76_field_refuted.
(* Functions and methods that are called _in_: printed as the operator in, and
   the receiver of the method is dropped. *)
Theorem C76_in_refuted : lost all_on "_in_(a, b)" /\ lost all_on "x._in_(a, b)".
Proof. repeat match goal with |- _ /\ _ => split end; lose. Qed.
Print Assumptions C76_in_refuted.
(* A double that prints as digits only (as StrCat prints 1.0) reads back as an
   int. *)
Theorem C76_double_refuted c sd d n : 0 <= n < 2 ^ 63 -> sd d = decimal_text n ->
  exists text, Unparse sd (EConst (VDouble d)) = Val text /\ Parse c text = Some (EConst (VInt n)) /\
    ~ reads_back c sd (EConst (VDouble d)).
Proof.
  intros N S. destruct (const_parse c sd (VInt n)) as (t & U & R); [cbn; lia|].
  assert (E : Unparse sd (EConst (VDouble d)) = Val t).
  { rewrite <- U. unfold Unparse. cbn [Visit VisitConst obind]. now rewrite S. }
  exists t. split; [exact E|]. split; [exact R|]. intros (t' & e' & U' & P' & F). rewrite E in U'. injection U' as <-.
  rewrite R in P'. injection P' as <-. discriminate F.
Qed.
Print Assumptions C76_double_refuted.
(* A loop over two variables prints as one over the first. *)
Theorem C76_two_variables_refuted sd : ~ reads_back all_on sd (all_comp accu_name "i" "v" (EIdent "l") (EIdent "v")).
Proof.
  intros (t' & e' & U' & P' & S).
  assert (U : Unparse sd (all_comp accu_name "i" "v" (EIdent "l") (EIdent "v")) = Val (codes "l.all(i, v)")) by reflexivity.
  rewrite U in U'. injection U' as <-.
  assert (R : Parse all_on (codes "l.all(i, v)") = Some (all_comp accu_name "i" "" (EIdent "l") (EIdent "v"))) by (vm_compute; reflexivity).
  rewrite R in P'. injection P' as <-. discriminate S.
Qed.
Print Assumptions C76_two_variables_refuted.
