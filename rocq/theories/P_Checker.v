(* Properties of the type checker: C71, C72, C73. *)
From Coq Require Import String List Bool NArith ZArith Ascii Lia.
From Verif Require Import Base M_Overflow M_Number M_Attr M_Value M_Logic M_Expr S_Macro M_Infer S_Infer
  L_Infer L_Infer2 L_Unify L_Unify2 L_Fresh L_Literal.
From Verif Require Import M_Checker S_Checker L_Checker L_Checker2 L_Checker3.
Import ListNotations.
Local Open Scope string_scope.
Open Scope list_scope.
Local Open Scope nat_scope.

Lemma ok_new lg : ok (new_context lg).
Proof.
  split; [apply inv_new|]. split.
  - intros n H. exfalso. apply H. reflexivity.
  - intros n u H. discriminate H.
Qed.

Lemma static_stat D b e n : static D b e n -> stat D e n.
Proof.
  intros (H1 & H2 & H3 & H4 & H5). split; [|split; [|split; [|split]]]; auto.
  intros x x2 y r i c s body m H. destruct (H5 _ _ _ _ _ _ _ _ _ H) as (A & B & _). auto.
Qed.

(* A checked expression is well typed: if the checker reports no error for an
   expression in the static fragment, the type it gives the expression once all
   its type variables are resolved is one the expression has, and so is every
   instance of it; with an expected type, it is that type. *)
Theorem C71_accepted_is_well_typed_partial fuel legacy D expected e n c :
  fields_ground D ->
  (forall t, expected = Some t -> plain t /\ ground t) ->
  check_ast fuel legacy D expected e = Some (n, 0, c) ->
  static D (cx_bindings c) e n ->
  exists a, resolves (cx_bindings c) (tt_type n) a /\
    (forall t, expected = Some t -> a = t) /\
    forall s, wt D [] e (tsub s a).
Proof.
  intros HD HE H HS. unfold check_ast in H.
  destruct (check fuel D (new_context legacy) [] e) as [[[n0 m0] c0]|] eqn:E; [|discriminate].
  assert (P : n0 = n /\ m0 = 0 /\
    match expected with
    | None => c0 = c
    | Some t => is_assignable fuel c0 (tt_type n0) t = Some (true, c)
    end).
  { destruct expected as [t|].
    - destruct (is_assignable fuel c0 (tt_type n0) t) as [[[] c1]|]; [|discriminate..].
      injection H as -> -> ->. auto.
    - injection H as -> -> ->. auto. }
  destruct P as (-> & -> & P). clear H.
  destruct (sound_check fuel D HD e _ [] _ _ (ok_new legacy) (Forall_nil _) E (static_stat _ _ _ _ HS))
    as (St & F & W).
  assert (Q : step c0 c /\ forall t, expected = Some t -> ground t /\
      forall s, respects s (cx_bindings c) -> tsub s (tt_type n) = t).
  { destruct expected as [t|].
    - destruct (HE t eq_refl) as [Pt Gt]. destruct (step_ok _ _ St) as (I & N & Pc). destruct F as [Fp Fr].
      destruct (is_assignable_plain _ _ _ _ _ _ I Pc Fp Pt Fr (proj2 (fit_ground c0 t Pt Gt)) P) as [A _].
      destruct (A eq_refl) as [Pc' R]. split.
      + split; [split; [|split]|split].
        * eapply is_assignable_inv; eauto.
        * eapply numbered_grows; [exact N | eapply is_assignable_grows; eauto].
        * exact Pc'.
        * eapply is_assignable_grows; eauto.
        * intros s Hs. apply R, Hs.
      + intros t' [= <-]. split; [exact Gt|]. intros s Hs. destruct (R s Hs) as [_ ->]. apply tsub_ground, Gt.
    - subst c0. split; [apply step_refl, (step_ok _ _ St)|]. discriminate. }
  destruct Q as [Sc Q]. destruct (step_ok _ _ Sc) as (I & N & Pc).
  set (b := cx_bindings c) in *.
  assert (G : plain_graph (resolve b [])) by exact (plain_context_graph c Pc).
  destruct (full_all b I) as [K HK].
  destruct (fully_total b false I (tt_type n)) as (k & a & Ha).
  pose proof (static_stat _ _ _ _ HS) as HS'. pose proof (stat_plain _ _ _ HS') as Pn.
  assert (Ea : a = tsub (full_sub K b) (tt_type n)) by exact (fully_tsub b K G HK k _ _ Pn Ha).
  assert (RS : forall s, respects (fun x => tsub s (full_sub K b x)) b).
  { intros s. apply respects_models. intros x u Hu.
    rewrite (full_models b K I G HK x u Hu). apply tsub_tsub. }
  exists a. split; [exists k; exact Ha|]. split.
  - intros t Ht. destruct (Q t Ht) as [_ R].
    rewrite Ea. rewrite <- (R (full_sub K b)); [reflexivity|].
    apply respects_models, full_models; auto.
  - intros s.
    pose proof (W _ (proj2 (proj2 Sc) _ (RS s))) as W'. cbn [gsub map] in W'.
    rewrite Ea, tsub_tsub. apply W'. clear W' W.
    intros x x2 y r i cd stp body m Hm t nr ni nc ns nb ->.
    destruct HS as (H1 & _ & _ & _ & H5). destruct (H5 _ _ _ _ _ _ _ _ _ Hm) as (_ & _ & L).
    destruct (L _ _ _ _ _ _ eq_refl) as ([kc Hc] & u & [ks Hs] & [ki Hi]).
    assert (Pl : forall j ej nj, nth_error (parts_of (EComp x x2 y r i cd stp body)) j = Some ej ->
       nth_error [nr; ni; nc; ns; nb] j = Some nj -> plain (tt_type nj)).
    { intros j ej nj A B. apply (H1 ej nj).
      clear - Hm A B. remember (EComp x x2 y r i cd stp body) as ce. remember (Node t [nr; ni; nc; ns; nb]) as cn.
      induction Hm; subst.
      - eapply recorded_part; [exact A | exact B | constructor].
      - eapply recorded_part; eauto. }
    pose proof (Pl 2 _ _ eq_refl eq_refl) as Pc2. pose proof (Pl 3 _ _ eq_refl eq_refl) as Ps2.
    pose proof (Pl 1 _ _ eq_refl eq_refl) as Pi2.
    rewrite <- !tsub_tsub.
    rewrite <- (fully_tsub b K G HK _ _ _ Pc2 Hc), <- (fully_tsub b K G HK _ _ _ Ps2 Hs),
      <- (fully_tsub b K G HK _ _ _ Pi2 Hi). split; reflexivity.
Qed.
Print Assumptions C71_accepted_is_well_typed_partial.

(* ---- a concrete case ---- *)

(* the pairs related by [recorded], as a list *)
Fixpoint pairs (n : ttree) (e : expr) : list (expr * ttree) :=
  match n with
  | Node t ns =>
      (e, n) :: (fix go (ns : list ttree) (es : list expr) :=
                   match ns, es with
                   | m :: ns', a :: es' => pairs m a ++ go ns' es'
                   | _, _ => []
                   end) ns (parts_of e)
  end.
Lemma pairs_recorded e n a m : recorded e n a m -> In (a, m) (pairs n e).
Proof.
  induction 1.
  - destruct n. left. reflexivity.
  - cbn [pairs]. right. revert i a m H H0 IHrecorded H1. generalize (parts_of e). clear.
    induction ns as [|x ns IH]; intros [|y es] i a m Ha Hm IHr R; try (destruct i; discriminate).
    apply in_or_app. destruct i.
    + left. injection Ha as ->. injection Hm as ->. exact IHr.
    + right. eapply IH; eauto.
Qed.

Definition ex_decls : decls :=
  mkDecls (fun x => if String.eqb x "xs" then Some (TList tint)
                    else if String.eqb x "msg" then Some (TStruct "M") else None)
          std_funcs
          (fun n f => if String.eqb n "M" && String.eqb f "names" then Some (TMap tstring tint) else None).
(* xs.map(x, x + 1)[0] > 2 && [] == [msg.names] *)
Definition ex_expr : expr :=
  ECall "_&&_" None
    [ECall "_>_" None
       [ECall "_[_]" None
          [EComp "x" "" "@result" (EIdent "xs") (EList []) (EConst (VBool true))
             (ECall "_+_" None [EIdent "@result";
                EList [(false, ECall "_+_" None [EIdent "x"; EConst (VInt 1)])]])
             (EIdent "@result");
           EConst (VInt 0)];
        EConst (VInt 2)];
     ECall "_==_" None [EList []; EList [(false, ESelect (EIdent "msg") "names" false)]]].
Definition ex_checked := check_ast 60 true ex_decls (Some tbool) ex_expr.

Example ex_static : exists n c,
  fields_ground ex_decls /\ plain tbool /\ ground tbool /\
  ex_checked = Some (n, 0, c) /\ static ex_decls (cx_bindings c) ex_expr n.
Proof.
  destruct ex_checked as [[[n m] c]|] eqn:E; [|vm_compute in E; discriminate].
  vm_compute in E. injection E as <- <- <-.
  eexists _, _. split; [|split; [exact I|split; [|split; [reflexivity|]]]].
  - intros n f t. unfold ex_decls, d_fields. destruct (_ && _)%bool; [|discriminate].
    intros [= <-] v M. inversion M; subst. destruct H as [<-|[<-|[]]]; inversion H0; subst; destruct H.
  - intros v M. inversion M; subst. destruct H.
  - split; [|split; [|split; [|split]]].
    + intros a m H. apply pairs_recorded in H. cbn in H.
      repeat (destruct H as [H|H]; [injection H as <- <-; vm_compute; tauto|]). destruct H.
    + intros x m T H HT. apply pairs_recorded in H. cbn in H.
      repeat (destruct H as [H|H]; [try discriminate H; injection H as <- <-; vm_compute in HT;
        first [discriminate HT | injection HT as <-; vm_compute; tauto]|]). destruct H.
    + intros fn target args m ovls H. apply pairs_recorded in H. cbn in H.
      repeat (destruct H as [H|H]; [first [discriminate H | injection H as <- <- <- <-; split;
        [discriminate|]; intros [= <-] o Ho;
        repeat (destruct Ho as [<-|Ho]; [vm_compute; repeat constructor|]); destruct Ho]|]). destruct H.
    + intros a f test m H t k. apply pairs_recorded in H. cbn in H.
      repeat (destruct H as [H|H]; [first [discriminate H | injection H as <- <- <- <-;
        intros [= <- <-] v; split; discriminate]|]). destruct H.
    + intros x x2 y r i c s body m H. apply pairs_recorded in H. cbn in H.
      repeat (destruct H as [H|H]; [first [discriminate H | injection H as <- <- <- <- <- <- <- <- <-;
        split; [reflexivity|]; split; [reflexivity|];
        intros t nr ni nc ns nb [= <- <- <- <- <- <-]; split;
        [exists 60; vm_compute; reflexivity | eexists; split; exists 60; vm_compute; reflexivity]]|]).
      destruct H.
Qed.

(* ---- what the checker does outside the fragment ---- *)

(* The condition of a loop is not required to be boolean, and a loop step not
   to have the accumulator's type: this expression is accepted with type int
   and has no type. *)
Definition ex_loop : expr :=
  EComp "x" "" "y" (EList [(false, EConst (VInt 1))]) (EConst (VInt 0)) (EConst (VString []))
    (EConst (VString [])) (EIdent "y").
Theorem C71_loop_types_refuted :
  (exists n c, check_ast 60 true ex_decls (Some tint) ex_loop = Some (n, 0, c)) /\
  forall t, ~ wt ex_decls [] ex_loop t.
Proof.
  split; [eexists _, _; vm_compute; reflexivity|].
  intros t H. inversion H; subst.
  match goal with H : wt _ _ (EConst (VString [])) (TPrim PBool) |- _ => inversion H; subst end.
  match goal with H : literal _ _ |- _ => inversion H end.
Qed.
Print Assumptions C71_loop_types_refuted.

(* The condition of a loop is checked without the loop's own variables, which
   it can read when it is evaluated: well typed but refused. *)
Definition ex_cond : expr :=
  EComp "x" "" "y" (EIdent "xs") (EConst (VInt 0))
    (ECall "_>_" None [EIdent "x"; EConst (VInt 1)]) (EIdent "x") (EIdent "y").
Theorem C71_condition_scope_refuted :
  wt ex_decls [] ex_cond tint /\
  exists n c, check_ast 60 true ex_decls None ex_cond = Some (n, 1, c).
Proof.
  split; [|eexists _, _; vm_compute; reflexivity].
  assert (L : forall D G x t, x <> "" -> (forall r, x <> String "."%char r) -> scope_find G x = Some t ->
     wt D G (EIdent x) t) by (intros; now constructor).
  apply (wt_comp _ _ _ _ _ _ _ _ _ _ (TList tint) [("x", tint)] tint).
  - apply (wt_global ex_decls [] "xs" (TList tint) (fun n => TParam n)); [discriminate | reflexivity | reflexivity].
  - now constructor.
  - constructor. constructor.
  - change (TPrim PBool) with (tsub (fun n => TParam n) (od_result (ovl "greater_int64" tbool [tint; tint]))).
    eapply wt_call with (ts := [tint; tint]);
      [reflexivity | left; reflexivity | reflexivity | | reflexivity].
    constructor; [apply L; discriminate || reflexivity|]. constructor; [|constructor].
    constructor. constructor.
  - apply L; discriminate || reflexivity.
  - apply L; discriminate || reflexivity.
Qed.
Print Assumptions C71_condition_scope_refuted.

(* range.exists(x, body), as the macro expands it *)
Definition exists_ (range : expr) (x : string) (body : expr) : expr :=
  EComp x "" "@result" range (EConst (VBool false))
    (ECall "@not_strictly_false" None [ECall "!_" None [EIdent "@result"]])
    (ECall "_||_" None [EIdent "@result"; body]) (EIdent "@result").

Lemma std_call G fn o args ts s :
  (exists ovls, std_funcs fn = Some ovls /\ In o ovls) -> od_member o = false ->
  Forall2 (wt ex_decls G) args ts -> ts = map (tsub s) (od_args o) ->
  wt ex_decls G (ECall fn None args) (tsub s (od_result o)).
Proof. intros (ovls & F & I) M A E. eapply (wt_call ex_decls G fn None args); eauto. Qed.
Definition ids : string -> ty := fun n => TParam n.
Lemma wt_var G x t : (forall r, x <> String "."%char r) -> scope_find G x = Some t -> wt ex_decls G (EIdent x) t.
Proof. intros. now constructor. Qed.
Lemma wt_exists G range t x body :
  x <> "@result" ->
  wt ex_decls G range (TList t) -> wt ex_decls ((x, t) :: ("@result", tbool) :: G) body tbool ->
  wt ex_decls G (exists_ range x body) tbool.
Proof.
  intros Nx R B. apply (wt_comp _ _ _ _ _ _ _ _ _ _ (TList t) [(x, t)] tbool).
  - exact R.
  - now constructor.
  - constructor. constructor.
  - apply (std_call _ _ (ovl "not_strictly_false" tbool [tbool]) _ [tbool] ids); try reflexivity.
    + eexists. split; [reflexivity|]. cbn. tauto.
    + constructor; [|constructor].
      apply (std_call _ _ (ovl "logical_not" tbool [tbool]) _ [tbool] ids); try reflexivity.
      * eexists. split; [reflexivity|]. cbn. tauto.
      * constructor; [|constructor]. apply wt_var; [discriminate|]. cbn.
        apply String.eqb_neq in Nx. now rewrite Nx.
  - apply (std_call _ _ (ovl "logical_or" tbool [tbool; tbool]) _ [tbool; tbool] ids); try reflexivity.
    + eexists. split; [reflexivity|]. cbn. tauto.
    + constructor; [|constructor; [exact B | constructor]]. apply wt_var; [discriminate|]. cbn.
      apply String.eqb_neq in Nx. now rewrite Nx.
  - apply wt_var; [discriminate | reflexivity].
Qed.

(* A range whose type is still a type variable is refused, whatever the
   variable stands for: [].exists(x, x.exists(y, true)). *)
Theorem C71_nested_range_refuted :
  let e := exists_ (EList []) "x" (exists_ (EIdent "x") "y" (EConst (VBool true))) in
  wt ex_decls [] e tbool /\
  exists n c, check_ast 60 true ex_decls None e = Some (n, 1, c).
Proof.
  split; [|eexists _, _; vm_compute; reflexivity].
  apply (wt_exists _ _ (TList tint)); [discriminate | constructor; constructor|].
  apply (wt_exists _ _ tint); [discriminate | apply wt_var; [discriminate | reflexivity]|].
  constructor. constructor.
Qed.
Print Assumptions C71_nested_range_refuted.

(* Of the overloads that fit an operand of unknown type the first is taken:
   [].exists(x, x + x == '') is refused because x is then an int. *)
Theorem C71_first_overload_refuted :
  let e := exists_ (EList []) "x"
             (ECall "_==_" None [ECall "_+_" None [EIdent "x"; EIdent "x"]; EConst (VString [])]) in
  wt ex_decls [] e tbool /\
  exists n c, check_ast 60 true ex_decls None e = Some (n, 1, c).
Proof.
  split; [|eexists _, _; vm_compute; reflexivity].
  apply (wt_exists _ _ tstring); [discriminate | constructor; constructor|].
  apply (std_call _ _ (ovl "equals" tbool [TParam "A"; TParam "A"]) _ [tstring; tstring] (fun _ => tstring));
    try reflexivity.
  - eexists. split; [reflexivity|]. cbn. tauto.
  - constructor; [|constructor; [constructor; constructor | constructor]].
    apply (std_call _ _ (ovl "add_string" tstring [tstring; tstring]) _ [tstring; tstring] ids); try reflexivity.
    + eexists. split; [reflexivity|]. cbn. tauto.
    + repeat (constructor; [apply wt_var; [discriminate | reflexivity]|]). constructor.
Qed.
Print Assumptions C71_first_overload_refuted.

(* A field of a variable already known to be an int is accepted:
   [].exists(x, x == 1 && x.f == 2). *)
Theorem C71_bound_select_refuted :
  let e := exists_ (EList []) "x"
             (ECall "_&&_" None [ECall "_==_" None [EIdent "x"; EConst (VInt 1)];
                ECall "_==_" None [ESelect (EIdent "x") "f" false; EConst (VInt 2)]]) in
  (exists n c, check_ast 60 true ex_decls (Some tbool) e = Some (n, 0, c)) /\
  forall t, ~ wt ex_decls [] e t.
Proof.
  split; [eexists _, _; vm_compute; reflexivity|].
  assert (F : forall G fn a b t, wt ex_decls G (ECall fn None [a; b]) t ->
            exists u w, wt ex_decls G a u /\ wt ex_decls G b w).
  { intros G fn a b t H. inversion H; subst;
      repeat match goal with
             | H : Forall2 _ (_ :: _) _ |- _ => inversion H; subst; clear H
             | H : Forall2 _ [] _ |- _ => inversion H; subst; clear H
             end; eauto. }
  assert (Q : forall G a b t, wt ex_decls G (ECall "_==_" None [a; b]) t ->
            exists u, wt ex_decls G a u /\ wt ex_decls G b u).
  { intros G a b t H. inversion H; subst.
    - match goal with
      | H : d_funcs _ _ = Some _ |- _ => injection H as <-
      end.
      match goal with H : In _ _ |- _ => destruct H as [<- | []] end. cbn in *.
      repeat match goal with
             | H : Forall2 _ (_ :: _) _ |- _ => inversion H; subst; clear H
             end. eauto.
    - match goal with H : _ \/ _ |- _ => destruct H; discriminate end. }
  intros t H. inversion H; subst.
  match goal with H : wt _ _ (ECall "_||_" _ _) _ |- _ => destruct (F _ _ _ _ _ H) as (u & w & _ & B) end.
  destruct (F _ _ _ _ _ B) as (u1 & w1 & B1 & B2).
  destruct (Q _ _ _ _ B1) as (i & X & One). inversion One; subst.
  match goal with H : literal _ _ |- _ => inversion H; subst end.
  destruct (Q _ _ _ _ B2) as (i & Sel & _).
  match goal with H : iterates _ _ _ _ |- _ => inversion H; subst; try congruence end.
  - inversion X; subst; try discriminate. cbn in *.
    match goal with H : Some _ = Some (TPrim PInt) |- _ => injection H as -> end.
    inversion Sel; subst;
    match goal with H : wt _ _ (EIdent "x") _ |- _ => inversion H; subst; try discriminate; cbn in *;
      match goal with H : Some _ = Some _ |- _ => inversion H; subst end end;
    match goal with H : member _ _ _ _ |- _ => inversion H end.
  - match goal with H : wt _ _ (EList []) _ |- _ => inversion H end.
Qed.
Print Assumptions C71_bound_select_refuted.

(* ---- C72 ---- *)

(* Checking ends for every expression and all declarations: with enough fuel,
   more changes nothing, and every part of the expression has a type. *)
Theorem C72_checking_terminates legacy D expected e :
  exists fuel n issues c, shaped e n /\
    forall fuel', fuel <= fuel' -> check_ast fuel' legacy D expected e = Some (n, issues, c).
Proof.
  destruct (check_ast_ends legacy D expected e) as (n & m & c & S & [k H]). exists k, n, m, c. auto.
Qed.
Print Assumptions C72_checking_terminates.
(* [[]] + [[1]] + [x] with x undeclared: one issue *)
Example ex_terminates : exists n c,
  check_ast 60 true ex_decls None
    (ECall "_+_" None [ECall "_+_" None [EList [(false, EList [])]; EList [(false, EList [(false, EConst (VInt 1))])]];
                       EIdent "x"]) = Some (n, 1, c) /\ tt_type n = TList (TList tint).
Proof. eexists _, _. split; vm_compute; reflexivity. Qed.

(* ---- C73 ---- *)

(* An expression accepted without an issue uses only declared variables, calls
   only functions declared for that call style and number of arguments, and
   has only literals that have a type; dyn or not. *)
Theorem C73_undeclared_is_reported fuel legacy D expected e n c :
  check_ast fuel legacy D expected e = Some (n, 0, c) ->
  (forall x, free x e = true -> d_vars D (snd (split_root x)) <> None) /\
  (forall fn target args, part_of e (ECall fn target args) -> fn <> "_?._" ->
     call_declared D fn (match target with None => false | Some _ => true end)
       (match target with None => 0 | Some _ => 1 end + length args)) /\
  (forall v, part_of e (EConst v) -> exists t, literal v t).
Proof.
  intros H. unfold check_ast in H.
  destruct (check fuel D (new_context legacy) [] e) as [[[n0 m0] c0]|] eqn:E; [|discriminate].
  assert (m0 = 0).
  { destruct expected as [t|]; [|injection H as _ -> _; reflexivity].
    destruct (is_assignable fuel c0 (tt_type n0) t) as [[[] c1]|]; [|discriminate..].
    injection H as _ -> _. reflexivity. }
  subst. destruct (all_reported fuel D e _ _ _ _ E) as (F & R). split; [|exact R].
  intros x Hx. destruct (F x Hx) as [A|A]; [elim A; reflexivity | exact A].
Qed.
Print Assumptions C73_undeclared_is_reported.
(* dyn(msg).anything[0] is accepted *)
Example ex_reported : exists n c,
  check_ast 60 true ex_decls None
    (ECall "_[_]" None [ESelect (ECall "dyn" None [EIdent "msg"]) "anything" false; EConst (VInt 0)])
    = Some (n, 0, c) /\ tt_type n = TDyn.
Proof. eexists _, _. split; vm_compute; reflexivity. Qed.
