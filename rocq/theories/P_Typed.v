(* Property C74: evaluating a well-typed expression. *)
From Coq Require Import String List Bool NArith ZArith Ascii Lia Permutation.
From Verif Require Import Base M_Overflow M_Number M_Attr M_Value M_Logic M_Expr M_Plan M_Machine
  S_Arith S_Num S_Value S_Eval L_Value L_Budget L_Core P_Eval L_Eval S_Macro M_Infer S_Infer M_Checker S_Checker P_Checker.
From Verif Require Import S_Typed L_Typed.
Import ListNotations.
Local Open Scope string_scope.
Open Scope list_scope.
Open Scope Z_scope.

(* ------------------------------------------------------------------ C74 *)
(* When the host keeps its declarations' promises, an expression of type t
   gives a value of type t or an error that is not a type error: no operation
   meets an operand of a type it was not declared for, whatever the values of
   the variables and the results of the functions are. *)
Theorem C74_well_typed_evaluation : forall D C R e t,
  conforms D C R -> constants_ok e -> wt D [] e t ->
  good (o_optional_types (cf_opts C)) t (meaning C R e no_locals).
Proof. intros D C R e t H K W. eapply sound; eauto. apply env_empty. Qed.
Print Assumptions C74_well_typed_evaluation.

(* what the caller of a program sees *)
Definition fine_result (opts : bool) (t : ty) (C : config) (r : res value) : Prop :=
  (exists v, outcome r = Val v /\ (has_type opts t v \/ exists st, v = VError st /\ ~ type_error st)) \/
  (exists st, outcome r = Err st /\ ~ type_error st) \/ out_of_budget C r.

(* The same of the planned program, where planning preserves meaning (C21). *)
Theorem C74_well_typed_program_partial : forall D C R e t P,
  conforms D C R -> constants_ok e -> wt D [] e t ->
  0 <= o_max_iterations (cf_opts C) ->
  o_short_circuiting (cf_opts C) = false \/ has_bind e = false \/ has_early_exit e = false ->
  plan (cf_opts C) R e = Val P ->
  exists r, evaluates C P r /\ fine_result (o_optional_types (cf_opts C)) t C r.
Proof.
  intros D C R e t P H K W HN Hs HP.
  pose proof (C74_well_typed_evaluation D C R e t H K W) as G.
  destruct (C21_plan_correct_partial C R e P HN Hs HP) as (r & Hr & [A|B]); exists r; (split; [exact Hr|]).
  - unfold fine_result. destruct (meaning C R e no_locals) as [[v tr]|st|]; cbn [agrees fst] in A.
    + destruct A as [s ->]. left. exists v. split; [reflexivity | exact G].
    + destruct A as [s ->]. right. left. exists st. split; [reflexivity | exact G].
    + destruct G.
  - right. right. exact B.
Qed.
Print Assumptions C74_well_typed_program_partial.

(* And of a program whose expression the type checker accepted: for every
   instance of the type the checker found, so for the type itself when it has
   no type parameters, or when one was asked for. *)
Theorem C74_checked_program_partial : forall fuel legacy D expected C R e n c P,
  fields_ground D -> (forall t, expected = Some t -> plain t /\ ground t) ->
  check_ast fuel legacy D expected e = Some (n, 0%nat, c) -> static D (cx_bindings c) e n ->
  conforms D C R -> constants_ok e ->
  0 <= o_max_iterations (cf_opts C) ->
  o_short_circuiting (cf_opts C) = false \/ has_bind e = false \/ has_early_exit e = false ->
  plan (cf_opts C) R e = Val P ->
  exists a r, resolves (cx_bindings c) (tt_type n) a /\ (forall t, expected = Some t -> a = t) /\
    evaluates C P r /\ forall s, fine_result (o_optional_types (cf_opts C)) (tsub s a) C r.
Proof.
  intros fuel legacy D expected C R e n c P HF HE HC HS H K HN Hs HP.
  destruct (C71_accepted_is_well_typed_partial _ _ _ _ _ _ _ HF HE HC HS) as (a & Ra & Ea & W).
  destruct (C74_well_typed_program_partial D C R e _ P H K (W TParam) HN Hs HP) as (r & Hr & _).
  exists a, r. split; [exact Ra|]. split; [exact Ea|]. split; [exact Hr|]. intros s.
  destruct (C74_well_typed_program_partial D C R e _ P H K (W s) HN Hs HP) as (r' & Hr' & F).
  rewrite (evaluates_det _ _ _ _ Hr Hr'). exact F.
Qed.
Print Assumptions C74_checked_program_partial.

(* ---- a host that conforms ---- *)

(* variables: xs, a list of int; an expression uses standard operators, the
   addition of int and of lists, and dyn() *)
Definition keep (fn : string) : bool :=
  existsb (String.eqb fn) ["_&&_"; "_||_"; "!_"; "_?_:_"; "_[_]"; "_==_"; "@in"; "@not_strictly_false"].
Definition host_ovls (fn : string) : option (list overload_decl) :=
  if String.eqb fn "_+_" then Some [ovl "add_int64" tint [tint; tint]; ovl "add_list" list_a [list_a; list_a]]
  else if String.eqb fn "_>_" then Some [ovl "greater_int64" tbool [tint; tint]]
  else if String.eqb fn "dyn" then Some [ovl "to_dyn" TDyn [TParam "A"]]
  else if keep fn then std_funcs fn else None.
Definition host_decls : decls :=
  mkDecls (fun x => if String.eqb x "xs" then Some (TList tint) else None) host_ovls (fun _ _ => None).
Definition add_int (vs : list value) : out value :=
  match vs with
  | [VInt a; VInt b] =>
      Val (if in_int64 (a + b) then VInt (a + b) else VError (mkStatus kOutOfRange "integer overflow"))
  | _ => UB
  end.
Definition host_registry : registry :=
  [M_Expr.mkOverload "_+_" false [Some kIntT; Some kIntT] true add_int;
   M_Expr.mkOverload "_+_" false [Some kListT; Some kListT] true
     (fun vs => match vs with [VList a; VList b] => Val (VList (a ++ b)) | _ => UB end);
   M_Expr.mkOverload "_>_" false [Some kIntT; Some kIntT] true
     (fun vs => match vs with [VInt a; VInt b] => Val (VBool (b <? a)) | _ => UB end);
   M_Expr.mkOverload "dyn" false [None] true (fun vs => match vs with [a] => Val a | _ => UB end)].
Definition host_config (xs : list Z) : config :=
  mkConfig (mkOptions false true 0 true true false true)
    (fun x => Val (if String.eqb x "xs" then Some (VList (map VInt xs)) else None)) [] (fun m => m).
Definition int64s (xs : list Z) : Prop := Forall (fun i => in_int64 i = true) xs.

Lemma overflow_fine : ~ type_error (mkStatus kOutOfRange "integer overflow").
Proof. intros [(fn & _ & E)|[E|[E|[E|E]]]]; discriminate. Qed.

Lemma host_conforms xs : int64s xs -> conforms host_decls (host_config xs) host_registry.
Proof.
  intros Hx. unfold int64s in Hx. split; try reflexivity.
  - intros x T. cbn [host_decls d_vars host_config cf_vars]. destruct (String.eqb x "xs"); [|discriminate].
    intros [= <-] s. cbn [tsub]. apply type_list with (C := host_config xs). exists (map VInt xs).
    split; [reflexivity|]. rewrite Forall_forall in *. intros v Hv. apply in_map_iff in Hv.
    destruct Hv as (i & <- & Hi). split; [split; [apply Hx, Hi | exact I] | exists i; reflexivity].
  - intros fn ovls o Hop Hf Ho. cbn [host_decls d_funcs] in Hf. unfold host_ovls in Hf.
    assert (E : ovls = match std_funcs fn with Some l => l | None => opt_ovls fn end).
    { cbn [operators In] in Hop.
      repeat match type of Hop with _ \/ _ => destruct Hop as [Hop | Hop] end; try (now destruct Hop);
        subst fn; cbn in Hf; first [discriminate Hf | injection Hf as <-; reflexivity]. }
    exists o. rewrite <- E. auto.
  - cbn. auto.
  - intros fn _ _ o Ho _. cbn in Ho. repeat (destruct Ho as [<- | Ho]; [reflexivity|]). destruct Ho.
  - intros fn ovls o s vs Hf Ho Nop F. cbn [host_decls d_funcs] in Hf. unfold host_ovls in Hf.
    destruct (String.eqb fn "_+_") eqn:E1.
    { apply String.eqb_eq in E1. subst fn. injection Hf as <-. destruct Ho as [<- | [<- | []]];
        cbn [od_args od_result ovl map tsub] in F |- *; inversion F as [|? a ? vs1 Ta F1]; subst;
        inversion F1 as [|? b ? vs2 Tb F2]; subst; inversion F2; subst.
      - destruct Ta as [_ [i ->]]. destruct Tb as [_ [j ->]]. eexists. split; [reflexivity|]. cbn [ov_impl add_int obind].
        destruct (in_int64 (i + j)) eqn:B.
        + left. split; [split; [exact B | exact I] | eexists; reflexivity].
        + right. eexists. split; [reflexivity | apply overflow_fine].
      - apply type_list with (C := host_config xs) in Ta. apply type_list with (C := host_config xs) in Tb.
        destruct Ta as (l & -> & Fl). destruct Tb as (m & -> & Fm). eexists. split; [reflexivity|].
        cbn [ov_impl obind]. left. apply type_list with (C := host_config xs). eexists. split; [reflexivity|].
        apply Forall_app. auto. }
    destruct (String.eqb fn "_>_") eqn:E2.
    { apply String.eqb_eq in E2. subst fn. injection Hf as <-. destruct Ho as [<- | []].
      cbn [od_args od_result ovl map tsub] in F |- *. inversion F as [|? a ? vs1 Ta F1]; subst.
      inversion F1 as [|? b ? vs2 Tb F2]; subst. inversion F2; subst.
      destruct Ta as [_ [i ->]]. destruct Tb as [_ [j ->]]. eexists. split; [reflexivity|]. cbn [ov_impl obind].
      left. split; [split; exact I | eexists; reflexivity]. }
    destruct (String.eqb fn "dyn") eqn:E3.
    { apply String.eqb_eq in E3. subst fn. injection Hf as <-. destruct Ho as [<- | []].
      cbn [od_args od_result ovl map tsub] in F |- *. inversion F as [|? a ? vs1 Ta F1]; subst. inversion F1; subst.
      eexists. split; [reflexivity|]. cbn [ov_impl obind]. left. split; [apply Ta | exact I]. }
    exfalso. apply Nop. destruct (keep fn) eqn:E4; [|discriminate]. unfold keep in E4. apply existsb_exists in E4.
    destruct E4 as (g & Hg & Eg). apply String.eqb_eq in Eg. subst g. cbn in Hg |- *. tauto.
Qed.

(* xs.exists(x, x > 3) ? xs[0] + 1 : 0 *)
Definition host_expr : expr :=
  ECall "_?_:_" None
    [EComp "x" "" "@result" (EIdent "xs") (EConst (VBool false))
       (ECall "@not_strictly_false" None [ECall "!_" None [EIdent "@result"]])
       (ECall "_||_" None [EIdent "@result"; ECall "_>_" None [EIdent "x"; EConst (VInt 3)]])
       (EIdent "@result");
     ECall "_+_" None [ECall "_[_]" None [EIdent "xs"; EConst (VInt 0)]; EConst (VInt 1)];
     EConst (VInt 0)].
Fixpoint constants (e : expr) : list value :=
  match e with
  | EConst v => [v]
  | EIdent _ => []
  | ESelect a _ _ => constants a
  | ECall _ t args =>
      match t with None => [] | Some a => constants a end ++ flat_map constants args
  | EList l => flat_map (fun p => constants (snd p)) l
  | EMap l => flat_map (fun p => constants (fst (snd p)) ++ constants (snd (snd p))) l
  | EComp _ _ _ a b c d f => constants a ++ constants b ++ constants c ++ constants d ++ constants f
  end.
Lemma constants_parts e a v : In a (parts_of e) -> In v (constants a) -> In v (constants e).
Proof.
  destruct e as [w|x|b f t|fn t args|l|l|x x2 y r i c s b]; cbn [parts_of constants]; intros Ha Hv.
  - destruct Ha.
  - destruct Ha.
  - destruct Ha as [-> | []]. exact Hv.
  - apply in_or_app. destruct t as [t|]; [destruct Ha as [-> | Ha]; [left; exact Hv|]|];
      right; apply in_flat_map; eauto.
  - apply in_map_iff in Ha. destruct Ha as (p & <- & Hp). apply in_flat_map. eauto.
  - apply in_flat_map in Ha. destruct Ha as (p & Hp & Ha). apply in_flat_map. exists p. split; [exact Hp|].
    apply in_or_app. destruct Ha as [<- | [<- | []]]; auto.
  - rewrite !in_app_iff. cbn in Ha. repeat (destruct Ha as [-> | Ha]; [tauto|]). destruct Ha.
Qed.
Lemma constants_all e v : part_of e (EConst v) -> In v (constants e).
Proof.
  intros H. remember (EConst v) as c. induction H as [e|e a b Ha _ IH]; subst.
  - left. reflexivity.
  - eapply constants_parts; eauto.
Qed.
Lemma constants_ok_all e : Forall value_ok (constants e) -> constants_ok e.
Proof. intros F v Hv. rewrite Forall_forall in F. apply F, constants_all, Hv. Qed.

Lemma host_static : exists n c,
  check_ast 60 true host_decls (Some tint) host_expr = Some (n, 0%nat, c) /\
  static host_decls (cx_bindings c) host_expr n.
Proof.
  destruct (check_ast 60 true host_decls (Some tint) host_expr) as [[[n m] c]|] eqn:E; [|vm_compute in E; discriminate].
  vm_compute in E. injection E as <- <- <-.
  eexists _, _. split; [reflexivity|]. split; [|split; [|split; [|split]]].
  - intros a m H. apply pairs_recorded in H. cbn in H.
    repeat (destruct H as [H|H]; [injection H as <- <-; vm_compute; tauto|]). destruct H.
  - intros x m T H HT. apply pairs_recorded in H. cbn in H.
    repeat (destruct H as [H|H]; [try discriminate H; injection H as <- <-; vm_compute in HT;
      first [discriminate HT | injection HT as <-; vm_compute; tauto]|]). destruct H.
  - intros fn target args m ovls H. apply pairs_recorded in H. cbn in H.
    repeat (destruct H as [H|H]; [first [discriminate H | injection H as <- <- <- <-; split;
      [discriminate|]; intros [= <-] o Ho;
      repeat (destruct Ho as [<-|Ho]; [vm_compute; repeat constructor|]); destruct Ho]|]). destruct H.
  - intros a f test m H t k. apply pairs_recorded in H. cbn in H.
    repeat (destruct H as [H|H]; [first [discriminate H | injection H as <- <- <- <-;
      intros [= <- <-] v; split; discriminate]|]). destruct H.
  - intros x x2 y r i c s body m H. apply pairs_recorded in H. cbn in H.
    repeat (destruct H as [H|H]; [first [discriminate H | injection H as <- <- <- <- <- <- <- <- <-;
      split; [reflexivity|]; split; [reflexivity|];
      intros t nr ni nc ns nb [= <- <- <- <- <- <-]; split;
      [exists 60%nat; vm_compute; reflexivity | eexists; split; exists 60%nat; vm_compute; reflexivity]]|]).
    destruct H.
Qed.
(* all hypotheses of the theorems, for every list of int64_t *)
Example C74_ex xs : int64s xs -> exists n c P,
  fields_ground host_decls /\ plain tint /\ ground tint /\
  check_ast 60 true host_decls (Some tint) host_expr = Some (n, 0%nat, c) /\
  static host_decls (cx_bindings c) host_expr n /\
  conforms host_decls (host_config xs) host_registry /\ constants_ok host_expr /\
  0 <= o_max_iterations (cf_opts (host_config xs)) /\ has_bind host_expr = false /\
  plan (cf_opts (host_config xs)) host_registry host_expr = Val P.
Proof.
  intros Hx. destruct host_static as (n & c & H1 & H2). exists n, c.
  assert (Hp : match plan (cf_opts (host_config xs)) host_registry host_expr with Val _ => true | _ => false end = true)
    by (vm_compute; reflexivity).
  destruct (plan (cf_opts (host_config xs)) host_registry host_expr) as [P|st|]; [|discriminate Hp..]. exists P.
  split; [intros m f t [=]|]. split; [exact I|]. split; [intros v M; inversion M; subst; destruct H|].
  split; [exact H1|]. split; [exact H2|]. split; [apply host_conforms, Hx|].
  split; [apply constants_ok_all; repeat constructor|]. split; [cbn; lia|]. split; reflexivity.
Qed.
Example C74_values :
  meaning (host_config [2; 5]) host_registry host_expr no_locals = Val (VInt 3, None) /\
  meaning (host_config [2]) host_registry host_expr no_locals = Val (VInt 0, None) /\
  (exists st, meaning (host_config [9223372036854775807]) host_registry host_expr no_locals = Val (VError st, None) /\
     ~ type_error st).
Proof.
  split; [vm_compute; reflexivity|]. split; [vm_compute; reflexivity|].
  eexists. split; [vm_compute; reflexivity | apply overflow_fine].
Qed.

(* ---- where accepted expressions do go wrong ---- *)

(* dyn is assignable to everything, so [1] + dyn([""]) is a list(int) for the
   checker, and the string in it reaches operations on int. *)
Definition dyn_list : expr :=
  ECall "_+_" None [EList [(false, EConst (VInt 1))];
                    ECall "dyn" None [EList [(false, EConst (VString []))]]].
Definition dyn_use : expr :=
  ECall "_>_" None [ECall "_[_]" None [dyn_list; EConst (VInt 1)]; EConst (VInt 0)].
Theorem C74_dyn_refuted : forall C, C = host_config [] ->
  conforms host_decls C host_registry /\
  (exists n c, check_ast 60 true host_decls (Some (TList tint)) dyn_list = Some (n, 0%nat, c)) /\
  meaning C host_registry dyn_list no_locals = Val (VList [VInt 1; VString []], None) /\
  (exists n c, check_ast 60 true host_decls (Some tbool) dyn_use = Some (n, 0%nat, c)) /\
  exists st, meaning C host_registry dyn_use no_locals = Val (VError st, None) /\ type_error st.
Proof.
  intros C ->. split; [apply host_conforms; constructor|].
  split; [eexists _, _; vm_compute; reflexivity|]. split; [vm_compute; reflexivity|].
  split; [eexists _, _; vm_compute; reflexivity|].
  eexists. split; [vm_compute; reflexivity|]. left. exists "_>_(string, int64)". split; [discriminate|]. reflexivity.
Qed.
Print Assumptions C74_dyn_refuted.

(* Which types can be keys of maps is not checked: [1] in {} and {[1]: 1} are
   well typed and accepted, and fail on the type of the key. *)
Definition list_in : expr := ECall "@in" None [EList [(false, EConst (VInt 1))]; EMap []].
Definition list_key : expr := EMap [(false, (EList [(false, EConst (VInt 1))], EConst (VInt 1)))].
Theorem C74_key_types_refuted : forall C, C = host_config [] ->
  conforms host_decls C host_registry /\
  wt host_decls [] list_in tbool /\
  (exists n c, check_ast 60 true host_decls (Some tbool) list_in = Some (n, 0%nat, c)) /\
  meaning C host_registry list_in no_locals = Val (VError (no_matching_overload "@in"), None) /\
  wt host_decls [] list_key (TMap (TList tint) tint) /\
  (exists n c, check_ast 60 true host_decls None list_key = Some (n, 0%nat, c)) /\
  meaning C host_registry list_key no_locals = Val (VError invalid_map_key, None).
Proof.
  intros C ->. split; [apply host_conforms; constructor|].
  assert (L : wt host_decls [] (EList [(false, EConst (VInt 1))]) (TList tint)).
  { constructor. repeat constructor. }
  split; [|split; [eexists _, _; vm_compute; reflexivity|]; split; [vm_compute; reflexivity|];
           split; [constructor; repeat constructor; exact L|];
           split; [eexists _, _; vm_compute; reflexivity | vm_compute; reflexivity]].
  eapply (wt_call host_decls [] "@in" None _ _ (ovl "in_map" tbool [TParam "A"; map_ab])
            (fun x => if String.eqb x "A" then TList tint else tint)); [reflexivity | cbn; auto | reflexivity | |reflexivity].
  cbn. repeat (constructor; try exact L).
Qed.
Print Assumptions C74_key_types_refuted.

(* Indexing through an optional wraps the error of a failed lookup in an
   optional: o[5] with o = optional.of([1]) is accepted as an optional(int) and
   gives an optional whose value is an error. *)
Definition opt_decls : decls :=
  mkDecls (fun x => if String.eqb x "o" then Some (optional_of (TList tint)) else None)
    (fun fn => if String.eqb fn "_[_]" then
                 Some [ovl "optional_list_index_int" (optional_of (TParam "V")) [optional_of (TList (TParam "V")); tint]]
               else None) (fun _ _ => None).
Definition opt_config : config :=
  mkConfig (mkOptions false true 0 true true true true)
    (fun x => Val (if String.eqb x "o" then Some (VOptional (Some (VList [VInt 1]))) else None)) [] (fun m => m).
Definition opt_index : expr := ECall "_[_]" None [EIdent "o"; EConst (VInt 5)].
Theorem C74_optional_index_refuted :
  (exists n c, check_ast 60 true opt_decls (Some (optional_of tint)) opt_index = Some (n, 0%nat, c)) /\
  wt opt_decls [] opt_index (optional_of tint) /\
  meaning opt_config [] opt_index no_locals = Val (VOptional (Some (VError index_range_error)), None).
Proof.
  split; [eexists _, _; vm_compute; reflexivity|]. split; [|vm_compute; reflexivity].
  eapply (wt_call opt_decls [] "_[_]" None _ _
            (ovl "optional_list_index_int" (optional_of (TParam "V")) [optional_of (TList (TParam "V")); tint])
            (fun _ => tint)); [reflexivity | left; reflexivity | reflexivity | |reflexivity].
  cbn. constructor; [|constructor; [constructor; constructor | constructor]].
  apply (wt_global opt_decls [] "o" (optional_of (TList tint)) TParam); [discriminate | reflexivity | reflexivity].
Qed.
Print Assumptions C74_optional_index_refuted.
