(* The reference semantics on the syntax tree against the one on planned
   nodes, and what the planner makes of binds and comprehensions. *)
From Coq Require Import ZArith List Bool String Ascii Lia.
From Verif Require Import Base M_Overflow M_Number M_Attr M_Value M_Logic M_Expr M_Plan M_Machine
  S_Eval L_Seval L_Alloc L_Core L_Stale.
Import ListNotations.
Open Scope list_scope.
Open Scope Z_scope.

Lemma expr_ind' (Q : expr -> Prop) :
  (forall v, Q (EConst v)) -> (forall x, Q (EIdent x)) ->
  (forall a f t, Q a -> Q (ESelect a f t)) ->
  (forall fn t args, match t with Some a => Q a | None => True end -> Forall Q args -> Q (ECall fn t args)) ->
  (forall l, Forall (fun p => Q (snd p)) l -> Q (EList l)) ->
  (forall l, Forall (fun p => Q (fst (snd p)) /\ Q (snd (snd p))) l -> Q (EMap l)) ->
  (forall x x2 y r i c s b, Q r -> Q i -> Q c -> Q s -> Q b -> Q (EComp x x2 y r i c s b)) ->
  forall e, Q e.
Proof.
  intros H1 H2 H3 H4 H5 H6 H7. fix IH 1. intros e. destruct e.
  - apply H1.
  - apply H2.
  - apply H3. apply IH.
  - apply H4; [destruct target; [apply IH|exact I]|]. induction args as [|a l IHl]; constructor; auto.
  - apply H5. induction elems as [|a l IHl]; constructor; auto.
  - apply H6. induction ents as [|a l IHl]; constructor; auto.
  - apply H7; apply IH.
Qed.

Section Elab.
  Variable C : config.
  Variable R : registry.
  Notation O := (cf_opts C).

  Lemma sequence_eval rho ks : sequence (map (fun k => eval C k rho) ks) = eval_list (fun k => eval C k rho) ks.
  Proof. induction ks as [|k ks IH]; cbn [map sequence eval_list]; [reflexivity|]. fold (eval_list (fun k => eval C k rho)). now rewrite IH. Qed.

  Lemma chain_eval rho op args : forall a,
    eval C (logic_chain op a args) rho =
    fold_left (logic_outcome C op) (map (fun k => eval C k rho) args) (eval C a rho).
  Proof.
    induction args as [|b args IH]; intros a; cbn [logic_chain map fold_left]; [reflexivity|].
    now rewrite IH.
  Qed.

  Lemma call_eval fn rcv ks k rho : plan_call O R fn rcv ks = Val k ->
    call_outcome C R fn rcv (map (fun k => eval C k rho) ks) = eval C k rho.
  Proof.
    unfold plan_call, call_outcome.
    destruct (String.eqb fn "_&&_") eqn:N1.
    { cbn [orb]. destruct rcv; [discriminate|].
      destruct ks as [|a [|b ks]]; [discriminate..|]. intros [= <-].
      cbn [map]. now rewrite (chain_eval rho OpAnd ks (KLogic OpAnd a b)). }
    destruct (String.eqb fn "_||_") eqn:N2.
    { cbn [orb]. destruct rcv; [discriminate|].
      destruct ks as [|a [|b ks]]; [discriminate..|]. intros [= <-].
      cbn [map]. now rewrite (chain_eval rho OpOr ks (KLogic OpOr a b)). }
    cbn [orb].
    destruct (String.eqb fn "_?_:_") eqn:N3.
    { destruct rcv; [discriminate|]. destruct ks as [|c [|a [|b [|d ks]]]]; try discriminate.
      intros [= <-]. reflexivity. }
    rewrite map_length, sequence_eval.
    destruct (String.eqb fn "_[_]") eqn:N4.
    { apply String.eqb_eq in N4. subst fn.
      replace (o_optional_types O && rcv && Nat.eqb (List.length ks) 2 &&
               (String.eqb "_[_]" "or" || String.eqb "_[_]" "orValue")) with false
        by (cbn; now rewrite andb_false_r).
      destruct ks as [|a [|b [|c ks]]]; try discriminate. intros [= <-]. reflexivity. }
    destruct (_ && _ && _ && _).
    { destruct ks as [|a [|b [|c ks]]]; try discriminate. intros [= <-]. reflexivity. }
    destruct (o_fast_builtins O && is_nsf_name fn).
    { destruct rcv; [discriminate|]. destruct ks as [|a [|b ks]]; try discriminate.
      intros [= <-]. reflexivity. }
    destruct (o_fast_builtins O && String.eqb fn "!_").
    { destruct rcv; [discriminate|]. destruct ks as [|a [|b ks]]; try discriminate.
      intros [= <-]. reflexivity. }
    destruct (_ && _ && is_in_name fn).
    { destruct rcv; [discriminate|]. destruct ks as [|a [|b [|c ks]]]; try discriminate.
      intros [= <-]. reflexivity. }
    destruct (fast_equality O R); cbn [andb].
    - destruct (String.eqb fn "_==_") eqn:N5; cbn [orb].
      { apply String.eqb_eq in N5. subst fn.
        destruct rcv; [discriminate|]. destruct ks as [|a [|b [|c ks]]]; try discriminate.
        intros [= <-]. reflexivity. }
      destruct (String.eqb fn "_!=_") eqn:N6.
      { destruct rcv; [discriminate|]. destruct ks as [|a [|b [|c ks]]]; try discriminate.
        intros [= <-]. reflexivity. }
      unfold resolved_call. destruct (FindStaticOverloadsByArity R fn rcv (List.length ks)).
      + destruct (o_fail_on_warnings O); [discriminate|]. intros [= <-]. reflexivity.
      + intros [= <-]. reflexivity.
    - unfold resolved_call. destruct (FindStaticOverloadsByArity R fn rcv (List.length ks)).
      + destruct (o_fail_on_warnings O); [discriminate|]. intros [= <-]. reflexivity.
      + intros [= <-]. reflexivity.
  Qed.

  Lemma map_out_cons {A B} (f : A -> out B) x l ks : map_out f (x :: l) = Val ks ->
    exists k ks', f x = Val k /\ map_out f l = Val ks' /\ ks = k :: ks'.
  Proof.
    cbn [map_out]. fold (map_out f). destruct (f x) as [k|?|]; cbn [obind]; try discriminate.
    destruct (map_out f l) as [ks'|?|]; cbn [obind]; try discriminate. intros [= <-]. eauto.
  Qed.
  Lemma map_out_eval {A} (f : A -> expr) rho l :
    Forall (fun p => forall k, elaborate O R (f p) = Val k -> forall rho, meaning C R (f p) rho = eval C k rho) l ->
    forall ks, map_out (fun p => elaborate O R (f p)) l = Val ks ->
    map (fun p => meaning C R (f p) rho) l = map (fun k => eval C k rho) ks.
  Proof.
    induction 1 as [|p l Hp Hl IH]; intros ks H.
    - cbn [map_out] in H. injection H as <-. reflexivity.
    - apply map_out_cons in H. destruct H as (k & ks' & E1 & E2 & ->). cbn [map].
      now rewrite (Hp k E1), (IH ks' E2).
  Qed.
  Lemma seq_app l l' : sequence (l ++ l') =
    obind (sequence l) (fun a => obind (sequence l') (fun b => Val (a ++ b))).
  Proof.
    induction l as [|o l IH]; cbn [app sequence obind].
    - destruct (sequence l'); reflexivity.
    - destruct o; cbn [obind]; auto. rewrite IH. destruct (sequence l); cbn [obind]; auto.
      destruct (sequence l'); reflexivity.
  Qed.

  Theorem elaborate_meaning e : forall k, elaborate O R e = Val k ->
    forall rho, meaning C R e rho = eval C k rho.
  Proof.
    induction e using expr_ind'; intros k E rho; cbn [elaborate meaning] in *.
    - injection E as <-. reflexivity.
    - unfold plan_ident in E. destruct x as [|ch rest]; [discriminate|].
      destruct (Ascii.eqb_spec ch "."%char) as [->|N]; injection E as <-; [reflexivity|].
      cbn [eval]. destruct ch as [[] [] [] [] [] [] [] []]; try reflexivity. now elim N.
    - destruct (String.eqb f ""); [discriminate|].
      destruct (elaborate O R e) as [k'|?|] eqn:E1; cbn [obind] in E; try discriminate.
      injection E as <-. rewrite (IHe k' eq_refl rho). cbn [eval eval_list].
      destruct (eval C k' rho); reflexivity.
    - assert (Ht : forall ts, match t with None => Val [] | Some x => obind (elaborate O R x) (fun a => Val [a]) end = Val ts ->
                match t with None => [] | Some x => [meaning C R x rho] end = map (fun k => eval C k rho) ts).
      { destruct t as [x|]; intros ts.
        - destruct (elaborate O R x) as [k'|?|] eqn:E1; cbn [obind]; try discriminate.
          intros [= <-]. cbn [map]. now rewrite (H k' eq_refl rho).
        - intros [= <-]. reflexivity. }
      destruct (match t with None => Val [] | Some x => _ end) as [ts|?|]; cbn [obind] in E; try discriminate.
      destruct (map_out (elaborate O R) args) as [cs|?|] eqn:E1; cbn [obind] in E; try discriminate.
      rewrite (Ht ts eq_refl), (map_out_eval (fun x => x) rho args H0 cs E1), <- map_app.
      now apply call_eval.
    - destruct (map_out _ l) as [cs|?|] eqn:E1; cbn [obind] in E; try discriminate. injection E as <-.
      rewrite (map_out_eval snd rho l H cs E1), sequence_eval. reflexivity.
    - destruct (map_out _ l) as [cs|?|] eqn:E1; cbn [obind] in E; try discriminate. injection E as <-.
      assert (G : flat_map (fun p => [meaning C R (fst (snd p)) rho; meaning C R (snd (snd p)) rho]) l =
                  map (fun k => eval C k rho) (List.concat cs)).
      { clear - H E1. revert cs E1. induction H as [|p l [H1 H2] Hl IH]; intros cs E1.
        - cbn [map_out] in E1. injection E1 as <-. reflexivity.
        - apply map_out_cons in E1. destruct E1 as (ks & cs' & E1 & E2 & ->).
          destruct (elaborate O R (fst (snd p))) as [k1|?|] eqn:F1; cbn [obind] in E1; try discriminate.
          destruct (elaborate O R (snd (snd p))) as [k2|?|] eqn:F2; cbn [obind] in E1; try discriminate.
          injection E1 as <-. cbn [flat_map List.concat map List.app].
          now rewrite (H1 k1 eq_refl), (H2 k2 eq_refl), (IH cs' E2). }
      rewrite G, sequence_eval. reflexivity.
    - destruct (check_comprehension x x2 y); cbn [obind] in E; try discriminate.
      destruct (IsBind x x2 e1 e3).
      + destruct (elaborate O R e2) as [k1|?|] eqn:E1; cbn [obind] in E; try discriminate.
        destruct (elaborate O R e5) as [k2|?|] eqn:E2; cbn [obind] in E; try discriminate.
        injection E as <-. cbn [eval]. now rewrite (IHe2 k1 eq_refl rho), (IHe5 k2 eq_refl).
      + destruct (elaborate O R e1) as [k0|?|] eqn:E0; cbn [obind] in E; try discriminate.
        destruct (elaborate O R e2) as [k1|?|] eqn:E1; cbn [obind] in E; try discriminate.
        destruct (elaborate O R e3) as [k2|?|] eqn:E2; cbn [obind] in E; try discriminate.
        destruct (elaborate O R e4) as [k3|?|] eqn:E3; cbn [obind] in E; try discriminate.
        destruct (elaborate O R e5) as [k4|?|] eqn:E4; cbn [obind] in E; try discriminate.
        injection E as <-. cbn [eval]. rewrite (IHe1 k0 eq_refl rho). apply obind_ext; auto.
        intros aa. destruct (comp_init C aa) as [|[bb items]]; auto.
        rewrite (IHe2 k1 eq_refl rho). apply obind_ext; auto. intros i.
        apply eval_loop_ext; intros; auto.
  Qed.
End Elab.

(* ---- properties of planned expressions ---- *)

(* the operations the planner makes, with their operand count *)
Definition planned_op (R : registry) (op : sop) (n : nat) : Prop :=
  match op with
  | OSelect _ _ | ONot | ONotStrictlyFalse => n = 1%nat
  | OIndex | OEqual _ | OIn => n = 2%nat
  | OCall f r ovs => ovs = FindStaticOverloadsByArity R f r n
  | OList _ | OMap _ => True
  end.

Definition is_literal (op : sop) : bool := match op with OList _ | OMap _ => true | _ => false end.
Section CallPred.
  Variable O : options.
  Variable R : registry.
  Variable Q : core -> Prop.
  Hypothesis Hlogic : forall op a b, Q a -> Q b -> Q (KLogic op a b).
  Hypothesis Hor : forall op a b, Q a -> Q b -> Q (KOr op a b).
  Hypothesis Hcond : forall c a b, Q c -> Q a -> Q b -> Q (KCond c a b).
  Hypothesis Happ : forall op l, is_literal op = false -> planned_op R op (List.length l) -> Forall Q l -> Q (KApp op l).
  Lemma chain_pred op args : forall a, Q a -> Forall Q args -> Q (logic_chain op a args).
  Proof.
    induction args as [|b args IH]; intros a Ha Hb; cbn [logic_chain]; [exact Ha|].
    apply Forall_cons_iff in Hb. destruct Hb as [Hb Hc]. apply IH; auto.
  Qed.
  Lemma plan_call_pred fn rcv args k : Forall Q args -> plan_call O R fn rcv args = Val k -> Q k.
  Proof.
    intros Ha. unfold plan_call.
    destruct (_ || _).
    { destruct rcv; [discriminate|]. destruct args as [|a [|b args]]; [discriminate..|].
      intros [= <-]. apply Forall_cons_iff in Ha. destruct Ha as [Ha1 Ha2].
      exact (chain_pred _ (b :: args) a Ha1 Ha2). }
    destruct (String.eqb fn "_?_:_").
    { destruct rcv; [discriminate|]. destruct args as [|a [|b [|c [|d args]]]]; try discriminate.
      intros [= <-]. rewrite !Forall_cons_iff in Ha. apply Hcond; tauto. }
    destruct (_ && _ && _ && _).
    { destruct args as [|a [|b [|c args]]]; try discriminate.
      intros [= <-]. rewrite !Forall_cons_iff in Ha. apply Hor; tauto. }
    destruct (String.eqb fn "_[_]").
    { destruct args as [|a [|b [|c args]]]; try discriminate. intros [= <-]. now apply Happ. }
    destruct (_ && _).
    { destruct rcv; [discriminate|]. destruct args as [|a [|b args]]; try discriminate.
      intros [= <-]. now apply Happ. }
    destruct (_ && String.eqb fn "!_").
    { destruct rcv; [discriminate|]. destruct args as [|a [|b args]]; try discriminate.
      intros [= <-]. now apply Happ. }
    destruct (_ && _ && is_in_name fn).
    { destruct rcv; [discriminate|]. destruct args as [|a [|b [|c args]]]; try discriminate.
      intros [= <-]. now apply Happ. }
    destruct (fast_equality O R && _).
    { destruct rcv; [discriminate|]. destruct args as [|a [|b [|c args]]]; try discriminate.
      intros [= <-]. now apply Happ. }
    unfold resolved_call. destruct (FindStaticOverloadsByArity _ _ _ _) eqn:Eo.
    - destruct (o_fail_on_warnings O); [discriminate|]. intros [= <-]. apply Happ; [reflexivity|exact (eq_sym Eo)|exact Ha].
    - intros [= <-]. apply Happ; [reflexivity|exact (eq_sym Eo)|exact Ha].
  Qed.
End CallPred.

Section Pred.
  Variable O : options.
  Variable R : registry.
  Variable f : string -> string -> string -> expr -> expr -> expr -> expr -> expr -> bool.
  Variable Q : core -> Prop.
  Hypothesis Hconst : forall v, Q (KConst v).
  Hypothesis Hvar : forall x, Q (KVar x).
  Hypothesis Hglobal : forall x, Q (KGlobal x).
  Hypothesis Hlogic : forall op a b, Q a -> Q b -> Q (KLogic op a b).
  Hypothesis Hor : forall op a b, Q a -> Q b -> Q (KOr op a b).
  Hypothesis Hcond : forall c a b, Q c -> Q a -> Q b -> Q (KCond c a b).
  Hypothesis Happ : forall op l, planned_op R op (List.length l) -> Forall Q l -> Q (KApp op l).
  Hypothesis Hbind : forall x x2 y r i c s b ki kb, IsBind x x2 r c = true -> f x x2 y r i c s b = false ->
    Q ki -> Q kb -> Q (KBind y ki kb).
  Hypothesis Hcomp : forall x x2 y r i c s b kr ki kc ks kb,
    IsBind x x2 r c = false -> f x x2 y r i c s b = false -> elaborate O R c = Val kc ->
    Q kr -> Q ki -> Q kc -> Q ks -> Q kb -> Q (KComp x x2 y kr ki kc ks kb).
  Lemma elaborate_pred e : any_comp f e = false -> forall k, elaborate O R e = Val k -> Q k.
  Proof.
    induction e using expr_ind'; intros Hf k E; cbn [elaborate any_comp] in *.
    - injection E as <-. auto.
    - unfold plan_ident in E. destruct x as [|ch rest]; [discriminate|].
      destruct (Ascii.eqb ch _); injection E as <-; auto.
    - destruct (String.eqb f0 ""); [discriminate|].
      destruct (elaborate O R e) as [k'|?|] eqn:E1; cbn [obind] in E; try discriminate.
      injection E as <-. apply Happ; [reflexivity|]. constructor; auto.
    - apply orb_false_iff in Hf. destruct Hf as [Hf1 Hf2].
      assert (Ht : forall ts, match t with None => Val [] | Some x => obind (elaborate O R x) (fun a => Val [a]) end = Val ts -> Forall Q ts).
      { destruct t as [x|]; intros ts.
        - destruct (elaborate O R x) as [k'|?|] eqn:E1; cbn [obind]; try discriminate.
          intros [= <-]. constructor; auto.
        - intros [= <-]. constructor. }
      destruct (match t with None => Val [] | Some x => _ end) as [ts|?|]; cbn [obind] in E; try discriminate.
      destruct (map_out (elaborate O R) args) as [cs|?|] eqn:E1; cbn [obind] in E; try discriminate.
      apply (plan_call_pred O R Q) in E; auto. apply Forall_app. split; [auto|].
      clear - H0 Hf2 E1. revert cs E1. induction H0 as [|p l Hp Hl IH]; intros cs E1.
      + cbn [map_out] in E1. injection E1 as <-. constructor.
      + apply map_out_cons in E1. destruct E1 as (k1 & cs' & E1 & E2 & ->).
        apply orb_false_iff in Hf2. destruct Hf2. constructor; auto.
    - destruct (map_out _ l) as [cs|?|] eqn:E1; cbn [obind] in E; try discriminate. injection E as <-.
      apply Happ; [exact I|]. clear - H Hf E1. revert cs E1. induction H as [|[o p] l Hp Hl IH]; intros cs E1.
      + cbn [map_out] in E1. injection E1 as <-. constructor.
      + apply map_out_cons in E1. destruct E1 as (k1 & cs' & E1 & E2 & ->).
        apply orb_false_iff in Hf. destruct Hf. constructor; auto.
    - destruct (map_out _ l) as [cs|?|] eqn:E1; cbn [obind] in E; try discriminate. injection E as <-.
      apply Happ; [exact I|]. clear - H Hf E1. revert cs E1. induction H as [|[o [p q]] l [H1 H2] Hl IH]; intros cs E1.
      + cbn [map_out] in E1. injection E1 as <-. constructor.
      + apply map_out_cons in E1. destruct E1 as (k1 & cs' & E1 & E2 & ->). cbn [fst snd] in *.
        apply orb_false_iff in Hf. destruct Hf as [Hf Hf2]. apply orb_false_iff in Hf. destruct Hf as [Hf1 Hf3].
        destruct (elaborate O R p) as [kp|?|] eqn:F1; cbn [obind] in E1; try discriminate.
        destruct (elaborate O R q) as [kq|?|] eqn:F2; cbn [obind] in E1; try discriminate.
        injection E1 as <-. cbn [List.concat List.app]. repeat constructor; auto.
    - repeat match goal with Hx : _ || _ = false |- _ => apply orb_false_iff in Hx; destruct Hx end.
      destruct (check_comprehension x x2 y); cbn [obind] in E; try discriminate.
      destruct (IsBind x x2 e1 e3) eqn:EB.
      + destruct (elaborate O R e2) as [k1|?|] eqn:E1; cbn [obind] in E; try discriminate.
        destruct (elaborate O R e5) as [k2|?|] eqn:E2; cbn [obind] in E; try discriminate.
        injection E as <-. eapply Hbind; eauto.
      + destruct (elaborate O R e1) as [k0|?|] eqn:E0; cbn [obind] in E; try discriminate.
        destruct (elaborate O R e2) as [k1|?|] eqn:E1; cbn [obind] in E; try discriminate.
        destruct (elaborate O R e3) as [k2|?|] eqn:E2; cbn [obind] in E; try discriminate.
        destruct (elaborate O R e4) as [k3|?|] eqn:E3; cbn [obind] in E; try discriminate.
        destruct (elaborate O R e5) as [k4|?|] eqn:E4; cbn [obind] in E; try discriminate.
        injection E as <-. eapply Hcomp; eauto.
  Qed.
End Pred.

Lemma go_forall (Q : core -> Prop) l :
  (fix go l := match l with [] => True | a :: l' => Q a /\ go l' end) l <-> Forall Q l.
Proof. induction l as [|x l IH]; [split; auto|]. rewrite Forall_cons_iff, <- IH. reflexivity. Qed.
Lemma elaborate_no_binds O R e k : has_bind e = false -> elaborate O R e = Val k -> no_binds k.
Proof.
  intros H E.
  apply (elaborate_pred O R (fun x x2 _ range _ cond _ _ => IsBind x x2 range cond) no_binds) with (e := e);
    cbn [no_binds]; auto.
  - intros op l _ Hl. now apply go_forall.
  - intros. congruence.
Qed.
Lemma elaborate_run_through O R e k : has_early_exit e = false -> elaborate O R e = Val k -> run_through k.
Proof.
  intros H E. unfold has_early_exit in H.
  match type of H with any_comp ?f _ = _ =>
    apply (elaborate_pred O R f run_through) with (e := e) end; cbn [run_through]; auto.
  - intros op l _ Hl. now apply go_forall.
  - intros x x2 y r i c s b kr ki kc ks kb EB Hf Ec Hr Hi Hc Hs Hb. rewrite EB in Hf. cbn [negb andb] in Hf.
    split; [|tauto]. destruct c as [[|[]| | | | | | | | | | | | |]| | | | | |]; try discriminate Hf.
    cbn [elaborate] in Ec. congruence.
Qed.
Lemma stale_free_syntax C R e k : elaborate (cf_opts C) R e = Val k ->
  sc C = false \/ has_bind e = false \/ has_early_exit e = false -> stale_free C k.
Proof.
  intros E H Hs n Hb He. unfold resolved in *.
  destruct (alloc false [] k (mkAlloc 0 0 [])) as [r s'] eqn:A. cbn [fst] in *.
  destruct H as [H|[H|H]]; [congruence| |].
  - exact (no_binds_slots k _ _ _ _ _ A (elaborate_no_binds _ _ _ _ H E) n Hb).
  - exact (run_through_slots k _ _ _ _ _ A (elaborate_run_through _ _ _ _ H E) n He).
Qed.

Lemma map_out_ext {A B} (f g : A -> out B) l : Forall (fun x => f x = g x) l -> map_out f l = map_out g l.
Proof.
  induction 1 as [|x l Hx Hl IH]; [reflexivity|]. cbn [map_out]. fold (map_out f) (map_out g).
  now rewrite Hx, IH.
Qed.
Lemma elaborate_budget n C R e :
  elaborate (cf_opts (with_budget n C)) R e = elaborate (cf_opts C) R e.
Proof.
  induction e using expr_ind'; cbn [elaborate].
  - reflexivity.
  - reflexivity.
  - now rewrite IHe.
  - rewrite (map_out_ext _ (elaborate (cf_opts C) R) args H0). destruct t as [x|]; [rewrite H|]; reflexivity.
  - now rewrite (map_out_ext _ (fun p => elaborate (cf_opts C) R (snd p)) l H).
  - rewrite (map_out_ext _ (fun p => obind (elaborate (cf_opts C) R (fst (snd p))) (fun k =>
                              obind (elaborate (cf_opts C) R (snd (snd p))) (fun v => Val [k; v]))) l); auto.
    eapply Forall_impl; [|exact H]. cbn beta. intros p [-> ->]. reflexivity.
  - now rewrite IHe1, IHe2, IHe3, IHe4, IHe5.
Qed.
Lemma plan_budget n C R e : plan (cf_opts (with_budget n C)) R e = plan (cf_opts C) R e.
Proof. unfold plan. now rewrite elaborate_budget. Qed.
