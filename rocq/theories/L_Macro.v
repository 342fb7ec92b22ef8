(* Lemmas on the meaning of macro expansions. *)
From Coq Require Import ZArith List Bool String Ascii Lia.
From Verif Require Import Base M_Overflow M_Number M_Attr M_Value M_Logic M_Expr M_Machine M_Registry
  M_Macro S_Func S_Eval S_Macro L_Seval L_Core L_Meaning L_Func P_Func.
Import ListNotations.
Open Scope list_scope.
Open Scope Z_scope.
Local Open Scope out_scope.

Lemma sequence_ext l l' : l = l' -> sequence l = sequence l'.
Proof. now intros ->. Qed.
Lemma meaning_free C R e : forall rho rho',
  (forall x, free x e = true -> rho x = rho' x) -> meaning C R e rho = meaning C R e rho'.
Proof.
  induction e using expr_ind'; intros rho rho' Hf.
  - reflexivity.
  - cbn [meaning]. destruct x as [|c s]; [rewrite (Hf ""%string); auto|].
    assert (H : rho (String c s) = rho' (String c s)) by (apply Hf; cbn [free]; apply String.eqb_refl).
    destruct c as [[] [] [] [] [] [] [] []]; cbn beta iota; now rewrite ?H.
  - cbn [meaning]. apply obind_ext; auto.
  - cbn [meaning]. f_equal.
    assert (Hargs : map (fun a => meaning C R a rho) args = map (fun a => meaning C R a rho') args).
    { assert (Hf' : forall x, (fix go l := match l with [] => false | a :: l' => free x a || go l' end) args = true ->
                      rho x = rho' x).
      { intros x Hx. apply Hf. cbn [free]. rewrite Hx. apply orb_true_r. }
      clear Hf H. induction H0 as [|a l Ha Hl IH]; [reflexivity|]. cbn [map]. f_equal.
      - apply Ha. intros x Hx. apply Hf'. now rewrite Hx.
      - apply IH. intros x Hx. apply Hf'. rewrite Hx. apply orb_true_r. }
    rewrite Hargs. f_equal. destruct t as [a|]; [|reflexivity]. f_equal. apply H.
    intros x Hx. apply Hf. cbn [free]. now rewrite Hx.
  - cbn [meaning]. apply obind_ext; auto. apply sequence_ext.
    cbn [free] in Hf. induction H as [|[o a] l Ha Hl IH]; [reflexivity|]. cbn [map snd] in *. f_equal.
    + apply Ha. intros x Hx. apply Hf. now rewrite Hx.
    + apply IH. intros x Hx. apply Hf. rewrite Hx. apply orb_true_r.
  - cbn [meaning]. apply obind_ext; auto. apply sequence_ext.
    cbn [free] in Hf. induction H as [|[o [k v]] l [Hk Hv] Hl IH]; [reflexivity|]. cbn [flat_map fst snd app] in *.
    f_equal; [|f_equal].
    + apply Hk. intros x Hx. apply Hf. now rewrite Hx.
    + apply Hv. intros x Hx. apply Hf. rewrite Hx. now rewrite orb_true_r.
    + apply IH. intros x Hx. apply Hf. rewrite Hx. apply orb_true_r.
  - cbn [free] in Hf.
    assert (Hc : forall e, (forall z, free z e = true -> (free z e3 || free z e4) = true) ->
      (forall rho rho', (forall z, free z e = true -> rho z = rho' z) -> meaning C R e rho = meaning C R e rho') ->
      forall t b kv a, meaning C R e (loop_env C x x2 y b t kv a rho) = meaning C R e (loop_env C x x2 y b t kv a rho')).
    { intros e He Hev t b kv a. apply Hev. intros z Hz. apply loop_env_at. intros Hn. apply Hf.
      unfold loop_name in Hn. rewrite Hn, (He z Hz). cbn [negb andb]. now rewrite orb_true_r. }
    assert (Hres : forall o, meaning C R e5 (bind_local y o rho) = meaning C R e5 (bind_local y o rho')).
    { intros o. apply IHe5. intros z Hz. unfold bind_local. destruct (String.eqb y z) eqn:E; auto.
      apply Hf. rewrite E, Hz. cbn [negb andb]. now rewrite orb_true_r. }
    assert (Hi : meaning C R e2 rho = meaning C R e2 rho').
    { apply IHe2. intros z Hz. apply Hf. rewrite Hz. now rewrite orb_true_r. }
    cbn [meaning]. destruct (IsBind x x2 e1 e3).
    + rewrite Hi. apply Hres.
    + apply obind_ext.
      { apply IHe1. intros z Hz. apply Hf. now rewrite Hz. }
      intros r. destruct (comp_init C r) as [|[b items]]; auto. apply obind_ext; [exact Hi|].
      intros i. apply eval_loop_ext; intros; auto.
      * apply Hc; auto. intros z ->. reflexivity.
      * apply Hc; auto. intros z ->. apply orb_true_r.
Qed.

(* ---- calls by name ---- *)
Lemma meaning_call C R fn args rho : meaning C R (NewCall fn args) rho =
  call_outcome C R fn false (map (fun a => meaning C R a rho) args).
Proof. reflexivity. Qed.

Section Calls.
  Variable C : config.
  Variable R : registry.
  Hypothesis Hu : o_unknowns (cf_opts C) = false.
  Hypothesis Hb : builtin_logic C.

  Lemma call_and a b : call_outcome C R "_&&_" false [a; b] = logic_outcome C OpAnd a b.
  Proof. reflexivity. Qed.
  Lemma call_or a b : call_outcome C R "_||_" false [a; b] = logic_outcome C OpOr a b.
  Proof. reflexivity. Qed.
  Lemma call_cond c a b : call_outcome C R "_?_:_" false [c; a; b] =
    (x <- c ;;
     if sc C then
       match BoolCheck x with
       | Some r => Val r
       | None => if is_true (fst x) then a else b
       end
     else y <- a ;; z <- b ;; Val (TernaryStep C x y z)).
  Proof. reflexivity. Qed.
  Lemma call_not v t : call_outcome C R "!_" false [Val (v, t)] =
    Val (NotStep false [] v None, match v with VError _ | VUnknown _ => t | _ => None end).
  Proof.
    unfold call_outcome. change (String.eqb "!_" _) with false at 1 2 3 4. cbn beta iota.
    change (String.eqb "!_" "or") with false. change (String.eqb "!_" "orValue") with false.
    rewrite !andb_false_r. red in Hb. rewrite Hb. change (is_nsf_name "!_") with false.
    change (String.eqb "!_" "!_") with true. cbn [andb sequence obind apply_op].
    unfold NotStepT, unknown_partial, unk. rewrite Hu. cbn [andb fst snd NotStep].
    destruct v; reflexivity.
  Qed.
  Lemma call_nsf v t : call_outcome C R "@not_strictly_false" false [Val (v, t)] =
    Val (NotStrictlyFalseStepT (v, t)).
  Proof.
    unfold call_outcome. change (String.eqb "@not_strictly_false" _) with false at 1 2 3 4. cbn beta iota.
    change (String.eqb "@not_strictly_false" "or") with false.
    change (String.eqb "@not_strictly_false" "orValue") with false.
    rewrite !andb_false_r. red in Hb. rewrite Hb. reflexivity.
  Qed.
End Calls.


Section Loops.
  Variable C : config.
  Variable R : registry.
  Hypothesis Hu : o_unknowns (cf_opts C) = false.
  Variables x x2 y : string.
  Hypothesis Hy : reserved y.
  Hypothesis Hx : x <> y.
  Hypothesis Hx2 : x2 <> y.
  Variable rho : env.

  Lemma meaning_ident a r : r y = Some a -> meaning C R (EIdent y) r = a.
  Proof. intros H. destruct Hy as [->| ->]; cbn [meaning]; now rewrite H. Qed.
  Lemma loop_accu b t kv a : loop_env C x x2 y b t kv a rho y = Some (Val a).
  Proof.
    unfold loop_env, bind_local. apply String.eqb_neq in Hx, Hx2.
    destruct (String.eqb x2 ""); rewrite Hx, ?Hx2, String.eqb_refl; reflexivity.
  Qed.
  Lemma accu_in b t kv a : meaning C R (EIdent y) (loop_env C x x2 y b t kv a rho) = Val a.
  Proof. apply meaning_ident, loop_accu. Qed.
  Lemma accu_out a : meaning C R (EIdent y) (bind_local y (Val a) rho) = Val a.
  Proof. apply meaning_ident. unfold bind_local. now rewrite String.eqb_refl. Qed.
  Lemma body_in e b t kv a : free y e = false ->
    meaning C R e (loop_env C x x2 y b t kv a rho) = meaning C R e (in_scope x x2 b kv rho).
  Proof.
    intros Hf. apply meaning_free. intros z Hz.
    assert (E : String.eqb y z = false) by (apply String.eqb_neq; intros ->; congruence).
    unfold loop_env, in_scope, iter_one, iter_two, bind_local, unk. rewrite Hu. cbn [fst snd].
    destruct (String.eqb x2 ""); rewrite E; reflexivity.
  Qed.
  Lemma iteration_init v t b items : iteration v = Some (b, items) ->
    comp_init C (v, t) = inr (b, items).
  Proof.
    unfold iteration, comp_init, unknown_partial, unk. rewrite Hu. cbn [fst snd andb].
    destruct v; try discriminate; intros [= <- <-]; reflexivity.
  Qed.

  (* ---- logic ---- *)
  Hypothesis Hb : builtin_logic C.

  Definition logic_from (op : op_type) (a : value) (ps : list value) : value :=
    if existsb (decides op) (a :: ps) then VBool (shortcircuit op)
    else match find no_bool (a :: ps) with
         | Some v => as_error (op_name op) v
         | None => VBool (negb (shortcircuit op))
         end.
  Definition accu_like (v : value) : Prop := match v with VBool _ | VError _ => True | _ => False end.
  Lemma calc_accu op a p : accu_like a -> accu_like (Calculate false op a p) /\
    forall ps, logic_from op (Calculate false op a p) ps = logic_from op a (p :: ps).
  Proof.
    intros Ha. destruct a as [|[]| | | | | | | | | | | | |]; try now destruct Ha.
    all: destruct op, p as [|[]| | | | | | | | | | | | |]; cbn; split; auto.
    all: intros ps; unfold logic_from; cbn; destruct (existsb _ ps); reflexivity.
  Qed.

  Definition logic_cond (op : op_type) : expr :=
    match op with
    | OpAnd => NewCall "@not_strictly_false" [EIdent y]
    | OpOr => NewCall "@not_strictly_false" [NewCall "!_" [EIdent y]]
    end.
  Lemma logic_cond_value op b t kv a ta : accu_like a ->
    exists t', meaning C R (logic_cond op) (loop_env C x x2 y b t kv (a, ta) rho) =
               Val (VBool (negb (decides op a)), t').
  Proof.
    intros Ha. destruct op; cbn [logic_cond]; rewrite !meaning_call; cbn [map]; rewrite ?meaning_call; cbn [map].
    - rewrite accu_in, call_nsf by auto.
      destruct a as [|[]| | | | | | | | | | | | |]; try now destruct Ha. all: eexists; reflexivity.
    - rewrite accu_in, call_not by auto. rewrite call_nsf by auto.
      destruct a as [|[]| | | | | | | | | | | | |]; try now destruct Ha. all: eexists; reflexivity.
  Qed.
  Definition logic_step (op : op_type) (p : expr) : expr :=
    NewCall (match op with OpAnd => "_&&_" | OpOr => "_||_" end)%string [EIdent y; p].
  Lemma logic_step_value op p b t kv a ta pv tp : free y p = false ->
    meaning C R p (in_scope x x2 b kv rho) = Val (pv, tp) -> accu_like a ->
    sc C && decides op a = false ->
    meaning C R (logic_step op p) (loop_env C x x2 y b t kv (a, ta) rho) =
    Val (Calculate false op a pv, None).
  Proof.
    intros Hf Hp Ha Hd. unfold logic_step. rewrite meaning_call. cbn [map].
    rewrite accu_in, (body_in p) by auto. rewrite Hp.
    destruct op; rewrite ?call_and, ?call_or; unfold logic_outcome; cbn [obind fst]; rewrite Hd; cbn [obind fst];
      unfold unk; now rewrite Hu.
  Qed.
  Lemma logic_loop op p b t : free y p = false -> forall items ps a ta,
    each_yields C R p x x2 b items rho ps -> accu_like a ->
    exists t', eval_loop (sc C)
      (fun kv accu => meaning C R (logic_cond op) (loop_env C x x2 y b t kv accu rho))
      (fun kv accu => meaning C R (logic_step op p) (loop_env C x x2 y b t kv accu rho))
      (fun accu => meaning C R (EIdent y) (bind_local y (Val accu) rho)) items (a, ta) =
      Val (logic_from op a ps, t').
  Proof.
    intros Hf items ps a ta H. revert a ta. induction H as [|kv pv items ps [tp Hp] Hps IH]; intros a ta Ha.
    - cbn [eval_loop]. rewrite accu_out. exists ta. f_equal. f_equal.
      destruct a as [|[]| | | | | | | | | | | | |], op; try now destruct Ha.
    - cbn [eval_loop]. destruct (logic_cond_value op b t kv a ta Ha) as (t1 & ->). cbn [obind].
      unfold loop_condition at 1. cbn [fst]. rewrite negb_involutive.
      destruct (decides op a) eqn:Ed.
      + destruct (sc C) eqn:Es.
        * cbn [andb]. rewrite accu_out. exists ta. f_equal. f_equal. unfold logic_from. cbn [existsb].
          rewrite Ed. cbn [orb]. destruct a as [|[]| | | | | | | | | | | | |], op; try discriminate; reflexivity.
        * cbn [andb]. rewrite (logic_step_value op p b t kv a ta pv tp) by (auto; now rewrite Es).
          cbn [obind]. destruct (calc_accu op a pv Ha) as [H1 H2]. destruct (IH _ None H1) as (t' & Ht').
          exists t'. rewrite H2 in Ht'. exact Ht'.
      + cbn [andb]. rewrite (logic_step_value op p b t kv a ta pv tp) by (auto; rewrite Ed; apply andb_false_r).
        cbn [obind]. destruct (calc_accu op a pv Ha) as [H1 H2]. destruct (IH _ None H1) as (t' & Ht').
        exists t'. rewrite H2 in Ht'. exact Ht'.
  Qed.

  (* ---- conditionals and `+` ---- *)
  Definition cond_value (pv av bv : value) : value :=
    match pv with
    | VBool true => av
    | VBool false => bv
    | v => as_error (condition_name C) v
    end.
  Lemma cond_outcome pv tp av ta bv tb : is_unknown pv = false ->
    exists t, call_outcome C R "_?_:_" false [Val (pv, tp); Val (av, ta); Val (bv, tb)] =
              Val (cond_value pv av bv, t).
  Proof.
    intros Hn. rewrite call_cond. cbn [obind]. unfold cond_value, condition_name. unfold sc.
    destruct (o_short_circuiting (cf_opts C)).
    - destruct pv as [|[]| | | | | | | | | | | | |]; try discriminate; eexists; reflexivity.
    - cbn [obind]. unfold TernaryStep, unk. rewrite Hu. cbn [andb orb fst].
      destruct pv as [|[]| | | | | | | | | | | | |]; try discriminate; eexists; reflexivity.
  Qed.

  Hypothesis Hplus : standard_plus R.
  Lemma plus_call a b : call_outcome C R "_+_" false [Val a; Val b] =
    apply_op C (OCall "_+_" false (FindStaticOverloadsByArity R "_+_" false 2)) [a; b].
  Proof.
    unfold call_outcome. change (String.eqb "_+_" _) with false at 1 2 3 4. cbn beta iota.
    change (String.eqb "_+_" "or") with false. change (String.eqb "_+_" "orValue") with false.
    change (is_nsf_name "_+_") with false. change (String.eqb "_+_" "!_") with false.
    change (is_in_name "_+_") with false. change (String.eqb "_+_" "_==_") with false.
    change (String.eqb "_+_" "_!=_") with false.
    rewrite !andb_false_r. reflexivity.
  Qed.
  Lemma plus_strict o : In o R -> ov_name o = "_+_"%string -> ov_strict o = true.
  Proof.
    intros Ho Hn. destruct Hplus as ((h & E) & H1 & H2).
    destruct (ov_strict o) eqn:Es; [reflexivity|]. exfalso.
    assert (Ht : tidy (attempts h [])) by (apply attempts_tidy; constructor).
    assert (G : forall q, In q R -> ov_name q = "_+_"%string -> o = q).
    { intros q Hq Hqn. rewrite E in Ho, Hq. unfold static_overloads in Ho, Hq. apply in_map_iff in Ho, Hq.
      destruct Ho as (eo & <- & Ho), Hq as (eq & <- & Hq). apply filter_In in Ho, Hq. f_equal.
      destruct (tidy_all _ Ht eo eq (proj1 Ho) (proj1 Hq)) as [H|H]; [exact H|]. elim H. right.
      split; [congruence|auto]. }
    pose proof (G add_int H1 eq_refl) as E1. pose proof (G concat_list H2 eq_refl) as E2.
    rewrite E1 in E2. discriminate.
  Qed.
  Lemma plus_input (a b : vt) : call_args (o_unknowns (cf_opts C)) (cf_pats C) [a; b] = [fst a; fst b].
  Proof. unfold call_args. now rewrite Hu. Qed.
  Lemma plus_int m n tm tn : in_int64 (m + n) = true ->
    call_outcome C R "_+_" false [Val (VInt m, tm); Val (VInt n, tn)] = Val (VInt (m + n), None).
  Proof.
    intros Hr. rewrite plus_call. destruct Hplus as (Hrc & H1 & _).
    destruct (C27_one_call C R "_+_" false [(VInt m, tm); (VInt n, tn)] Hrc) as (_ & G & _).
    rewrite plus_input in G. cbn [fst List.length] in G.
    destruct (G add_int H1) as [E _]; [| |etransitivity; [exact E|]].
    - split; [reflexivity|]. split; [reflexivity|]. constructor; [now right|]. constructor; [now right|constructor].
    - intros _ v [<-|[<-|[]]]; auto.
    - cbn [add_int ov_impl AddInt]. unfold CheckedAddInt, builtin_overflow_i64.
      rewrite Hr. reflexivity.
  Qed.
  Lemma plus_list l v tl tv : Forall (fun v => CheckListElement v = Val tt) (l ++ [v]) ->
    call_outcome C R "_+_" false [Val (VList l, tl); Val (VList [v], tv)] = Val (VList (l ++ [v]), None).
  Proof.
    intros Hr. rewrite plus_call. destruct Hplus as (Hrc & _ & H1).
    destruct (C27_one_call C R "_+_" false [(VList l, tl); (VList [v], tv)] Hrc) as (_ & G & _).
    rewrite plus_input in G. cbn [fst List.length] in G.
    destruct (G concat_list H1) as [E _]; [| |etransitivity; [exact E|]].
    - split; [reflexivity|]. split; [reflexivity|]. constructor; [now right|]. constructor; [now right|constructor].
    - intros _ w [<-|[<-|[]]]; auto.
    - cbn [concat_list ov_impl ConcatList].
      assert (Ha : forall add base, Forall (fun v => CheckListElement v = Val tt) add ->
                list_add_all base add = Val (base ++ add)).
      { induction add as [|w add IH]; intros base Hw; cbn [list_add_all]; [now rewrite app_nil_r|].
        apply Forall_cons_iff in Hw. destruct Hw as [Hw1 Hw2]. unfold ListAdd. rewrite Hw1. cbn [obind].
        rewrite IH by exact Hw2. now rewrite <- app_assoc. }
      apply Forall_app in Hr. destruct Hr as [Hr1 Hr2].
      destruct l as [|w l]; [reflexivity|]. change (Nat.eqb (List.length (w :: l)) 0) with false.
      change (Nat.eqb (List.length [v]) 0) with false. cbn iota.
      rewrite Ha by exact Hr1. cbn [obind]. rewrite Ha by exact Hr2. reflexivity.
  Qed.
  Lemma plus_error_left s b ta : call_outcome C R "_+_" false [Val (VError s, ta); Val b] = Val (VError s, None).
  Proof.
    rewrite plus_call. destruct Hplus as (Hrc & _).
    destruct (C27_one_call C R "_+_" false [(VError s, ta); b] Hrc) as (G & _).
    rewrite plus_input in G. cbn [fst List.length] in G.
    apply (G [] s [fst b]); [reflexivity|reflexivity|apply plus_strict].
  Qed.
  Lemma plus_error_right v s ta tb : is_error v = false ->
    call_outcome C R "_+_" false [Val (v, ta); Val (VError s, tb)] = Val (VError s, None).
  Proof.
    intros Hv. rewrite plus_call. destruct Hplus as (Hrc & _).
    destruct (C27_one_call C R "_+_" false [(v, ta); (VError s, tb)] Hrc) as (G & _).
    rewrite plus_input in G. cbn [fst List.length] in G.
    apply (G [v] s []); [reflexivity|cbn; now rewrite Hv|apply plus_strict].
  Qed.

  (* ---- loops that run through ---- *)
  Lemma true_loop {D} (next : value -> D -> value) (Q : nat -> value -> Prop)
      (rel : value * value -> D -> Prop) step res sh :
    (forall kv d a ta n, rel kv d -> Q (S n) a -> exists t, step kv (a, ta) = Val (next a d, t)) ->
    (forall kv d a n, rel kv d -> Q (S n) a -> Q n (next a d)) ->
    forall items ds, Forall2 rel items ds -> forall a ta, Q (List.length ds) a ->
    exists t, eval_loop sh (fun _ _ => Val (VBool true, None)) step res items (a, ta) =
              res (fold_left next ds a, t).
  Proof.
    intros Hs Hq items ds H. induction H as [|kv d items ds Hd Hds IH]; intros a ta Ha.
    - exists ta. reflexivity.
    - cbn [eval_loop obind]. change (loop_condition (VBool true, None)) with (@inr vt bool true).
      cbn [negb andb]. destruct (Hs kv d a ta _ Hd Ha) as (t & Et). rewrite Et. cbn [obind fold_left].
      apply (IH (next a d) t). eapply Hq; eauto.
  Qed.
  Lemma find_app {A} (f : A -> bool) l l' :
    find f (l ++ l') = match find f l with Some v => Some v | None => find f l' end.
  Proof. induction l as [|z l IH]; cbn [app find]; [reflexivity|]. destruct (f z); auto. Qed.

  (* exists_one *)
  Definition incr (a : value) : value := match a with VInt n => VInt (n + 1) | v => v end.
  Definition count_next (a pv : value) : value := cond_value pv (incr a) a.
  Definition count_ok (n : nat) (a : value) : Prop :=
    match a with
    | VInt k => 0 <= k /\ k + Z.of_nat n <= int64_max
    | VError _ => True
    | _ => False
    end.
  Lemma count_fold ps k :
    fold_left count_next ps (VInt k) =
    match find no_bool (rev ps) with
    | Some v => as_error (condition_name C) v
    | None => VInt (k + Z.of_nat (List.length (filter is_true ps)))
    end.
  Proof.
    induction ps as [|p ps IH] using rev_ind; [cbn; f_equal; lia|].
    rewrite fold_left_app, IH, rev_app_distr, filter_app, app_length. cbn [fold_left rev app find filter].
    unfold count_next, cond_value.
    destruct p as [|[]| | | | | | | | | | | | |]; cbn [no_bool as_error is_true List.length]; auto.
    - destruct (find no_bool (rev ps)) as [v|]; [destruct v; reflexivity|]. cbn [incr]. f_equal. lia.
    - destruct (find no_bool (rev ps)) as [v|]; [reflexivity|]. f_equal. lia.
  Qed.
  Lemma count_loop p b t : free y p = false -> forall items ps, 
    each_yields C R p x x2 b items rho ps -> Forall (fun v => is_unknown v = false) ps ->
    Z.of_nat (List.length ps) <= int64_max -> forall res sh,
    exists t', eval_loop sh (fun _ _ => Val (VBool true, None))
      (fun kv accu => meaning C R (NewCall "_?_:_" [p; NewCall "_+_" [EIdent y; EConst (VInt 1)]; EIdent y])
                        (loop_env C x x2 y b t kv accu rho))
      res items (VInt 0, None) =
      res (fold_left count_next ps (VInt 0), t').
  Proof.
    intros Hf items ps H Hn Hlen res sh.
    apply (true_loop count_next count_ok
             (fun kv pv => is_unknown pv = false /\ yields C R p (in_scope x x2 b kv rho) pv)).
    - intros kv pv a ta n (Hnu & tp & Hp) Ha. rewrite meaning_call. cbn [map].
      rewrite (body_in p) by auto. rewrite Hp, meaning_call. cbn [map]. rewrite accu_in.
      change (meaning C R (EConst (VInt 1)) _) with (@Val vt (VInt 1, None)).
      assert (G : exists t1, call_outcome C R "_+_" false [Val (a, ta); Val (VInt 1, None)] = Val (incr a, t1)).
      { unfold count_ok in Ha. destruct a; try now destruct Ha.
        - eexists. apply plus_int. unfold in_int64. unfold int64_max in *.
          change int64_min with (- 2 ^ 63). cbn [incr]. lia.
        - eexists. apply plus_error_left. }
      destruct G as (t1 & G). destruct (cond_outcome pv tp (incr a) t1 a ta Hnu) as (t2 & E2).
      exists t2. etransitivity; [|exact E2].
      exact (f_equal (fun o => call_outcome C R "_?_:_" false [Val (pv, tp); o; Val (a, ta)]) G).
    - intros kv pv a n (Hnu & _) Ha. unfold count_next, cond_value, count_ok in *.
      destruct pv as [|[]| | | | | | | | | | | | |]; cbn [as_error incr]; try exact I; try discriminate;
        destruct a; try now destruct Ha. all: cbn [incr]; lia.
    - clear Hlen. induction H as [|kv pv items ps Hp Hps IH]; constructor.
      + apply Forall_cons_iff in Hn. split; [tauto|exact Hp].
      + apply IH. apply Forall_cons_iff in Hn. tauto.
    - unfold count_ok. lia.
  Qed.

  (* map and filter *)
  Definition push (a f : value) : value :=
    match a with
    | VList l => if is_error f then f else VList (l ++ [f])
    | v => v
    end.
  Definition list_ok (_ : nat) (a : value) : Prop :=
    match a with
    | VList l => Forall (fun v => CheckListElement v = Val tt) l
    | VError _ => True
    | _ => False
    end.
  Lemma push_fold fs : fold_left push fs (VList []) = map_result fs.
  Proof.
    unfold map_result. induction fs as [|f fs IH] using rev_ind; [reflexivity|].
    rewrite fold_left_app, IH, find_app. cbn [fold_left find]. destruct (find is_error fs) as [e|] eqn:E.
    - apply find_some in E. destruct e; now destruct E.
    - cbn [push]. destruct (is_error f); reflexivity.
  Qed.
  Lemma push_ok a f : list_ok 0 a -> is_unknown f = false -> list_ok 0 (push a f).
  Proof.
    intros Ha Hf. destruct a; cbn [push] in *; try now destruct Ha. unfold list_ok.
    destruct f; cbn [is_error] in *; auto; try discriminate; apply Forall_app; split; auto.
  Qed.
  Lemma push_outcome f fv tf r a ta n : meaning C R f r = Val (fv, tf) ->
    meaning C R (EIdent y) r = Val (a, ta) -> is_unknown fv = false -> list_ok n a ->
    exists t, meaning C R (NewCall "_+_" [EIdent y; NewList [f]]) r = Val (push a fv, t).
  Proof.
    intros Hf Hacc Hn Ha. rewrite meaning_call. cbn [map]. rewrite Hacc.
    assert (Hl : meaning C R (NewList [f]) r =
                 Val (if is_error fv then fv else VList [fv], None)).
    { cbn [NewList map meaning sequence snd fst]. rewrite Hf. cbn [obind]. unfold ListStep. cbn [map fst find].
      destruct fv; try reflexivity; try discriminate; unfold literal_unknowns, unk; rewrite Hu; reflexivity. }
    rewrite Hl. destruct a; try now destruct Ha.
    - cbn [push]. destruct (is_error fv) eqn:E.
      + destruct fv; try discriminate. eexists. apply plus_error_right. reflexivity.
      + eexists. apply plus_list. apply Forall_app. split; [exact Ha|]. constructor; [|constructor].
        destruct fv; try discriminate; reflexivity.
    - eexists. apply plus_error_left.
  Qed.
  Lemma map_loop' f b t : free y f = false -> forall items fs,
    each_yields C R f x x2 b items rho fs -> Forall (fun v => is_unknown v = false) fs -> forall res sh,
    exists t', eval_loop sh (fun _ _ => Val (VBool true, None))
      (fun kv accu => meaning C R (NewCall "_+_" [EIdent y; NewList [f]])
                        (loop_env C x x2 y b t kv accu rho))
      res items (VList [], None) = res (map_result fs, t').
  Proof.
    intros Hf items fs H Hn res sh. rewrite <- push_fold.
    apply (true_loop push list_ok
             (fun kv fv => is_unknown fv = false /\ yields C R f (in_scope x x2 b kv rho) fv)).
    - intros kv fv a ta n (Hnu & tf & Hp) Ha.
      eapply push_outcome; [rewrite (body_in f) by auto; exact Hp|apply accu_in|exact Hnu|exact Ha].
    - intros kv fv a n (Hnu & _) Ha. now apply push_ok.
    - induction H as [|kv pv items ps Hp Hps IH]; constructor.
      + apply Forall_cons_iff in Hn. split; [tauto|exact Hp].
      + apply IH. apply Forall_cons_iff in Hn. tauto.
    - constructor.
  Qed.

  Definition filter_next (a : value) (pf : value * value) : value :=
    cond_value (fst pf) (push a (snd pf)) a.
  Lemma filter_fold pfs : fold_left filter_next pfs (VList []) =
    match find no_bool (rev (map fst pfs)) with
    | Some v => as_error (condition_name C) v
    | None => map_result (map snd (filter (fun q => is_true (fst q)) pfs))
    end.
  Proof.
    induction pfs as [|[p f] pfs IH] using rev_ind; [reflexivity|].
    rewrite fold_left_app, IH, map_app, rev_app_distr, filter_app, map_app.
    cbn [fold_left map rev app find filter fst snd]. unfold filter_next, cond_value. cbn [fst snd].
    destruct p as [|[]| | | | | | | | | | | | |]; cbn [no_bool as_error is_true map]; auto.
    - destruct (find no_bool (rev (map fst pfs))) as [v|]; [destruct v; reflexivity|].
      cbn [snd]. set (l := map snd _). rewrite <- (push_fold (l ++ [f])), fold_left_app, push_fold. reflexivity.
    - rewrite app_nil_r. reflexivity.
  Qed.
  Lemma filter_loop p f b t : free y p = false -> free y f = false -> forall items ps fs,
    each_yields C R p x x2 b items rho ps -> Forall (fun v => is_unknown v = false) ps ->
    each_yields C R f x x2 b items rho fs -> Forall (fun v => is_unknown v = false) fs -> forall res sh,
    exists t', eval_loop sh (fun _ _ => Val (VBool true, None))
      (fun kv accu => meaning C R (NewCall "_?_:_" [p; NewCall "_+_" [EIdent y; NewList [f]]; EIdent y])
                        (loop_env C x x2 y b t kv accu rho))
      res items (VList [], None) = res (map_filter_result (condition_name C) ps fs, t').
  Proof.
    intros Hf1 Hf2 items ps fs H1 Hn1 H2 Hn2 res sh.
    assert (Hlen : List.length ps = List.length fs).
    { rewrite <- (forall2_len _ _ _ H1). apply (forall2_len _ _ _ H2). }
    assert (E : map_filter_result (condition_name C) ps fs = fold_left filter_next (combine ps fs) (VList [])).
    { rewrite filter_fold. unfold map_filter_result, kept.
      assert (Ec : map fst (combine ps fs) = ps).
      { clear - Hlen. revert fs Hlen. induction ps as [|p ps IH]; intros [|f fs] Hl; try discriminate; [reflexivity|].
        cbn [combine map fst]. f_equal. apply IH. now injection Hl. }
      now rewrite Ec. }
    rewrite E.
    apply (true_loop filter_next list_ok
             (fun kv pf => (is_unknown (fst pf) = false /\ yields C R p (in_scope x x2 b kv rho) (fst pf)) /\
                           (is_unknown (snd pf) = false /\ yields C R f (in_scope x x2 b kv rho) (snd pf)))).
    - intros kv [pv fv] a ta n ((Hnp & tp & Hp) & (Hnf & tf & Hfv)) Ha. cbn [fst snd] in *.
      rewrite meaning_call. cbn [map]. rewrite (body_in p) by auto. rewrite Hp, accu_in.
      destruct (push_outcome f fv tf (loop_env C x x2 y b t kv (a, ta) rho) a ta n) as (t1 & E1); auto.
      + rewrite (body_in f) by auto. exact Hfv.
      + apply accu_in.
      + rewrite E1. apply cond_outcome. exact Hnp.
    - intros kv [pv fv] a n ((Hnp & _) & (Hnf & _)) Ha. cbn [fst snd] in *.
      unfold filter_next, cond_value. cbn [fst snd]. pose proof (push_ok a fv Ha Hnf) as Hpo.
      destruct pv as [|[]| | | | | | | | | | | | |]; cbn [as_error]; try exact I; try discriminate; auto.
    - clear E Hlen. revert ps fs H1 Hn1 H2 Hn2. induction items as [|kv items IH]; intros ps fs H1 Hn1 H2 Hn2;
        inversion H1; subst; inversion H2; subst; cbn [combine]; constructor.
      + apply Forall_cons_iff in Hn1, Hn2. cbn [fst snd]. tauto.
      + apply Forall_cons_iff in Hn1, Hn2. apply IH; tauto.
    - constructor.
  Qed.
End Loops.

Lemma existsb_same {A} (f g : A -> bool) l : (forall a, f a = g a) -> existsb f l = existsb g l.
Proof. intros H. induction l as [|a l IH]; cbn [existsb]; [reflexivity|]. now rewrite H, IH. Qed.
Section Comps.
  Variable C : config.
  Variable R : registry.
  Hypothesis Hu : o_unknowns (cf_opts C) = false.
  Hypothesis Hb : builtin_logic C.
  Variables x x2 y : string.
  Hypothesis Hy : reserved y.
  Hypothesis Hx : x <> y.
  Hypothesis Hx2 : x2 <> y.
  Variable rho : env.
  Variables (range : expr) (rv : value) (b : bool) (items : list (value * value)).
  Hypothesis Hr : yields C R range rho rv.
  Hypothesis Hi : iteration rv = Some (b, items).

  Lemma comp_yields init cond step res i v : IsBind x x2 range cond = false ->
    meaning C R init rho = Val i ->
    (forall t, exists t', eval_loop (sc C)
      (fun kv accu => meaning C R cond (loop_env C x x2 y b t kv accu rho))
      (fun kv accu => meaning C R step (loop_env C x x2 y b t kv accu rho))
      (fun accu => meaning C R res (bind_local y (Val accu) rho)) items i = Val (v, t')) ->
    yields C R (EComp x x2 y range init cond step res) rho v.
  Proof.
    intros Hbind Hin H. destruct Hr as (t & Et). unfold yields. cbn [meaning].
    rewrite Hbind, Et. cbn [obind]. rewrite (iteration_init C Hu _ _ _ _ Hi), Hin. cbn [obind snd].
    exact (H t).
  Qed.

  Lemma exists_yields p ps : free y p = false -> each_yields C R p x x2 b items rho ps ->
    yields C R (exists_comp y x x2 range p) rho (exists_result ps).
  Proof.
    intros Hf Hp. apply (comp_yields _ _ _ _ (VBool false, None)); [reflexivity|reflexivity|].
    intros t. destruct (logic_loop C R Hu x x2 y Hy Hx Hx2 rho Hb OpOr p b t Hf items ps (VBool false) None Hp I)
      as (t' & E).
    exists t'. etransitivity; [exact E|]. unfold logic_from, exists_result. cbn [existsb decides orb find no_bool].
    rewrite (existsb_same _ is_true); [reflexivity|]. now intros [|[]| | | | | | | | | | | | |].
  Qed.
  Lemma all_yields p ps : free y p = false -> each_yields C R p x x2 b items rho ps ->
    yields C R (all_comp y x x2 range p) rho (all_result ps).
  Proof.
    intros Hf Hp. apply (comp_yields _ _ _ _ (VBool true, None)); [reflexivity|reflexivity|].
    intros t. destruct (logic_loop C R Hu x x2 y Hy Hx Hx2 rho Hb OpAnd p b t Hf items ps (VBool true) None Hp I)
      as (t' & E).
    exists t'. etransitivity; [exact E|]. unfold logic_from, all_result. cbn [existsb decides orb find no_bool].
    rewrite (existsb_same _ (fun v => match v with VBool false => true | _ => false end)); [reflexivity|].
    now intros [|[]| | | | | | | | | | | | |].
  Qed.

  Hypothesis Hplus : standard_plus R.
  Lemma exists_one_yields p ps : fast_equality (cf_opts C) R = true ->
    free y p = false -> each_yields C R p x x2 b items rho ps ->
    Forall (fun v => is_unknown v = false) ps -> Z.of_nat (List.length ps) <= int64_max ->
    yields C R (exists_one_comp y x x2 range p) rho (exists_one_result (condition_name C) ps).
  Proof.
    intros He Hf Hp Hn Hl. apply (comp_yields _ _ _ _ (VInt 0, None)); [reflexivity|reflexivity|].
    intros t.
    destruct (count_loop C R Hu x x2 y Hy Hx Hx2 rho Hplus p b t Hf items ps Hp Hn Hl
                (fun accu => meaning C R (NewCall "_==_" [EIdent y; EConst (VInt 1)]) (bind_local y (Val accu) rho))
                (sc C)) as (t' & E).
    exists None. etransitivity; [exact E|]. clear E. rewrite meaning_call. cbn [map].
    rewrite (accu_out C R x x2 y Hy Hx Hx2). change (meaning C R (EConst (VInt 1)) _) with (@Val vt (VInt 1, None)).
    unfold call_outcome. change (String.eqb "_==_" _) with false at 1 2 3 4. cbn beta iota.
    change (String.eqb "_==_" "or") with false. change (String.eqb "_==_" "orValue") with false.
    rewrite !andb_false_r. change (is_nsf_name "_==_") with false. change (String.eqb "_==_" "!_") with false.
    change (is_in_name "_==_") with false. rewrite ?andb_false_r, He.
    change (String.eqb "_==_" "_==_") with true. cbn [andb sequence obind apply_op].
    unfold EqualityStep. cbn [fst]. rewrite count_fold. unfold exists_one_result.
    destruct (find no_bool (rev ps)) as [v|] eqn:Ef.
    - destruct v; try reflexivity; apply find_some in Ef; destruct Ef as [_ Ef]; discriminate.
    - cbn [is_error]. unfold pair_unknowns, unk. rewrite Hu. unfold EvaluateEquality.
      cbn. do 3 f_equal. destruct (Nat.eqb_spec (List.length (filter is_true ps)) 1) as [->|Hne]; [reflexivity|].
      apply Z.eqb_neq. lia.
  Qed.
  Lemma map_yields f fs : free y f = false -> each_yields C R f x x2 b items rho fs ->
    Forall (fun v => is_unknown v = false) fs ->
    yields C R (map_comp y x x2 range f) rho (map_result fs).
  Proof.
    intros Hf Hp Hn. apply (comp_yields _ _ _ _ (VList [], None)); [reflexivity| |].
    { cbn. unfold ListStep. cbn. unfold literal_unknowns, unk. now rewrite Hu. }
    intros t.
    destruct (map_loop' C R Hu x x2 y Hy Hx Hx2 rho Hplus f b t Hf items fs Hp Hn
                (fun accu => meaning C R (EIdent y) (bind_local y (Val accu) rho)) (sc C)) as (t' & E).
    exists t'. etransitivity; [exact E|]. apply (accu_out C R x x2 y Hy Hx Hx2).
  Qed.
  Lemma map_filter_yields p f ps fs : free y p = false -> free y f = false ->
    each_yields C R p x x2 b items rho ps -> Forall (fun v => is_unknown v = false) ps ->
    each_yields C R f x x2 b items rho fs -> Forall (fun v => is_unknown v = false) fs ->
    yields C R (map_filter_comp y x x2 range p f) rho (map_filter_result (condition_name C) ps fs).
  Proof.
    intros Hf Hf' Hp Hn Hp' Hn'. apply (comp_yields _ _ _ _ (VList [], None)); [reflexivity| |].
    { cbn. unfold ListStep. cbn. unfold literal_unknowns, unk. now rewrite Hu. }
    intros t.
    destruct (filter_loop C R Hu x x2 y Hy Hx Hx2 rho Hplus p f b t Hf Hf' items ps fs Hp Hn Hp' Hn'
                (fun accu => meaning C R (EIdent y) (bind_local y (Val accu) rho)) (sc C)) as (t' & E).
    exists t'. etransitivity; [exact E|]. apply (accu_out C R x x2 y Hy Hx Hx2).
  Qed.
End Comps.
