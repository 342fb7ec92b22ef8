(* Constant folding: the folded program does what the original does. *)
From Coq Require Import ZArith List Bool String Ascii Lia Permutation.
From Verif Require Import Base M_Overflow M_Number M_Attr M_Value M_Logic M_Expr M_Plan M_Machine
  S_Num S_Value S_Eval L_Seval L_Alloc L_Safe L_Core L_Meaning L_Range L_Eval.
From Verif Require Import M_Fold S_Fold.
Import ListNotations.
Open Scope list_scope.
Open Scope Z_scope.

(* ---- lists with entries left out ---- *)

Lemma thinned_refl {A} (l : list A) : thinned l l.
Proof. induction l; constructor; auto. Qed.
Lemma thinned_app_l {A} (l a b : list A) : thinned a b -> thinned a (l ++ b).
Proof. intros H. induction l; cbn [app]; [exact H|now constructor]. Qed.
Lemma thinned_app {A} (l a b : list A) : thinned a b -> thinned (l ++ a) (l ++ b).
Proof. intros H. induction l; cbn [app]; [exact H|now constructor]. Qed.

(* ---- expressions that read nothing ---- *)

Definition fixed (H : host) (o : overload) : Prop := h_contextual H o = false /\ h_lazy H o = false.
Definition op_fixed (H : host) (op : sop) : Prop :=
  match op with OCall _ _ ovs => Forall (fixed H) ovs | _ => True end.
Fixpoint ground (H : host) (k : core) : Prop :=
  match k with
  | KConst _ => True
  | KOr _ a b => ground H a /\ ground H b
  | KApp op args =>
      op_fixed H op /\ (fix go l := match l with [] => True | a :: l' => ground H a /\ go l' end) args
  | _ => False
  end.
Lemma ground_app H op args : ground H (KApp op args) <-> op_fixed H op /\ Forall (ground H) args.
Proof.
  cbn [ground]. assert (G : (fix go l := match l with [] => True | a :: l' => ground H a /\ go l' end) args
                          <-> Forall (ground H) args).
  { induction args as [|x l IH]; [split; auto|]. rewrite Forall_cons_iff, <- IH. reflexivity. }
  now rewrite G.
Qed.
Fixpoint gres (k : core) : rcore :=
  match k with
  | KConst v => RConst v
  | KOr o a b => ROr o (gres a) (gres b)
  | KApp op args => RApp op (map gres args)
  | _ => RConst VNull
  end.
Lemma alloc_ground H k : ground H k -> forall ii scp s, alloc ii scp k s = (gres k, s).
Proof.
  induction k using core_ind'; intros Hg ii scp s; try (now destruct Hg); try reflexivity.
  - destruct Hg as [H1 H2]. cbn [alloc gres]. now rewrite (IHk1 H1), (IHk2 H2).
  - apply ground_app in Hg. destruct Hg as [_ Hg]. rewrite alloc_app. cbn [gres].
    assert (G : forall s, alloc_list ii scp args s = (map gres args, s)); [|now rewrite G].
    clear s. induction H0 as [|x l Hx Hl IH]; intros s; [reflexivity|].
    apply Forall_cons_iff in Hg. destruct Hg as [Hg1 Hg2]. cbn [alloc_list map].
    fold (alloc_list ii scp). now rewrite (Hx Hg1), (IH Hg2).
Qed.
Lemma core_at_ground H k : ground H k -> core_at H k = k.
Proof.
  induction k using core_ind'; intros Hg; try (now destruct Hg); try reflexivity.
  - destruct Hg as [H1 H2]. cbn [core_at]. now rewrite (IHk1 H1), (IHk2 H2).
  - apply ground_app in Hg. destruct Hg as [Ho Hg]. cbn [core_at]. f_equal.
    + destruct op; cbn [op_at op_fixed] in *; auto. f_equal.
      induction Ho as [|o l [Hc Hz] Hl IH]; cbn [map]; [reflexivity|]. rewrite IH. f_equal.
      unfold at_plan. now rewrite Hc, Hz.
    + clear Ho. induction H0 as [|x l Hx Hl IH]; [reflexivity|]. cbn [map].
      apply Forall_cons_iff in Hg. destruct Hg as [Hg1 Hg2]. now rewrite (Hx Hg1), (IH Hg2).
Qed.

(* the outcome of a computation that touches the state only by logging *)
Definition logged (o : out vt) (l : list invocation) (s : est) : res vt :=
  match o with
  | Val x => RVal x (add_log l s)
  | Err e => RErr e (add_log l s)
  | UB => RUB
  end.
Lemma add_log_log a b s : add_log a (add_log b s) = add_log (a ++ b) s.
Proof. unfold add_log. cbn. now rewrite app_assoc. Qed.
Lemma add_log_nil s : add_log [] s = s.
Proof. now destruct s. Qed.

Lemma exact_none C : unknown_exact C None = None.
Proof. unfold unknown_exact. cbn. now rewrite andb_false_r. Qed.
Lemma partial_none C : unknown_partial C None = None.
Proof. unfold unknown_partial. cbn. now rewrite andb_false_r. Qed.

Section TwoConfigs.
  Variables C C0 : config.
  Hypothesis Hopts : cf_opts C0 = cf_opts C.
  Hypothesis Hreorder : cf_reorder C0 = cf_reorder C.

  Lemma unk_same : unk C0 = unk C. Proof. unfold unk. now rewrite Hopts. Qed.
  Lemma sc_same : sc C0 = sc C. Proof. unfold sc. now rewrite Hopts. Qed.

  Definition bare (x : vt) : Prop := snd x = None.
  Lemma trails_none args : Forall bare args -> forall p, CheckForUnknowns p (map snd args) true = [].
  Proof.
    unfold CheckForUnknowns. intros Ha p. induction Ha as [|x l Hx Hl IH]; [reflexivity|].
    cbn [map CheckForUnknowns_loop]. rewrite Hx. cbn [CheckForUnknown]. exact IH.
  Qed.
  Lemma call_args_same args : Forall bare args ->
    call_args (unk C0) (cf_pats C0) args = call_args (unk C) (cf_pats C) args.
  Proof.
    intros Ha. rewrite unk_same. unfold call_args. destruct (unk C); [|reflexivity].
    unfold CheckForPartialUnknowns. induction Ha as [|x l Hx Hl IH]; [reflexivity|].
    cbn [map]. rewrite IH. unfold bare in Hx. now rewrite Hx.
  Qed.
  Lemma literal_same args : Forall bare args -> literal_unknowns C0 args = literal_unknowns C args.
  Proof.
    intros Ha. unfold literal_unknowns. rewrite unk_same. unfold IdentifyAndMergeUnknowns.
    now rewrite !(trails_none args Ha).
  Qed.
  Lemma pair_same a b : bare a -> bare b -> pair_unknowns C0 a b = pair_unknowns C a b.
  Proof.
    unfold bare, pair_unknowns. intros -> ->. rewrite unk_same. destruct (unk C); [|reflexivity].
    unfold acc_MaybeAddTrail. cbn [CheckForUnknown]. reflexivity.
  Qed.

  Lemma apply_bare op args : Forall bare args ->
    apply_op C0 op args = apply_op C op args /\ op_invokes C0 op args = op_invokes C op args /\
    forall x, apply_op C op args = Val x -> bare x.
  Proof.
    intros Ha.
    assert (Hi : op_invokes C0 op args = op_invokes C op args).
    { destruct op; cbn [op_invokes]; auto. now rewrite (call_args_same args Ha). }
    assert (Hval : forall (o : out value) x, obind o (fun r => Val (r, None)) = Val x -> bare x).
    { intros [v|e|] x; cbn [obind]; intros E; inversion E. reflexivity. }
    enough (G : apply_op C0 op args = apply_op C op args /\ forall x, apply_op C op args = Val x -> bare x)
      by tauto.
    destruct op; cbn [apply_op].
    - destruct args as [|[v t] [|]]; [split; [reflexivity|discriminate]| |split; [reflexivity|discriminate]].
      apply Forall_cons_iff in Ha. destruct Ha as [Ht _]. unfold bare in Ht. cbn [snd] in Ht. subst t.
      unfold SelectStep. rewrite unk_same, Hopts.
      assert (Et : (if unk C then trail_step None (QString (bytes_of_string field)) else None) = None)
        by (destruct (unk C); reflexivity).
      rewrite Et, !exact_none. split; [reflexivity|]. intros x.
      destruct v; try (intros E; inversion E; reflexivity); destruct test_only;
        repeat match goal with
        | |- context [match ?o with _ => _ end] => destruct o
        end; intros E; inversion E; reflexivity.
    - destruct args as [|a [|b [|]]]; try (split; [reflexivity|discriminate]).
      apply Forall_cons_iff in Ha. destruct Ha as [Hx Ha]. unfold bare in Hx.
      unfold IndexStep. rewrite unk_same, Hopts, Hx.
      assert (Et : (if unk C then trail_step None (qualifier_of (fst b)) else None) = None)
        by (destruct (unk C); reflexivity).
      rewrite Et, !exact_none. split; [reflexivity|]. intros x.
      destruct (unk C && _); [intros E; inversion E; reflexivity|apply Hval].
    - destruct args as [|[v t] [|]]; [split; [reflexivity|discriminate]| |split; [reflexivity|discriminate]].
      apply Forall_cons_iff in Ha. destruct Ha as [Ht _]. unfold bare in Ht. cbn [snd] in Ht. subst t.
      unfold NotStepT. cbn [fst snd]. rewrite !partial_none.
      unfold NotStep. cbn [CheckForUnknown]. rewrite !andb_false_r.
      split; [reflexivity|]. intros x E. inversion E. destruct v; reflexivity.
    - destruct args as [|[v t] [|]]; [split; [reflexivity|discriminate]| |split; [reflexivity|discriminate]].
      apply Forall_cons_iff in Ha. destruct Ha as [Ht _]. unfold bare in Ht. cbn [snd] in Ht. subst t.
      split; [reflexivity|]. intros x E. inversion E. destruct v; reflexivity.
    - destruct args as [|a [|b [|]]]; try (split; [reflexivity|discriminate]).
      apply Forall_cons_iff in Ha. destruct Ha as [Hx Ha]. apply Forall_cons_iff in Ha. destruct Ha as [Hy _].
      unfold EqualityStep. rewrite (pair_same a b Hx Hy). split; [reflexivity|]. intros x.
      destruct (is_error (fst a)); [intros E; inversion E; reflexivity|].
      destruct (is_error (fst b)); [intros E; inversion E; reflexivity|].
      destruct (pair_unknowns C a b); [intros E; inversion E; reflexivity|apply Hval].
    - destruct args as [|a [|b [|]]]; try (split; [reflexivity|discriminate]).
      apply Forall_cons_iff in Ha. destruct Ha as [Hx Ha]. apply Forall_cons_iff in Ha. destruct Ha as [Hy _].
      unfold InStep. rewrite (pair_same a b Hx Hy). split; [reflexivity|]. intros x.
      destruct (is_error (fst a)); [intros E; inversion E; reflexivity|].
      destruct (is_error (fst b)); [intros E; inversion E; reflexivity|].
      destruct (pair_unknowns C a b); [intros E; inversion E; reflexivity|apply Hval].
    - unfold CallFunction. rewrite (call_args_same args Ha), unk_same. split; [reflexivity|]. intros x.
      apply Hval.
    - unfold ListStep. rewrite (literal_same args Ha). split; [reflexivity|]. intros x.
      destruct (find is_error (map fst args)); [intros E; inversion E; reflexivity|].
      destruct (literal_unknowns C args); [intros E; inversion E; reflexivity|apply Hval].
    - unfold MapStep. rewrite (literal_same args Ha), Hreorder. split; [reflexivity|]. intros x.
      destruct (find is_error (map fst args)); [intros E; inversion E; reflexivity|].
      destruct (literal_unknowns C args); [intros E; inversion E; reflexivity|apply Hval].
  Qed.

  Lemma or_bare k x y : bare x -> bare y -> bare (EvalOptionalOr k x y).
  Proof.
    destruct x as [vx tx], y as [vy ty]. unfold bare, EvalOptionalOr. cbn [fst snd]. intros -> ->.
    destruct vx; try reflexivity.
    match goal with o : option value |- _ => destruct o end; [destruct k; reflexivity|].
    destruct vy; try reflexivity; destruct k; reflexivity.
  Qed.
  Lemma jump_bare k x r : bare x -> OptionalJump k x = Some r -> bare r.
  Proof.
    destruct x as [vx tx]. unfold bare, OptionalJump. cbn [fst snd]. intros ->.
    destruct vx; try discriminate; try (intros [= <-]; reflexivity).
    match goal with o : option value |- _ => destruct o end; [|discriminate].
    intros [= <-]. destruct k; reflexivity.
  Qed.

  Lemma seval_ground H e : ground H e -> exists o l,
    (forall lz s, seval C0 (gres e) lz s = logged o l s) /\
    (forall lz s, seval C (gres e) lz s = logged o l s) /\ (forall x, o = Val x -> bare x).
  Proof.
    induction e using core_ind'; intros Hg; try (now destruct Hg).
    - exists (Val (v, None)), []. cbn [gres seval logged]. repeat split; intros; try now rewrite add_log_nil.
      now injection H0 as <-.
    - destruct Hg as [H1 H2]. destruct (IHe1 H1) as (o1 & l1 & A1 & B1 & N1).
      destruct (IHe2 H2) as (o2 & l2 & A2 & B2 & N2). cbn [gres seval].
      destruct o1 as [x|er|].
      2: { exists (Err er), l1. repeat split; intros; try discriminate; [rewrite A1|rewrite B1]; reflexivity. }
      2: { exists UB, []. repeat split; intros; try discriminate; [rewrite A1|rewrite B1]; reflexivity. }
      destruct (if sc C then OptionalJump k x else None) as [r|] eqn:Ej.
      { exists (Val r), l1. split; [|split].
        - intros lz s. rewrite A1. cbn [logged rbind]. now rewrite sc_same, Ej.
        - intros lz s. rewrite B1. cbn [logged rbind]. now rewrite Ej.
        - intros y [= <-]. destruct (sc C); [|discriminate]. eapply jump_bare; [|exact Ej]. now apply N1. }
      exists (match o2 with Val y => Val (EvalOptionalOr k x y) | Err e => Err e | UB => UB end), (l2 ++ l1).
      split; [|split].
      + intros lz s. rewrite A1. cbn [logged rbind]. rewrite sc_same, Ej, A2.
        destruct o2; cbn [logged rbind]; rewrite ?add_log_log; reflexivity.
      + intros lz s. rewrite B1. cbn [logged rbind]. rewrite Ej, B2.
        destruct o2; cbn [logged rbind]; rewrite ?add_log_log; reflexivity.
      + intros y. destruct o2; intros E; inversion E. apply or_bare; auto.
    - apply ground_app in Hg. destruct Hg as [_ Hg]. cbn [gres seval].
      assert (G : exists o l,
        (forall lz s, seval_list (fun x => seval C0 x lz) (map gres args) s =
           match o with Val xs => RVal xs (add_log l s) | Err e => RErr e (add_log l s) | UB => RUB end) /\
        (forall lz s, seval_list (fun x => seval C x lz) (map gres args) s =
           match o with Val xs => RVal xs (add_log l s) | Err e => RErr e (add_log l s) | UB => RUB end) /\
        (forall xs, o = Val xs -> Forall bare xs)).
      { clear op. induction H0 as [|a args Ha Hl IH].
        - exists (Val []), []. cbn [map seval_list]. split; [|split]; intros; try now rewrite add_log_nil.
          injection H0 as <-. constructor.
        - apply Forall_cons_iff in Hg. destruct Hg as [Hg1 Hg2].
          destruct (Ha Hg1) as (o1 & l1 & A1 & B1 & N1). destruct (IH Hg2) as (o2 & l2 & A2 & B2 & N2).
          cbn [map seval_list].
          destruct o1 as [x|er|].
          2: { exists (Err er), l1. split; [|split]; intros; try discriminate; [rewrite A1|rewrite B1]; reflexivity. }
          2: { exists UB, []. split; [|split]; intros; try discriminate; [rewrite A1|rewrite B1]; reflexivity. }
          exists (match o2 with Val xs => Val (x :: xs) | Err e => Err e | UB => UB end), (l2 ++ l1).
          split; [|split].
          + intros lz s. rewrite A1. cbn [logged rbind]. fold (seval_list (fun x => seval C0 x lz)). rewrite A2.
            destruct o2; cbn [rbind]; rewrite ?add_log_log; reflexivity.
          + intros lz s. rewrite B1. cbn [logged rbind]. fold (seval_list (fun x => seval C x lz)). rewrite B2.
            destruct o2; cbn [rbind]; rewrite ?add_log_log; reflexivity.
          + intros xs. destruct o2; intros E; inversion E. constructor; auto. }
      destruct G as (o & l & A & B & N). destruct o as [xs|er|].
      2: { exists (Err er), l. split; [|split]; intros; try discriminate; [rewrite A|rewrite B]; reflexivity. }
      2: { exists UB, []. split; [|split]; intros; try discriminate; [rewrite A|rewrite B]; reflexivity. }
      destruct (apply_bare op xs (N xs eq_refl)) as (E1 & E2 & E3).
      exists (apply_op C op xs), (op_invokes C op xs ++ l). split; [|split].
      + intros lz s. rewrite A. cbn [rbind]. unfold do_op. rewrite E1, E2, add_log_log.
        destruct (apply_op C op xs); reflexivity.
      + intros lz s. rewrite B. cbn [rbind]. unfold do_op. rewrite add_log_log.
        destruct (apply_op C op xs); reflexivity.
      + exact E3.
  Qed.
End TwoConfigs.

(* ---- folded expressions ---- *)

Section Folds.
  Variables (C : config) (H : host).

  (* r gives v and does nothing else than invoke functions *)
  Definition gives (r : rcore) (v : value) : Prop :=
    exists l, forall lz s, seval C r lz s = RVal (v, None) (add_log l s).

  (* k' is k with some constant parts replaced by their values *)
  Inductive folds : core -> core -> Prop :=
  | f_val k v : ground H k -> gives (gres k) v -> folds k (KConst v)
  | f_const v : folds (KConst v) (KConst v)
  | f_var x : folds (KVar x) (KVar x)
  | f_global x : folds (KGlobal x) (KGlobal x)
  | f_logic op a a' b b' : folds a a' -> folds b b' -> folds (KLogic op a b) (KLogic op a' b')
  | f_or k a a' b b' : folds a a' -> folds b b' -> folds (KOr k a b) (KOr k a' b')
  | f_cond c c' a a' b b' : folds c c' -> folds a a' -> folds b b' -> folds (KCond c a b) (KCond c' a' b')
  | f_app op args args' : folds_list args args' -> folds (KApp op args) (KApp op args')
  | f_comp x x2 y r r' i i' c c' s s' b b' :
      folds r r' -> folds i i' -> folds c c' -> folds s s' -> folds b b' ->
      folds (KComp x x2 y r i c s b) (KComp x x2 y r' i' c' s' b')
  | f_bind y i i' b b' : folds i i' -> folds b b' -> folds (KBind y i b) (KBind y i' b')
  with folds_list : list core -> list core -> Prop :=
  | fl_nil : folds_list [] []
  | fl_cons a a' l l' : folds a a' -> folds_list l l' -> folds_list (a :: l) (a' :: l').

  Inductive rfolds : rcore -> rcore -> Prop :=
  | rf_val r v : gives r v -> rfolds r (RConst v)
  | rf_const v : rfolds (RConst v) (RConst v)
  | rf_var x : rfolds (RVar x) (RVar x)
  | rf_slot x n : rfolds (RSlot x n) (RSlot x n)
  | rf_lazy n i : rfolds (RLazy n i) (RLazy n i)
  | rf_logic op a a' b b' : rfolds a a' -> rfolds b b' -> rfolds (RLogic op a b) (RLogic op a' b')
  | rf_or k a a' b b' : rfolds a a' -> rfolds b b' -> rfolds (ROr k a b) (ROr k a' b')
  | rf_cond c c' a a' b b' : rfolds c c' -> rfolds a a' -> rfolds b b' -> rfolds (RCond c a b) (RCond c' a' b')
  | rf_app op args args' : rfolds_list args args' -> rfolds (RApp op args) (RApp op args')
  | rf_comp it it2 ac r r' i i' c c' s s' b b' :
      rfolds r r' -> rfolds i i' -> rfolds c c' -> rfolds s s' -> rfolds b b' ->
      rfolds (RComp it it2 ac r i c s b) (RComp it it2 ac r' i' c' s' b')
  | rf_bind n idx i i' b b' : rfolds i i' -> rfolds b b' -> rfolds (RBind n idx i b) (RBind n idx i' b')
  with rfolds_list : list rcore -> list rcore -> Prop :=
  | rfl_nil : rfolds_list [] []
  | rfl_cons a a' l l' : rfolds a a' -> rfolds_list l l' -> rfolds_list (a :: l) (a' :: l').

  Scheme folds_min := Minimality for folds Sort Prop
  with folds_list_min := Minimality for folds_list Sort Prop.
  Combined Scheme folds_both from folds_min, folds_list_min.
  Scheme rfolds_min := Minimality for rfolds Sort Prop
  with rfolds_list_min := Minimality for rfolds_list Sort Prop.
  Combined Scheme rfolds_both from rfolds_min, rfolds_list_min.

  (* allocation: the same slots and indices *)
  Definition al_sim (s s' : alloc_state) : Prop :=
    al_next s = al_next s' /\ List.length (al_subs s) = List.length (al_subs s').
  Definition alloc_sim (k k' : core) : Prop := forall ii scp s s', al_sim s s' ->
    rfolds (fst (alloc ii scp k s)) (fst (alloc ii scp k' s')) /\
    al_sim (snd (alloc ii scp k s)) (snd (alloc ii scp k' s')).
  Definition alloc_list_sim (l l' : list core) : Prop := forall ii scp s s', al_sim s s' ->
    rfolds_list (fst (alloc_list ii scp l s)) (fst (alloc_list ii scp l' s')) /\
    al_sim (snd (alloc_list ii scp l s)) (snd (alloc_list ii scp l' s')).

  Lemma use_alloc k k' ii scp s s' r t r' t' : alloc_sim k k' -> al_sim s s' ->
    alloc ii scp k s = (r, t) -> alloc ii scp k' s' = (r', t') -> rfolds r r' /\ al_sim t t'.
  Proof. intros Hk Hs E E'. specialize (Hk ii scp s s' Hs). rewrite E, E' in Hk. exact Hk. Qed.

  Ltac use k k' :=
    match goal with
    | Hk : alloc_sim k k', Hs : al_sim ?s ?s' |- context [alloc ?ii ?scp k ?s] =>
        let r := fresh "r" in let t := fresh "t" in let r' := fresh "r" in let t' := fresh "t" in
        let E := fresh "E" in let E' := fresh "E" in let A := fresh "A" in let B := fresh "B" in
        destruct (alloc ii scp k s) as [r t] eqn:E;
        destruct (alloc ii scp k' s') as [r' t'] eqn:E';
        destruct (use_alloc k k' ii scp s s' r t r' t' Hk Hs E E') as [A B]; clear Hs
    end.

  Lemma alloc_folds :
    (forall k k', folds k k' -> alloc_sim k k') /\
    (forall l l', folds_list l l' -> alloc_list_sim l l').
  Proof.
    apply folds_both; unfold alloc_list_sim.
    - intros k v Hg Hv ii scp s s' Hs. rewrite (alloc_ground H k Hg). cbn [alloc fst snd].
      split; [now apply rf_val|exact Hs].
    - intros v ii scp s s' Hs. split; [apply rf_const|exact Hs].
    - intros x ii scp s s' Hs. cbn [alloc]. destruct (lookup_slot scp x) as [[n|n i]|]; cbn [fst snd];
        (split; [constructor|exact Hs]).
    - intros x ii scp s s' Hs. split; [constructor|exact Hs].
    - intros op a a' b b' _ Ha _ Hb ii scp s s' Hs. cbn [alloc]. use a a'. use b b'.
      cbn [fst snd]. split; [now constructor|assumption].
    - intros k a a' b b' _ Ha _ Hb ii scp s s' Hs. cbn [alloc]. use a a'. use b b'.
      cbn [fst snd]. split; [now constructor|assumption].
    - intros c c' a a' b b' _ Hc _ Ha _ Hb ii scp s s' Hs. cbn [alloc]. use c c'. use a a'. use b b'.
      cbn [fst snd]. split; [now constructor|assumption].
    - intros op args args' _ Ha ii scp s s' Hs. rewrite !alloc_app. specialize (Ha ii scp s s' Hs).
      destruct (alloc_list ii scp args s), (alloc_list ii scp args' s'). cbn [fst snd] in *.
      destruct Ha as [Ha1 Ha2]. split; [now constructor|exact Ha2].
    - intros x x2 y r r' i i' c c' st st' b b' _ Hr _ Hi _ Hc _ Hst _ Hb ii scp s s' Hs. cbn [alloc]. cbv zeta.
      destruct (proj1 Hs).
      assert (Hs0 : al_sim (ReserveSlots (if negb (String.eqb x2 "") then 3 else 2) s)
                           (ReserveSlots (if negb (String.eqb x2 "") then 3 else 2) s')).
      { destruct Hs as [Hn Hl]. split; [cbn [ReserveSlots al_next]; now rewrite Hn|exact Hl]. }
      use r r'. use i i'. use c c'. use st st'. use b b'. cbn [fst snd].
      split; [now constructor|]. destruct ii; [assumption|].
      match goal with B : al_sim _ _ |- al_sim (release_to _ ?t) _ => destruct B as [_ B]; split; [reflexivity|exact B] end.
    - intros y i i' b b' _ Hi _ Hb ii scp s s' Hs. cbn [alloc]. cbv zeta. destruct (proj1 Hs).
      assert (Hs0 : al_sim (ReserveSlots 1 s) (ReserveSlots 1 s')).
      { destruct Hs as [Hn Hl]. split; [cbn [ReserveSlots al_next]; now rewrite Hn|exact Hl]. }
      use i i'. destruct B as [B1 B2]. rewrite <- B2.
      assert (Hs1 : al_sim (extract r t) (extract r0 t0)).
      { split; [exact B1|]. cbn [extract al_subs]. rewrite !app_length. cbn. now rewrite B2. }
      use b b'. cbn [fst snd]. split; [now constructor|]. destruct ii; [assumption|].
      destruct B as [_ B]; split; [reflexivity|exact B].
    - intros ii scp s s' Hs. split; [constructor|exact Hs].
    - intros a a' l l' _ Ha _ Hl ii scp s s' Hs. cbn [alloc_list]. fold (alloc_list ii scp).
      use a a'. specialize (Hl ii scp _ _ B).
      destruct (alloc_list ii scp l t), (alloc_list ii scp l' t0). cbn [fst snd] in *.
      destruct Hl. split; [now constructor|assumption].
  Qed.

  (* ---- evaluation ---- *)

  Definition est_sim (s s' : est) : Prop :=
    e_slots s' = e_slots s /\ e_iterations s' = e_iterations s /\ e_loops s' = e_loops s /\
    e_inits s' = e_inits s /\ thinned (e_log s') (e_log s).
  Definition res_sim {A} (r r' : res A) : Prop :=
    match r, r' with
    | RVal a s, RVal a' s' => a = a' /\ est_sim s s'
    | RErr e s, RErr e' s' => e = e' /\ est_sim s s'
    | RFault w, RFault w' => w = w'
    | RUB, RUB => True
    | _, _ => False
    end.
  Lemma res_bind {A B} (r r' : res A) (f f' : A -> est -> res B) :
    res_sim r r' -> (forall a s s', est_sim s s' -> res_sim (f a s) (f' a s')) ->
    res_sim (rbind r f) (rbind r' f').
  Proof.
    destruct r as [a s|e s|w|], r' as [a' s'|e' s'|w'|]; cbn [res_sim rbind]; try tauto.
    intros [-> Hs] Hf. auto.
  Qed.
  Definition comp_sim (f f' : comp) : Prop := forall s s', est_sim s s' -> res_sim (f s) (f' s').

  Lemma sim_set n x s s' : est_sim s s' -> est_sim (set_slot n x s) (set_slot n x s').
  Proof. intros (H1 & H2 & H3 & H4 & H5). unfold est_sim. cbn. now rewrite H1. Qed.
  Lemma sim_clear n s s' : est_sim s s' -> est_sim (clear_slot n s) (clear_slot n s').
  Proof. intros (H1 & H2 & H3 & H4 & H5). unfold est_sim. cbn. now rewrite H1. Qed.
  Lemma sim_log l s s' : est_sim s s' -> est_sim (add_log l s) (add_log l s').
  Proof. intros (H1 & H2 & H3 & H4 & H5). unfold est_sim. cbn. repeat split; auto. now apply thinned_app. Qed.
  Lemma sim_log_l l s s' : est_sim s s' -> est_sim (add_log l s) s'.
  Proof. intros (H1 & H2 & H3 & H4 & H5). unfold est_sim. cbn. repeat split; auto. now apply thinned_app_l. Qed.
  Lemma sim_loop s s' : est_sim s s' -> est_sim (count_loop s) (count_loop s').
  Proof. intros (H1 & H2 & H3 & H4 & H5). unfold est_sim. cbn. now rewrite H3. Qed.
  Lemma sim_init i s s' : est_sim s s' -> est_sim (count_init i s) (count_init i s').
  Proof. intros (H1 & H2 & H3 & H4 & H5). unfold est_sim. cbn. now rewrite H4. Qed.
  Lemma sim_set_iter it it2 b t kv s s' : est_sim s s' ->
    est_sim (set_iter C it it2 b t kv s) (set_iter C it it2 b t kv s').
  Proof.
    intros Hs. unfold set_iter. destruct (Nat.eqb it it2); [now apply sim_set|].
    destruct (iter_two C t kv). now apply sim_set, sim_set.
  Qed.
  Lemma sim_clear_iter it it2 s s' : est_sim s s' ->
    est_sim (clear_iter it it2 s) (clear_iter it it2 s').
  Proof.
    intros Hs. unfold clear_iter. destruct (Nat.eqb it it2); [now apply sim_clear|].
    now apply sim_clear, sim_clear.
  Qed.
  Lemma sim_increment s s' : est_sim s s' -> res_sim (IncrementIterations C s) (IncrementIterations C s').
  Proof.
    intros (H1 & H2 & H3 & H4 & H5). unfold IncrementIterations. rewrite H2.
    destruct (o_max_iterations (cf_opts C) =? 0); [cbn; unfold est_sim; auto 10|].
    destruct (o_max_iterations (cf_opts C) <=? e_iterations s + 1); cbn; unfold est_sim; cbn; auto 10.
  Qed.
  Lemma sim_slot x n s s' : est_sim s s' -> res_sim (read_slot x n s) (read_slot x n s').
  Proof.
    intros Hs. unfold read_slot. rewrite (proj1 Hs). destruct (e_slots s n); cbn; auto.
  Qed.
  Lemma sim_lift {A} (o : out A) s s' : est_sim s s' -> res_sim (rlift o s) (rlift o s').
  Proof. intros Hs. destruct o; cbn; auto. Qed.

  Lemma sim_sloop it it2 ac b t fc fc' fs fs' : comp_sim fc fc' -> comp_sim fs fs' ->
    forall items a s s', est_sim s s' ->
    res_sim (sloop C it it2 ac b t fc fs items a s) (sloop C it it2 ac b t fc' fs' items a s').
  Proof.
    intros Hc Hf. induction items as [|kv items IH]; intros a s s' Hs; cbn [sloop].
    - cbn [res_sim]. split; [reflexivity|]. now apply sim_clear_iter, sim_set.
    - apply res_bind; [now apply sim_increment, sim_set|]. intros _ s1 s1' Hs1.
      apply res_bind; [now apply Hc, sim_set_iter, sim_loop|]. intros c s2 s2' Hs2.
      destruct (loop_condition c) as [r|go].
      + cbn [res_sim]. split; [reflexivity|]. now apply sim_clear, sim_clear_iter.
      + destruct (negb go && sc C); [cbn [res_sim]; auto|]. apply res_bind; [now apply Hf|]. auto.
  Qed.

  Definition eval_sim (r r' : rcore) : Prop := forall lz lz', (forall i, comp_sim (lz i) (lz' i)) ->
    comp_sim (seval C r lz) (seval C r' lz').
  Definition eval_list_sim (l l' : list rcore) : Prop := forall lz lz', (forall i, comp_sim (lz i) (lz' i)) ->
    forall s s', est_sim s s' ->
    res_sim (seval_list (fun x => seval C x lz) l s) (seval_list (fun x => seval C x lz') l' s').

  Lemma seval_folds :
    (forall r r', rfolds r r' -> eval_sim r r') /\ (forall l l', rfolds_list l l' -> eval_list_sim l l').
  Proof.
    apply rfolds_both; unfold eval_list_sim.
    - intros r v (l & Hl) lz lz' Hz s s' Hs. rewrite Hl. cbn [seval res_sim]. split; [reflexivity|].
      now apply sim_log_l.
    - intros v lz lz' Hz s s' Hs. cbn; auto.
    - intros x lz lz' Hz s s' Hs. cbn [seval]. now apply sim_lift.
    - intros x n lz lz' Hz s s' Hs. cbn [seval]. now apply sim_slot.
    - intros n i lz lz' Hz s s' Hs. cbn [seval]. rewrite (proj1 Hs).
      destruct (e_slots s n); [cbn; auto|]. apply res_bind; [now apply Hz, sim_init|].
      intros a s1 s1' Hs1. cbn [res_sim]. split; [reflexivity|]. now apply sim_set.
    - intros op a a' b b' _ Ha _ Hb lz lz' Hz s s' Hs. cbn [seval]. apply res_bind; [now apply Ha|].
      intros x s1 s1' Hs1. destruct (sc C && _); [cbn; auto|]. apply res_bind; [now apply Hb|].
      intros y s2 s2' Hs2. cbn; auto.
    - intros k a a' b b' _ Ha _ Hb lz lz' Hz s s' Hs. cbn [seval]. apply res_bind; [now apply Ha|].
      intros x s1 s1' Hs1. destruct (if sc C then OptionalJump k x else None); [cbn; auto|].
      apply res_bind; [now apply Hb|]. intros y s2 s2' Hs2. cbn; auto.
    - intros c c' a a' b b' _ Hc _ Ha _ Hb lz lz' Hz s s' Hs. cbn [seval]. apply res_bind; [now apply Hc|].
      intros x s1 s1' Hs1. destruct (sc C).
      + destruct (BoolCheck x); [cbn; auto|]. destruct (is_true (fst x)); [now apply Ha|now apply Hb].
      + apply res_bind; [now apply Ha|]. intros y s2 s2' Hs2. apply res_bind; [now apply Hb|].
        intros z s3 s3' Hs3. cbn; auto.
    - intros op args args' _ Ha lz lz' Hz s s' Hs. cbn [seval]. apply res_bind; [now apply Ha|].
      intros xs s1 s1' Hs1. unfold do_op. now apply sim_lift, sim_log.
    - intros it it2 ac r r' i i' c c' st st' b b' _ Hr _ Hi _ Hc _ Hst _ Hb lz lz' Hz s s' Hs. cbn [seval].
      apply res_bind; [now apply Hr|]. intros rv s1 s1' Hs1.
      destruct (comp_init C rv) as [x|[m items]]; [cbn; auto|].
      apply res_bind; [now apply Hi|]. intros iv s2 s2' Hs2.
      apply res_bind; [apply sim_sloop; auto|].
      intros [x|] s3 s3' Hs3; [cbn; auto|]. apply res_bind; [now apply Hb|].
      intros x s4 s4' Hs4. cbn [res_sim]. split; [reflexivity|]. now apply sim_clear.
    - intros n idx i i' b b' _ Hi _ Hb lz lz' Hz s s' Hs. cbn [seval]. apply res_bind.
      + apply Hb; auto. intros j. unfold set_lz. destruct (Nat.eqb j idx); [|apply Hz]. now apply Hi.
      + intros x s1 s1' Hs1. cbn [res_sim]. split; [reflexivity|]. now apply sim_clear.
    - intros lz lz' Hz s s' Hs. cbn; auto.
    - intros a a' l l' _ Ha _ Hl lz lz' Hz s s' Hs. cbn [seval_list].
      fold (seval_list (fun x => seval C x lz)). fold (seval_list (fun x => seval C x lz')).
      apply res_bind; [now apply Ha|]. intros x s1 s1' Hs1. apply res_bind; [now apply Hl|].
      intros xs s2 s2' Hs2. cbn; auto.
  Qed.

  Lemma est_sim_refl s : est_sim s s.
  Proof. unfold est_sim. auto 10 using thinned_refl. Qed.
  Lemma folds_run k k' : folds k k' ->
    res_sim (seval C (resolved k) no_lazy est_init) (seval C (resolved k') no_lazy est_init).
  Proof.
    intros Hk. unfold resolved.
    destruct (proj1 alloc_folds k k' Hk false [] (mkAlloc 0 0 []) (mkAlloc 0 0 [])) as [Hr _];
      [split; reflexivity|].
    apply (proj1 seval_folds _ _ Hr); [|apply est_sim_refl]. intros i s s' _. cbn. exact I.
  Qed.
End Folds.

(* ---- the optimizer ---- *)

Section Elab.
  Variables (C : config) (R : registry) (H : host).
  Notation O := (cf_opts C).
  Notation run := (run_subplan H (cf_opts C) (cf_reorder C)).
  Notation C0 := (plan_config (cf_opts C) (cf_reorder C)).

  Lemma folds_list_app a a' b b' : folds_list C H a a' -> folds_list C H b b' ->
    folds_list C H (a ++ b) (a' ++ b').
  Proof. intros Ha Hb. induction Ha; cbn [app]; [exact Hb|now constructor]. Qed.
  Lemma folds_list_length a a' : folds_list C H a a' -> List.length a = List.length a'.
  Proof. induction 1; cbn; auto. Qed.
  Lemma chain_folds op l l' : folds_list C H l l' -> forall a a', folds C H a a' ->
    folds C H (logic_chain op a l) (logic_chain op a' l').
  Proof. induction 1; intros x x' Hx; cbn [logic_chain]; [exact Hx|]. apply IHfolds_list. now constructor. Qed.

  (* a constant part and the part it folds to *)
  Lemma folds_gres k k' : folds C H k k' -> ground H k -> ground H k' -> rfolds C (gres k) (gres k').
  Proof.
    intros Hf Hk Hk'. destruct (proj1 (alloc_folds C H) k k' Hf false [] (mkAlloc 0 0 []) (mkAlloc 0 0 [])) as [Hr _];
      [split; reflexivity|]. rewrite (alloc_ground H k Hk), (alloc_ground H k' Hk') in Hr. exact Hr.
  Qed.

  (* the host or the constants are at fault *)
  Definition bad (Q : Prop) : Prop := ~ (host_ok C R /\ Q).
  Lemma bad_impl (P Q : Prop) : (Q -> P) -> bad P -> bad Q.
  Proof. unfold bad. tauto. Qed.

  Lemma folds_kok : host_ok C R ->
    (forall k k', folds C H k k' -> kok k -> kok k') /\
    (forall l l', folds_list C H l l' -> Forall kok l -> Forall kok l').
  Proof.
    intros (HR & Hv & Hm). apply folds_both.
    - intros k v Hg (l & Hl) Hk. cbn [kok]. pose proof (resolved_ok C Hv Hm k Hk) as Ho.
      unfold resolved in Ho. rewrite (alloc_ground H k Hg) in Ho. cbn [fst] in Ho. rewrite Hl in Ho.
      apply Ho.
    - auto.
    - auto.
    - auto.
    - cbn [kok]. tauto.
    - cbn [kok]. tauto.
    - cbn [kok]. tauto.
    - intros op args args' Hf IH Hk. apply kok_app in Hk. apply kok_app.
      rewrite <- (folds_list_length _ _ Hf). tauto.
    - cbn [kok]. tauto.
    - cbn [kok]. tauto.
    - auto.
    - intros a a' l l' _ Ha _ Hl Hk. apply Forall_cons_iff in Hk. destruct Hk. constructor; auto.
  Qed.

  Lemma post_folds e below k k0 : folds C H k k0 ->
    (IsConstExpr H R e && below = true -> ground H k /\ ground H k0) ->
    (post R H run e below k0 = UB /\ bad (kok k)) \/
    exists b k', post R H run e below k0 = Val (b, k') /\ folds C H k k' /\
      (b = true -> ground H k /\ ground H k').
  Proof.
    intros Hf Hg. unfold post, OnPostVisit. destruct (IsConstExpr H R e && below) eqn:Ec; cbn [obind].
    2: { right. exists false, k0. split; [reflexivity|]. split; [exact Hf|discriminate]. }
    destruct (Hg eq_refl) as [Hk Hk0]. unfold run_subplan. rewrite (core_at_ground H k0 Hk0).
    unfold resolved. rewrite (alloc_ground H k0 Hk0). cbn [fst].
    destruct (seval_ground C C0 eq_refl eq_refl H k0 Hk0) as (o & l & H0 & H1 & H2). rewrite H0.
    destruct o as [x|er|]; cbn [logged final obind].
    2: { right. exists true, k0. auto. }
    2: { left. split; [reflexivity|]. intros [Hh Hok]. pose proof Hh as (HR & Hv & Hm).
         pose proof (resolved_ok C Hv Hm k0 (proj1 (folds_kok Hh) _ _ Hf Hok)) as Ho.
         unfold resolved in Ho. rewrite (alloc_ground H k0 Hk0) in Ho. cbn [fst] in Ho. rewrite H1 in Ho.
         exact Ho. }
    destruct (is_unknown (fst x)); cbn [obind].
    { right. exists true, k0. auto. }
    right. exists true, (KConst (fst x)). split; [reflexivity|]. split; [|cbn; auto].
    apply f_val; [exact Hk|].
    destruct (seval_ground C C0 eq_refl eq_refl H k Hk) as (o & l' & H3 & H4 & H5).
    pose proof (proj1 (seval_folds C) _ _ (folds_gres k k0 Hf Hk Hk0) no_lazy no_lazy) as Hs.
    specialize (Hs (fun i s s' _ => I) est_init est_init (est_sim_refl _)). rewrite H1, H4 in Hs.
    destruct o as [y|er|]; cbn [logged res_sim] in Hs; try tauto. destruct Hs as [-> _].
    exists l'. intros lz s. rewrite H4. cbn [logged]. pose proof (H2 x eq_refl) as Hb. unfold bare in Hb.
    destruct x as [v t]. cbn [fst snd] in *. now rewrite Hb.
  Qed.

  Lemma call_folds fn rcv ks ks' : folds_list C H ks ks' ->
    match plan_call O R fn rcv ks with
    | Val k => exists k', plan_call O R fn rcv ks' = Val k' /\ folds C H k k'
    | Err e => plan_call O R fn rcv ks' = Err e
    | UB => plan_call O R fn rcv ks' = UB
    end.
  Proof.
    intros Hl. pose proof (folds_list_length _ _ Hl) as Hn. unfold plan_call.
    destruct (String.eqb fn "_&&_" || String.eqb fn "_||_").
    { destruct rcv; [reflexivity|]. destruct Hl as [|a a' l l' Ha [|b b' m m' Hb Hm]]; [reflexivity..|].
      eexists. split; [reflexivity|]. cbn [logic_chain]. apply chain_folds; auto. now constructor. }
    destruct (String.eqb fn "_?_:_").
    { destruct rcv; [reflexivity|].
      destruct Hl as [|a a' l l' Ha [|b b' m m' Hb [|c c' n n' Hc [|]]]]; try reflexivity.
      eexists. split; [reflexivity|]. now constructor. }
    rewrite <- Hn.
    destruct (o_optional_types O && rcv && Nat.eqb (List.length ks) 2 && _).
    { destruct Hl as [|a a' l l' Ha [|b b' m m' Hb [|]]]; try reflexivity.
      eexists. split; [reflexivity|]. now constructor. }
    assert (Hk : forall op, exists k', Val (KApp op ks') = Val k' /\ folds C H (KApp op ks) k').
    { intros op. eexists. split; [reflexivity|]. now constructor. }
    destruct (String.eqb fn "_[_]").
    { inversion Hl as [|a a' l l' Ha Hl']; subst; [reflexivity|].
      inversion Hl' as [|b b' m m' Hb Hm]; subst; [reflexivity|]. inversion Hm; subst; [apply Hk|reflexivity]. }
    destruct (o_fast_builtins O && is_nsf_name fn).
    { destruct rcv; [reflexivity|]. inversion Hl as [|a a' l l' Ha Hl']; subst; [reflexivity|].
      inversion Hl'; subst; [apply Hk|reflexivity]. }
    destruct (o_fast_builtins O && String.eqb fn "!_").
    { destruct rcv; [reflexivity|]. inversion Hl as [|a a' l l' Ha Hl']; subst; [reflexivity|].
      inversion Hl'; subst; [apply Hk|reflexivity]. }
    destruct (o_fast_builtins O && o_heterogeneous O && is_in_name fn).
    { destruct rcv; [reflexivity|]. inversion Hl as [|a a' l l' Ha Hl']; subst; [reflexivity|].
      inversion Hl' as [|b b' m m' Hb Hm]; subst; [reflexivity|]. inversion Hm; subst; [apply Hk|reflexivity]. }
    destruct (fast_equality O R && _).
    { destruct rcv; [reflexivity|]. inversion Hl as [|a a' l l' Ha Hl']; subst; [reflexivity|].
      inversion Hl' as [|b b' m m' Hb Hm]; subst; [reflexivity|]. inversion Hm; subst; [apply Hk|reflexivity]. }
    unfold resolved_call. rewrite <- Hn.
    destruct (FindStaticOverloadsByArity R fn rcv (List.length ks)); [|apply Hk].
    destruct (o_fail_on_warnings O); [reflexivity|apply Hk].
  Qed.

  (* what a call that may be folded is planned to *)
  Lemma call_ground fn target args ks k :
    IsConstExpr H R (ECall fn target args) = true ->
    List.length ks = (List.length args + match target with None => 0 | Some _ => 1 end)%nat ->
    plan_call O R fn (match target with None => false | Some _ => true end) ks = Val k ->
    Forall (ground H) ks -> ground H k.
  Proof.
    unfold IsConstExpr. intros Hc Hn Hp Hg. unfold plan_call in Hp.
    destruct (String.eqb fn "_&&_"); [discriminate|]. destruct (String.eqb fn "_||_"); [discriminate|].
    destruct (String.eqb fn "_?_:_"); [discriminate|]. cbn [orb] in *.
    destruct (String.eqb fn "cel.@block"); [discriminate|]. cbv zeta in Hc.
    set (rcv := match target with None => false | Some _ => true end) in *.
    assert (Hn' : (List.length args + (if rcv then 1 else 0))%nat = List.length ks).
    { rewrite Hn. subst rcv. destruct target; reflexivity. }
    rewrite Hn' in Hc.
    assert (Ha : forall op, op_fixed H op -> ground H (KApp op ks)) by (intros; now apply ground_app).
    destruct (o_optional_types O && rcv && Nat.eqb (List.length ks) 2 && _).
    { destruct ks as [|a [|b [|]]]; try discriminate. injection Hp as <-.
      apply Forall_cons_iff in Hg. destruct Hg as [Hga Hg]. apply Forall_cons_iff in Hg. split; [exact Hga|apply Hg]. }
    destruct (String.eqb fn "_[_]").
    { destruct ks as [|a [|b [|]]]; try discriminate. injection Hp as <-. apply Ha. exact I. }
    destruct (o_fast_builtins O && is_nsf_name fn).
    { destruct rcv; [discriminate|]. destruct ks as [|a [|]]; try discriminate. injection Hp as <-. apply Ha. exact I. }
    destruct (o_fast_builtins O && String.eqb fn "!_").
    { destruct rcv; [discriminate|]. destruct ks as [|a [|]]; try discriminate. injection Hp as <-. apply Ha. exact I. }
    destruct (o_fast_builtins O && o_heterogeneous O && is_in_name fn).
    { destruct rcv; [discriminate|]. destruct ks as [|a [|b [|]]]; try discriminate. injection Hp as <-. apply Ha. exact I. }
    destruct (fast_equality O R && _).
    { destruct rcv; [discriminate|]. destruct ks as [|a [|b [|]]]; try discriminate. injection Hp as <-. apply Ha. exact I. }
    assert (Hf : op_fixed H (OCall fn rcv (FindStaticOverloadsByArity R fn rcv (List.length ks)))).
    { cbn [op_fixed]. rewrite Forall_forall. intros o Ho. unfold fixed.
      destruct (existsb (h_lazy H) _) eqn:E1; [discriminate|]. apply negb_true_iff in Hc.
      split.
      - destruct (h_contextual H o) eqn:E; [|reflexivity]. rewrite <- Hc. symmetry. apply existsb_exists. eauto.
      - destruct (h_lazy H o) eqn:E; [|reflexivity]. rewrite <- E1. symmetry. apply existsb_exists. eauto. }
    unfold resolved_call in Hp.
    destruct (FindStaticOverloadsByArity R fn rcv (List.length ks)).
    - destruct (o_fail_on_warnings O); [discriminate|]. injection Hp as <-. now apply Ha.
    - injection Hp as <-. now apply Ha.
  Qed.

  (* the folded form of each expression *)
  Definition fold_ok (e : expr) : Prop :=
    (fold_elab O R H run e = UB /\ bad (constants_ok e)) \/
    match elaborate O R e with
    | Val k => exists b k', fold_elab O R H run e = Val (b, k') /\ folds C H k k' /\
                 (b = true -> ground H k /\ ground H k')
    | Err er => fold_elab O R H run e = Err er
    | UB => fold_elab O R H run e = UB
    end.
  Definition folds_pairs (ks : list core) (ps : list (bool * core)) : Prop :=
    folds_list C H ks (map snd ps) /\
    (forallb fst ps = true -> Forall (ground H) ks /\ Forall (ground H) (map snd ps)).
  Lemma pairs_nil : folds_pairs [] [].
  Proof. split; [constructor|]. intros _. split; constructor. Qed.
  Lemma pairs_cons k b k' ks ps : folds C H k k' -> (b = true -> ground H k /\ ground H k') ->
    folds_pairs ks ps -> folds_pairs (k :: ks) ((b, k') :: ps).
  Proof.
    intros Hf Hg [H1 H2]. split; [cbn [map snd]; now constructor|]. cbn [forallb fst map snd].
    intros Hb. apply andb_true_iff in Hb. destruct Hb as [-> Hb].
    destruct (Hg eq_refl), (H2 Hb). split; constructor; auto.
  Qed.
  Lemma pairs_app ks ps ks' ps' : folds_pairs ks ps -> folds_pairs ks' ps' ->
    folds_pairs (ks ++ ks') (ps ++ ps').
  Proof.
    intros [H1 H2] [H3 H4]. split; [rewrite map_app; now apply folds_list_app|].
    rewrite forallb_app, map_app. intros Hb. apply andb_true_iff in Hb. destruct Hb as [Hb Hb'].
    destruct (H2 Hb), (H4 Hb'). split; apply Forall_app; auto.
  Qed.
  Lemma map_folds {A} (Q : A -> Prop) (f : A -> out core) (g : A -> out (bool * core)) l :
    Forall (fun a => (g a = UB /\ bad (Q a)) \/
      match f a with
      | Val k => exists b k', g a = Val (b, k') /\ folds C H k k' /\ (b = true -> ground H k /\ ground H k')
      | Err er => g a = Err er
      | UB => g a = UB
      end) l ->
    (map_out g l = UB /\ bad (Forall Q l)) \/
    match map_out f l with
    | Val ks => exists ps, map_out g l = Val ps /\ folds_pairs ks ps
    | Err er => map_out g l = Err er
    | UB => map_out g l = UB
    end.
  Proof.
    induction 1 as [|a l Ha Hl IH]; cbn [map_out].
    - right. exists []. split; [reflexivity|apply pairs_nil].
    - fold (map_out f) (map_out g). destruct Ha as [[-> Ha]|Ha].
      { left. split; [reflexivity|]. eapply bad_impl; [|exact Ha]. now rewrite Forall_cons_iff. }
      destruct (f a) as [k|er|]; cbn [obind].
      + destruct Ha as (b & k' & -> & Hf & Hg). cbn [obind]. destruct IH as [[-> IH]|IH].
        { left. split; [reflexivity|]. eapply bad_impl; [|exact IH]. now rewrite Forall_cons_iff. }
        right. destruct (map_out f l) as [ks|er|]; cbn [obind].
        * destruct IH as (ps & -> & Hp). cbn [obind]. eexists. split; [reflexivity|]. now apply pairs_cons.
        * now rewrite IH.
        * now rewrite IH.
      + right. now rewrite Ha.
      + right. now rewrite Ha.
  Qed.
  Lemma map_folds2 {A} (Q1 Q2 : A -> Prop) (f1 f2 : A -> out core) (g1 g2 : A -> out (bool * core)) l :
    let ok (Q : A -> Prop) (f : A -> out core) (g : A -> out (bool * core)) a := (g a = UB /\ bad (Q a)) \/
      match f a with
      | Val k => exists b k', g a = Val (b, k') /\ folds C H k k' /\ (b = true -> ground H k /\ ground H k')
      | Err er => g a = Err er
      | UB => g a = UB
      end in
    Forall (fun a => ok Q1 f1 g1 a /\ ok Q2 f2 g2 a) l ->
    let f := map_out (fun a => obind (f1 a) (fun k => obind (f2 a) (fun v => Val [k; v]))) in
    let g := map_out (fun a => obind (g1 a) (fun k => obind (g2 a) (fun v => Val [k; v]))) in
    (g l = UB /\ bad (Forall (fun a => Q1 a /\ Q2 a) l)) \/
    match f l with
    | Val ks => exists ps, g l = Val ps /\ folds_pairs (List.concat ks) (List.concat ps)
    | Err er => g l = Err er
    | UB => g l = UB
    end.
  Proof.
    cbn zeta. induction 1 as [|a l [Ha1 Ha2] Hl IH]; cbn [map_out].
    - right. exists []. split; [reflexivity|apply pairs_nil].
    - fold (map_out (fun a => obind (f1 a) (fun k => obind (f2 a) (fun v => Val [k; v])))).
      fold (map_out (fun a => obind (g1 a) (fun k => obind (g2 a) (fun v => Val [k; v])))).
      destruct Ha1 as [[-> Ha1]|Ha1].
      { left. split; [reflexivity|]. eapply bad_impl; [|exact Ha1]. rewrite Forall_cons_iff. tauto. }
      destruct (f1 a) as [k|er|]; cbn [obind]; [|right; now rewrite Ha1|right; now rewrite Ha1].
      destruct Ha1 as (b & k' & -> & Hf & Hg). cbn [obind].
      destruct Ha2 as [[-> Ha2]|Ha2].
      { left. split; [reflexivity|]. eapply bad_impl; [|exact Ha2]. rewrite Forall_cons_iff. tauto. }
      destruct (f2 a) as [v|er|]; cbn [obind]; [|right; now rewrite Ha2|right; now rewrite Ha2].
      destruct Ha2 as (b2 & v' & -> & Hf2 & Hg2). cbn [obind].
      destruct IH as [[-> IH]|IH].
      { left. split; [reflexivity|]. eapply bad_impl; [|exact IH]. rewrite Forall_cons_iff. tauto. }
      right. destruct (map_out (fun a => obind (f1 a) _) l) as [ks|er|]; cbn [obind];
        [|now rewrite IH|now rewrite IH].
      destruct IH as (ps & -> & Hp). cbn [obind]. eexists. split; [reflexivity|].
      cbn [List.concat app]. apply pairs_cons; auto. apply pairs_cons; auto.
  Qed.
  Lemma post_ok e below k k0 :
    elaborate O R e = Val k -> fold_elab O R H run e = post R H run e below k0 ->
    folds C H k k0 -> (IsConstExpr H R e = true -> below = true -> ground H k /\ ground H k0) -> fold_ok e.
  Proof.
    intros He Hf Hk Hg. unfold fold_ok. rewrite He, Hf.
    destruct (post_folds e below k k0 Hk) as [[H1 H2]|H1]; auto.
    { intros Hb. apply andb_true_iff in Hb. destruct Hb. auto. }
    left. split; [exact H1|]. intros [Hh Hc]. apply H2. split; [exact Hh|].
    destruct Hh as [HR _]. exact (elaborate_kok O R HR e k Hc He).
  Qed.

  Lemma constants_args l :
    (fix go l := match l with [] => True | a :: l' => constants_ok a /\ go l' end) l <-> Forall constants_ok l.
  Proof. induction l as [|a l IH]; [split; auto|]. now rewrite Forall_cons_iff, <- IH. Qed.
  Lemma constants_list (l : list (bool * expr)) :
    constants_ok (EList l) <-> Forall (fun p => constants_ok (snd p)) l.
  Proof.
    cbn [constants_ok]. induction l as [|[b a] l IH]; [split; auto|]. now rewrite Forall_cons_iff, <- IH.
  Qed.
  Lemma constants_map (l : list (bool * (expr * expr))) :
    constants_ok (EMap l) <-> Forall (fun p => constants_ok (fst (snd p)) /\ constants_ok (snd (snd p))) l.
  Proof.
    cbn [constants_ok]. induction l as [|[b [k v]] l IH]; [split; auto|]. rewrite Forall_cons_iff, <- IH.
    cbn [fst snd]. tauto.
  Qed.

  Lemma fold_spec e : fold_ok e.
  Proof.
    induction e using expr_ind'.
    - right. exists true, (KConst v). split; [reflexivity|]. split; [apply f_const|]. cbn; auto.
    - right. cbn [elaborate fold_elab]. unfold plan_ident. destruct x as [|c rest]; [reflexivity|].
      destruct (Ascii.eqb c "."%char); cbn [obind]; eexists _, _;
        (split; [reflexivity|split; [constructor|discriminate]]).
    - destruct IHe as [[IH Hb]|IH].
      { destruct (String.eqb f "") eqn:Ef.
        - right. cbn [elaborate fold_elab]. now rewrite Ef.
        - left. cbn [fold_elab]. split; [now rewrite Ef, IH|exact Hb]. }
      destruct (String.eqb f "") eqn:Ef; [right; cbn [elaborate fold_elab]; now rewrite Ef|].
      destruct (elaborate O R e) as [k|er|] eqn:Ee.
      2: { right. cbn [elaborate fold_elab]. now rewrite Ef, Ee, IH. }
      2: { right. cbn [elaborate fold_elab]. now rewrite Ef, Ee, IH. }
      destruct IH as (b & k' & IH & Hf & Hg).
      eapply (post_ok (ESelect e f t) b (KApp (OSelect f t) [k]) (KApp (OSelect f t) [k'])).
      + cbn [elaborate]. now rewrite Ef, Ee.
      + cbn [fold_elab]. now rewrite Ef, IH.
      + repeat constructor. exact Hf.
      + intros _ Hb. destruct (Hg Hb). split; apply ground_app; split; cbn; auto.
    - set (rcv := match t with None => false | Some _ => true end).
      assert (Ht : ((match t with None => Val [] | Some x => obind (fold_elab O R H run x) (fun a => Val [a]) end) = UB /\
          bad (match t with Some a => constants_ok a | None => True end)) \/
        match (match t with None => Val [] | Some x => obind (elaborate O R x) (fun a => Val [a]) end) with
        | Val ks => exists ps, (match t with None => Val [] | Some x => obind (fold_elab O R H run x) (fun a => Val [a]) end) = Val ps
                      /\ folds_pairs ks ps /\ List.length ks = match t with None => 0%nat | Some _ => 1%nat end
        | Err er => (match t with None => Val [] | Some x => obind (fold_elab O R H run x) (fun a => Val [a]) end) = Err er
        | UB => (match t with None => Val [] | Some x => obind (fold_elab O R H run x) (fun a => Val [a]) end) = UB
        end).
      { destruct t as [x|]; [|right; exists []; split; [reflexivity|]; split; [apply pairs_nil|reflexivity]].
        destruct H0 as [[-> Hx]|Hx]; [now left|]. right. destruct (elaborate O R x) as [k|er|]; cbn [obind].
        - destruct Hx as (b & k' & -> & Hf & Hg). cbn [obind]. eexists. split; [reflexivity|].
          split; [|reflexivity]. apply pairs_cons; auto. apply pairs_nil.
        - now rewrite Hx.
        - now rewrite Hx. }
      destruct Ht as [[Ht Hb]|Ht].
      { left. cbn [fold_elab]. rewrite Ht. split; [reflexivity|]. eapply bad_impl; [|exact Hb].
        cbn [constants_ok]. tauto. }
      destruct (match t with None => Val [] | Some x => obind (elaborate O R x) (fun a => Val [a]) end) as [ts|er|] eqn:Et.
      2: { right. cbn [elaborate fold_elab]. now rewrite Et, Ht. }
      2: { right. cbn [elaborate fold_elab]. now rewrite Et, Ht. }
      destruct Ht as (tp & Ht & Htp & Htl).
      destruct (map_folds constants_ok (elaborate O R) (fold_elab O R H run) args H1) as [[Ha Hb]|Ha].
      { left. cbn [fold_elab]. rewrite Ht. cbn [obind]. rewrite Ha. split; [reflexivity|].
        eapply bad_impl; [|exact Hb]. cbn [constants_ok]. rewrite constants_args. tauto. }
      destruct (map_out (elaborate O R) args) as [cs|er|] eqn:Ec.
      2: { right. cbn [elaborate fold_elab]. rewrite Et, Ht. cbn [obind]. now rewrite Ec, Ha. }
      2: { right. cbn [elaborate fold_elab]. rewrite Et, Ht. cbn [obind]. now rewrite Ec, Ha. }
      destruct Ha as (cp & Ha & Hcp).
      assert (Hcl : List.length cs = List.length args).
      { clear - Ec. revert cs Ec. induction args as [|a l IH]; intros cs; cbn [map_out]; [now intros [= <-]|].
        fold (map_out (elaborate O R)). destruct (elaborate O R a); cbn [obind]; try discriminate.
        destruct (map_out (elaborate O R) l); cbn [obind]; try discriminate. intros [= <-]. cbn. auto. }
      pose proof (pairs_app _ _ _ _ Htp Hcp) as [Hl Hg].
      pose proof (call_folds fn rcv (ts ++ cs) _ Hl) as Hc.
      destruct (plan_call O R fn rcv (ts ++ cs)) as [k|er|] eqn:Ek.
      + destruct Hc as (k' & Hk' & Hf).
        eapply (post_ok (ECall fn t args) (forallb fst (tp ++ cp)) k k').
        * cbn [elaborate]. rewrite Et. cbn [obind]. rewrite Ec. cbn [obind]. exact Ek.
        * cbn [fold_elab]. rewrite Ht. cbn [obind]. rewrite Ha. cbn [obind]. fold rcv. now rewrite Hk'.
        * exact Hf.
        * intros Hi Hb. destruct (Hg Hb) as [Hg1 Hg2].
          assert (Hn : List.length (ts ++ cs) = (List.length args + match t with None => 0 | Some _ => 1 end)%nat)
            by (rewrite app_length; lia).
          split; [eapply call_ground; eauto|].
          eapply (call_ground fn t args (map snd (tp ++ cp)) k'); eauto.
          rewrite <- (folds_list_length _ _ Hl). exact Hn.
      + right. cbn [elaborate fold_elab]. rewrite Et, Ht. cbn [obind]. rewrite Ec, Ha. cbn [obind].
        fold rcv. now rewrite Ek, Hc.
      + right. cbn [elaborate fold_elab]. rewrite Et, Ht. cbn [obind]. rewrite Ec, Ha. cbn [obind].
        fold rcv. now rewrite Ek, Hc.
    - destruct (map_folds (fun p => constants_ok (snd p)) (fun p => elaborate O R (snd p))
                  (fun p => fold_elab O R H run (snd p)) l H0) as [[Ha Hb]|Ha].
      { left. cbn [fold_elab]. rewrite Ha. split; [reflexivity|]. eapply bad_impl; [|exact Hb].
        apply constants_list. }
      destruct (map_out (fun p => elaborate O R (snd p)) l) as [cs|er|] eqn:Ec.
      2: { right. cbn [elaborate fold_elab]. now rewrite Ec, Ha. }
      2: { right. cbn [elaborate fold_elab]. now rewrite Ec, Ha. }
      destruct Ha as (cp & Ha & [Hf Hg]).
      eapply (post_ok (EList l) (forallb fst cp)).
      + cbn [elaborate]. rewrite Ec. reflexivity.
      + cbn [fold_elab]. now rewrite Ha.
      + now constructor.
      + intros _ Hb. destruct (Hg Hb). split; apply ground_app; split; cbn; auto.
    - destruct (map_folds2 (fun p => constants_ok (fst (snd p))) (fun p => constants_ok (snd (snd p)))
                  (fun p => elaborate O R (fst (snd p))) (fun p => elaborate O R (snd (snd p)))
                  (fun p => fold_elab O R H run (fst (snd p))) (fun p => fold_elab O R H run (snd (snd p))) l H0)
        as [[Ha Hb]|Ha].
      { left. cbn [fold_elab]. rewrite Ha. split; [reflexivity|]. eapply bad_impl; [|exact Hb].
        apply constants_map. }
      destruct (map_out (fun p => obind (elaborate O R (fst (snd p))) _) l) as [cs|er|] eqn:Ec.
      2: { right. cbn [elaborate fold_elab]. now rewrite Ec, Ha. }
      2: { right. cbn [elaborate fold_elab]. now rewrite Ec, Ha. }
      destruct Ha as (cp & Ha & [Hf Hg]).
      eapply (post_ok (EMap l) (forallb fst (List.concat cp))).
      + cbn [elaborate]. rewrite Ec. reflexivity.
      + cbn [fold_elab]. now rewrite Ha.
      + now constructor.
      + intros _ Hb. destruct (Hg Hb). split; apply ground_app; split; cbn; auto.
    - unfold fold_ok. cbn [elaborate fold_elab].
      destruct (check_comprehension x x2 y) as [u|er|]; cbn [obind]; auto.
      unfold fold_ok in *.
      destruct (IsBind x x2 e1 e3).
      + destruct IHe2 as [[-> I2]|I2];
          [left; split; [reflexivity|eapply bad_impl; [|exact I2]; cbn [constants_ok]; tauto]|]. destruct (elaborate O R e2) as [k2|er|]; cbn [obind];
          [|right; now rewrite I2|right; now rewrite I2].
        destruct I2 as (b2 & k2' & -> & F2 & _). cbn [obind].
        destruct IHe5 as [[-> I5]|I5];
          [left; split; [reflexivity|eapply bad_impl; [|exact I5]; cbn [constants_ok]; tauto]|]. destruct (elaborate O R e5) as [k5|er|]; cbn [obind];
          [|right; now rewrite I5|right; now rewrite I5].
        destruct I5 as (b5 & k5' & -> & F5 & _). cbn [obind].
        right. eexists _, _. split; [reflexivity|]. split; [now constructor|discriminate].
      + destruct IHe1 as [[-> I1]|I1];
          [left; split; [reflexivity|eapply bad_impl; [|exact I1]; cbn [constants_ok]; tauto]|]. destruct (elaborate O R e1) as [k1|er|]; cbn [obind];
          [|right; now rewrite I1|right; now rewrite I1].
        destruct I1 as (b1 & k1' & -> & F1 & _). cbn [obind].
        destruct IHe2 as [[-> I2]|I2];
          [left; split; [reflexivity|eapply bad_impl; [|exact I2]; cbn [constants_ok]; tauto]|]. destruct (elaborate O R e2) as [k2|er|]; cbn [obind];
          [|right; now rewrite I2|right; now rewrite I2].
        destruct I2 as (b2 & k2' & -> & F2 & _). cbn [obind].
        destruct IHe3 as [[-> I3]|I3];
          [left; split; [reflexivity|eapply bad_impl; [|exact I3]; cbn [constants_ok]; tauto]|]. destruct (elaborate O R e3) as [k3|er|]; cbn [obind];
          [|right; now rewrite I3|right; now rewrite I3].
        destruct I3 as (b3 & k3' & -> & F3 & _). cbn [obind].
        destruct IHe4 as [[-> I4]|I4];
          [left; split; [reflexivity|eapply bad_impl; [|exact I4]; cbn [constants_ok]; tauto]|]. destruct (elaborate O R e4) as [k4|er|]; cbn [obind];
          [|right; now rewrite I4|right; now rewrite I4].
        destruct I4 as (b4 & k4' & -> & F4 & _). cbn [obind].
        destruct IHe5 as [[-> I5]|I5];
          [left; split; [reflexivity|eapply bad_impl; [|exact I5]; cbn [constants_ok]; tauto]|]. destruct (elaborate O R e5) as [k5|er|]; cbn [obind];
          [|right; now rewrite I5|right; now rewrite I5].
        destruct I5 as (b5 & k5' & -> & F5 & _). cbn [obind].
        right. eexists _, _. split; [reflexivity|]. split; [now constructor|discriminate].
  Qed.
End Elab.

(* ---- which expressions are folded ---- *)

Section Flags.
  Variables (O : options) (R : registry) (H : host) (run : core -> res value).
  Definition varies (o : overload) : bool := h_contextual H o || h_lazy H o.
  Notation constant := (constant_expr varies R).
  Notation fold_e := (fold_elab O R H run).

  Lemma own_call fn t args :
    IsConstExpr H R (ECall fn t args) =
    negb (existsb (String.eqb fn) ["_&&_"; "_||_"; "_?_:_"; "cel.@block"]%string)
    && forallb (fun o =>
         negb (String.eqb (ov_name o) fn
               && Bool.eqb (ov_receiver o) (match t with Some _ => true | None => false end)
               && Nat.eqb (List.length (ov_kinds o))
                    (List.length args + if match t with Some _ => true | None => false end then 1 else 0)
               && varies o)) R.
  Proof.
    unfold IsConstExpr. cbn [existsb].
    destruct (String.eqb fn "_&&_"); [reflexivity|]. destruct (String.eqb fn "_||_"); [reflexivity|].
    destruct (String.eqb fn "_?_:_"); [reflexivity|]. destruct (String.eqb fn "cel.@block"); [reflexivity|].
    cbn [orb negb andb]. cbv zeta.
    set (rcv := match t with None => false | Some _ => true end).
    set (n := (List.length args + (if rcv then 1 else 0))%nat).
    unfold FindStaticOverloadsByArity, named.
    induction R as [|o l IH]; [reflexivity|]. cbn [filter forallb]. rewrite <- IH. clear IH.
    destruct (String.eqb (ov_name o) fn); cbn [filter andb]; [|reflexivity].
    destruct (Bool.eqb (ov_receiver o) rcv && Nat.eqb (List.length (ov_kinds o)) n); cbn [existsb]; [|reflexivity].
    unfold varies. destruct (h_lazy H o), (h_contextual H o); cbn [orb andb negb]; auto;
      destruct (existsb (h_lazy H) _); auto.
  Qed.

  Lemma post_flag e below k b k' : post R H run e below k = Val (b, k') -> b = IsConstExpr H R e && below.
  Proof.
    unfold post. destruct (OnPostVisit run (IsConstExpr H R e && below) k); cbn [obind]; intros E; now inversion E.
  Qed.
  Lemma map_flags {A} (f : A -> out (bool * core)) (c : A -> bool) l :
    Forall (fun a => forall b k, f a = Val (b, k) -> b = c a) l ->
    forall ps, map_out f l = Val ps -> forallb fst ps = forallb c l.
  Proof.
    induction 1 as [|a l Ha Hl IH]; intros ps; cbn [map_out]; [now intros [= <-]|].
    fold (map_out f). destruct (f a) as [[b k]| |]; cbn [obind]; try discriminate.
    destruct (map_out f l) as [qs| |]; cbn [obind]; try discriminate. intros [= <-].
    cbn [forallb fst]. now rewrite (Ha b k eq_refl), (IH qs eq_refl).
  Qed.
  Lemma map_flags2 {A} (f g : A -> out (bool * core)) (c d : A -> bool) l :
    Forall (fun a => (forall b k, f a = Val (b, k) -> b = c a) /\ (forall b k, g a = Val (b, k) -> b = d a)) l ->
    forall ps, map_out (fun a => obind (f a) (fun k => obind (g a) (fun v => Val [k; v]))) l = Val ps ->
    forallb fst (List.concat ps) = forallb (fun a => c a && d a) l.
  Proof.
    induction 1 as [|a l [Ha Hb] Hl IH]; intros ps; cbn [map_out]; [now intros [= <-]|].
    fold (map_out (fun a => obind (f a) (fun k => obind (g a) (fun v => Val [k; v])))).
    destruct (f a) as [[b k]| |]; cbn [obind]; try discriminate.
    destruct (g a) as [[b2 k2]| |]; cbn [obind]; try discriminate.
    destruct (map_out _ l) as [qs| |]; cbn [obind]; try discriminate. intros [= <-].
    cbn [List.concat app forallb fst].
    rewrite (Ha b k eq_refl), (Hb b2 k2 eq_refl), (IH qs eq_refl). now rewrite andb_assoc.
  Qed.

  Lemma fold_flag e : forall b k', fold_e e = Val (b, k') -> b = constant e.
  Proof.
    induction e using expr_ind'; intros b0 k'; cbn [fold_elab].
    - now intros [= <- _].
    - destruct (plan_ident x); cbn [obind]; try discriminate. now intros [= <- _].
    - destruct (String.eqb f ""); [discriminate|]. destruct (fold_e e) as [[b k]| |]; cbn [obind]; try discriminate.
      intros Hp. apply post_flag in Hp. cbn [IsConstExpr andb fst] in Hp. rewrite Hp. exact (IHe b k eq_refl).
    - destruct (match t with None => Val [] | Some x => obind (fold_e x) (fun a => Val [a]) end) as [ts| |] eqn:Et;
        cbn [obind]; try discriminate.
      destruct (map_out fold_e args) as [cs| |] eqn:Ec; cbn [obind]; try discriminate.
      destruct (plan_call O R fn _ _); cbn [obind]; try discriminate. intros Hp. apply post_flag in Hp.
      rewrite Hp, own_call, forallb_app. cbn [constant_expr].
      rewrite (map_flags fold_e constant args H1 cs Ec).
      rewrite <- !andb_assoc. f_equal. f_equal. f_equal.
      destruct t as [x|].
      + destruct (fold_e x) as [[b k]| |]; cbn [obind] in Et; try discriminate. injection Et as <-.
        cbn [forallb fst]. rewrite (H0 b k eq_refl). apply andb_true_r.
      + injection Et as <-. reflexivity.
    - destruct (map_out (fun p => fold_e (snd p)) l) as [cs| |] eqn:Ec; cbn [obind]; try discriminate.
      intros Hp. apply post_flag in Hp. rewrite Hp. cbn [IsConstExpr constant_expr]. f_equal.
      eapply (map_flags (fun p => fold_e (snd p)) (fun p => constant (snd p))); [|exact Ec].
      eapply Forall_impl; [|exact H0]. auto.
    - destruct (map_out _ l) as [cs| |] eqn:Ec; cbn [obind]; try discriminate.
      intros Hp. apply post_flag in Hp. rewrite Hp. cbn [IsConstExpr constant_expr]. f_equal.
      eapply (map_flags2 (fun p => fold_e (fst (snd p))) (fun p => fold_e (snd (snd p)))
                (fun p => constant (fst (snd p))) (fun p => constant (snd (snd p)))); [|exact Ec].
      eapply Forall_impl; [|exact H0]. cbn. tauto.
    - destruct (check_comprehension x x2 y); cbn [obind]; try discriminate.
      destruct (IsBind x x2 e1 e3).
      + destruct (fold_e e2); cbn [obind]; try discriminate. destruct (fold_e e5); cbn [obind]; try discriminate.
        now intros [= <- _].
      + do 5 (match goal with |- obind (fold_e ?z) _ = _ -> _ => destruct (fold_e z) end; cbn [obind]; try discriminate).
        now intros [= <- _].
  Qed.

  Lemma const_shape e b k' : constant e = true -> fold_e e = Val (b, k') ->
    (exists v, e = EConst v /\ k' = KConst v) \/ exists k0, OnPostVisit run true k0 = Val k'.
  Proof.
    intros Hc Hf. pose proof (fold_flag e b k' Hf) as Hb. rewrite Hc in Hb. subst b.
    assert (Hpost : forall below k, post R H run e below k = Val (true, k') -> OnPostVisit run true k = Val k').
    { intros below k Hp. pose proof (post_flag _ _ _ _ _ Hp) as Hi. unfold post in Hp.
      rewrite <- Hi in Hp. destruct (OnPostVisit run true k); cbn [obind] in Hp; inversion Hp. reflexivity. }
    destruct e; cbn [fold_elab] in Hf; try discriminate.
    - left. injection Hf as <-. eauto.
    - right. destruct (String.eqb field ""); [discriminate|].
      destruct (fold_e e) as [[b k]| |]; cbn [obind] in Hf; try discriminate. eauto.
    - right. destruct (match target with None => Val [] | Some x => obind (fold_e x) (fun a => Val [a]) end) as [ts| |];
        cbn [obind] in Hf; try discriminate.
      destruct (map_out fold_e args) as [cs| |]; cbn [obind] in Hf; try discriminate.
      destruct (plan_call O R fn _ _); cbn [obind] in Hf; try discriminate. eauto.
    - right. destruct (map_out _ elems) as [cs| |]; cbn [obind] in Hf; try discriminate. eauto.
    - right. destruct (map_out _ ents) as [cs| |]; cbn [obind] in Hf; try discriminate. eauto.
  Qed.
End Flags.

Lemma const_folded C R H e k b k' v s :
  elaborate (cf_opts C) R e = Val k ->
  fold_elab (cf_opts C) R H (run_subplan H (cf_opts C) (cf_reorder C)) e = Val (b, k') ->
  constant_expr (varies H) R e = true ->
  seval C (resolved k) no_lazy est_init = RVal v s -> is_unknown (fst v) = false -> k' = KConst (fst v).
Proof.
  intros He Hf Hc Hv Hu.
  pose proof (fold_flag _ _ _ _ e b k' Hf) as Hb. rewrite Hc in Hb. subst b.
  destruct (fold_spec C R H e) as [[Hf' _]|Hs]; [rewrite Hf' in Hf; discriminate|].
  rewrite He in Hs. destruct Hs as (b & k1 & E & Hk & Hg). rewrite Hf in E. injection E as <- <-.
  destruct (Hg eq_refl) as [_ Hg']. pose proof (folds_run C H k k' Hk) as Hr. rewrite Hv in Hr.
  destruct (const_shape _ _ _ _ e true k' Hc Hf) as [(w & -> & ->)|(k0 & Hp)].
  - cbn in He. injection He as <-. cbn in Hv. now injection Hv as <- _.
  - unfold OnPostVisit in Hp.
    assert (Hsame : k' = k0 -> run_subplan H (cf_opts C) (cf_reorder C) k0 =
              final (seval (plan_config (cf_opts C) (cf_reorder C)) (gres k') no_lazy est_init)).
    { intros <-. unfold run_subplan. rewrite (core_at_ground H k' Hg'). unfold resolved.
      now rewrite (alloc_ground H k' Hg'). }
    unfold resolved in Hr. rewrite (alloc_ground H k' Hg') in Hr. cbn [fst] in Hr.
    destruct (seval_ground C (plan_config (cf_opts C) (cf_reorder C)) eq_refl eq_refl H k' Hg') as (o & l & H0 & H1 & _).
    rewrite H0 in Hsame. rewrite H1 in Hr.
    destruct o as [x|er|]; cbn [logged res_sim] in Hr; try tauto. destruct Hr as [-> _]. cbn [logged final] in Hsame.
    destruct (run_subplan H (cf_opts C) (cf_reorder C) k0) as [w t|er t|w|]; try discriminate.
    + destruct (is_unknown w) eqn:Ew.
      * injection Hp as <-. specialize (Hsame eq_refl). injection Hsame as -> _. congruence.
      * injection Hp as <-. cbn [gres seval logged] in H0.
        specialize (H0 no_lazy est_init). now injection H0 as <- _.
    + injection Hp as <-. discriminate (Hsame eq_refl).
Qed.
