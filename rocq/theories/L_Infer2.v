(* Histories of calls to an inference context: every call finishes and keeps
   the bindings acyclic. *)
From Coq Require Import String List Bool NArith Relations Wellfounded Lia Arith.
From Verif Require Import M_Infer S_Infer L_Infer.
Import ListNotations.
Open Scope list_scope.

Definition same_graph (c c' : context) : Prop :=
  cx_legacy c' = cx_legacy c /\
  forall p n, resolve (cx_bindings c') p n = resolve (cx_bindings c) p n.

Lemma same_refl c : same_graph c c.
Proof. split; auto. Qed.

Lemma same_trans a c d : same_graph a c -> same_graph c d -> same_graph a d.
Proof. intros [H1 H2] [H3 H4]. split; [congruence|]. intros. rewrite H4. apply H2. Qed.

Lemma new_type_var_same c n c' : new_type_var c = (n, c') -> same_graph c c'.
Proof.
  unfold new_type_var. intros [= <- <-]. split; [reflexivity|]. intros p m. cbn [cx_bindings].
  destruct (bd_find (cx_bindings c) _) eqn:E; [reflexivity|].
  unfold resolve. destruct (sm_find p m); [reflexivity|]. cbn [bd_find].
  destruct (String.eqb m _) eqn:Em; [|reflexivity].
  apply String.eqb_eq in Em. subst m. rewrite E. reflexivity.
Qed.

Lemma instantiate_type_many c m x y l : instantiate c m (TType (x :: y :: l)) = (TError, c, m).
Proof. reflexivity. Qed.

Lemma instantiate_opaque c m n l :
  instantiate c m (TOpaque n l) =
  let '(ps', c', m') := instantiate_list c m l in (TOpaque n ps', c', m').
Proof. reflexivity. Qed.

Lemma instantiate_same t : forall c m t' c' m',
  instantiate c m t = (t', c', m') -> same_graph c c'.
Proof.
  induction t as [t IH] using ty_params_ind. intros c m t' c' m' H.
  destruct t; try (inversion H; subst; apply same_refl).
  - cbn [instantiate] in H. destruct (is_type_var name); [inversion H; subst; apply same_refl|].
    destruct (im_find m name); [inversion H; subst; apply same_refl|].
    destruct (new_type_var c) as [v c1] eqn:E. inversion H; subst.
    eapply new_type_var_same; eassumption.
  - destruct ps as [|x [|y ps]]; try (inversion H; subst; apply same_refl).
    cbn [instantiate] in H. destruct (instantiate c m x) as [[x' c1] m1] eqn:E. inversion H; subst.
    eapply IH; [left; reflexivity | exact E].
  - cbn [instantiate] in H. destruct (instantiate c m t) as [[x' c1] m1] eqn:E. inversion H; subst.
    eapply IH; [left; reflexivity | exact E].
  - cbn [instantiate] in H. destruct (instantiate c m t1) as [[x' c1] m1] eqn:E.
    destruct (instantiate c1 m1 t2) as [[y' c2] m2] eqn:E2. inversion H; subst.
    eapply same_trans; eapply IH; [left; reflexivity | exact E | right; left; reflexivity | exact E2].
  - rewrite instantiate_opaque in H.
    destruct (instantiate_list c m ps) as [[ps' c1] m1] eqn:E. inversion H; subst.
    cbn [params] in IH. clear H. revert c m ps' m' E.
    induction ps as [|x ps IHp]; intros c m ps' m' E; cbn in E.
    + inversion E; subst. apply same_refl.
    + destruct (instantiate c m x) as [[x' c2] m2] eqn:Ex.
      destruct (instantiate_list c2 m2 ps) as [[r' c3] m3] eqn:Er. inversion E; subst.
      eapply same_trans; [eapply IH; [left; reflexivity | exact Ex]|].
      eapply IHp; [|exact Er]. intros u Hu. apply IH. right. exact Hu.
Qed.

Lemma instantiate_list_same l : forall c m l' c' m',
  instantiate_list c m l = (l', c', m') -> same_graph c c'.
Proof.
  induction l as [|x l IH]; intros c m l' c' m' E; cbn in E.
  - inversion E; subst. apply same_refl.
  - destruct (instantiate c m x) as [[x' c2] m2] eqn:Ex.
    destruct (instantiate_list c2 m2 l) as [[r' c3] m3] eqn:Er. inversion E; subst.
    eapply same_trans; [eapply instantiate_same, Ex | eapply IH, Er].
Qed.

Lemma instantiate_overload_same c o res ps c' :
  instantiate_overload c o = (res, ps, c') -> same_graph c c'.
Proof.
  unfold instantiate_overload.
  destruct (instantiate c [] (od_result o)) as [[r c1] m1] eqn:E1.
  destruct (instantiate_list c1 m1 (od_args o)) as [[a c2] m2] eqn:E2.
  intros [= <- <- <-].
  eapply same_trans; [eapply instantiate_same, E1 | eapply instantiate_list_same, E2].
Qed.

(* The invariant. *)
Definition inv (c : context) : Prop := wf (resolve (cx_bindings c) []).
Definition inv2 (c : context) (p : smap) : Prop := inv c /\ wf (resolve (cx_bindings c) p).

Lemma inv_inv2 c : inv c -> inv2 c [].
Proof. intros H. split; exact H. Qed.

Lemma inv_same c c' : inv c -> same_graph c c' -> inv c'.
Proof. intros H [_ S]. apply (wf_ext _ _ H). intros. apply S. Qed.

Lemma inv2_same c c' p : inv2 c p -> same_graph c c' -> inv2 c' p.
Proof.
  intros [H1 H2] Sg. split; [eapply inv_same; eauto|].
  destruct Sg as [_ S]. apply (wf_ext _ _ H2). intros. apply S.
Qed.

Lemma inv_new lg : inv (new_context lg).
Proof. apply (wf_ext _ _ wf_empty). reflexivity. Qed.

Lemma inv_update c p :
  wf (resolve (cx_bindings c) p) -> inv (set_bindings c (update_bindings (cx_bindings c) p)).
Proof.
  intros W. apply (wf_sub _ _ W). intros n t. unfold resolve. cbn [sm_find cx_bindings set_bindings].
  rewrite bd_find_update. destruct (bd_find (cx_bindings c) n) as [o|]; [|discriminate].
  destruct (sm_find p n); auto.
Qed.

Lemma ctx_inv2 k c p f t r p' :
  inv2 c p -> ctx_is_assignable k c p f t = Some (r, p') -> inv2 c p'.
Proof. intros [H1 H2] H. split; auto. exact (proj1 (assignable_good _ _ _ _ _ _ _ _ H2 H)). Qed.

Lemma is_assignable_inv k c f t r c' :
  inv c -> is_assignable k c f t = Some (r, c') -> inv c'.
Proof.
  intros H. unfold is_assignable.
  destruct (assignable_internal k (cx_legacy c) (cx_bindings c) [] f t) as [[[] p]|] eqn:E; [| |discriminate].
  - intros [= <- <-]. apply inv_update. exact (proj1 (assignable_good _ _ _ _ _ _ _ _ H E)).
  - intros [= <- <-]. exact H.
Qed.

Lemma run_action_inv k c p a c' p' :
  inv2 c p -> run_action k c p a = Some (c', p') -> inv2 c' p'.
Proof.
  intros H E. destruct a; cbn in E.
  - destruct (ctx_is_assignable k c p from to) as [[r q]|] eqn:Ec; [|discriminate].
    inversion E; subst. eapply ctx_inv2; eauto.
  - inversion E; subst. apply inv_inv2, inv_update, H.
  - inversion E; subst. apply inv_inv2, H.
  - destruct (instantiate c [] t) as [[t' c1] m1] eqn:Ei. inversion E; subst.
    eapply inv2_same; [exact H|]. eapply instantiate_same, Ei.
Qed.

Lemma run_session_inv k l : forall c p c' p',
  inv2 c p -> run_session k c p l = Some (c', p') -> inv2 c' p'.
Proof.
  induction l as [|a l IH]; cbn; intros c p c' p' H E.
  - inversion E; subst. exact H.
  - destruct (run_action k c p a) as [[c1 p1]|] eqn:Ea; [|discriminate].
    eapply IH; [eapply run_action_inv; eauto | exact E].
Qed.

Lemma check_args_inv k c lo args : forall p ps r p',
  inv2 c p -> check_args k c lo p args ps = Some (r, p') -> inv2 c p'.
Proof.
  induction args as [|a args IH]; intros p ps r p' H E; cbn in E.
  - inversion E; subst. exact H.
  - destruct ps as [|q ps]; [inversion E; subst; exact H|].
    destruct (ctx_is_assignable k c p a q) as [[[] p1]|] eqn:Ec; [| |discriminate].
    + eapply IH; [eapply ctx_inv2; eauto | exact E].
    + inversion E; subst. eapply ctx_inv2; eauto.
Qed.

Lemma resolve_loop_inv k lo args rcv ovls : forall c res mt r m c',
  inv c -> resolve_loop k c lo args rcv res mt ovls = Some (r, m, c') -> inv c'.
Proof.
  induction ovls as [|o ovls IH]; intros c res mt r m c' H E; cbn [resolve_loop] in E.
  - inversion E; subst. exact H.
  - destruct (negb (Bool.eqb (od_member o) rcv) ||
              negb lo && negb (Nat.eqb (length args) (length (od_args o))))%bool; [eapply IH; eauto|].
    destruct (instantiate_overload c o) as [[rs ps] c1] eqn:Ei.
    assert (H1 : inv c1) by (eapply inv_same; [exact H | eapply instantiate_overload_same, Ei]).
    destruct (check_args k c1 lo [] args ps) as [[[] p]|] eqn:Ec; [| |discriminate].
    + eapply IH; [|exact E]. cbn [fst ctx_update]. apply inv_update.
      apply (check_args_inv _ _ _ _ _ _ _ _ (inv_inv2 _ H1) Ec).
    + eapply IH; [exact H1 | exact E].
Qed.

Lemma resolve_overload_inv k c name ovls args rcv r c' :
  inv c -> resolve_overload k c name ovls args rcv = Some (r, c') -> inv c'.
Proof.
  intros H. unfold resolve_overload.
  destruct (resolve_loop k c _ args rcv None [] ovls) as [[[r1 m1] c1]|] eqn:E; [|discriminate].
  apply resolve_loop_inv in E; auto.
  destruct r1 as [t|]; [|intros [= <- <-]; exact E].
  destruct m1; [intros [= <- <-]; exact E|].
  destruct (fully_substitute k (cx_bindings c1) false t); [|discriminate].
  intros [= <- <-]. exact E.
Qed.

Lemma list_elements_inv k c elems : forall p o o' p',
  inv2 c p -> list_elements k c p o elems = Some (o', p') -> inv2 c p'.
Proof.
  induction elems as [|e l IH]; intros p o o' p' H E; cbn in E.
  - inversion E; subst. exact H.
  - destruct (ctx_is_assignable k c p e o) as [[[] p1]|] eqn:Ec; [| |discriminate];
      (eapply IH; [eapply ctx_inv2; eauto | exact E]).
Qed.

Lemma list_literal_inv k c l t c' :
  inv c -> list_literal_type k c l = Some (t, c') -> inv c'.
Proof.
  intros H. unfold list_literal_type.
  destruct (instantiate c [] (TParam "E")) as [[e c1] m1] eqn:Ei.
  assert (H1 : inv c1) by (eapply inv_same; [exact H | eapply instantiate_same, Ei]).
  destruct (list_elements k c1 [] e l) as [[o p]|] eqn:El; [|discriminate].
  destruct (list_elements_inv _ _ _ _ _ _ _ (inv_inv2 _ H1) El) as [_ W].
  destruct (is_dyn o).
  - destruct (fully_substitute k (cx_bindings c1) false (TList o)); [|discriminate].
    intros [= <- <-]. exact H1.
  - destruct (fully_substitute k _ false (TList o)); [|discriminate].
    intros [= <- <-]. apply inv_update, W.
Qed.

Lemma map_values_inv k l : forall c o o' c',
  inv c -> map_values k c o l = Some (o', c') -> inv c'.
Proof.
  induction l as [|v l IH]; intros c o o' c' H E; cbn in E.
  - inversion E; subst. exact H.
  - destruct (is_assignable k c v o) as [[[] c1]|] eqn:Ec; [| |discriminate];
      (eapply IH; [eapply is_assignable_inv; eauto | exact E]).
Qed.

Lemma map_literal_inv k c ks vs t c' :
  inv c -> map_literal_type k c ks vs = Some (t, c') -> inv c'.
Proof.
  intros H. unfold map_literal_type.
  destruct (instantiate c [] (TParam "K")) as [[kt c1] m1] eqn:Ei.
  destruct (instantiate c1 [] (TParam "V")) as [[vt c2] m2] eqn:Ei2.
  assert (H2 : inv c2).
  { eapply inv_same; [|eapply instantiate_same, Ei2]. eapply inv_same; [exact H | eapply instantiate_same, Ei]. }
  destruct (list_elements k c2 [] kt ks) as [[o p]|] eqn:El; [|discriminate].
  destruct (list_elements_inv _ _ _ _ _ _ _ (inv_inv2 _ H2) El) as [_ W].
  set (c3 := if is_dyn o then c2 else _).
  assert (H3 : inv c3) by (unfold c3; destruct (is_dyn o); [exact H2 | apply inv_update, W]).
  destruct (map_values k c3 vt vs) as [[o' c4]|] eqn:Ev; [|discriminate].
  apply map_values_inv in Ev; auto.
  destruct (fully_substitute k (cx_bindings c4) false (TMap o o')); [|discriminate].
  intros [= <- <-]. exact Ev.
Qed.

Lemma run_op_inv k c o c' : inv c -> run_op k c o = Some c' -> inv c'.
Proof.
  intros H. destruct o; cbn [run_op].
  - destruct (instantiate c [] t) as [[t' c1] m1] eqn:Ei. intros [= <-].
    eapply inv_same; [exact H | eapply instantiate_same, Ei].
  - destruct (is_assignable k c from to) as [[r c1]|] eqn:E; [|discriminate].
    intros [= <-]. eapply is_assignable_inv; eauto.
  - destruct (run_session k c [] acts) as [[c1 p1]|] eqn:E; [|discriminate].
    intros [= <-]. apply (run_session_inv _ _ _ _ _ _ (inv_inv2 _ H) E).
  - destruct (resolve_overload k c name ovls args receiver) as [[r c1]|] eqn:E; [|discriminate].
    intros [= <-]. eapply resolve_overload_inv; eauto.
  - destruct (list_literal_type k c elems) as [[r c1]|] eqn:E; [|discriminate].
    intros [= <-]. eapply list_literal_inv; eauto.
  - destruct (map_literal_type k c keys vals) as [[r c1]|] eqn:E; [|discriminate].
    intros [= <-]. eapply map_literal_inv; eauto.
  - destruct (finalize_type k c t); [|discriminate]. intros [= <-]. exact H.
Qed.

Lemma run_inv k l : forall c c', inv c -> run k c l = Some c' -> inv c'.
Proof.
  induction l as [|o l IH]; cbn; intros c c' H E.
  - inversion E; subst. exact H.
  - destruct (run_op k c o) as [c1|] eqn:Eo; [|discriminate].
    eapply IH; [eapply run_op_inv; eauto | exact E].
Qed.

Lemma wf_acyclic b : wf (resolve b []) -> acyclic b.
Proof.
  intros W.
  assert (M : forall n t, mentions n t -> reach (resolve b []) t (TParam n)).
  { induction 1; [constructor|]. econstructor; [left; eassumption | assumption]. }
  assert (R : forall n m, clos_trans string (refers b) n m ->
     exists u, tchild (resolve b []) u (TParam n) /\ reach (resolve b []) u (TParam m)).
  { induction 1 as [n m (t & Hb & Hm)|n m o _ [u [H1 H2]] _ [v [H3 H4]]].
    - exists t. split; [|apply M, Hm]. right. exists n. split; auto.
      unfold resolve. cbn. rewrite Hb. reflexivity.
    - exists u. split; auto. eapply reach_trans; [exact H2|].
      eapply reach_trans; [apply reach_child; exact H3 | exact H4]. }
  intros n H. destruct (R _ _ H) as (u & H1 & H2). eapply wf_irrefl; eauto.
Qed.

(* --- fuel -------------------------------------------------------------- *)

Lemma ctx_mono k k' c p f t r :
  (k <= k')%nat -> ctx_is_assignable k c p f t = Some r -> ctx_is_assignable k' c p f t = Some r.
Proof. intros Hk H. apply (assignable_mono _ _ _ _ _ _ _ H _ Hk). Qed.

Lemma is_assignable_mono k k' c f t r :
  (k <= k')%nat -> is_assignable k c f t = Some r -> is_assignable k' c f t = Some r.
Proof.
  intros Hk. unfold is_assignable.
  destruct (assignable_internal k (cx_legacy c) (cx_bindings c) [] f t) as [q|] eqn:E; [|discriminate].
  rewrite (assignable_mono _ _ _ _ _ _ _ E _ Hk). auto.
Qed.

Lemma run_session_mono k k' l : (k <= k')%nat -> forall c p r,
  run_session k c p l = Some r -> run_session k' c p l = Some r.
Proof.
  intros Hk. induction l as [|a l IH]; cbn; intros c p r E; auto.
  destruct (run_action k c p a) as [[c1 p1]|] eqn:Ea; [|discriminate].
  assert (Ea' : run_action k' c p a = Some (c1, p1)).
  { destruct a; cbn in *; auto.
    destruct (ctx_is_assignable k c p from to) as [q|] eqn:Eq; [|discriminate].
    rewrite (ctx_mono _ _ _ _ _ _ _ Hk Eq). exact Ea. }
  rewrite Ea'. apply IH, E.
Qed.

Lemma check_args_mono k k' c lo args : (k <= k')%nat -> forall p ps r,
  check_args k c lo p args ps = Some r -> check_args k' c lo p args ps = Some r.
Proof.
  intros Hk. induction args as [|a args IH]; cbn; intros p ps r E; auto.
  destruct ps as [|q ps]; auto.
  destruct (ctx_is_assignable k c p a q) as [z|] eqn:Eq; [|discriminate].
  rewrite (ctx_mono _ _ _ _ _ _ _ Hk Eq). destruct z as [[] p1]; auto.
Qed.

Lemma resolve_loop_mono k k' lo args rcv ovls : (k <= k')%nat -> forall c res mt r,
  resolve_loop k c lo args rcv res mt ovls = Some r ->
  resolve_loop k' c lo args rcv res mt ovls = Some r.
Proof.
  intros Hk. induction ovls as [|o ovls IH]; cbn [resolve_loop]; intros c res mt r E; auto.
  destruct (negb (Bool.eqb (od_member o) rcv) || _)%bool; auto.
  destruct (instantiate_overload c o) as [[rs ps] c1].
  destruct (check_args k c1 lo [] args ps) as [z|] eqn:Ec; [|discriminate].
  rewrite (check_args_mono _ _ _ _ _ Hk _ _ _ Ec). destruct z as [[] p]; auto.
Qed.

Lemma resolve_overload_mono k k' c name ovls args rcv r : (k <= k')%nat ->
  resolve_overload k c name ovls args rcv = Some r ->
  resolve_overload k' c name ovls args rcv = Some r.
Proof.
  intros Hk. unfold resolve_overload.
  destruct (resolve_loop k c _ args rcv None [] ovls) as [[[r1 m1] c1]|] eqn:E; [|discriminate].
  rewrite (resolve_loop_mono _ _ _ _ _ _ Hk _ _ _ _ E).
  destruct r1 as [t|]; auto. destruct m1; auto.
  destruct (fully_substitute k (cx_bindings c1) false t) eqn:Ef; [|discriminate].
  rewrite (fully_mono _ _ _ _ _ Ef _ Hk). auto.
Qed.

Lemma list_elements_mono k k' c l : (k <= k')%nat -> forall p o r,
  list_elements k c p o l = Some r -> list_elements k' c p o l = Some r.
Proof.
  intros Hk. induction l as [|e l IH]; cbn; intros p o r E; auto.
  destruct (ctx_is_assignable k c p e o) as [z|] eqn:Eq; [|discriminate].
  rewrite (ctx_mono _ _ _ _ _ _ _ Hk Eq). destruct z as [[] p1]; auto.
Qed.

Lemma list_literal_mono k k' c l r : (k <= k')%nat ->
  list_literal_type k c l = Some r -> list_literal_type k' c l = Some r.
Proof.
  intros Hk. unfold list_literal_type.
  destruct (instantiate c [] (TParam "E")) as [[e c1] m1].
  destruct (list_elements k c1 [] e l) as [[o p]|] eqn:El; [|discriminate].
  rewrite (list_elements_mono _ _ _ _ Hk _ _ _ El).
  destruct (fully_substitute k _ false (TList o)) eqn:Ef; [|discriminate].
  rewrite (fully_mono _ _ _ _ _ Ef _ Hk). auto.
Qed.

Lemma map_values_mono k k' l : (k <= k')%nat -> forall c o r,
  map_values k c o l = Some r -> map_values k' c o l = Some r.
Proof.
  intros Hk. induction l as [|e l IH]; cbn; intros c o r E; auto.
  destruct (is_assignable k c e o) as [z|] eqn:Eq; [|discriminate].
  rewrite (is_assignable_mono _ _ _ _ _ _ Hk Eq). destruct z as [[] p1]; auto.
Qed.

Lemma map_literal_mono k k' c ks vs r : (k <= k')%nat ->
  map_literal_type k c ks vs = Some r -> map_literal_type k' c ks vs = Some r.
Proof.
  intros Hk. unfold map_literal_type.
  destruct (instantiate c [] (TParam "K")) as [[kt c1] m1].
  destruct (instantiate c1 [] (TParam "V")) as [[vt c2] m2].
  destruct (list_elements k c2 [] kt ks) as [[o p]|] eqn:El; [|discriminate].
  rewrite (list_elements_mono _ _ _ _ Hk _ _ _ El).
  set (c3 := if is_dyn o then c2 else _).
  destruct (map_values k c3 vt vs) as [[o' c4]|] eqn:Ev; [|discriminate].
  rewrite (map_values_mono _ _ _ Hk _ _ _ Ev).
  destruct (fully_substitute k _ false (TMap o o')) eqn:Ef; [|discriminate].
  rewrite (fully_mono _ _ _ _ _ Ef _ Hk). auto.
Qed.

Lemma run_op_mono k k' c o r : (k <= k')%nat ->
  run_op k c o = Some r -> run_op k' c o = Some r.
Proof.
  intros Hk. destruct o; cbn [run_op]; auto.
  - destruct (is_assignable k c from to) eqn:E; [|discriminate].
    rewrite (is_assignable_mono _ _ _ _ _ _ Hk E). auto.
  - destruct (run_session k c [] acts) eqn:E; [|discriminate].
    rewrite (run_session_mono _ _ _ Hk _ _ _ E). auto.
  - destruct (resolve_overload k c name ovls args receiver) eqn:E; [|discriminate].
    rewrite (resolve_overload_mono _ _ _ _ _ _ _ _ Hk E). auto.
  - destruct (list_literal_type k c elems) eqn:E; [|discriminate].
    rewrite (list_literal_mono _ _ _ _ _ Hk E). auto.
  - destruct (map_literal_type k c keys vals) eqn:E; [|discriminate].
    rewrite (map_literal_mono _ _ _ _ _ _ Hk E). auto.
  - unfold finalize_type. destruct (fully_substitute k (cx_bindings c) true t) eqn:E; [|discriminate].
    rewrite (fully_mono _ _ _ _ _ E _ Hk). auto.
Qed.

Lemma run_mono k k' l : (k <= k')%nat -> forall c r,
  run k c l = Some r -> run k' c l = Some r.
Proof.
  intros Hk. induction l as [|o l IH]; cbn; intros c r E; auto.
  destruct (run_op k c o) as [c1|] eqn:Eo; [|discriminate].
  rewrite (run_op_mono _ _ _ _ _ Hk Eo). auto.
Qed.

(* --- totality ---------------------------------------------------------- *)

Lemma ctx_total c p f t : inv2 c p -> exists k r, ctx_is_assignable k c p f t = Some r.
Proof. intros [_ W]. apply assignable_total, W. Qed.

Lemma is_assignable_total c f t : inv c -> exists k r, is_assignable k c f t = Some r.
Proof.
  intros W. destruct (assignable_total (cx_legacy c) (cx_bindings c) [] f t W) as (k & [[] p] & H);
    exists k; unfold is_assignable; rewrite H; eauto.
Qed.

Lemma run_session_total l : forall c p, inv2 c p -> exists k r, run_session k c p l = Some r.
Proof.
  induction l as [|a l IH]; intros c p H.
  - exists 0%nat. eexists. reflexivity.
  - assert (Ha : exists k r, run_action k c p a = Some r).
    { destruct a; try (exists 0%nat; eexists; reflexivity).
      - destruct (ctx_total c p from to H) as (k & [r q] & E). exists k. cbn. rewrite E. eauto.
      - exists 0%nat. cbn. destruct (instantiate c [] t) as [[t' c1] m1]. eauto. }
    destruct Ha as (k1 & [c1 p1] & Ea).
    destruct (IH c1 p1) as (k2 & r & E); [eapply run_action_inv; eauto|].
    exists (Nat.max k1 k2), r. cbn.
    assert (Ea' : run_session (Nat.max k1 k2) c p [a] = Some (c1, p1)).
    { apply (run_session_mono k1); [lia|]. cbn. rewrite Ea. reflexivity. }
    cbn in Ea'. destruct (run_action (Nat.max k1 k2) c p a) as [[c2 p2]|]; [|discriminate].
    inversion Ea'; subst. apply (run_session_mono k2); [lia | exact E].
Qed.

Lemma check_args_total c lo args : forall p ps, inv2 c p ->
  exists k r, check_args k c lo p args ps = Some r.
Proof.
  induction args as [|a args IH]; intros p ps H.
  - exists 0%nat. eexists. reflexivity.
  - destruct ps as [|q ps]; [exists 0%nat; eexists; reflexivity|].
    destruct (ctx_total c p a q H) as (k1 & [[] p1] & E).
    + destruct (IH p1 (if lo then q :: ps else ps)) as (k2 & r & E2); [eapply ctx_inv2; eauto|].
      exists (Nat.max k1 k2), r. cbn. rewrite (ctx_mono k1 (Nat.max k1 k2) _ _ _ _ _ ltac:(lia) E).
      apply (check_args_mono k2); [lia | exact E2].
    + exists k1. cbn. rewrite E. eauto.
Qed.

Lemma resolve_loop_total lo args rcv ovls : forall c res mt, inv c ->
  exists k r, resolve_loop k c lo args rcv res mt ovls = Some r.
Proof.
  induction ovls as [|o ovls IH]; intros c res mt H.
  - exists 0%nat. eexists. reflexivity.
  - cbn [resolve_loop].
    destruct (negb (Bool.eqb (od_member o) rcv) || _)%bool; [apply IH, H|].
    destruct (instantiate_overload c o) as [[rs ps] c1] eqn:Ei.
    assert (H1 : inv c1) by (eapply inv_same; [exact H | eapply instantiate_overload_same, Ei]).
    destruct (check_args_total c1 lo args [] ps (inv_inv2 _ H1)) as (k1 & [r1 p1] & E1).
    destruct (check_args_inv _ _ _ _ _ _ _ _ (inv_inv2 _ H1) E1) as [_ W].
    destruct r1.
    + destruct (IH (fst (ctx_update c1 p1))
        (Some match res with None => rs | Some t => if ty_eqb t rs then t else TDyn end) (mt ++ [o]))
        as (k2 & r & E2); [apply inv_update, W|].
      exists (Nat.max k1 k2), r. rewrite (check_args_mono k1 (Nat.max k1 k2) _ _ _ ltac:(lia) _ _ _ E1).
      apply (resolve_loop_mono k2); [lia | exact E2].
    + destruct (IH c1 res mt H1) as (k2 & r & E2).
      exists (Nat.max k1 k2), r. rewrite (check_args_mono k1 (Nat.max k1 k2) _ _ _ ltac:(lia) _ _ _ E1).
      apply (resolve_loop_mono k2); [lia | exact E2].
Qed.

Lemma resolve_overload_total c name ovls args rcv : inv c ->
  exists k r, resolve_overload k c name ovls args rcv = Some r.
Proof.
  intros H. unfold resolve_overload.
  set (lo := ((String.eqb name _ || String.eqb name _) && _)%bool).
  destruct (resolve_loop_total lo args rcv ovls c None [] H) as (k1 & [[r m] c1] & E).
  pose proof (resolve_loop_inv _ _ _ _ _ _ _ _ _ _ _ H E) as H1.
  destruct r as [t|].
  - destruct (fully_total (cx_bindings c1) false H1 t) as (k2 & u & Eu).
    exists (Nat.max k1 k2). rewrite (resolve_loop_mono k1 (Nat.max k1 k2) _ _ _ _ ltac:(lia) _ _ _ _ E).
    rewrite (fully_mono _ _ _ _ _ Eu) by lia. destruct m; eauto.
  - exists k1. rewrite E. eauto.
Qed.

Lemma list_elements_total c l : forall p o, inv2 c p ->
  exists k r, list_elements k c p o l = Some r.
Proof.
  induction l as [|e l IH]; intros p o H.
  - exists 0%nat. eexists. reflexivity.
  - destruct (ctx_total c p e o H) as (k1 & [r1 p1] & E).
    destruct (IH p1 (if r1 then o else TDyn)) as (k2 & r & E2); [eapply ctx_inv2; eauto|].
    exists (Nat.max k1 k2), r. cbn. rewrite (ctx_mono k1 (Nat.max k1 k2) _ _ _ _ _ ltac:(lia) E).
    destruct r1; apply (list_elements_mono k2); auto; lia.
Qed.

Lemma list_literal_total c l : inv c -> exists k r, list_literal_type k c l = Some r.
Proof.
  intros H. unfold list_literal_type.
  destruct (instantiate c [] (TParam "E")) as [[e c1] m1] eqn:Ei.
  assert (H1 : inv c1) by (eapply inv_same; [exact H | eapply instantiate_same, Ei]).
  destruct (list_elements_total c1 l [] e (inv_inv2 _ H1)) as (k1 & [o p] & E).
  destruct (list_elements_inv _ _ _ _ _ _ _ (inv_inv2 _ H1) E) as [_ W].
  set (c2 := if is_dyn o then c1 else fst (ctx_update c1 p)).
  assert (H2 : inv c2) by (unfold c2; destruct (is_dyn o); [exact H1 | apply inv_update, W]).
  destruct (fully_total (cx_bindings c2) false H2 (TList o)) as (k2 & u & Eu).
  exists (Nat.max k1 k2). rewrite (list_elements_mono k1 (Nat.max k1 k2) _ _ ltac:(lia) _ _ _ E).
  fold c2. rewrite (fully_mono _ _ _ _ _ Eu) by lia. eauto.
Qed.

Lemma map_values_total l : forall c o, inv c -> exists k r, map_values k c o l = Some r.
Proof.
  induction l as [|e l IH]; intros c o H.
  - exists 0%nat. eexists. reflexivity.
  - destruct (is_assignable_total c e o H) as (k1 & [r1 c1] & E).
    destruct (IH c1 (if r1 then o else TDyn)) as (k2 & r & E2); [eapply is_assignable_inv; eauto|].
    exists (Nat.max k1 k2), r. cbn. rewrite (is_assignable_mono k1 (Nat.max k1 k2) _ _ _ _ ltac:(lia) E).
    destruct r1; apply (map_values_mono k2); auto; lia.
Qed.

Lemma map_literal_total c ks vs : inv c -> exists k r, map_literal_type k c ks vs = Some r.
Proof.
  intros H. unfold map_literal_type.
  destruct (instantiate c [] (TParam "K")) as [[kt c1] m1] eqn:Ei.
  destruct (instantiate c1 [] (TParam "V")) as [[vt c2] m2] eqn:Ei2.
  assert (H2 : inv c2).
  { eapply inv_same; [|eapply instantiate_same, Ei2]. eapply inv_same; [exact H | eapply instantiate_same, Ei]. }
  destruct (list_elements_total c2 ks [] kt (inv_inv2 _ H2)) as (k1 & [o p] & E).
  destruct (list_elements_inv _ _ _ _ _ _ _ (inv_inv2 _ H2) E) as [_ W].
  set (c3 := if is_dyn o then c2 else fst (ctx_update c2 p)).
  assert (H3 : inv c3) by (unfold c3; destruct (is_dyn o); [exact H2 | apply inv_update, W]).
  destruct (map_values_total vs c3 vt H3) as (k2 & [o' c4] & E2).
  pose proof (map_values_inv _ _ _ _ _ _ H3 E2) as H4.
  destruct (fully_total (cx_bindings c4) false H4 (TMap o o')) as (k3 & u & Eu).
  exists (Nat.max k1 (Nat.max k2 k3)).
  rewrite (list_elements_mono k1 (Nat.max k1 (Nat.max k2 k3)) _ _ ltac:(lia) _ _ _ E).
  fold c3. rewrite (map_values_mono k2 (Nat.max k1 (Nat.max k2 k3)) _ ltac:(lia) _ _ _ E2).
  rewrite (fully_mono _ _ _ _ _ Eu) by lia. eauto.
Qed.

Lemma run_op_total c o : inv c -> exists k c', run_op k c o = Some c'.
Proof.
  intros H. destruct o; cbn [run_op].
  - exists 0%nat. destruct (instantiate c [] t) as [[t' c1] m1]. eauto.
  - destruct (is_assignable_total c from to H) as (k & r & E). exists k. rewrite E. cbn. eauto.
  - destruct (run_session_total acts c [] (inv_inv2 _ H)) as (k & r & E). exists k. rewrite E. cbn. eauto.
  - destruct (resolve_overload_total c name ovls args receiver H) as (k & r & E). exists k. rewrite E. cbn. eauto.
  - destruct (list_literal_total c elems H) as (k & r & E). exists k. rewrite E. cbn. eauto.
  - destruct (map_literal_total c keys vals H) as (k & r & E). exists k. rewrite E. cbn. eauto.
  - destruct (fully_total (cx_bindings c) true H t) as (k & r & E). exists k.
    unfold finalize_type. rewrite E. cbn. eauto.
Qed.

Lemma run_total l : forall c, inv c -> exists k c', run k c l = Some c'.
Proof.
  induction l as [|o l IH]; intros c H.
  - exists 0%nat, c. reflexivity.
  - destruct (run_op_total c o H) as (k1 & c1 & E1).
    destruct (IH c1) as (k2 & c2 & E2); [eapply run_op_inv; eauto|].
    exists (Nat.max k1 k2), c2. cbn. rewrite (run_op_mono k1 (Nat.max k1 k2) _ _ _ ltac:(lia) E1).
    apply (run_mono k2); [lia | exact E2].
Qed.
