(* The type variables an inference context makes are new. *)
From Coq Require Import String List Bool NArith Lia Arith.
From Coq Require Import DecimalString DecimalN.
From Verif Require Import M_Infer S_Infer L_Infer L_Infer2.
Import ListNotations.
Open Scope list_scope.

Definition var_name (i : N) : string := ("T%" ++ decimal i)%string.

Lemma decimal_inj i j : decimal i = decimal j -> i = j.
Proof.
  unfold decimal. intros H. apply (f_equal NilEmpty.uint_of_string) in H.
  rewrite !NilEmpty.usu in H. inversion H as [H1].
  apply (f_equal N.of_uint) in H1. rewrite !Unsigned.of_to in H1. exact H1.
Qed.

Lemma var_name_inj i j : var_name i = var_name j -> i = j.
Proof. unfold var_name. intros H. inversion H. apply decimal_inj. assumption. Qed.

Definition known (c : context) (n : string) : Prop := bd_find (cx_bindings c) n <> None.

(* Names registered stay registered, and the new ones carry new numbers. *)
Definition grows (c c' : context) : Prop :=
  (cx_next_id c <= cx_next_id c')%N /\
  (forall n, known c n -> known c' n) /\
  (forall n, known c' n -> known c n \/
     exists i, (cx_next_id c < i <= cx_next_id c')%N /\ n = var_name i).

Lemma grows_refl c : grows c c.
Proof. split; [lia|]. auto. Qed.

Lemma grows_trans a c d : grows a c -> grows c d -> grows a d.
Proof.
  intros (H1 & H2 & H3) (H4 & H5 & H6). split; [lia|]. split; [auto|].
  intros n Hn. destruct (H6 n Hn) as [Hc|(i & Hi & E)].
  - destruct (H3 n Hc) as [Ha|(i & Hi & E)]; auto. right. exists i. split; auto. lia.
  - right. exists i. split; auto. lia.
Qed.

Lemma known_update c p n :
  known (set_bindings c (update_bindings (cx_bindings c) p)) n <-> known c n.
Proof.
  unfold known. cbn [cx_bindings set_bindings]. rewrite bd_find_update.
  destruct (bd_find (cx_bindings c) n); [|tauto]. destruct (sm_find p n); split; congruence.
Qed.

Lemma grows_update c p : grows c (set_bindings c (update_bindings (cx_bindings c) p)).
Proof.
  split; [cbn; lia|]. split; intros n Hn.
  - apply known_update. exact Hn.
  - left. apply known_update in Hn. exact Hn.
Qed.

Lemma grows_new c n c' : new_type_var c = (n, c') ->
  grows c c' /\ n = var_name (cx_next_id c') /\ cx_next_id c' = N.succ (cx_next_id c) /\ known c' n.
Proof.
  unfold new_type_var. fold (var_name (N.succ (cx_next_id c))). intros [= <- <-].
  cbn [cx_next_id]. unfold grows, known. cbn [cx_next_id cx_bindings].
  destruct (bd_find (cx_bindings c) (var_name (N.succ (cx_next_id c)))) as [o|] eqn:E.
  - repeat split; auto; try lia. congruence.
  - cbn [bd_find]. repeat split; auto; try lia.
    + intros m Hm. destruct (String.eqb m _); congruence.
    + intros m Hm. destruct (String.eqb m _) eqn:Em; auto.
      apply String.eqb_eq in Em. right. eexists. split; [|exact Em]. lia.
    + rewrite String.eqb_refl. congruence.
Qed.

Lemma instantiate_list_grows_from (P : ty -> Prop) l :
  (forall x, In x l -> forall c m t' c' m', instantiate c m x = (t', c', m') -> grows c c') ->
  forall c m l' c' m', instantiate_list c m l = (l', c', m') -> grows c c'.
Proof.
  induction l as [|x l IH]; intros HP c m l' c' m' E; cbn in E.
  - inversion E; subst. apply grows_refl.
  - destruct (instantiate c m x) as [[x' c2] m2] eqn:Ex.
    destruct (instantiate_list c2 m2 l) as [[r' c3] m3] eqn:Er. inversion E; subst.
    eapply grows_trans; [eapply HP; [left; reflexivity | exact Ex]|].
    eapply IH; [|exact Er]. intros y Hy. apply HP. right. exact Hy.
Qed.

Lemma instantiate_grows t : forall c m t' c' m',
  instantiate c m t = (t', c', m') -> grows c c'.
Proof.
  induction t as [t IH] using ty_params_ind. intros c m t' c' m' H.
  destruct t; try (inversion H; subst; apply grows_refl).
  - cbn [instantiate] in H. destruct (is_type_var name); [inversion H; subst; apply grows_refl|].
    destruct (im_find m name); [inversion H; subst; apply grows_refl|].
    destruct (new_type_var c) as [v c1] eqn:E. inversion H; subst.
    apply (grows_new _ _ _ E).
  - destruct ps as [|x [|y ps]]; try (inversion H; subst; apply grows_refl).
    cbn [instantiate] in H. destruct (instantiate c m x) as [[x' c1] m1] eqn:E. inversion H; subst.
    eapply IH; [left; reflexivity | exact E].
  - cbn [instantiate] in H. destruct (instantiate c m t) as [[x' c1] m1] eqn:E. inversion H; subst.
    eapply IH; [left; reflexivity | exact E].
  - cbn [instantiate] in H. destruct (instantiate c m t1) as [[x' c1] m1] eqn:E.
    destruct (instantiate c1 m1 t2) as [[y' c2] m2] eqn:E2. inversion H; subst.
    eapply grows_trans; eapply IH; [left; reflexivity | exact E | right; left; reflexivity | exact E2].
  - rewrite instantiate_opaque in H.
    destruct (instantiate_list c m ps) as [[ps' c1] m1] eqn:E. inversion H; subst.
    eapply (instantiate_list_grows_from (fun _ => True)); [|exact E]. exact IH.
Qed.

Lemma instantiate_list_grows l c m l' c' m' :
  instantiate_list c m l = (l', c', m') -> grows c c'.
Proof. apply (instantiate_list_grows_from (fun _ => True)). intros x _. apply instantiate_grows. Qed.

Lemma instantiate_overload_grows c o res ps c' :
  instantiate_overload c o = (res, ps, c') -> grows c c'.
Proof.
  unfold instantiate_overload.
  destruct (instantiate c [] (od_result o)) as [[r c1] m1] eqn:E1.
  destruct (instantiate_list c1 m1 (od_args o)) as [[a c2] m2] eqn:E2.
  intros [= <- <- <-].
  eapply grows_trans; [eapply instantiate_grows, E1 | eapply instantiate_list_grows, E2].
Qed.

Lemma is_assignable_grows k c f t r c' : is_assignable k c f t = Some (r, c') -> grows c c'.
Proof.
  unfold is_assignable.
  destruct (assignable_internal k (cx_legacy c) (cx_bindings c) [] f t) as [[[] p]|]; [| |discriminate].
  - intros [= <- <-]. apply grows_update.
  - intros [= <- <-]. apply grows_refl.
Qed.

Lemma run_session_grows k l : forall c p c' p',
  run_session k c p l = Some (c', p') -> grows c c'.
Proof.
  induction l as [|a l IH]; cbn; intros c p c' p' E.
  - inversion E; subst. apply grows_refl.
  - destruct (run_action k c p a) as [[c1 p1]|] eqn:Ea; [|discriminate].
    eapply grows_trans; [|eapply IH; exact E]. clear E IH. destruct a; cbn in Ea.
    + destruct (ctx_is_assignable k c p from to) as [[r q]|]; [|discriminate].
      inversion Ea; subst. apply grows_refl.
    + inversion Ea; subst. apply grows_update.
    + inversion Ea; subst. apply grows_refl.
    + destruct (instantiate c [] t) as [[t' c2] m2] eqn:Ei. inversion Ea; subst.
      eapply instantiate_grows, Ei.
Qed.

Lemma resolve_loop_grows k lo args rcv ovls : forall c res mt r m c',
  resolve_loop k c lo args rcv res mt ovls = Some (r, m, c') -> grows c c'.
Proof.
  induction ovls as [|o ovls IH]; intros c res mt r m c' E; cbn [resolve_loop] in E.
  - inversion E; subst. apply grows_refl.
  - destruct (negb (Bool.eqb (od_member o) rcv) ||
              negb lo && negb (Nat.eqb (length args) (length (od_args o))))%bool; [eapply IH; eauto|].
    destruct (instantiate_overload c o) as [[rs ps] c1] eqn:Ei.
    apply instantiate_overload_grows in Ei. eapply grows_trans; [exact Ei|].
    destruct (check_args k c1 lo [] args ps) as [[[] p]|] eqn:Ec; [| |discriminate].
    + eapply grows_trans; [apply grows_update | eapply IH; exact E].
    + eapply IH; exact E.
Qed.

Lemma map_values_grows k l : forall c o o' c', map_values k c o l = Some (o', c') -> grows c c'.
Proof.
  induction l as [|v l IH]; intros c o o' c' E; cbn in E.
  - inversion E; subst. apply grows_refl.
  - destruct (is_assignable k c v o) as [[[] c1]|] eqn:Ec; [| |discriminate];
      (eapply grows_trans; [eapply is_assignable_grows, Ec | eapply IH; exact E]).
Qed.

Lemma run_op_grows k c o c' : run_op k c o = Some c' -> grows c c'.
Proof.
  destruct o; cbn [run_op].
  - destruct (instantiate c [] t) as [[t' c1] m1] eqn:Ei. intros [= <-]. eapply instantiate_grows, Ei.
  - destruct (is_assignable k c from to) as [[r c1]|] eqn:E; [|discriminate].
    intros [= <-]. eapply is_assignable_grows; eauto.
  - destruct (run_session k c [] acts) as [[c1 p1]|] eqn:E; [|discriminate].
    intros [= <-]. eapply run_session_grows, E.
  - unfold resolve_overload.
    destruct (resolve_loop k c _ args receiver None [] ovls) as [[[r1 m1] c1]|] eqn:E; [|discriminate].
    apply resolve_loop_grows in E.
    destruct r1 as [t|]; [|intros [= <-]; exact E].
    destruct m1; [intros [= <-]; exact E|].
    destruct (fully_substitute k (cx_bindings c1) false t); [|discriminate].
    intros [= <-]. exact E.
  - unfold list_literal_type.
    destruct (instantiate c [] (TParam "E")) as [[e c1] m1] eqn:Ei. apply instantiate_grows in Ei.
    destruct (list_elements k c1 [] e elems) as [[o p]|] eqn:El; [|discriminate].
    destruct (is_dyn o).
    + destruct (fully_substitute k (cx_bindings c1) false (TList o)); [|discriminate].
      intros [= <-]. exact Ei.
    + destruct (fully_substitute k _ false (TList o)); [|discriminate].
      intros [= <-]. eapply grows_trans; [exact Ei | apply grows_update].
  - unfold map_literal_type.
    destruct (instantiate c [] (TParam "K")) as [[kt c1] m1] eqn:Ei.
    destruct (instantiate c1 [] (TParam "V")) as [[vt c2] m2] eqn:Ei2.
    apply instantiate_grows in Ei, Ei2.
    destruct (list_elements k c2 [] kt keys) as [[o p]|] eqn:El; [|discriminate].
    set (c3 := if is_dyn o then c2 else _).
    assert (H3 : grows c2 c3) by (unfold c3; destruct (is_dyn o); [apply grows_refl | apply grows_update]).
    destruct (map_values k c3 vt vals) as [[o' c4]|] eqn:Ev; [|discriminate].
    apply map_values_grows in Ev.
    destruct (fully_substitute k (cx_bindings c4) false (TMap o o')); [|discriminate].
    intros [= <-]. exact (grows_trans _ _ _ Ei (grows_trans _ _ _ Ei2 (grows_trans _ _ _ H3 Ev))).
  - destruct (finalize_type k c t); [|discriminate]. intros [= <-]. apply grows_refl.
Qed.

Lemma run_grows k l : forall c c', run k c l = Some c' -> grows c c'.
Proof.
  induction l as [|o l IH]; cbn; intros c c' E.
  - inversion E; subst. apply grows_refl.
  - destruct (run_op k c o) as [c1|] eqn:Eo; [|discriminate].
    eapply grows_trans; [eapply run_op_grows; eauto | eapply IH; exact E].
Qed.

(* Every registered name carries a number already used. *)
Definition numbered (c : context) : Prop :=
  forall n, known c n -> exists i, (i <= cx_next_id c)%N /\ n = var_name i.

Lemma numbered_run k lg ops c : run k (new_context lg) ops = Some c -> numbered c.
Proof.
  intros H n Hn. apply run_grows in H. destruct H as (_ & _ & H).
  destruct (H n Hn) as [K|(i & Hi & E)].
  - destruct K. reflexivity.
  - exists i. split; [lia | exact E].
Qed.

Lemma numbered_grows c c' : numbered c -> grows c c' -> numbered c'.
Proof.
  intros H (L & _ & G) n Hn. destruct (G n Hn) as [K|(i & Hi & E)].
  - destruct (H n K) as (i & Hi & E). exists i. split; [lia | exact E].
  - exists i. split; [lia | exact E].
Qed.

Lemma new_var_unknown c n c' : numbered c -> new_type_var c = (n, c') -> ~ known c n.
Proof.
  intros H E K. destruct (grows_new _ _ _ E) as (_ & En & Es & _).
  destruct (H n K) as (i & Hi & Ei). rewrite En in Ei. apply var_name_inj in Ei. lia.
Qed.
