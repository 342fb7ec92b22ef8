(* Assignability on types without variables and on plain types. *)
From Coq Require Import String List Bool NArith Relations Wellfounded Lia Arith.
From Verif Require Import M_Infer S_Infer L_Infer L_Infer2.
Import ListNotations.
Open Scope list_scope.

(* --- laws that hold for all types -------------------------------------- *)

Lemma assignable_refl k lg b p t u :
  substitute k b p t = Some u -> assignable_internal (S k) lg b p t t = Some (true, p).
Proof. intros H. cbn [assignable_internal]. rewrite H, ty_eqb_refl. reflexivity. Qed.

Lemma concrete_wild lg b p f t k :
  is_param f = false -> is_param t = false ->
  (is_wildcard f || is_wildcard t)%bool = true ->
  forall r, assign_concrete lg (assignable_internal k lg b) p f t = Some r -> fst r = true.
Proof.
  intros Pf Pt Hw r.
  assert (W1 : forall k q u r, is_wildcard u = true ->
            assignable_internal k lg b p (TPrim q) u = Some r -> fst r = true).
  { clear. intros k q u r Hu. destruct k as [|[|k]]; try discriminate.
    - cbn [assignable_internal]. rewrite !substitute_nonparam by (destruct u; try discriminate; reflexivity).
      destruct u; try discriminate; cbn; destruct lg; cbn; intros [= <-]; reflexivity. }
  unfold assign_concrete.
  destruct (wrapper_to_primitive t) as [w|] eqn:Ew.
  { destruct t; try discriminate. inversion Ew; subst.
    destruct (is_null f); [intros [= <-]; reflexivity|].
    apply W1. rewrite orb_false_r in Hw. exact Hw. }
  destruct (wrapper_to_primitive f) as [w|] eqn:Ew2.
  { destruct f; try discriminate. inversion Ew2; subst. apply W1. exact Hw. }
  rewrite Hw.
  repeat (match goal with |- (if ?c then _ else _) = _ -> _ => destruct c; [intros [= <-]; reflexivity|] end).
  intros [= <-]. reflexivity.
Qed.

Lemma wildcard_leaf u : is_wildcard u = true ->
  is_param u = false /\ params u = [] /\ forall k b p v, occurs_within (S k) b p v u = Some false.
Proof. destruct u; try discriminate; cbn; auto. Qed.

Lemma constraints_wild k b p f t r :
  (is_wildcard f || is_wildcard t)%bool = true ->
  assignable_with_constraints k b p f t = Some r -> fst r = true.
Proof.
  intros Hw. unfold assignable_with_constraints. rewrite Hw.
  destruct f, t; try discriminate Hw; try (intros [= <-]; reflexivity);
    match goal with |- context [occurs_within ?k ?b ?p ?n ?t] =>
      destruct (occurs_within k b p n t) as [[]|]; try discriminate; intros [= <-]; reflexivity end.
Qed.

(* dyn, any and error are assignable to and from every type. *)
Lemma wild_assignable k lg b p f t r :
  (is_wildcard f || is_wildcard t)%bool = true ->
  assignable_internal k lg b p f t = Some r -> fst r = true.
Proof.
  intros Hw H. destruct k as [|k]; [discriminate|]. cbn [assignable_internal] in H.
  destruct (substitute k b p t) as [t1|] eqn:Et; [|discriminate].
  destruct (substitute k b p f) as [f1|] eqn:Ef; [|discriminate].
  destruct k as [|k]; [discriminate|].
  assert (Hw1 : (is_wildcard f1 || is_wildcard t1)%bool = true).
  { apply orb_true_iff in Hw. destruct Hw as [Hw|Hw].
    - rewrite substitute_nonparam in Ef by apply (wildcard_leaf _ Hw). inversion Ef; subst.
      rewrite Hw. reflexivity.
    - rewrite substitute_nonparam in Et by apply (wildcard_leaf _ Hw). inversion Et; subst.
      rewrite Hw. apply orb_true_r. }
  destruct (ty_eqb t1 f1). { inversion H; subst; reflexivity. }
  destruct (is_param t1 || is_param f1)%bool eqn:Ep. { exact (constraints_wild _ _ _ _ _ _ Hw1 H). }
  apply orb_false_iff in Ep. destruct Ep as [Pt Pf].
  destruct (try_widen _ _ _ _ _ _ _ _) as [[w|]|]; [inversion H; reflexivity| |discriminate].
  exact (concrete_wild _ _ _ _ _ _ Pf Pt Hw1 _ H).
Qed.

(* --- bound variables stay bound ---------------------------------------- *)

Definition apart (b : bindings) (p : smap) : Prop :=
  forall n t u, sm_find p n = Some t -> bd_find b n <> Some (Some u).

Lemma apart_set b p n t :
  apart b p -> (forall u, bd_find b n <> Some (Some u)) -> apart b (sm_set p n t).
Proof.
  intros H Hn m u v. rewrite sm_find_set. destruct (String.eqb m n) eqn:E.
  - apply String.eqb_eq in E. subst. intros _. apply Hn.
  - apply H.
Qed.

Lemma unresolved b p n : resolve b p n = None -> forall u, bd_find b n <> Some (Some u).
Proof.
  unfold resolve. destruct (sm_find p n); [discriminate|].
  destruct (bd_find b n) as [[|]|]; congruence.
Qed.

Lemma check_params_apart b chk fs : forall ts p r p',
  (forall q x y r q', apart b q -> chk q x y = Some (r, q') -> apart b q') ->
  apart b p -> check_params chk p fs ts = Some (r, p') -> apart b p'.
Proof.
  induction fs as [|x fs IH]; intros [|y ts] p r p' Hc Hp H; cbn in H;
    try (inversion H; subst; exact Hp).
  destruct (chk p x y) as [[[] q]|] eqn:E; [| |discriminate].
  - eapply IH; [exact Hc | eapply Hc; eauto | exact H].
  - inversion H; subst. eapply Hc; eauto.
Qed.

Lemma assignable_apart k lg b p f t r p' :
  apart b p -> assignable_internal k lg b p f t = Some (r, p') -> apart b p'.
Proof.
  revert p f t r p'. induction k as [|k IH]; intros p f t r p' W H; [discriminate|].
  cbn [assignable_internal] in H.
  destruct (substitute k b p t) as [t1|] eqn:Et; [|discriminate].
  destruct (substitute k b p f) as [f1|] eqn:Ef; [|discriminate].
  destruct (substitute_reach _ _ _ _ _ Et) as [Rt Nt].
  destruct (substitute_reach _ _ _ _ _ Ef) as [Rf Nf].
  destruct (ty_eqb t1 f1). { inversion H; subst. exact W. }
  destruct (is_param t1 || is_param f1)%bool eqn:Ep.
  { unfold assignable_with_constraints in H.
    assert (A : forall n u, f1 = TParam n \/ t1 = TParam n -> apart b (sm_set p n u)).
    { intros n u Hn. apply apart_set; auto. apply (unresolved b p).
      destruct Hn; auto. }
    destruct f1, t1;
      try (inversion H; subst; exact W);
      try (match type of H with
      | context [occurs_within ?k ?b ?p ?n ?t] =>
          destruct (occurs_within k b p n t) as [[]|] eqn:E; [| |discriminate];
          inversion H; subst; [exact W | ]
      end; apply A; tauto).
    inversion H; subst. destruct (String.eqb name0 name); [exact W|]. apply A; auto. }
  destruct (try_widen k lg b (assignable_internal k lg b) p t f1 t1) as [[w|]|] eqn:Ew; [| |discriminate].
  - inversion H; subst. unfold try_widen in Ew. destruct t; try discriminate.
    destruct (sm_find p name) as [old|] eqn:En; [|discriminate].
    destruct (compare_generality k lg b p f1 t1) as [[]|]; try discriminate.
    destruct (assignable_internal k lg b p t1 f1) as [[[] cpy]|] eqn:Ec; try discriminate.
    destruct (occurs_within k b cpy name f1) as [[]|] eqn:Eo; try discriminate.
    inversion Ew; subst. apply apart_set.
    + eapply IH; eauto.
    + intros u. eapply W; eauto.
  - unfold assign_concrete in H.
    repeat (match type of H with
            | (if ?c then _ else _) = _ => destruct c; [inversion H; subst; exact W|]
            | match ?c with Some _ => _ | None => _ end = _ => destruct c
            end); try (eapply IH; eauto; fail).
    eapply check_params_apart; [|exact W|exact H]. intros; eapply IH; eauto.
Qed.

Lemma is_assignable_keeps k c f t r c' n u :
  is_assignable k c f t = Some (r, c') ->
  bd_find (cx_bindings c) n = Some (Some u) -> bd_find (cx_bindings c') n = Some (Some u).
Proof.
  unfold is_assignable.
  destruct (assignable_internal k (cx_legacy c) (cx_bindings c) [] f t) as [[[] p]|] eqn:E; [| |discriminate].
  - intros [= <- <-] Hn. cbn [cx_bindings set_bindings]. rewrite bd_find_update, Hn.
    assert (A : apart (cx_bindings c) p) by (eapply assignable_apart; [|exact E]; intros ? ? ? [=]).
    destruct (sm_find p n) as [v|] eqn:Ep; auto. exfalso. exact (A _ _ _ Ep Hn).
  - intros [= <- <-]. auto.
Qed.

(* --- types without variables ------------------------------------------- *)

Lemma ground_nonparam t : ground t -> is_param t = false.
Proof. intros H. destruct t; auto. exfalso. apply (H name). constructor. Qed.

Lemma ground_params t u : ground t -> In u (params t) -> ground u.
Proof. intros H Hu n Hn. apply (H n). econstructor; eauto. Qed.

Lemma eqb_conforms lg f : forall t, ground f -> ty_eqb t f = true -> conforms lg f t.
Proof.
  induction f as [f IH] using ty_params_ind. intros t G E.
  assert (HL : forall l m, (forall u, In u l -> In u (params f)) -> tys_eqb m l = true ->
               Forall2 (conforms lg) l m).
  { induction l as [|x l IHl]; intros [|y m] Hl Em; cbn in Em; try discriminate; constructor.
    - apply andb_true_iff in Em. destruct Em as [E1 E2].
      apply IH; auto; [apply Hl; left; reflexivity|]. apply (ground_params f); auto. apply Hl. left. reflexivity.
    - apply andb_true_iff in Em. destruct Em as [E1 E2]. apply IHl; auto. intros u Hu. apply Hl. right. exact Hu. }
  destruct t, f; try discriminate E; try (apply conf_atom; reflexivity).
  - cbn in E. apply prim_eqb_spec in E. subst. apply conf_atom. reflexivity.
  - cbn in E. apply prim_eqb_spec in E. subst. apply conf_atom. reflexivity.
  - cbn in E. apply String.eqb_eq in E. subst. apply conf_atom. reflexivity.
  - cbn in E. apply String.eqb_eq in E. subst. apply conf_atom. reflexivity.
  - exfalso. apply (G name0). constructor.
  - apply conf_type.
  - cbn in E. apply conf_list. apply IH; auto; [left; reflexivity|].
    apply (ground_params _ _ G). left. reflexivity.
  - cbn in E. apply andb_true_iff in E. destruct E as [E1 E2].
    apply conf_map; apply IH; auto; cbn; auto; apply (ground_params _ _ G); cbn; auto.
  - rewrite ty_eqb_opaque in E. apply andb_true_iff in E. destruct E as [E1 E2].
    apply String.eqb_eq in E1. subst. apply conf_opaque, HL; auto.
  - rewrite ty_eqb_function in E. apply conf_function, HL; auto.
Qed.

Lemma check_params_ground lg b p fs : forall ts,
  (forall x, In x fs -> forall t, ground t ->
     exists k r, assignable_internal k lg b p x t = Some (r, p) /\ (r = true <-> conforms lg x t)) ->
  (forall y, In y ts -> ground y) -> length fs = length ts ->
  exists k r, check_params (assignable_internal k lg b) p fs ts = Some (r, p) /\
              (r = true <-> Forall2 (conforms lg) fs ts).
Proof.
  induction fs as [|x fs IH]; intros [|y ts] H G L; try discriminate.
  - exists 0%nat, true. split; [reflexivity|]. split; constructor.
  - destruct (H x (or_introl eq_refl) y (G y (or_introl eq_refl))) as (k1 & r1 & E1 & C1).
    destruct (IH ts) as (k2 & r2 & E2 & C2).
    { intros u Hu. apply H. right. exact Hu. }
    { intros u Hu. apply G. right. exact Hu. }
    { cbn in L. lia. }
    exists (Nat.max k1 k2), (r1 && r2)%bool. split.
    + cbn. rewrite (assignable_mono _ _ _ _ _ _ _ E1) by lia. destruct r1; [|reflexivity].
      cbn [andb]. eapply check_params_mono; [|exact E2].
      intros q u v z Hz. apply (assignable_mono _ _ _ _ _ _ _ Hz). lia.
    + rewrite andb_true_iff. split.
      * intros [A B]. constructor; tauto.
      * intros HF. inversion HF; subst. tauto.
Qed.

Lemma ground_unfold k lg b p f t :
  is_param f = false -> is_param t = false ->
  assignable_internal (S (S k)) lg b p f t =
  if ty_eqb t f then Some (true, p)
  else assign_concrete lg (assignable_internal (S k) lg b) p f t.
Proof.
  intros Hf Ht. remember (S k) as k0 eqn:Ek. cbn [assignable_internal]. subst k0.
  rewrite !substitute_nonparam by assumption.
  destruct (ty_eqb t f); [reflexivity|]. rewrite Hf, Ht. cbn [orb].
  assert (Hw : try_widen (S k) lg b (assignable_internal (S k) lg b) p t f t = Some None)
    by (destruct t; try reflexivity; discriminate).
  rewrite Hw. reflexivity.
Qed.

Ltac conf_solve :=
  first
  [ exact (conf_from_wild _ _ _ wild_dyn) | exact (conf_from_wild _ _ _ wild_any)
  | exact (conf_from_wild _ _ _ wild_error) | exact (conf_to_wild _ _ _ wild_dyn)
  | exact (conf_to_wild _ _ _ wild_any) | exact (conf_to_wild _ _ _ wild_error)
  | apply conf_box | apply conf_unbox | apply conf_null_box
  | (apply conf_null_to; [reflexivity | constructor])
  | (apply conf_null_from; [reflexivity | constructor])
  | apply conf_enum_int | apply conf_int_enum | apply conf_enum_box | apply conf_unbox_enum
  | apply conf_type | (apply conf_atom; reflexivity) ].

Ltac conf_refute :=
  let H := fresh in
  intros H; inversion H; subst; try discriminate; try congruence;
  repeat match goal with
  | W : wildcard _ |- _ => inversion W; subst; clear W; try discriminate; try congruence
  | W : nullable _ |- _ => inversion W; subst; clear W; try discriminate; try congruence
  end; try congruence.

Lemma assignable_ground lg b p f : forall t, ground f -> ground t ->
  exists k r, assignable_internal k lg b p f t = Some (r, p) /\ (r = true <-> conforms lg f t).
Proof.
  induction f as [f IH] using ty_params_ind. intros t Gf Gt.
  pose proof (ground_nonparam _ Gf) as Pf. pose proof (ground_nonparam _ Gt) as Pt.
  destruct (ty_eqb t f) eqn:Eq.
  { exists 2%nat, true. rewrite ground_unfold, Eq by assumption. split; [reflexivity|].
    split; [intros _; apply eqb_conforms; auto | reflexivity]. }
  assert (HP : length (params f) = length (params t) ->
     exists k r, check_params (assignable_internal k lg b) p (params f) (params t) = Some (r, p) /\
                 (r = true <-> Forall2 (conforms lg) (params f) (params t))).
  { intros L. apply check_params_ground; auto.
    - intros x Hx u Gu. apply IH; auto. apply (ground_params f); auto.
    - intros y Hy. apply (ground_params t); auto. }
  assert (Step : forall k r, assign_concrete lg (assignable_internal (S k) lg b) p f t = Some (r, p) ->
      (r = true <-> conforms lg f t) ->
      exists k r, assignable_internal k lg b p f t = Some (r, p) /\ (r = true <-> conforms lg f t)).
  { intros k r E C. exists (S (S k)), r. rewrite ground_unfold, Eq by assumption. auto. }
  clear IH Gf Gt.
  destruct f, t; try discriminate Pf; try discriminate Pt;
    try discriminate Eq;
    try (destruct lg;
         first [ apply (Step 3%nat true); [reflexivity | split; [intros _; conf_solve | reflexivity]]
               | apply (Step 3%nat false); [reflexivity | split; [discriminate | conf_refute]] ]; fail);
    try (repeat (match goal with q : prim |- _ => destruct q end); try discriminate Eq;
         destruct lg;
         first [ apply (Step 3%nat true); [reflexivity | split; [intros _; conf_solve | reflexivity]]
               | apply (Step 3%nat false); [reflexivity | split; [discriminate | conf_refute]] ]; fail).
  - (* struct *)
    apply (Step 0%nat false).
    + unfold assign_concrete. cbn [ty_eqb] in Eq.
      cbn [wrapper_to_primitive is_null is_legacy_nullable kind_of tkind_eqb is_wildcard type_name orb andb negb].
      rewrite !andb_false_r. cbn [andb]. rewrite Eq. reflexivity.
    + split; [discriminate|]. cbn [ty_eqb] in Eq. conf_refute. rewrite String.eqb_refl in Eq. discriminate.
  - (* enum *)
    apply (Step 0%nat false).
    + unfold assign_concrete. cbn [ty_eqb] in Eq.
      cbn [wrapper_to_primitive is_null is_legacy_nullable kind_of tkind_eqb is_wildcard type_name orb andb negb].
      rewrite !andb_false_r. cbn [andb]. rewrite Eq. reflexivity.
    + split; [discriminate|]. cbn [ty_eqb] in Eq. conf_refute. rewrite String.eqb_refl in Eq. discriminate.
  - (* list *)
    destruct (HP eq_refl) as (k & r & E & C). apply (Step k r).
    + unfold assign_concrete. destruct lg; cbn [wrapper_to_primitive is_null is_legacy_nullable kind_of tkind_eqb is_wildcard type_name orb andb negb params length Nat.eqb String.eqb];
      (eapply check_params_mono; [|exact E]; intros q x y z Hz; apply (assignable_mono _ _ _ _ _ _ _ Hz); lia).
    + rewrite C. cbn [params]. split.
      * intros HF. inversion HF; subst. apply conf_list. assumption.
      * intros HC. inversion HC; subst; try (match goal with W : wildcard _ |- _ => inversion W end);
          try discriminate. constructor; [assumption | constructor].
  - (* map *)
    destruct (HP eq_refl) as (k & r & E & C). apply (Step k r).
    + unfold assign_concrete. destruct lg; cbn [wrapper_to_primitive is_null is_legacy_nullable kind_of tkind_eqb is_wildcard type_name orb andb negb params length Nat.eqb String.eqb];
      (eapply check_params_mono; [|exact E]; intros q x y z Hz; apply (assignable_mono _ _ _ _ _ _ _ Hz); lia).
    + rewrite C. cbn [params]. split.
      * intros HF. inversion HF; subst. inversion H4; subst. apply conf_map; assumption.
      * intros HC. inversion HC; subst; try (match goal with W : wildcard _ |- _ => inversion W end);
          try discriminate. constructor; [assumption | constructor; [assumption | constructor]].
  - (* opaque *)
    destruct (String.eqb name0 name) eqn:En.
    2:{ apply (Step 0%nat false).
        - unfold assign_concrete.
          destruct lg; cbn [wrapper_to_primitive is_null is_legacy_nullable kind_of tkind_eqb is_wildcard type_name orb andb negb];
            rewrite En; reflexivity.
        - split; [discriminate|]. conf_refute; try rewrite String.eqb_refl in En; discriminate. }
    apply String.eqb_eq in En. subst name0. cbn [params] in HP.
    destruct (Nat.eqb (length ps0) (length ps)) eqn:El.
    2:{ apply (Step 0%nat false).
        - unfold assign_concrete.
          destruct lg; cbn [wrapper_to_primitive is_null is_legacy_nullable kind_of tkind_eqb is_wildcard type_name orb andb negb params];
            rewrite String.eqb_refl, El; reflexivity.
        - split; [discriminate|]. apply Nat.eqb_neq in El. intros HC.
          inversion HC; subst; try (match goal with W : wildcard _ |- _ => inversion W end);
            try discriminate; try (exfalso; apply El; reflexivity).
          exfalso. apply El. symmetry.
          match goal with F : Forall2 _ _ _ |- _ => clear - F; induction F; cbn; congruence end. }
    pose proof El as El2. apply Nat.eqb_eq in El2.
    destruct (HP (eq_sym El2)) as (k & r & E & C). apply (Step k r).
    + unfold assign_concrete. destruct lg; cbn [wrapper_to_primitive is_null is_legacy_nullable kind_of tkind_eqb is_wildcard type_name orb andb negb params];
      rewrite String.eqb_refl, El; cbn [orb negb];
      (eapply check_params_mono; [|exact E]; intros q x y z Hz; apply (assignable_mono _ _ _ _ _ _ _ Hz); lia).
    + rewrite C. split.
      * intros HF. apply conf_opaque. exact HF.
      * intros HC. inversion HC; subst; try (match goal with W : wildcard _ |- _ => inversion W end);
          try discriminate; auto.
          rewrite ty_eqb_refl in Eq. discriminate.
  - (* function *)
    cbn [params] in HP.
    destruct (Nat.eqb (length ps0) (length ps)) eqn:El.
    2:{ apply (Step 0%nat false).
        - unfold assign_concrete.
          destruct lg; cbn [wrapper_to_primitive is_null is_legacy_nullable kind_of tkind_eqb is_wildcard type_name orb andb negb params String.eqb];
            rewrite El; reflexivity.
        - split; [discriminate|]. apply Nat.eqb_neq in El. intros HC.
          inversion HC; subst; try (match goal with W : wildcard _ |- _ => inversion W end);
            try discriminate; try (exfalso; apply El; reflexivity).
          exfalso. apply El. symmetry.
          match goal with F : Forall2 _ _ _ |- _ => clear - F; induction F; cbn; congruence end. }
    pose proof El as El2. apply Nat.eqb_eq in El2.
    destruct (HP (eq_sym El2)) as (k & r & E & C). apply (Step k r).
    + unfold assign_concrete. destruct lg; cbn [wrapper_to_primitive is_null is_legacy_nullable kind_of tkind_eqb is_wildcard type_name orb andb negb params String.eqb];
      rewrite El; cbn [orb negb];
      (eapply check_params_mono; [|exact E]; intros q x y z Hz; apply (assignable_mono _ _ _ _ _ _ _ Hz); lia).
    + rewrite C. split.
      * intros HF. apply conf_function. exact HF.
      * intros HC. inversion HC; subst; try (match goal with W : wildcard _ |- _ => inversion W end);
          try discriminate; auto.
          rewrite ty_eqb_refl in Eq. discriminate.
Qed.
