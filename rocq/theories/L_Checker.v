(* Soundness of the steps of the type checker on plain types. *)
From Coq Require Import String List Bool NArith ZArith Ascii Lia Wf_nat Inverse_Image.
From Verif Require Import M_Infer S_Infer L_Infer L_Infer2 L_Unify L_Unify2 L_Fresh L_Literal.
From Verif Require M_Expr.
From Verif Require Import M_Checker S_Checker.
Import ListNotations.
Local Open Scope string_scope.
Open Scope list_scope.

Definition ok (c : context) : Prop := inv c /\ numbered c /\ plain_context c.
Definition step (c c' : context) : Prop :=
  ok c' /\ grows c c' /\ (forall s, respects s (cx_bindings c') -> respects s (cx_bindings c)).
(* a type the context can be asked about *)
Definition fit (c : context) (t : ty) : Prop := plain t /\ registered c t.

Lemma step_refl c : ok c -> step c c.
Proof. intros H. split; [exact H|]. split; [apply grows_refl | auto]. Qed.
Lemma step_trans a c d : step a c -> step c d -> step a d.
Proof.
  intros (_ & G1 & R1) (O2 & G2 & R2). split; [exact O2|]. split; [eapply grows_trans; eauto | auto].
Qed.
Lemma step_ok c c' : step c c' -> ok c'.
Proof. intros H. apply H. Qed.
Lemma fit_step c c' t : step c c' -> fit c t -> fit c' t.
Proof. intros (_ & G & _) [P R]. split; [exact P | eapply registered_grows; eauto]. Qed.
Lemma fits_step c c' l : step c c' -> (forall t, In t l -> fit c t) -> forall t, In t l -> fit c' t.
Proof. intros S H t Ht. eapply fit_step; eauto. Qed.

Lemma step_new c v c' : ok c -> new_type_var c = (v, c') -> step c c'.
Proof.
  intros (I & N & P) E. split; [split; [|split]|split].
  - eapply inv_same; [exact I | eapply new_type_var_same, E].
  - eapply numbered_grows; [exact N | apply (grows_new _ _ _ E)].
  - eapply plain_context_new; eauto.
  - apply (grows_new _ _ _ E).
  - intros s R. eapply new_var_old; eauto.
Qed.

(* ---- instantiation ---- *)
Definition im_sub (m : imap) (n : string) : ty :=
  match im_find m n with Some v => TParam v | None => TParam n end.
Definition im_ext (m m' : imap) : Prop := forall n v, im_find m n = Some v -> im_find m' n = Some v.
Definition im_known (c : context) (m : imap) : Prop := forall n v, im_find m n = Some v -> known c v.

Lemma declarable_opaque n ps : declarable (TOpaque n ps) <-> Forall declarable ps.
Proof.
  cbn. induction ps as [|x ps IH]; cbn; [split; auto|]. rewrite IH. split.
  - intros [H1 H2]. constructor; auto.
  - intros H. inversion H; subst; auto.
Qed.

Definition inst_post c m t t' c' m' : Prop :=
  step c c' /\ im_known c' m' /\ im_ext m m' /\ fit c' t' /\
  forall m'', im_ext m' m'' -> t' = tsub (im_sub m'') t.

Lemma im_known_step c c' m : step c c' -> im_known c m -> im_known c' m.
Proof. intros (_ & (_ & G & _) & _) K n v H. apply G, (K n v H). Qed.

Lemma fit_list c t : fit c t -> fit c (TList t).
Proof.
  intros [P R]. split; [exact P|]. intros n M. apply R. inversion M; subst. cbn in H. destruct H as [<-|[]]. exact H0.
Qed.
Lemma fit_list_inv c t : fit c (TList t) -> fit c t.
Proof. intros [P R]. split; [exact P|]. intros n M. apply R. econstructor; [left; reflexivity | exact M]. Qed.
Lemma fit_map c k v : fit c k -> fit c v -> fit c (TMap k v).
Proof.
  intros [P R] [P' R']. split; [split; auto|]. intros n M. inversion M; subst. cbn in H.
  destruct H as [<-|[<-|[]]]; auto.
Qed.
Lemma fit_map_inv c k v : fit c (TMap k v) -> fit c k /\ fit c v.
Proof.
  intros [[P P'] R]. split; (split; [assumption|]); intros n M; apply R;
    (econstructor; [|exact M]); cbn; auto.
Qed.
Lemma fit_opaque c n l : (forall t, In t l -> fit c t) -> fit c (TOpaque n l).
Proof.
  intros H. split; [apply plain_opaque; intros u Hu; apply H, Hu|].
  intros m M. inversion M; subst. apply (H u); assumption.
Qed.
Lemma fit_opaque_inv c n l : fit c (TOpaque n l) -> forall t, In t l -> fit c t.
Proof.
  intros [P R] t Ht. split; [apply (proj1 (plain_opaque _ _) P), Ht|].
  intros m M. apply R. econstructor; eauto.
Qed.
Lemma fit_atom c t : plain t -> is_param t = false -> params t = [] -> fit c t.
Proof.
  intros P N E. split; [exact P|]. intros n M. inversion M; subst; [discriminate|]. rewrite E in H. destruct H.
Qed.

Lemma instantiate_list_post l :
  (forall x, In x l -> forall c m t' c' m', ok c -> im_known c m -> declarable x ->
     instantiate c m x = (t', c', m') -> inst_post c m x t' c' m') ->
  forall c m l' c' m', ok c -> im_known c m -> Forall declarable l ->
  instantiate_list c m l = (l', c', m') ->
  step c c' /\ im_known c' m' /\ im_ext m m' /\ (forall t, In t l' -> fit c' t) /\
  forall m'', im_ext m' m'' -> l' = map (tsub (im_sub m'')) l.
Proof.
  induction l as [|x l IH]; intros HI c m l' c' m' O K D E; cbn [instantiate_list] in E.
  - inversion E; subst. split; [apply step_refl, O|]. split; [exact K|]. split; [intros n v; auto|].
    split; [intros t []|]. reflexivity.
  - destruct (instantiate c m x) as [[x' c1] m1] eqn:Ex.
    destruct (instantiate_list c1 m1 l) as [[r' c2] m2] eqn:Er. inversion E; subst. inversion D; subst.
    destruct (HI x (or_introl eq_refl) _ _ _ _ _ O K H1 Ex) as (S1 & K1 & X1 & F1 & T1).
    destruct (IH (fun y Hy => HI y (or_intror Hy)) _ _ _ _ _ (step_ok _ _ S1) K1 H2 Er)
      as (S2 & K2 & X2 & F2 & T2).
    split; [eapply step_trans; eauto|]. split; [exact K2|]. split; [intros n v Hn; auto|]. split.
    + intros t [<-|Ht]; [eapply fit_step; eauto | auto].
    + intros m'' X. cbn [map]. f_equal; [apply T1; intros n v Hn; auto | apply T2, X].
Qed.

Lemma instantiate_post t : forall c m t' c' m', ok c -> im_known c m -> declarable t ->
  instantiate c m t = (t', c', m') -> inst_post c m t t' c' m'.
Proof.
  induction t as [t IH] using (well_founded_induction (wf_inverse_image _ _ _ tsize lt_wf)).
  intros c m t' c' m' O K D E.
  assert (Atom : t' = t -> c' = c -> m' = m -> is_param t = false -> params t = [] -> plain t ->
                 (forall s, tsub s t = t) -> inst_post c m t t' c' m').
  { intros -> -> -> N Pa P T. split; [apply step_refl, O|]. split; [exact K|]. split; [intros n v; auto|].
    split; [apply fit_atom; assumption|]. intros. now rewrite T. }
  destruct t; try contradiction;
    try (cbn in E; inversion E; subst; apply Atom; cbn; auto; fail).
  - cbn [instantiate] in E. cbn in D. rewrite D in E.
    destruct (im_find m name) as [v|] eqn:F.
    + inversion E; subst. split; [apply step_refl, O|]. split; [exact K|]. split; [intros n w; auto|].
      split; [split; [exact I|]; intros n M; inversion M; subst; [apply (K _ _ F) | contradiction]|].
      intros m'' X. cbn [tsub]. unfold im_sub. now rewrite (X _ _ F).
    + destruct (new_type_var c) as [v c1] eqn:En. inversion E; subst.
      pose proof (step_new _ _ _ O En) as S1.
      split; [exact S1|]. split; [|split; [|split]].
      * intros n w. cbn [im_find]. destruct (String.eqb n name) eqn:Eq.
        -- intros [= <-]. apply (grows_new _ _ _ En).
        -- intros H. apply (im_known_step _ _ _ S1 K _ _ H).
      * intros n w H. cbn [im_find]. destruct (String.eqb n name) eqn:Eq; [|exact H].
        apply String.eqb_eq in Eq. subst. congruence.
      * split; [exact I | eapply registered_var, En].
      * intros m'' X. cbn [tsub]. unfold im_sub. rewrite (X name v); [reflexivity|].
        cbn [im_find]. now rewrite String.eqb_refl.
  - cbn [instantiate] in E. destruct (instantiate c m t) as [[x' c1] m1] eqn:Ex. inversion E; subst.
    destruct (IH t ltac:(cbn; lia) _ _ _ _ _ O K D Ex) as (S1 & K1 & X1 & F1 & T1).
    split; [exact S1|]. split; [exact K1|]. split; [exact X1|]. split; [apply fit_list, F1|].
    intros m'' X. cbn [tsub]. f_equal. apply T1, X.
  - cbn [instantiate] in E. destruct (instantiate c m t1) as [[x' c1] m1] eqn:Ex.
    destruct (instantiate c1 m1 t2) as [[y' c2] m2] eqn:Ey. inversion E; subst. destruct D as [D1 D2].
    destruct (IH t1 ltac:(cbn; lia) _ _ _ _ _ O K D1 Ex) as (S1 & K1 & X1 & F1 & T1).
    destruct (IH t2 ltac:(cbn; lia) _ _ _ _ _ (step_ok _ _ S1) K1 D2 Ey) as (S2 & K2 & X2 & F2 & T2).
    split; [eapply step_trans; eauto|]. split; [exact K2|]. split; [intros n v Hn; auto|].
    split; [apply fit_map; [eapply fit_step; eauto | exact F2]|].
    intros m'' X. cbn [tsub]. f_equal; [apply T1; intros n v Hn; auto | apply T2, X].
  - rewrite instantiate_opaque in E. destruct (instantiate_list c m ps) as [[l' c1] m1] eqn:El.
    inversion E; subst. apply declarable_opaque in D.
    destruct (instantiate_list_post ps) with (c := c) (m := m) (l' := l') (c' := c') (m' := m')
      as (S1 & K1 & X1 & F1 & T1); auto.
    { intros x Hx. apply IH. apply tsize_param. exact Hx. }
    split; [exact S1|]. split; [exact K1|]. split; [exact X1|]. split; [apply fit_opaque, F1|].
    intros m'' X. cbn [tsub]. f_equal. apply T1, X.
Qed.

Lemma tsub_tsub s r t : tsub s (tsub r t) = tsub (fun n => tsub s (r n)) t.
Proof.
  induction t as [t IH] using (well_founded_induction (wf_inverse_image _ _ _ tsize lt_wf)).
  assert (HL : forall l, (forall u, In u l -> In u (params t)) ->
     map (tsub s) (map (tsub r) l) = map (tsub (fun n => tsub s (r n))) l).
  { intros l Hl. rewrite map_map. apply map_ext_in. intros u Hu. apply IH, tsize_param, Hl, Hu. }
  destruct t; cbn [tsub]; auto; try (f_equal; apply HL; auto; fail).
  - f_equal. apply IH. cbn. lia.
  - f_equal; apply IH; cbn; lia.
Qed.

(* the types of local variables are left alone *)
Lemma instantiate_own t : forall c m t' c' m', (forall n, mentions n t -> is_type_var n = true) ->
  plain t -> instantiate c m t = (t', c', m') -> plain t' -> t' = t /\ c' = c /\ m' = m.
Proof.
  induction t as [t IH] using (well_founded_induction (wf_inverse_image _ _ _ tsize lt_wf)).
  intros c m t' c' m' V P E P'.
  destruct t; try contradiction; try (cbn in E; inversion E; subst; auto; fail).
  - cbn in E. inversion E; subst. contradiction.
  - cbn [instantiate] in E. rewrite (V name) in E by constructor. inversion E; subst. auto.
  - cbn [instantiate] in E. destruct (instantiate c m t) as [[x' c1] m1] eqn:Ex. inversion E; subst.
    destruct (IH t ltac:(cbn; lia) _ _ _ _ _ (fun n M => V n ltac:(econstructor; [left; reflexivity|exact M])) P Ex P')
      as (-> & -> & ->). auto.
  - cbn [instantiate] in E. destruct (instantiate c m t1) as [[x' c1] m1] eqn:Ex.
    destruct (instantiate c1 m1 t2) as [[y' c2] m2] eqn:Ey. inversion E; subst.
    destruct P as [P1 P2], P' as [P1' P2'].
    destruct (IH t1 ltac:(cbn; lia) _ _ _ _ _ (fun n M => V n ltac:(econstructor; [left; reflexivity|exact M])) P1 Ex P1')
      as (-> & -> & ->).
    destruct (IH t2 ltac:(cbn; lia) _ _ _ _ _ (fun n M => V n ltac:(econstructor; [right; left; reflexivity|exact M])) P2 Ey P2')
      as (-> & -> & ->). auto.
  - rewrite instantiate_opaque in E. destruct (instantiate_list c m ps) as [[l' c1] m1] eqn:El.
    inversion E; subst. pose proof (proj1 (plain_opaque _ _) P) as Pl.
    pose proof (proj1 (plain_opaque _ _) P') as Pl'.
    assert (H : forall l c m l' c' m', (forall u, In u l -> In u ps) ->
       instantiate_list c m l = (l', c', m') -> (forall u, In u l' -> plain u) ->
       l' = l /\ c' = c /\ m' = m).
    { clear c m l' c' m' E El P' Pl'. induction l as [|x l IHl]; intros c m l' c' m' Hl El Pl'; cbn [instantiate_list] in El.
      - inversion El; auto.
      - destruct (instantiate c m x) as [[x' c1] m1] eqn:Ex.
        destruct (instantiate_list c1 m1 l) as [[r' c2] m2] eqn:Er. inversion El; subst.
        assert (Hx : In x (params (TOpaque name ps))) by (apply Hl; left; reflexivity).
        destruct (IH x (tsize_param _ _ Hx) _ _ _ _ _
                    (fun n M => V n ltac:(econstructor; [exact Hx|exact M]))
                    (Pl _ Hx) Ex (Pl' _ (or_introl eq_refl))) as (-> & -> & ->).
        destruct (IHl _ _ _ _ _ (fun u Hu => Hl u (or_intror Hu)) Er (fun u Hu => Pl' u (or_intror Hu)))
          as (-> & -> & ->). auto. }
    destruct (H ps _ _ _ _ _ (fun u Hu => Hu) El Pl') as (-> & -> & ->). auto.
Qed.

Lemma var_name_type_var i : is_type_var (var_name i) = true.
Proof.
  unfold is_type_var, var_name. cbn. destruct (decimal i); reflexivity.
Qed.
Lemma fit_type_vars c t : ok c -> fit c t -> forall n, mentions n t -> is_type_var n = true.
Proof.
  intros (_ & N & _) [_ R] n M. destruct (N n (R n M)) as (i & _ & ->). apply var_name_type_var.
Qed.

(* ---- full substitution ---- *)
Lemma map_opt_in {A B} (f : A -> option B) l l' : map_opt f l = Some l' ->
  forall y, In y l' -> exists x, In x l /\ f x = Some y.
Proof.
  revert l'. induction l as [|x l IH]; cbn; intros l' E y Hy.
  - inversion E; subst. destruct Hy.
  - destruct (f x) as [z|] eqn:Ez; [|discriminate]. destruct (map_opt f l) as [r|]; [|discriminate].
    inversion E; subst. destruct Hy as [<-|Hy]; [eauto|]. destruct (IH _ eq_refl y Hy) as (w & ? & ?). eauto.
Qed.
Lemma map_opt_map {A B C} (f : A -> option B) (g : B -> C) (h : A -> C) l l' :
  map_opt f l = Some l' -> (forall x y, In x l -> f x = Some y -> g y = h x) -> map g l' = map h l.
Proof.
  revert l'. induction l as [|x l IH]; cbn; intros l' E H.
  - inversion E; reflexivity.
  - destruct (f x) as [z|] eqn:Ez; [|discriminate]. destruct (map_opt f l) as [r|]; [|discriminate].
    inversion E; subst. cbn. f_equal; [apply H; auto | apply IH; auto].
Qed.

Lemma fully_fit c k : ok c -> forall t u, fit c t ->
  fully_substitute k (cx_bindings c) false t = Some u ->
  fit c u /\ forall s, respects s (cx_bindings c) -> tsub s u = tsub s t.
Proof.
  intros (I & N & PC). induction k as [|k IH]; intros t u F E; [discriminate|].
  destruct t; try (destruct F; contradiction);
    try (cbn in E; inversion E; subst; split; [exact F | reflexivity]; fail).
  - rewrite fully_param in E.
    destruct (substitute k (cx_bindings c) [] (TParam name)) as [w|] eqn:Es; [|discriminate].
    assert (Fw : fit c w).
    { destruct (substitute_reach _ _ _ _ _ Es) as [R _]. split.
      - eapply reach_plain; [apply plain_context_graph, PC | apply F | exact R].
      - eapply closed_reach; [apply registered_closed, PC | apply F | exact R]. }
    assert (Tw : forall s, respects s (cx_bindings c) -> tsub s w = tsub s (TParam name)).
    { intros s R. eapply substitute_tsub; [exact Es | apply respects_models, R]. }
    destruct w; try (destruct (IH _ _ Fw E) as [F1 T1]; split; [exact F1|];
      intros s R; rewrite (T1 s R); apply Tw, R).
    inversion E; subst. split; [exact Fw | exact Tw].
  - cbn in E. destruct (fully_substitute k (cx_bindings c) false t) as [x|] eqn:Ex; [|discriminate].
    inversion E; subst. destruct (IH _ _ (fit_list_inv _ _ F) Ex) as [F1 T1].
    split; [apply fit_list, F1|]. intros s R. cbn. f_equal. apply T1, R.
  - cbn in E. destruct (fully_substitute k (cx_bindings c) false t1) as [x|] eqn:Ex; [|discriminate].
    destruct (fully_substitute k (cx_bindings c) false t2) as [y|] eqn:Ey; [|discriminate].
    inversion E; subst. destruct (fit_map_inv _ _ _ F) as [Fa Fb].
    destruct (IH _ _ Fa Ex) as [F1 T1]. destruct (IH _ _ Fb Ey) as [F2 T2].
    split; [apply fit_map; assumption|]. intros s R. cbn. f_equal; auto.
  - cbn [fully_substitute] in E. destruct (map_opt _ ps) as [l|] eqn:El; [|discriminate].
    inversion E; subst. pose proof (fit_opaque_inv _ _ _ F) as Fl. split.
    + apply fit_opaque. intros y Hy. destruct (map_opt_in _ _ _ El y Hy) as (x & Hx & Ex).
      apply (IH _ _ (Fl x Hx) Ex).
    + intros s R. cbn [tsub]. f_equal. eapply map_opt_map; [exact El|].
      intros x y Hx Ex. apply (IH _ _ (Fl x Hx) Ex), R.
Qed.

(* ---- the arguments of a call ---- *)
Definition fits_params (lo : bool) (s : string -> ty) (args ps : list ty) : Prop :=
  if lo then match ps with [] => args = [] | q :: _ => Forall (fun a => tsub s a = tsub s q) args end
  else map (tsub s) args = map (tsub s) (firstn (length args) ps).

Lemma check_args_plain k c lo args : forall p ps p',
  wf (resolve (cx_bindings c) p) -> plain_graph (resolve (cx_bindings c) p) ->
  (forall x, In x args -> plain x) -> (forall x, In x ps -> plain x) ->
  check_args k c lo p args ps = Some (true, p') ->
  wf (resolve (cx_bindings c) p') /\ sound_step (cx_bindings c) p p' /\
  (forall Q, closed (resolve (cx_bindings c) p) Q -> (forall x, In x (args ++ ps) -> Q x) ->
     within Q (resolve (cx_bindings c) p) (resolve (cx_bindings c) p')) /\
  (forall s, models s (resolve (cx_bindings c) p') -> fits_params lo s args ps).
Proof.
  induction args as [|a args IH]; intros p ps p' W G Pa Pp E; cbn [check_args] in E.
  - inversion E; subst. split; [exact W|]. split; [apply sound_refl, G|]. split; [intros; apply within_refl|].
    intros s _. unfold fits_params. destruct lo; [destruct ps; constructor | reflexivity].
  - destruct ps as [|q ps]; [discriminate|].
    destruct (ctx_is_assignable k c p a q) as [[[] p1]|] eqn:Ec; [|discriminate..].
    unfold ctx_is_assignable in Ec.
    assert (Px : plain a) by (apply Pa; left; reflexivity).
    assert (Pq : plain q) by (apply Pp; left; reflexivity).
    destruct (assignable_good _ _ _ _ _ _ _ _ W Ec) as [Wq Gq].
    destruct (assignable_sound _ _ _ _ _ _ _ _ G Px Pq Ec) as [[P1 X1] S1].
    assert (Hps : forall x, In x (if lo then q :: ps else ps) -> In x (q :: ps)).
    { destruct lo; [auto | intros; right; auto]. }
    apply IH in E; auto; [|intros; apply Pa; right; auto].
    destruct E as (W' & [G' X'] & Win & F).
    split; [exact W'|]. split; [split; [exact G' | intros n u Hn; auto]|]. split.
    + intros Q CQ Ql.
      assert (Qa : Q a) by (apply Ql; left; reflexivity).
      assert (Qq : Q q) by (apply Ql; apply in_or_app; right; left; reflexivity).
      pose proof (Gq Q CQ Qa Qq) as W1. eapply within_trans; [exact W1|].
      apply Win; [eapply closed_within; eauto|]. intros x Hx. apply Ql. apply in_app_or in Hx.
      destruct Hx as [Hx|Hx]; [right; apply in_or_app; auto|].
      apply in_or_app. right. apply Hps, Hx.
    + intros s M.
      assert (Eq : tsub s a = tsub s q) by (apply S1; auto; eapply extends_models; eauto).
      specialize (F s M). unfold fits_params in *. destruct lo.
      * constructor; auto.
      * cbn [length firstn map]. f_equal; auto.
Qed.

Lemma check_args_step k c lo args ps p :
  ok c -> (forall x, In x (args ++ ps) -> fit c x) ->
  check_args k c lo [] args ps = Some (true, p) ->
  step c (fst (ctx_update c p)) /\
  (forall s, respects s (cx_bindings (fst (ctx_update c p))) -> fits_params lo s args ps).
Proof.
  intros (W & N & PC) F E. cbn [ctx_update fst].
  destruct (check_args_plain _ _ _ _ _ _ _ W (plain_context_graph _ PC)
     (fun x Hx => proj1 (F x (in_or_app _ _ _ (or_introl Hx))))
     (fun x Hx => proj1 (F x (in_or_app _ _ _ (or_intror Hx)))) E) as (W' & [G' X'] & Win & S).
  assert (Win' : within (registered c) (resolve (cx_bindings c) []) (resolve (cx_bindings c) p)).
  { apply Win; [apply registered_closed, PC|]. intros x Hx. apply (F x Hx). }
  destruct (plain_context_update _ _ PC G' Win') as [PC2 U].
  assert (M : forall s, respects s (cx_bindings (set_bindings c (update_bindings (cx_bindings c) p))) ->
     models s (resolve (cx_bindings c) p)).
  { intros s R. apply respects_models in R. intros n u Hn. apply R. rewrite U. exact Hn. }
  split; [|intros s R; apply S, M, R].
  split; [split; [|split]|split].
  - apply inv_update, W'.
  - eapply numbered_grows; [exact N | apply grows_update].
  - exact PC2.
  - apply grows_update.
  - intros s R. apply respects_models. eapply extends_models; [exact X' | apply M, R].
Qed.

(* ---- overload resolution ---- *)
Definition decl_ok (o : overload_decl) : Prop := declarable (od_result o) /\ Forall declarable (od_args o).

Lemma instantiate_overload_post c o res ps c' : ok c -> decl_ok o ->
  instantiate_overload c o = (res, ps, c') ->
  step c c' /\ fit c' res /\ (forall t, In t ps -> fit c' t) /\
  exists m, res = tsub (im_sub m) (od_result o) /\ ps = map (tsub (im_sub m)) (od_args o).
Proof.
  intros O [Dr Da] E. unfold instantiate_overload in E.
  destruct (instantiate c [] (od_result o)) as [[r c1] m1] eqn:E1.
  destruct (instantiate_list c1 m1 (od_args o)) as [[a c2] m2] eqn:E2. inversion E; subst.
  assert (K0 : im_known c []) by (intros n v; discriminate).
  destruct (instantiate_post _ _ _ _ _ _ O K0 Dr E1) as (S1 & K1 & X1 & F1 & T1).
  destruct (instantiate_list_post (od_args o)) with (c := c1) (m := m1) (l' := ps) (c' := c') (m' := m2)
    as (S2 & K2 & X2 & F2 & T2); auto.
  { intros x _ c3 m3 t3 c4 m4 O3 K3 D3 H. apply (instantiate_post x); assumption. }
  { apply (step_ok _ _ S1). }
  split; [eapply step_trans; eauto|]. split; [eapply fit_step; eauto|]. split; [exact F2|].
  exists m2. split; [apply T1; exact X2 | apply T2; intros n v; auto].
Qed.

(* a call with these argument types, to one of these overloads, has type t *)
Definition matched (lo : bool) (rcv : bool) (ovls : list overload_decl) (s : string -> ty)
    (args : list ty) (t : ty) : Prop :=
  exists o r, In o ovls /\ od_member o = rcv /\ (lo = false -> length args = length (od_args o)) /\
    (if lo then match od_args o with
                | [] => args = []
                | q :: _ => Forall (fun a => tsub s a = tsub r q) args
                end
     else map (tsub s) args = map (tsub r) (od_args o)) /\
    tsub s t = tsub r (od_result o).

Lemma resolve_loop_some k lo args rcv ovls : forall c t0 mt r m c',
  ok c -> (forall x, In x args -> fit c x) -> (forall o, In o ovls -> decl_ok o) ->
  resolve_loop k c lo args rcv (Some t0) mt ovls = Some (r, m, c') ->
  step c c' /\ (r = Some t0 \/ r = Some TDyn).
Proof.
  induction ovls as [|o ovls IH]; intros c t0 mt r m c' O F D E; cbn [resolve_loop] in E.
  - inversion E; subst. split; [apply step_refl, O | auto].
  - assert (D' : forall o, In o ovls -> decl_ok o) by (intros; apply D; right; auto).
    destruct (negb (Bool.eqb (od_member o) rcv) || _); [eapply IH; eauto|].
    destruct (instantiate_overload c o) as [[rs ps] c1] eqn:Ei.
    destruct (instantiate_overload_post _ _ _ _ _ O (D o (or_introl eq_refl)) Ei) as (S1 & Fr & Fp & _).
    pose proof (fits_step _ _ _ S1 F) as F1.
    assert (F2 : forall x, In x (args ++ ps) -> fit c1 x).
    { intros x Hx. apply in_app_or in Hx. destruct Hx; auto. }
    destruct (check_args k c1 lo [] args ps) as [[[] p]|] eqn:Ec; [| |discriminate].
    + destruct (check_args_step _ _ _ _ _ _ (step_ok _ _ S1) F2 Ec) as [S2 _].
      apply IH in E; auto.
      * destruct E as [S3 R]. split; [eapply step_trans; [exact S1|]; eapply step_trans; eauto|].
        destruct (ty_eqb t0 rs); [exact R|]. right. destruct R; assumption.
      * apply (step_ok _ _ S2).
      * eapply fits_step; eauto.
    + apply IH in E; auto; [|apply (step_ok _ _ S1)].
      destruct E as [S3 R]. split; [eapply step_trans; eauto | exact R].
Qed.

Lemma resolve_loop_none k lo args rcv ovls : forall c mt r m c',
  ok c -> (forall x, In x args -> fit c x) -> (forall o, In o ovls -> decl_ok o) ->
  resolve_loop k c lo args rcv None mt ovls = Some (r, m, c') ->
  step c c' /\ (r = None \/ r = Some TDyn \/
    exists t, r = Some t /\ fit c' t /\
      forall s, respects s (cx_bindings c') -> matched lo rcv ovls s args t).
Proof.
  induction ovls as [|o ovls IH]; intros c mt r m c' O F D E; cbn [resolve_loop] in E.
  - inversion E; subst. split; [apply step_refl, O | auto].
  - assert (D' : forall o, In o ovls -> decl_ok o) by (intros; apply D; right; auto).
    assert (Lift : forall s t, matched lo rcv ovls s args t -> matched lo rcv (o :: ovls) s args t).
    { intros s t (o' & r' & H1 & H2). exists o', r'. split; [right; exact H1 | exact H2]. }
    destruct (negb (Bool.eqb (od_member o) rcv) || _) eqn:Sk.
    { apply IH in E; auto. destruct E as [S [H|[H|(t & H1 & H2 & H3)]]]; split; auto.
      right; right. exists t. auto. }
    destruct (instantiate_overload c o) as [[rs ps] c1] eqn:Ei.
    destruct (instantiate_overload_post _ _ _ _ _ O (D o (or_introl eq_refl)) Ei)
      as (S1 & Fr & Fp & im & Er & Ep).
    pose proof (fits_step _ _ _ S1 F) as F1.
    assert (F2 : forall x, In x (args ++ ps) -> fit c1 x).
    { intros x Hx. apply in_app_or in Hx. destruct Hx; auto. }
    destruct (check_args k c1 lo [] args ps) as [[[] p]|] eqn:Ec; [| |discriminate].
    + destruct (check_args_step _ _ _ _ _ _ (step_ok _ _ S1) F2 Ec) as [S2 M2].
      apply resolve_loop_some in E; auto; [|apply (step_ok _ _ S2)|eapply fits_step; eauto].
      destruct E as [S3 R]. split; [eapply step_trans; [exact S1|]; eapply step_trans; eauto|].
      destruct R as [-> | ->]; [|auto]. right; right. exists rs. split; [reflexivity|].
      split; [eapply fit_step; [exact S3|]; eapply fit_step; eauto|].
      intros s Rs. apply orb_false_iff in Sk. destruct Sk as [Sk1 Sk2].
      apply negb_false_iff, Bool.eqb_prop in Sk1.
      assert (Len : lo = false -> length args = length (od_args o)).
      { intros ->. cbn in Sk2. apply negb_false_iff, Nat.eqb_eq in Sk2. exact Sk2. }
      exists o, (fun n => tsub s (im_sub im n)). split; [left; reflexivity|]. split; [exact Sk1|].
      split; [exact Len|]. split.
      * specialize (M2 s (proj2 (proj2 S3) s Rs)). unfold fits_params in M2. subst ps. destruct lo.
        -- destruct (od_args o) as [|q qs]; [exact M2|]. cbn [map] in M2.
           eapply Forall_impl; [|exact M2]. intros a Ha. cbv beta in Ha. rewrite Ha. apply tsub_tsub.
        -- rewrite firstn_all2 in M2 by (rewrite map_length; specialize (Len eq_refl); lia).
           rewrite M2, map_map. apply map_ext. intros t. apply tsub_tsub.
      * subst rs. apply tsub_tsub.
    + apply IH in E; auto; [|apply (step_ok _ _ S1)].
      destruct E as [S3 [H|[H|(t & H1 & H2 & H3)]]]; (split; [eapply step_trans; eauto|]); auto.
      right; right. exists t. auto.
Qed.

Lemma resolve_overload_post k c fn ovls args rcv t os c' :
  ok c -> (forall x, In x args -> fit c x) -> (forall o, In o ovls -> decl_ok o) ->
  resolve_overload k c fn ovls args rcv = Some (Some (t, os), c') -> plain t ->
  step c c' /\ fit c' t /\
  forall s, respects s (cx_bindings c') -> matched (is_logical fn (length args)) rcv ovls s args t.
Proof.
  intros O F D E P. unfold resolve_overload in E. fold (is_logical fn (length args)) in E.
  destruct (resolve_loop k c _ args rcv None [] ovls) as [[[r m] c1]|] eqn:El; [|discriminate].
  destruct (resolve_loop_none _ _ _ _ _ _ _ _ _ _ O F D El) as [S H].
  destruct r as [t0|]; [|discriminate]. destruct m as [|o m]; [discriminate|].
  destruct (fully_substitute k (cx_bindings c1) false t0) as [t'|] eqn:Ef; [|discriminate].
  inversion E; subst.
  destruct H as [H|[[= ->]|(t1 & [= <-] & F1 & M)]]; [discriminate| |].
  - destruct k; [discriminate|]. cbn in Ef. inversion Ef; subst. contradiction.
  - destruct (fully_fit _ _ (step_ok _ _ S) _ _ F1 Ef) as [F2 T2].
    split; [exact S|]. split; [exact F2|]. intros s R. destruct (M s R) as (o' & r & H1 & H2 & H3 & H4 & H5).
    exists o', r. rewrite (T2 s R). auto 10.
Qed.

(* ---- literals ---- *)
Lemma list_literal_post k c l t c' :
  ok c -> (forall x, In x l -> fit c x) -> list_literal_type k c l = Some (t, c') -> plain t ->
  step c c' /\ fit c' t /\ exists e, t = TList e /\
  forall s, respects s (cx_bindings c') -> forall x, In x l -> tsub s x = tsub s e.
Proof.
  intros O Hl H P. unfold list_literal_type in H.
  destruct (instantiate_name c "E" eq_refl) as (v & c1 & Ei & En). rewrite Ei in H.
  destruct (list_elements k c1 [] (TParam v) l) as [[o p]|] eqn:El; [|discriminate].
  destruct O as (W & N & PC).
  destruct (group_plain _ _ _ _ _ _ _ W N PC En Hl El) as (W2 & N2 & PC2 & G2 & Hc).
  set (c2 := if is_dyn o then c1 else fst (ctx_update c1 p)) in *.
  destruct (fully_substitute k (cx_bindings c2) false (TList o)) as [u|] eqn:Ef; [|discriminate].
  inversion H; subst t c'.
  destruct Hc as [(-> & S & _)|(-> & E12 & No)].
  - assert (O2 : ok c2) by (split; auto).
    assert (S2 : step c c2) by (split; [exact O2|]; split; [exact G2|]; intros s R; apply (S s R)).
    assert (Fv : fit c2 (TParam v)).
    { split; [exact I|]. intros n M. inversion M; subst; [|contradiction].
      cbn [is_dyn ctx_update fst] in c2. unfold c2. apply known_update. apply (grows_new _ _ _ En). }
    destruct k as [|k]; [discriminate|]. cbn [fully_substitute] in Ef.
    destruct (fully_substitute k (cx_bindings c2) false (TParam v)) as [e|] eqn:Ee; [|discriminate].
    inversion Ef; subst u. destruct (fully_fit _ _ O2 _ _ Fv Ee) as [Fe Te].
    split; [exact S2|]. split; [apply fit_list, Fe|]. exists e. split; [reflexivity|].
    intros s R x Hx. rewrite (Te s R). cbn [tsub]. apply (S s R). exact Hx.
  - destruct k as [|[|k]]; try discriminate. cbn in Ef. clear - Ef P. inversion Ef; subst. contradiction.
Qed.

Lemma map_literal_post k c ks vs t c' :
  ok c -> (forall x, In x (ks ++ vs) -> fit c x) ->
  map_literal_type k c ks vs = Some (t, c') -> plain t ->
  step c c' /\ fit c' t /\ exists a b, t = TMap a b /\
  forall s, respects s (cx_bindings c') ->
    (forall x, In x ks -> tsub s x = tsub s a) /\ (forall x, In x vs -> tsub s x = tsub s b).
Proof.
  intros O Hl H P. unfold map_literal_type in H.
  destruct (instantiate_name c "K" eq_refl) as (kv & c1 & Ei & En). rewrite Ei in H.
  destruct (instantiate_name c1 "V" eq_refl) as (vv & c2 & Ei2 & En2). rewrite Ei2 in H.
  pose proof (step_new _ _ _ O En) as S1. pose proof (step_new _ _ _ (step_ok _ _ S1) En2) as S2.
  pose proof (step_trans _ _ _ S1 S2) as S12.
  assert (Fk : fit c2 (TParam kv)).
  { eapply fit_step; [exact S2|]. split; [exact I | eapply registered_var, En]. }
  assert (Fv : fit c2 (TParam vv)) by (split; [exact I | eapply registered_var, En2]).
  destruct (list_elements k c2 [] (TParam kv) ks) as [[o p]|] eqn:El; [|discriminate].
  assert (HlK : forall x, In x ks -> plain x /\ registered c2 x).
  { intros x Hx. apply (fit_step _ _ x S12). apply Hl, in_or_app. auto. }
  destruct (step_ok _ _ S12) as (W2 & N2 & PC2).
  destruct (group_core k c2 (TParam kv) ks o p W2 N2 PC2 I (proj2 Fk) HlK El) as (W3 & N3 & PC3 & G3 & Hk).
  set (c3 := if is_dyn o then c2 else fst (ctx_update c2 p)) in *.
  assert (S3 : step c2 c3).
  { split; [split; auto|]. split; [exact G3|]. intros s R. destruct Hk as [(_ & Hk)|(_ & -> & _)]; [apply Hk, R | exact R]. }
  destruct (map_values k c3 (TParam vv) vs) as [[vo c4]|] eqn:Ev; [|discriminate].
  assert (HlV : forall x, In x vs -> plain x /\ registered c3 x).
  { intros x Hx. apply (fit_step _ _ x S3), (fit_step _ _ x S12). apply Hl, in_or_app. auto. }
  pose proof (fit_step _ _ _ S3 Fv) as Fv3.
  pose proof (map_values_plain k (TParam vv) vs c3 vo c4 W3 PC3 I (proj2 Fv3) HlV Ev) as Hv.
  pose proof (map_values_grows _ _ _ _ _ _ Ev) as G4.
  destruct (fully_substitute k (cx_bindings c4) false (TMap o vo)) as [u|] eqn:Ef; [|discriminate].
  inversion H; subst t c'. clear H.
  destruct k as [|k]; [discriminate|]. cbn [fully_substitute] in Ef.
  destruct (fully_substitute k (cx_bindings c4) false o) as [a|] eqn:Ea; [|discriminate].
  destruct (fully_substitute k (cx_bindings c4) false vo) as [b|] eqn:Eb; [|discriminate].
  inversion Ef; subst u. destruct P as [Pa Pb].
  destruct Hv as [(-> & W4 & PC4 & R4)|(-> & _)];
    [|destruct k; [discriminate|]; cbn in Eb; inversion Eb; subst; contradiction].
  destruct Hk as [(-> & Rk)|(-> & _)];
    [|destruct k; [discriminate|]; cbn in Ea; inversion Ea; subst; contradiction].
  assert (S4 : step c3 c4).
  { split; [split; [exact W4|]; split; [eapply numbered_grows; eauto | exact PC4]|].
    split; [exact G4|]. intros s R. apply R4, R. }
  pose proof (step_trans _ _ _ S3 S4) as S34.
  destruct (fully_fit _ _ (step_ok _ _ S4) _ _ (fit_step _ _ _ S34 Fk) Ea) as [Fa Ta].
  destruct (fully_fit _ _ (step_ok _ _ S4) _ _ (fit_step _ _ _ S4 Fv3) Eb) as [Fb Tb].
  split; [eapply step_trans; [exact S12 | exact S34]|]. split; [apply fit_map; assumption|].
  exists a, b. split; [reflexivity|]. intros s R. apply R4 in R as R'. destruct R' as [R3 Hvs].
  apply Rk in R3. destruct R3 as [_ Hks]. rewrite (Ta s R), (Tb s R). auto.
Qed.
