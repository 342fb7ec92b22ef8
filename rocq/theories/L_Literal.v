(* The types given to list and map literals. *)
From Coq Require Import String List Bool NArith Lia Arith.
From Verif Require Import M_Infer S_Infer L_Infer L_Infer2 L_Unify L_Unify2 L_Fresh.
Import ListNotations.
Open Scope list_scope.

Lemma instantiate_name c n : is_type_var n = false ->
  exists v c', instantiate c [] (TParam n) = (TParam v, c', [(n, v)]) /\ new_type_var c = (v, c').
Proof.
  intros H. cbn [instantiate im_find]. rewrite H.
  destruct (new_type_var c) as [v c'] eqn:E. exists v, c'. auto.
Qed.

Lemma registered_known c t : registered c t <-> forall n, mentions n t -> known c n.
Proof. reflexivity. Qed.

Lemma registered_grows c c' t : grows c c' -> registered c t -> registered c' t.
Proof. intros (_ & G & _) R n M. apply G, R, M. Qed.

(* A new variable leaves what is bound alone. *)
Lemma new_var_bind c v c' : numbered c -> new_type_var c = (v, c') ->
  bd_find (cx_bindings c') v = Some None /\
  (forall n, n <> v -> bd_find (cx_bindings c') n = bd_find (cx_bindings c) n).
Proof.
  intros N E. pose proof (new_var_unknown _ _ _ N E) as U.
  unfold new_type_var in E. inversion E as [[E1 E2]]. rewrite E1 in *. cbn [cx_bindings].
  unfold known in U. destruct (bd_find (cx_bindings c) v) eqn:B; [destruct U; congruence|].
  cbn [bd_find]. rewrite String.eqb_refl. split; auto.
  intros n Hn. apply String.eqb_neq in Hn. rewrite Hn. reflexivity.
Qed.

Lemma plain_context_new c v c' : numbered c -> plain_context c -> new_type_var c = (v, c') ->
  plain_context c'.
Proof.
  intros N P E n t H. destruct (new_var_bind _ _ _ N E) as [H1 H2].
  destruct (string_dec n v) as [->|Hn]; [congruence|]. rewrite H2 in H by assumption.
  destruct (P _ _ H) as [Pt Rt]. split; auto.
  eapply registered_grows; [|exact Rt]. apply (grows_new _ _ _ E).
Qed.

Lemma list_elements_dyn k c l : forall p o p',
  list_elements k c p TDyn l = Some (o, p') -> o = TDyn.
Proof.
  induction l as [|x l IH]; intros p o p' E; cbn in E; [congruence|].
  destruct (ctx_is_assignable k c p x TDyn) as [[[] q]|]; [| |discriminate]; eauto.
Qed.

Lemma list_elements_plain k c t l : forall p o p',
  plain t -> wf (resolve (cx_bindings c) p) -> plain_graph (resolve (cx_bindings c) p) ->
  (forall x, In x l -> plain x) ->
  list_elements k c p t l = Some (o, p') ->
  (o = t /\ wf (resolve (cx_bindings c) p') /\ sound_step (cx_bindings c) p p' /\
   (forall Q, closed (resolve (cx_bindings c) p) Q -> Q t -> (forall x, In x l -> Q x) ->
      within Q (resolve (cx_bindings c) p) (resolve (cx_bindings c) p')) /\
   (forall s, models s (resolve (cx_bindings c) p') -> forall x, In x l -> tsub s x = tsub s t) /\
   (forall s, models s (resolve (cx_bindings c) p) -> (forall x, In x l -> tsub s x = tsub s t) ->
      models s (resolve (cx_bindings c) p'))) \/
  (o = TDyn /\ forall s, models s (resolve (cx_bindings c) p) ->
      ~ (forall x, In x l -> tsub s x = tsub s t)).
Proof.
  induction l as [|x l IH]; intros p o p' Pt W G Pl E; cbn [list_elements] in E.
  - inversion E; subst. left. split; [reflexivity|]. split; [exact W|].
    split; [apply sound_refl, G|]. split; [intros; apply within_refl|].
    split; [intros s _ x []|auto].
  - destruct (ctx_is_assignable k c p x t) as [[r q]|] eqn:Ec; [|discriminate].
    unfold ctx_is_assignable in Ec.
    assert (Px : plain x) by (apply Pl; left; reflexivity).
    destruct (assignable_good _ _ _ _ _ _ _ _ W Ec) as [Wq Gq].
    destruct (assignable_sound _ _ _ _ _ _ _ _ G Px Pt Ec) as [[Pq Xq] Sq].
    destruct r.
    + apply IH in E; auto; [|intros; apply Pl; right; auto].
      destruct E as [(-> & W' & [G' X'] & In' & S' & C')|[-> N]].
      * left. split; [reflexivity|]. split; [exact W'|].
        split; [split; [exact G' | intros n u Hn; auto]|]. split; [|split].
        -- intros Q CQ Qt Ql. assert (Qx : Q x) by (apply Ql; left; reflexivity).
           pose proof (Gq Q CQ Qx Qt) as W1. eapply within_trans; [exact W1|].
           apply In'; auto; [eapply closed_within; eauto | intros; apply Ql; right; auto].
        -- intros s M y [<-|Hy]; [apply Sq; auto; eapply extends_models; eauto | apply S'; auto].
        -- intros s M H. apply C'; [|intros; apply H; right; auto].
           apply (assignable_complete _ _ _ s _ _ _ _ _ G Px Pt Ec M). apply H. left. reflexivity.
      * right. split; [reflexivity|]. intros s M H. apply (N s).
        -- apply (assignable_complete _ _ _ s _ _ _ _ _ G Px Pt Ec M). apply H. left. reflexivity.
        -- intros y Hy. apply H. right. exact Hy.
    + apply list_elements_dyn in E. right. split; [exact E|]. intros s M H.
      destruct (assignable_complete _ _ _ s _ _ _ _ _ G Px Pt Ec M) as [D _]; [|discriminate].
      apply H. left. reflexivity.
Qed.

Lemma plain_context_update c p :
  plain_context c -> plain_graph (resolve (cx_bindings c) p) ->
  within (registered c) (resolve (cx_bindings c) []) (resolve (cx_bindings c) p) ->
  let c' := set_bindings c (update_bindings (cx_bindings c) p) in
  plain_context c' /\
  forall n, resolve (cx_bindings c') [] n = resolve (cx_bindings c) p n.
Proof.
  intros PC G Win c'.
  assert (U : forall n, resolve (cx_bindings c') [] n = resolve (cx_bindings c) p n).
  { apply update_resolve. intros n. destruct (Win n) as [Hn|[Hn _]]; auto.
    right. apply Hn. constructor. }
  split; [|exact U]. intros n u Hn.
  assert (Hr : resolve (cx_bindings c) p n = Some u).
  { rewrite <- U. unfold resolve. cbn [sm_find]. rewrite Hn. reflexivity. }
  split; [exact (G _ _ Hr)|]. apply (registered_grows c); [apply grows_update|].
  destruct (Win n) as [Hq|[_ (v & Qv & Hv)]].
  - rewrite Hq in Hr. unfold resolve in Hr. cbn [sm_find] in Hr.
    destruct (bd_find (cx_bindings c) n) as [[w|]|] eqn:B; try discriminate.
    inversion Hr; subst. apply (PC _ _ B).
  - rewrite Hr in Hv. inversion Hv; subst. exact Qv.
Qed.

(* Two types that every respectful choice makes equal are fully substituted
   to the same type. *)
Lemma fully_agree c a a' : inv c -> plain_context c -> plain a -> plain a' ->
  (forall s, respects s (cx_bindings c) -> tsub s a = tsub s a') ->
  forall k k' t t', fully_substitute k (cx_bindings c) false a = Some t ->
  fully_substitute k' (cx_bindings c) false a' = Some t' -> t = t'.
Proof.
  intros W PC Pa Pa' H k k' t t' E E'. pose proof (plain_context_graph _ PC) as G.
  destruct (full_all _ W) as [K HK].
  rewrite (fully_tsub _ K G HK _ _ _ Pa E), (fully_tsub _ K G HK _ _ _ Pa' E').
  apply H. apply respects_models. apply full_models; auto.
Qed.

Lemma fully_plain b : plain_graph (resolve b []) -> forall k t a,
  plain t -> fully_substitute k b false t = Some a -> plain a.
Proof.
  intros G k. induction k as [|k IH]; intros t a P H; [discriminate|].
  destruct t; try contradiction; try (cbn in H; inversion H; subst; exact P).
  - rewrite fully_param in H.
    destruct (substitute k b [] (TParam name)) as [u|] eqn:E; [|discriminate].
    destruct (substitute_reach _ _ _ _ _ E) as [R _].
    pose proof (reach_plain _ _ _ G P R) as Pu.
    destruct u; try (eapply IH; [exact Pu | exact H]). inversion H. exact I.
  - cbn [fully_substitute] in H.
    destruct (fully_substitute k b false t) as [x|] eqn:E; [|discriminate].
    inversion H; subst. exact (IH t x P E).
  - cbn [fully_substitute] in H. destruct P as [P1 P2].
    destruct (fully_substitute k b false t1) as [x|] eqn:E; [|discriminate].
    destruct (fully_substitute k b false t2) as [y|] eqn:E2; [|discriminate].
    inversion H; subst. split; [exact (IH _ _ P1 E) | exact (IH _ _ P2 E2)].
  - cbn [fully_substitute] in H.
    destruct (map_opt (fully_substitute k b false) ps) as [qs|] eqn:E; [|discriminate].
    inversion H; subst. apply plain_opaque.
    pose proof (proj1 (plain_opaque _ _) P) as Q. clear P H. revert qs E.
    induction ps as [|x ps IHp]; intros qs E; cbn in E; [inversion E; intros u []|].
    destruct (fully_substitute k b false x) as [x'|] eqn:Ex; [|discriminate].
    destruct (map_opt (fully_substitute k b false) ps) as [ps'|] eqn:Eps; [|discriminate].
    inversion E; subst. intros u [<-|Hu].
    + eapply IH; [|exact Ex]. apply Q. left. reflexivity.
    + eapply IHp; [|reflexivity | exact Hu]. intros w Hw. apply Q. right. exact Hw.
Qed.

(* The variables of a type decide what substitution gives. *)
Lemma tsub_ext s s' t : (forall n, mentions n t -> s n = s' n) -> tsub s t = tsub s' t.
Proof.
  induction t as [t IH] using ty_params_ind. intros H.
  assert (HL : forall l, (forall u, In u l -> In u (params t)) -> map (tsub s) l = map (tsub s') l).
  { intros l Hl. apply map_ext_in. intros u Hu. apply IH; auto. intros n M. apply H.
    econstructor; eauto. }
  destruct t; cbn [tsub]; auto; try (f_equal; apply HL; auto; fail).
  - apply H. constructor.
  - f_equal. apply IH; [left; reflexivity|]. intros n M. apply H. econstructor; [left; reflexivity | exact M].
  - f_equal; apply IH; try (left; reflexivity); try (right; left; reflexivity);
      intros n M; apply H; econstructor; try exact M; [left; reflexivity | right; left; reflexivity].
Qed.

Definition extend (s : string -> ty) (v : string) (t : ty) (n : string) : ty :=
  if String.eqb n v then t else s n.

Lemma extend_tsub s v e c t : ~ known c v -> registered c t -> tsub (extend s v e) t = tsub s t.
Proof.
  intros U R. apply tsub_ext. intros n M. unfold extend.
  destruct (String.eqb n v) eqn:E; auto. apply String.eqb_eq in E. subst.
  exfalso. apply U, R, M.
Qed.

(* A respectful choice for the old context can be extended to one for the
   context with a new variable. *)
Lemma extend_respects s c v c' e : numbered c -> plain_context c -> new_type_var c = (v, c') ->
  respects s (cx_bindings c) -> respects (extend s v e) (cx_bindings c').
Proof.
  intros N PC E R n t H. destruct (new_var_bind _ _ _ N E) as [H1 H2].
  destruct (string_dec n v) as [->|Hn]; [congruence|]. rewrite H2 in H by assumption.
  pose proof (new_var_unknown _ _ _ N E) as U.
  rewrite (extend_tsub _ _ _ c); [|exact U | apply (PC _ _ H)].
  unfold extend. apply String.eqb_neq in Hn. rewrite Hn. apply R, H.
Qed.

Lemma new_var_old s c v c' : numbered c -> new_type_var c = (v, c') ->
  respects s (cx_bindings c') -> respects s (cx_bindings c).
Proof.
  intros N E R n t H. apply R. destruct (new_var_bind _ _ _ N E) as [B1 B2].
  rewrite B2; auto. intros ->. apply (new_var_unknown _ _ _ N E). unfold known. congruence.
Qed.

Lemma registered_var c v c' : new_type_var c = (v, c') -> registered c' (TParam v).
Proof.
  intros E n M. inversion M; subst; [|contradiction]. apply (grows_new _ _ _ E).
Qed.

(* One group of types (the elements of a list, the keys of a map) checked
   against a new variable. *)
Lemma group_plain k c l v c1 o p :
  inv c -> numbered c -> plain_context c -> new_type_var c = (v, c1) ->
  (forall x, In x l -> plain x /\ registered c x) ->
  list_elements k c1 [] (TParam v) l = Some (o, p) ->
  let c2 := if is_dyn o then c1 else fst (ctx_update c1 p) in
  inv c2 /\ numbered c2 /\ plain_context c2 /\ grows c c2 /\
  ((o = TParam v /\
    (forall s, respects s (cx_bindings c2) -> respects s (cx_bindings c) /\
       forall x, In x l -> tsub s x = s v) /\
    (forall s e, respects s (cx_bindings c) -> (forall x, In x l -> tsub s x = e) ->
       respects (extend s v e) (cx_bindings c2))) \/
   (o = TDyn /\ c2 = c1 /\ forall s, respects s (cx_bindings c) ->
      ~ exists e, forall x, In x l -> tsub s x = e)).
Proof.
  intros W N PC E Hl EL.
  pose proof (inv_same _ _ W (new_type_var_same _ _ _ E)) as W1.
  pose proof (plain_context_new _ _ _ N PC E) as PC1.
  pose proof (proj1 (grows_new _ _ _ E)) as G1.
  pose proof (numbered_grows _ _ N G1) as N1.
  pose proof (plain_context_graph _ PC1) as PG.
  assert (Pv : plain (TParam v)) by exact I.
  assert (Old : forall s, respects s (cx_bindings c1) -> respects s (cx_bindings c)).
  { intros s R n t H. apply R. destruct (new_var_bind _ _ _ N E) as [B1 B2].
    rewrite B2; auto. intros ->. apply (new_var_unknown _ _ _ N E). unfold known. congruence. }
  destruct (list_elements_plain _ _ _ _ _ _ _ Pv W1 PG (fun x Hx => proj1 (Hl x Hx)) EL)
    as [(-> & W' & [G' X'] & Win & S & C)|[-> No]].
  - cbn [is_dyn ctx_update fst].
    assert (Win' : within (registered c1) (resolve (cx_bindings c1) []) (resolve (cx_bindings c1) p)).
    { apply Win; [apply registered_closed, PC1 | eapply registered_var, E|].
      intros x Hx. eapply registered_grows; [exact G1 | apply Hl, Hx]. }
    destruct (plain_context_update _ _ PC1 G' Win') as [PC2 U].
    split; [apply inv_update, W'|]. split; [eapply numbered_grows; [exact N1 | apply grows_update]|].
    split; [exact PC2|]. split; [eapply grows_trans; [exact G1 | apply grows_update]|].
    left. split; [reflexivity|]. split.
    + intros s R. apply respects_models in R.
      assert (M : models s (resolve (cx_bindings c1) p)) by (intros n u Hn; apply R; rewrite U; exact Hn).
      split; [apply Old, respects_models; eapply extends_models; eauto|]. exact (S s M).
    + intros s e R He. apply respects_models. intros n u Hn. rewrite U in Hn. revert n u Hn.
      apply (C (extend s v e)).
      * apply respects_models. exact (extend_respects _ _ _ _ _ N PC E R).
      * intros x Hx. rewrite (extend_tsub _ _ _ c); [|eapply new_var_unknown; eauto | apply Hl, Hx].
        cbn [tsub]. unfold extend. rewrite String.eqb_refl. apply He, Hx.
  - cbn [is_dyn]. split; [exact W1|]. split; [exact N1|]. split; [exact PC1|]. split; [exact G1|].
    right. split; [reflexivity|]. split; [reflexivity|]. intros s R (e & He).
    apply (No (extend s v e)).
    + apply respects_models. exact (extend_respects _ _ _ _ _ N PC E R).
    + intros x Hx. rewrite (extend_tsub _ _ _ c); [|eapply new_var_unknown; eauto | apply Hl, Hx].
      cbn [tsub]. unfold extend. rewrite String.eqb_refl. apply He, Hx.
Qed.

Lemma list_literal_plain k c l t c' :
  inv c -> numbered c -> plain_context c ->
  (forall x, In x l -> plain x /\ registered c x) ->
  list_literal_type k c l = Some (t, c') ->
  plain_context c' /\
  ((exists e, t = TList e /\ plain e /\
      (forall x, In x l -> exists j, fully_substitute j (cx_bindings c') false x = Some e)) \/
   (t = TList TDyn /\
    (forall n, known c n -> bd_find (cx_bindings c') n = bd_find (cx_bindings c) n) /\
    forall s, respects s (cx_bindings c) -> ~ exists e, forall x, In x l -> tsub s x = e)).
Proof.
  intros W N PC Hl H. unfold list_literal_type in H.
  destruct (instantiate_name c "E" eq_refl) as (v & c1 & Ei & En). rewrite Ei in H.
  destruct (list_elements k c1 [] (TParam v) l) as [[o p]|] eqn:El; [|discriminate].
  destruct (group_plain _ _ _ _ _ _ _ W N PC En Hl El) as (W2 & N2 & PC2 & G2 & Hc).
  set (c2 := if is_dyn o then c1 else fst (ctx_update c1 p)) in *.
  destruct (fully_substitute k (cx_bindings c2) false (TList o)) as [u|] eqn:Ef; [|discriminate].
  inversion H; subst t c'. split; [exact PC2|].
  destruct Hc as [(-> & S & _)|(-> & E12 & No)].
  - left. destruct k as [|k]; [discriminate|]. cbn [fully_substitute] in Ef.
    destruct (fully_substitute k (cx_bindings c2) false (TParam v)) as [e|] eqn:Ee; [|discriminate].
    inversion Ef; subst u. exists e. split; [reflexivity|]. split.
    { eapply fully_plain; [apply plain_context_graph, PC2 | | exact Ee]. exact I. }
    intros x Hx. destruct (fully_total _ false W2 x) as (j & r & Er). exists j. rewrite Er. f_equal.
    refine (fully_agree _ x (TParam v) W2 PC2 (proj1 (Hl x Hx)) I _ _ _ _ _ Er Ee).
    intros s R. apply (S s R). exact Hx.
  - right. destruct k as [|[|k]]; try discriminate. cbn in Ef. inversion Ef.
    split; [reflexivity|]. split; [|exact No].
    intros n Kn. rewrite E12. apply (new_var_bind _ _ _ N En). intros ->.
    exact (new_var_unknown _ _ _ N En Kn).
Qed.

(* The same without assuming that the variable has just been made. *)
Lemma group_core k c t l o p :
  inv c -> numbered c -> plain_context c -> plain t -> registered c t ->
  (forall x, In x l -> plain x /\ registered c x) ->
  list_elements k c [] t l = Some (o, p) ->
  let c2 := if is_dyn o then c else fst (ctx_update c p) in
  inv c2 /\ numbered c2 /\ plain_context c2 /\ grows c c2 /\
  ((o = t /\
    (forall s, respects s (cx_bindings c2) <-> respects s (cx_bindings c) /\
       forall x, In x l -> tsub s x = tsub s t)) \/
   (o = TDyn /\ c2 = c /\ forall s, respects s (cx_bindings c) ->
      ~ forall x, In x l -> tsub s x = tsub s t)).
Proof.
  intros W N PC Pt Rt Hl EL. pose proof (plain_context_graph _ PC) as PG.
  destruct (list_elements_plain _ _ _ _ _ _ _ Pt W PG (fun x Hx => proj1 (Hl x Hx)) EL)
    as [(-> & W' & [G' X'] & Win & S & C)|[-> No]].
  - assert (D : is_dyn t = false) by (destruct t; try contradiction; reflexivity).
    rewrite D. cbn [ctx_update fst].
    assert (Win' : within (registered c) (resolve (cx_bindings c) []) (resolve (cx_bindings c) p)).
    { apply Win; [apply registered_closed, PC | exact Rt|]. intros x Hx. apply Hl, Hx. }
    destruct (plain_context_update _ _ PC G' Win') as [PC2 U].
    split; [apply inv_update, W'|]. split; [eapply numbered_grows; [exact N | apply grows_update]|].
    split; [exact PC2|]. split; [apply grows_update|].
    left. split; [reflexivity|]. intros s. rewrite !respects_models. split.
    + intros R.
      assert (M : models s (resolve (cx_bindings c) p)) by (intros n u Hn; apply R; rewrite U; exact Hn).
      split; [eapply extends_models; eauto | exact (S s M)].
    + intros [R He] n u Hn. rewrite U in Hn. revert n u Hn. apply (C s R He).
  - cbn [is_dyn]. split; [exact W|]. split; [exact N|]. split; [exact PC|]. split; [apply grows_refl|].
    right. split; [reflexivity|]. split; [reflexivity|]. intros s R He.
    apply (No s); auto. apply respects_models, R.
Qed.

Lemma map_values_dyn k l : forall c o c', map_values k c TDyn l = Some (o, c') -> o = TDyn.
Proof.
  induction l as [|x l IH]; intros c o c' E; cbn in E; [congruence|].
  destruct (is_assignable k c x TDyn) as [[[] q]|]; [| |discriminate]; eauto.
Qed.

Lemma map_values_plain k t l : forall c o c',
  inv c -> plain_context c -> plain t -> registered c t ->
  (forall x, In x l -> plain x /\ registered c x) ->
  map_values k c t l = Some (o, c') ->
  (o = t /\ inv c' /\ plain_context c' /\
   forall s, respects s (cx_bindings c') <-> respects s (cx_bindings c) /\
       forall x, In x l -> tsub s x = tsub s t) \/
  (o = TDyn /\ forall s, respects s (cx_bindings c) -> ~ forall x, In x l -> tsub s x = tsub s t).
Proof.
  induction l as [|x l IH]; intros c o c' W PC Pt Rt Hl E; cbn [map_values] in E.
  - inversion E; subst. left. split; [reflexivity|]. split; [exact W|]. split; [exact PC|].
    intros s. split; [intros R; split; [exact R | intros x []] | intros [R _]; exact R].
  - destruct (is_assignable k c x t) as [[r c1]|] eqn:Ec; [|discriminate].
    destruct (Hl x (or_introl eq_refl)) as [Px Rx].
    destruct (is_assignable_plain _ _ _ _ _ _ W PC Px Pt Rx Rt Ec) as [S C].
    pose proof (is_assignable_inv _ _ _ _ _ _ W Ec) as W1.
    pose proof (is_assignable_grows _ _ _ _ _ _ Ec) as G1.
    destruct r.
    + destruct (S eq_refl) as [PC1 S1].
      apply IH in E; auto; [|eapply registered_grows; eauto|
        intros y Hy; destruct (Hl y (or_intror Hy)); split; auto; eapply registered_grows; eauto].
      destruct E as [(-> & W' & PC' & I)|[-> No]].
      * left. split; [reflexivity|]. split; [exact W'|]. split; [exact PC'|]. intros s. rewrite I. split.
        -- intros [R H]. destruct (S1 s R) as [R0 E0]. split; auto. intros y [<-|Hy]; auto.
        -- intros [R H]. split; [|intros; apply H; right; auto].
           apply (C s R). apply H. left. reflexivity.
      * right. split; [reflexivity|]. intros s R H.
        destruct (C s R (H x (or_introl eq_refl))) as [_ R1]. apply (No s R1).
        intros; apply H; right; auto.
    + apply map_values_dyn in E. right. split; [exact E|]. intros s R H.
      destruct (C s R (H x (or_introl eq_refl))). discriminate.
Qed.

Lemma map_literal_plain k c ks vs t c' :
  inv c -> numbered c -> plain_context c ->
  (forall x, In x (ks ++ vs) -> plain x /\ registered c x) ->
  map_literal_type k c ks vs = Some (t, c') ->
  exists a b, t = TMap a b /\
  ((b = TDyn /\
    forall s, respects s (cx_bindings c) ->
      (exists e, forall x, In x ks -> tsub s x = e) \/
      (forall s', respects s' (cx_bindings c) -> ~ exists e, forall x, In x ks -> tsub s' x = e) ->
      ~ exists e, forall x, In x vs -> tsub s x = e) \/
   (plain_context c' /\ plain b /\
    (forall x, In x vs -> exists j, fully_substitute j (cx_bindings c') false x = Some b) /\
    ((a = TDyn /\ forall s, respects s (cx_bindings c) -> ~ exists e, forall x, In x ks -> tsub s x = e) \/
     (plain a /\ forall x, In x ks -> exists j, fully_substitute j (cx_bindings c') false x = Some a)))).
Proof.
  intros W N PC Hl H. unfold map_literal_type in H.
  destruct (instantiate_name c "K" eq_refl) as (kv & c1 & Ei & En). rewrite Ei in H.
  destruct (instantiate_name c1 "V" eq_refl) as (vv & c2 & Ei2 & En2). rewrite Ei2 in H.
  pose proof (inv_same _ _ W (new_type_var_same _ _ _ En)) as W1.
  pose proof (plain_context_new _ _ _ N PC En) as PC1.
  pose proof (proj1 (grows_new _ _ _ En)) as G1.
  pose proof (numbered_grows _ _ N G1) as N1.
  pose proof (inv_same _ _ W1 (new_type_var_same _ _ _ En2)) as W2.
  pose proof (plain_context_new _ _ _ N1 PC1 En2) as PC2.
  pose proof (proj1 (grows_new _ _ _ En2)) as G2.
  pose proof (numbered_grows _ _ N1 G2) as N2.
  pose proof (grows_trans _ _ _ G1 G2) as G12.
  assert (Rk : registered c2 (TParam kv)).
  { eapply registered_grows; [exact G2 | eapply registered_var, En]. }
  pose proof (registered_var _ _ _ En2) as Rv.
  destruct (list_elements k c2 [] (TParam kv) ks) as [[o p]|] eqn:El; [|discriminate].
  assert (HlK : forall x, In x ks -> plain x /\ registered c2 x).
  { intros x Hx. destruct (Hl x) as [P R]; [apply in_or_app; auto|]. split; auto. eapply registered_grows; eauto. }
  destruct (group_core k c2 (TParam kv) ks o p W2 N2 PC2 I Rk HlK El) as (W3 & N3 & PC3 & G3 & Hk).
  set (c3 := if is_dyn o then c2 else fst (ctx_update c2 p)) in *.
  destruct (map_values k c3 (TParam vv) vs) as [[vo c4]|] eqn:Ev; [|discriminate].
  assert (HlV : forall x, In x vs -> plain x /\ registered c3 x).
  { intros x Hx. destruct (Hl x) as [P R]; [apply in_or_app; auto|]. split; auto.
    eapply registered_grows; [exact G3|]. eapply registered_grows; eauto. }
  assert (Rv3 : registered c3 (TParam vv)) by (eapply registered_grows; eauto).
  pose proof (map_values_plain k (TParam vv) vs c3 vo c4 W3 PC3 I Rv3 HlV Ev) as Hv.
  destruct (fully_substitute k (cx_bindings c4) false (TMap o vo)) as [u|] eqn:Ef; [|discriminate].
  inversion H; subst t c'. clear H.
  destruct k as [|k]; [discriminate|]. cbn [fully_substitute] in Ef.
  destruct (fully_substitute k (cx_bindings c4) false o) as [a|] eqn:Ea; [|discriminate].
  destruct (fully_substitute k (cx_bindings c4) false vo) as [b|] eqn:Eb; [|discriminate].
  inversion Ef; subst u. exists a, b. split; [reflexivity|].
  (* choices for the old context extended to the new variables *)
  assert (Ext : forall s ek ev, respects s (cx_bindings c) ->
     respects (extend (extend s kv ek) vv ev) (cx_bindings c2)).
  { intros s ek ev R. apply (extend_respects _ _ _ _ _ N1 PC1 En2).
    exact (extend_respects _ _ _ _ _ N PC En R). }
  assert (ExtT : forall s ek ev x, In x (ks ++ vs) ->
     tsub (extend (extend s kv ek) vv ev) x = tsub s x).
  { intros s ek ev x Hx. destruct (Hl x Hx) as [_ R].
    rewrite (extend_tsub _ _ _ c1); [|eapply new_var_unknown; eauto | eapply registered_grows; eauto].
    rewrite (extend_tsub _ _ _ c); [reflexivity | eapply new_var_unknown; eauto | exact R]. }
  assert (Kk : forall s ek ev, extend (extend s kv ek) vv ev kv = ek).
  { intros s ek ev. unfold extend. destruct (String.eqb kv vv) eqn:Eq.
    - apply String.eqb_eq in Eq. exfalso. apply (new_var_unknown _ _ _ N1 En2). rewrite <- Eq.
      apply (grows_new _ _ _ En).
    - rewrite String.eqb_refl. reflexivity. }
  assert (Kv : forall s ek ev, extend (extend s kv ek) vv ev vv = ev).
  { intros s ek ev. unfold extend. rewrite String.eqb_refl. reflexivity. }
  destruct Hv as [(-> & W4 & PC4 & I4)|[-> No]].
  - right. split; [exact PC4|]. split; [eapply fully_plain; [apply plain_context_graph, PC4 | | exact Eb]; exact I|].
    split.
    { intros x Hx. destruct (fully_total _ false W4 x) as (j & r & Er). exists j. rewrite Er. f_equal.
      refine (fully_agree _ x (TParam vv) W4 PC4 (proj1 (HlV x Hx)) I _ _ _ _ _ Er Eb).
      intros s R. apply (proj1 (I4 s) R), Hx. }
    destruct Hk as [(-> & Ik)|(-> & Ec & No)].
    + right. split; [eapply fully_plain; [apply plain_context_graph, PC4 | | exact Ea]; exact I|].
      intros x Hx. destruct (fully_total _ false W4 x) as (j & r & Er). exists j. rewrite Er. f_equal.
      refine (fully_agree _ x (TParam kv) W4 PC4 (proj1 (HlK x Hx)) I _ _ _ _ _ Er Ea).
      intros s R. destruct (proj1 (I4 s) R) as [R3 _]. apply (proj1 (Ik s) R3), Hx.
    + left. split; [destruct k as [|k]; [discriminate|]; cbn in Ea; congruence|].
      intros s R (e & He). apply (No (extend (extend s kv e) vv TDyn)); [apply Ext, R|].
      intros x Hx. rewrite ExtT by (apply in_or_app; auto). cbn [tsub]. rewrite Kk. apply He, Hx.
  - left. split; [destruct k as [|k]; [discriminate|]; cbn in Eb; congruence|].
    intros s R Ha (ev & Hev).
    assert (Ra : exists ek, respects (extend (extend s kv ek) vv ev) (cx_bindings c3)).
    { destruct Hk as [(-> & Ik)|(-> & Ec & Nk)].
      - destruct Ha as [(ek & Hek)|Ha].
        + exists ek. apply Ik. split; [apply Ext, R|]. intros x Hx.
          rewrite ExtT by (apply in_or_app; auto). cbn [tsub]. rewrite Kk. apply Hek, Hx.
        + exfalso. destruct (full_all _ W3) as [K HK].
          assert (R3 : respects (full_sub K (cx_bindings c3)) (cx_bindings c3)).
          { apply respects_models. apply full_models; auto. apply plain_context_graph, PC3. }
          destruct (proj1 (Ik _) R3) as [R2 E2].
          apply (Ha _ (new_var_old _ _ _ _ N En (new_var_old _ _ _ _ N1 En2 R2))).
          eexists. exact E2.
      - exists TDyn. rewrite Ec. apply Ext, R. }
    destruct Ra as (ek & Ra). apply (No _ Ra). intros x Hx.
    rewrite ExtT by (apply in_or_app; auto). cbn [tsub]. rewrite Kv. apply Hev, Hx.
Qed.
