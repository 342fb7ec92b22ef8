(* On plain types, assignability is unification. *)
From Coq Require Import String List Bool NArith Relations Wellfounded Lia Arith.
From Verif Require Import M_Infer S_Infer L_Infer L_Infer2 L_Unify.
Import ListNotations.
Open Scope list_scope.

Lemma plain_opaque n ps : plain (TOpaque n ps) <-> forall u, In u ps -> plain u.
Proof.
  cbn. induction ps as [|x ps IH]; cbn.
  - split; [intros _ u [] | auto].
  - rewrite IH. split.
    + intros [H1 H2] u [<-|Hu]; auto.
    + intros H. split; auto.
Qed.

Lemma plain_params t u : plain t -> In u (params t) -> plain u.
Proof.
  destruct t; try contradiction; cbn [params]; intros P Hu; try contradiction.
  - destruct Hu as [<-|[]]. exact P.
  - cbn in P. destruct Hu as [<-|[<-|[]]]; tauto.
  - apply (proj1 (plain_opaque _ _) P). exact Hu.
Qed.

Lemma plain_eqb a : forall c, plain a -> ty_eqb a c = true -> a = c.
Proof.
  induction a as [a IH] using ty_params_ind. intros c P E.
  destruct a, c; try contradiction; try discriminate E; auto.
  - cbn in E. apply prim_eqb_spec in E. congruence.
  - cbn in E. apply String.eqb_eq in E. congruence.
  - cbn in E. apply String.eqb_eq in E. congruence.
  - cbn in E. f_equal. apply IH; auto. left. reflexivity.
  - cbn in E, P. apply andb_true_iff in E. destruct E, P.
    f_equal; apply IH; auto; cbn; auto.
  - rewrite ty_eqb_opaque in E. apply andb_true_iff in E. destruct E as [E1 E2].
    apply String.eqb_eq in E1. subst. f_equal.
    pose proof (proj1 (plain_opaque _ _) P) as P'. clear P. cbn [params] in IH.
    revert ps0 E2. induction ps as [|x ps IHp]; intros [|y qs] E2; try discriminate; auto.
    cbn in E2. apply andb_true_iff in E2. destruct E2 as [E2 E3]. f_equal.
    + apply IH; cbn; auto. apply P'. left. reflexivity.
    + apply IHp; auto; intros u Hu.
      * intros. apply IH; cbn; auto.
      * apply P'. right. exact Hu.
Qed.

Definition models (s : string -> ty) (g : graph) : Prop :=
  forall n u, g n = Some u -> s n = tsub s u.

Definition plain_graph (g : graph) : Prop := forall n u, g n = Some u -> plain u.

Lemma reach_plain g t u : plain_graph g -> plain t -> reach g t u -> plain u.
Proof.
  intros G P R. induction R; auto. apply IHR. destruct H as [H|[n [_ H]]].
  - apply (plain_params t); auto.
  - eapply G; eauto.
Qed.

Lemma substitute_tsub k b p t u s :
  substitute k b p t = Some u -> models s (resolve b p) -> tsub s u = tsub s t.
Proof.
  revert t. induction k as [|k IH]; intros t H M; [discriminate|]. cbn in H.
  destruct t; try (inversion H; reflexivity).
  destruct (resolve b p name) as [w|] eqn:E.
  - rewrite (IH _ H M). symmetry. exact (M _ _ E).
  - inversion H; reflexivity.
Qed.

Lemma plain_not_union t : plain t -> is_union t = false /\ is_null t = false /\
  is_wildcard t = false /\ wrapper_to_primitive t = None /\ tkind_eqb (kind_of t) KType = false /\
  tkind_eqb (kind_of t) KEnum = false.
Proof. destruct t; try contradiction; cbn; auto 10. Qed.

Lemma compare_plain k lg b p f t r :
  plain_graph (resolve b p) -> plain f -> plain t ->
  compare_generality k lg b p f t = Some r -> r = kEquivalent.
Proof.
  intros G. revert f t r. induction k as [|k IH]; intros f t r Pf Pt H; [discriminate|].
  cbn [compare_generality] in H.
  destruct (substitute k b p f) as [f1|] eqn:Ef; [|discriminate].
  destruct (substitute k b p t) as [t1|] eqn:Et; [|discriminate].
  destruct (ty_eqb f1 t1); [congruence|].
  assert (Pf1 : plain f1) by (eapply reach_plain; [exact G | exact Pf | apply (substitute_reach _ _ _ _ _ Ef)]).
  assert (Pt1 : plain t1) by (eapply reach_plain; [exact G | exact Pt | apply (substitute_reach _ _ _ _ _ Et)]).
  destruct (plain_not_union _ Pf1) as (U1 & _). destruct (plain_not_union _ Pt1) as (U2 & N2 & _).
  rewrite U1, U2, N2, andb_false_r in H. cbn [andb] in H.
  destruct f1, t1; try (inversion H; reflexivity); try contradiction.
  - cbn in Pf1, Pt1. eapply IH; [| |exact H]; auto.
  - cbn in Pf1, Pt1. destruct Pf1, Pt1.
    destruct (compare_generality k lg b p f1_1 t1_1) as [g1|] eqn:E1; [|discriminate].
    apply IH in E1; auto. subst.
    destruct (compare_generality k lg b p f1_2 t1_2) as [g2|] eqn:E2; [|discriminate].
    apply IH in E2; auto. subst. inversion H; reflexivity.
  - destruct (String.eqb name name0 && _)%bool; [|inversion H; reflexivity].
    pose proof (proj1 (plain_opaque _ _) Pf1) as Qf. pose proof (proj1 (plain_opaque _ _) Pt1) as Qt.
    clear Pf1 Pt1 U1 U2 N2 Ef Et. revert ps0 Qt H. induction ps as [|x ps IHp]; intros [|y qs] Qt H; cbn in H;
      try (inversion H; reflexivity).
    destruct (compare_generality k lg b p x y) as [g|] eqn:E; [|discriminate].
    apply IH in E; [|apply Qf; left; reflexivity | apply Qt; left; reflexivity]. subst.
    apply (IHp) with (ps0 := qs); auto.
    + intros u Hu. apply Qf. right. exact Hu.
    + intros u Hu. apply Qt. right. exact Hu.
Qed.

Lemma widen_plain k lg b chk p to f t r :
  plain_graph (resolve b p) -> plain f -> plain t ->
  try_widen k lg b chk p to f t = Some r -> r = None.
Proof.
  intros G Pf Pt. unfold try_widen. destruct to; try congruence.
  destruct (sm_find p name); [|congruence].
  destruct (compare_generality k lg b p f t) as [g|] eqn:E; [|discriminate].
  apply compare_plain in E; auto. subst. congruence.
Qed.

Lemma concrete_plain lg chk p f t :
  plain f -> plain t -> is_param f = false -> is_param t = false ->
  assign_concrete lg chk p f t =
  if (negb (tkind_eqb (kind_of t) (kind_of f))
      || negb (String.eqb (type_name t) (type_name f)))%bool
  then Some (false, p)
  else if negb (Nat.eqb (length (params t)) (length (params f))) then Some (false, p)
  else check_params chk p (params f) (params t).
Proof.
  intros Pf Pt _ _. unfold assign_concrete.
  destruct (plain_not_union _ Pf) as (_ & N1 & W1 & R1 & K1 & E1).
  destruct (plain_not_union _ Pt) as (_ & N2 & W2 & R2 & K2 & E2).
  rewrite R1, R2, N1, N2, W1, W2, K1, K2, E1, E2, !andb_false_r. reflexivity.
Qed.

(* A step of checking: the graph stays plain, what was bound stays, and ... *)
Definition extends (g g' : graph) : Prop := forall n u, g n = Some u -> g' n = Some u.

Lemma extends_models s g g' : extends g g' -> models s g' -> models s g.
Proof. intros E M n u H. apply M, E, H. Qed.

Lemma plain_graph_set b p n u :
  plain_graph (resolve b p) -> plain u -> plain_graph (resolve b (sm_set p n u)).
Proof.
  intros G P m v. rewrite resolve_set. destruct (String.eqb m n); [|apply G].
  intros [= <-]. exact P.
Qed.

Lemma extends_set b p n u :
  resolve b p n = None -> extends (resolve b p) (resolve b (sm_set p n u)).
Proof.
  intros N m v H. rewrite resolve_set. destruct (String.eqb m n) eqn:E; [|exact H].
  apply String.eqb_eq in E. subst. congruence.
Qed.

Definition sound_step (b : bindings) (p p' : smap) : Prop :=
  plain_graph (resolve b p') /\ extends (resolve b p) (resolve b p').

Lemma sound_refl b p : plain_graph (resolve b p) -> sound_step b p p.
Proof. intros G. split; auto. intros n u. auto. Qed.

Lemma same_head s f t :
  plain f -> plain t -> is_param f = false -> is_param t = false ->
  tkind_eqb (kind_of t) (kind_of f) = true -> type_name t = type_name f ->
  (tsub s f = tsub s t <-> map (tsub s) (params f) = map (tsub s) (params t)).
Proof.
  intros Pf Pt Nf Nt K N. destruct f, t; try contradiction; try discriminate K;
    try discriminate Nf; try discriminate Nt; cbn in *; subst; try tauto;
    split; try congruence.
  - apply prim_eqb_spec in K. congruence.
Qed.

Lemma tsub_head s f t :
  plain f -> plain t -> is_param f = false -> is_param t = false ->
  tsub s f = tsub s t ->
  tkind_eqb (kind_of t) (kind_of f) = true /\ type_name t = type_name f /\
  length (params t) = length (params f).
Proof.
  intros Pf Pt Nf Nt E. destruct f, t; try contradiction; try discriminate Nf;
    try discriminate Nt; cbn in E; try discriminate E; cbn; auto.
  - inversion E. subst. split; [apply prim_eqb_refl | auto].
  - inversion E. auto.
  - inversion E. split; auto. split; auto.
    rewrite <- (map_length (tsub s) ps), <- (map_length (tsub s) ps0). congruence.
Qed.

Lemma check_params_sound b chk fs : forall ts p r p',
  (forall q x y r q', plain_graph (resolve b q) -> plain x -> plain y ->
     chk q x y = Some (r, q') -> sound_step b q q' /\
     (r = true -> forall s, models s (resolve b q') -> tsub s x = tsub s y)) ->
  plain_graph (resolve b p) -> (forall x, In x fs -> plain x) -> (forall x, In x ts -> plain x) ->
  check_params chk p fs ts = Some (r, p') ->
  sound_step b p p' /\
  (r = true -> length fs = length ts ->
   forall s, models s (resolve b p') -> map (tsub s) fs = map (tsub s) ts).
Proof.
  induction fs as [|x fs IH]; intros [|y ts] p r p' Hc G Pf Pt H; cbn in H;
    try (inversion H; subst; split; [apply sound_refl, G | intros _ L; try discriminate L; auto]; fail).
  destruct (chk p x y) as [[[] q]|] eqn:E; [| |discriminate].
  - destruct (Hc _ _ _ _ _ G (Pf x (or_introl eq_refl)) (Pt y (or_introl eq_refl)) E) as [[G1 X1] S1].
    destruct (IH ts q r p' Hc G1) as [[G2 X2] S2]; auto.
    { intros; apply Pf; right; auto. }
    { intros; apply Pt; right; auto. }
    split; [split; auto; intros n u Hn; auto|].
    intros Hr L s M. cbn. f_equal.
    + apply S1; auto. eapply extends_models; eauto.
    + apply S2; auto.
  - inversion H; subst.
    destruct (Hc _ _ _ _ _ G (Pf x (or_introl eq_refl)) (Pt y (or_introl eq_refl)) E) as [S1 _].
    split; auto. discriminate.
Qed.

Lemma assignable_sound k lg b : forall p f t r p',
  plain_graph (resolve b p) -> plain f -> plain t ->
  assignable_internal k lg b p f t = Some (r, p') ->
  sound_step b p p' /\
  (r = true -> forall s, models s (resolve b p') -> tsub s f = tsub s t).
Proof.
  induction k as [|k IH]; intros p f t r p' G Pf Pt H; [discriminate|].
  cbn [assignable_internal] in H.
  destruct (substitute k b p t) as [t1|] eqn:Et; [|discriminate].
  destruct (substitute k b p f) as [f1|] eqn:Ef; [|discriminate].
  destruct (substitute_reach _ _ _ _ _ Et) as [Rt Nt].
  destruct (substitute_reach _ _ _ _ _ Ef) as [Rf Nf].
  assert (Pf1 : plain f1) by (exact (reach_plain _ _ _ G Pf Rf)).
  assert (Pt1 : plain t1) by (exact (reach_plain _ _ _ G Pt Rt)).
  assert (UP : forall q, sound_step b p q ->
     (forall s, models s (resolve b q) -> tsub s f1 = tsub s t1) ->
     forall s, models s (resolve b q) -> tsub s f = tsub s t).
  { intros q [_ X] Hs s M.
    rewrite <- (substitute_tsub _ _ _ _ _ s Ef), <- (substitute_tsub _ _ _ _ _ s Et); auto;
      eapply extends_models; eauto. }
  destruct (ty_eqb t1 f1) eqn:Eq.
  { inversion H; subst. split; [apply sound_refl, G|]. intros _. apply UP; [apply sound_refl, G|].
    intros s _. apply plain_eqb in Eq; auto. congruence. }
  destruct (is_param t1 || is_param f1)%bool eqn:Ep.
  { unfold assignable_with_constraints in H.
    assert (A : forall n u, f1 = TParam n /\ u = t1 \/ t1 = TParam n /\ u = f1 ->
       sound_step b p (sm_set p n u) /\
       (true = true -> forall s, models s (resolve b (sm_set p n u)) -> tsub s f = tsub s t)).
    { intros n u Hu.
      assert (Hn : resolve b p n = None) by (destruct Hu as [[-> _]|[-> _]]; auto).
      assert (SS : sound_step b p (sm_set p n u)).
      { split; [apply plain_graph_set; auto; destruct Hu as [[_ ->]|[_ ->]]; auto | apply extends_set, Hn]. }
      split; [exact SS|]. intros _. apply UP; auto. intros s M.
      assert (E : s n = tsub s u) by (apply M; rewrite resolve_set, String.eqb_refl; reflexivity).
      destruct Hu as [[-> ->]|[-> ->]]; cbn [tsub]; congruence. }
    assert (B : sound_step b p p /\ (false = true -> forall s, models s (resolve b p) -> tsub s f = tsub s t))
      by (split; [apply sound_refl, G | discriminate]).
    assert (NW : (is_wildcard f1 || is_wildcard t1)%bool = false).
    { destruct (plain_not_union _ Pf1) as (_ & _ & -> & _), (plain_not_union _ Pt1) as (_ & _ & -> & _). reflexivity. }
    rewrite NW in H.
    destruct f1, t1; try discriminate Ep;
      try (match type of H with
      | context [occurs_within ?k ?b ?p ?n ?t] =>
          destruct (occurs_within k b p n t) as [[]|] eqn:E; [| |discriminate];
          inversion H; subst; [exact B | ]
      end; apply A; tauto).
    inversion H; subst. destruct (String.eqb name0 name) eqn:En.
    - apply String.eqb_eq in En. subst. rewrite ty_eqb_refl in Eq. discriminate.
    - apply A; auto. }
  apply orb_false_iff in Ep. destruct Ep as [Pt2 Pf2].
  destruct (try_widen k lg b (assignable_internal k lg b) p t f1 t1) as [w|] eqn:Ew; [|discriminate].
  apply widen_plain in Ew; auto. subst w.
  rewrite concrete_plain in H; auto.
  destruct (negb _ || negb _)%bool eqn:Ek.
  { inversion H; subst. split; [apply sound_refl, G | discriminate]. }
  destruct (negb (Nat.eqb _ _)) eqn:El.
  { inversion H; subst. split; [apply sound_refl, G | discriminate]. }
  apply orb_false_iff in Ek. destruct Ek as [Ek En].
  apply negb_false_iff in Ek, En, El. apply String.eqb_eq in En. apply Nat.eqb_eq in El.
  apply (check_params_sound b) in H; auto.
  - destruct H as [S1 S2]. split; auto. intros Hr. apply UP; auto. intros s M.
    apply same_head; auto.
  - intros x Hx. apply (plain_params f1); auto.
  - intros x Hx. apply (plain_params t1); auto.
Qed.

(* Completeness: a common instance is never refused. *)
Fixpoint tsize (t : ty) : nat :=
  match t with
  | TList e => S (tsize e)
  | TMap k v => S (tsize k + tsize v)
  | TOpaque _ ps | TType ps | TFunction ps => S (list_sum (map tsize ps))
  | _ => 1
  end.

Lemma tsize_in u l : In u l -> (tsize u <= list_sum (map tsize l))%nat.
Proof.
  induction l as [|x l IH]; cbn; [tauto|]. intros [->|H]; [lia|]. specialize (IH H).
  unfold list_sum in IH. lia.
Qed.

Lemma tsize_param t u : In u (params t) -> (tsize u < tsize t)%nat.
Proof.
  destruct t; cbn [params tsize]; try (intros []; fail);
    try (intros H; apply tsize_in in H; lia).
  - intros [->|[]]. lia.
  - intros [->|[->|[]]]; lia.
Qed.

Lemma params_tsub s t u : is_param t = false -> In u (params t) -> In (tsub s u) (params (tsub s t)).
Proof.
  destruct t; cbn; try tauto; try discriminate; intros _; try (apply in_map).
  - intros [->|[]]; auto.
  - intros [->|[->|[]]]; auto.
Qed.

Lemma reach_size s g t u :
  models s g -> reach g t u -> (tsize (tsub s u) <= tsize (tsub s t))%nat.
Proof.
  intros M R. induction R; [lia|]. destruct H as [H|[n [-> H]]].
  - assert (P : is_param t = false) by (destruct t; auto; contradiction).
    pose proof (tsize_param _ _ (params_tsub s _ _ P H)). lia.
  - cbn. rewrite (M _ _ H). exact IHR.
Qed.

Lemma occurs_true k b p v t :
  occurs_within k b p v t = Some true -> reach (resolve b p) t (TParam v).
Proof.
  revert t. induction k as [|k IH]; intros t H; [discriminate|]. cbn in H.
  assert (HA : forall l, any_opt (occurs_within k b p v) l = Some true ->
     exists x, In x l /\ reach (resolve b p) x (TParam v)).
  { induction l as [|x l IHl]; cbn; [discriminate|].
    destruct (occurs_within k b p v x) as [[]|] eqn:E; try discriminate.
    - intros _. exists x. split; auto.
    - intros Hl. destruct (IHl Hl) as (y & H1 & H2). exists y. auto. }
  assert (HB : any_opt (occurs_within k b p v) (params t) = Some true -> reach (resolve b p) t (TParam v)).
  { intros H0. destruct (HA _ H0) as (x & H1 & H2). econstructor; [left; exact H1 | exact H2]. }
  destruct t; auto.
  destruct (String.eqb name v) eqn:E.
  - apply String.eqb_eq in E. subst. constructor.
  - destruct (resolve b p name) as [w|] eqn:Er; [|discriminate].
    econstructor; [right; eauto | apply IH, H].
Qed.

Lemma occurs_no_instance k b p v t s :
  models s (resolve b p) -> is_param t = false ->
  occurs_within k b p v t = Some true -> s v = tsub s t -> False.
Proof.
  intros M N H E. apply occurs_true in H. inversion H; subst; [discriminate|].
  destruct H0 as [H0|[n [-> _]]]; [|discriminate].
  pose proof (reach_size s _ _ _ M H1) as L. cbn in L. rewrite E in L.
  pose proof (tsize_param _ _ (params_tsub s _ _ N H0)). lia.
Qed.

Lemma models_set s b p n u :
  models s (resolve b p) -> s n = tsub s u -> models s (resolve b (sm_set p n u)).
Proof.
  intros M E m v. rewrite resolve_set. destruct (String.eqb m n) eqn:Em; [|apply M].
  apply String.eqb_eq in Em. subst. intros [= <-]. exact E.
Qed.

Lemma check_params_complete b s chk fs : forall ts p r p',
  (forall q x y r q', plain_graph (resolve b q) -> plain x -> plain y ->
     chk q x y = Some (r, q') -> models s (resolve b q) -> tsub s x = tsub s y ->
     r = true /\ models s (resolve b q') /\ plain_graph (resolve b q')) ->
  plain_graph (resolve b p) -> (forall x, In x fs -> plain x) -> (forall x, In x ts -> plain x) ->
  check_params chk p fs ts = Some (r, p') -> models s (resolve b p) ->
  map (tsub s) fs = map (tsub s) ts ->
  r = true /\ models s (resolve b p') /\ plain_graph (resolve b p').
Proof.
  induction fs as [|x fs IH]; intros [|y ts] p r p' Hc G Pf Pt H M E; cbn in H, E;
    try discriminate E; try (inversion H; subst; auto; fail).
  inversion E as [[E1 E2]].
  destruct (chk p x y) as [[c q]|] eqn:Ec; [|discriminate].
  destruct (Hc _ _ _ _ _ G (Pf x (or_introl eq_refl)) (Pt y (or_introl eq_refl)) Ec M E1) as (-> & M1 & G1).
  eapply IH; [exact Hc | exact G1 | | | exact H | exact M1 | exact E2]; intros; [apply Pf | apply Pt]; right; auto.
Qed.

Lemma assignable_complete k lg b s : forall p f t r p',
  plain_graph (resolve b p) -> plain f -> plain t ->
  assignable_internal k lg b p f t = Some (r, p') ->
  models s (resolve b p) -> tsub s f = tsub s t ->
  r = true /\ models s (resolve b p').
Proof.
  induction k as [|k IH]; intros p f t r p' G Pf Pt H M E; [discriminate|].
  pose proof H as H0. cbn [assignable_internal] in H.
  destruct (substitute k b p t) as [t1|] eqn:Et; [|discriminate].
  destruct (substitute k b p f) as [f1|] eqn:Ef; [|discriminate].
  destruct (substitute_reach _ _ _ _ _ Et) as [Rt Nt].
  destruct (substitute_reach _ _ _ _ _ Ef) as [Rf Nf].
  assert (Pf1 : plain f1) by (exact (reach_plain _ _ _ G Pf Rf)).
  assert (Pt1 : plain t1) by (exact (reach_plain _ _ _ G Pt Rt)).
  assert (E1 : tsub s f1 = tsub s t1).
  { rewrite (substitute_tsub _ _ _ _ _ s Ef M), (substitute_tsub _ _ _ _ _ s Et M). exact E. }
  destruct (ty_eqb t1 f1) eqn:Eq. { inversion H; subst. auto. }
  destruct (is_param t1 || is_param f1)%bool eqn:Ep.
  { unfold assignable_with_constraints in H.
    assert (A : forall n u, f1 = TParam n /\ u = t1 \/ t1 = TParam n /\ u = f1 ->
       true = true /\ models s (resolve b (sm_set p n u))).
    { intros n u Hu. split; auto. apply models_set; auto.
      destruct Hu as [[-> ->]|[-> ->]]; cbn in E1; congruence. }
    destruct f1, t1; try discriminate Ep; try contradiction;
      try (match type of H with
      | context [occurs_within ?k ?b ?p ?n ?t] =>
          destruct (occurs_within k b p n t) as [[]|] eqn:Eo; [| |discriminate];
          inversion H; subst;
          [exfalso; refine (occurs_no_instance _ _ _ _ _ _ M _ Eo _); [reflexivity | cbn in *; congruence] | ]
      end; apply A; tauto).
    inversion H; subst. destruct (String.eqb name0 name) eqn:En; [auto | apply A; auto]. }
  apply orb_false_iff in Ep. destruct Ep as [Pt2 Pf2].
  destruct (try_widen k lg b (assignable_internal k lg b) p t f1 t1) as [w|] eqn:Ew; [|discriminate].
  apply widen_plain in Ew; auto. subst w.
  rewrite concrete_plain in H; auto.
  destruct (tsub_head s f1 t1) as (K & N & L); auto.
  rewrite K, N, String.eqb_refl, L, Nat.eqb_refl in H. cbn [negb orb] in H.
  apply (check_params_complete b s) in H; auto.
  - tauto.
  - intros q x y r0 q' Gq Px Py Hq Mq Eq'. destruct (IH _ _ _ _ _ Gq Px Py Hq Mq Eq') as [R1 R2].
    destruct (assignable_sound _ _ _ _ _ _ _ _ Gq Px Py Hq) as [[G' _] _]. auto.
  - intros x Hx. apply (plain_params f1); auto.
  - intros x Hx. apply (plain_params t1); auto.
  - apply (proj1 (same_head s f1 t1 Pf1 Pt1 Pf2 Pt2 K N)); auto.
Qed.

(* --- full substitution -------------------------------------------------- *)

Definition full_sub (k : nat) (b : bindings) (n : string) : ty :=
  match fully_substitute k b false (TParam n) with Some u => u | None => TParam n end.

Lemma full_all b : wf (resolve b []) ->
  exists K, forall n, exists u, fully_substitute K b false (TParam n) = Some u.
Proof.
  intros W.
  assert (HL : forall l : list string, exists K, forall n, In n l ->
     exists u, fully_substitute K b false (TParam n) = Some u).
  { induction l as [|n l [K HK]].
    - exists 0%nat. intros n [].
    - destruct (fully_total b false W (TParam n)) as (k & u & H).
      exists (Nat.max k K). intros m [<-|Hm].
      + exists u. apply (fully_mono _ _ _ _ _ H). lia.
      + destruct (HK _ Hm) as [v Hv]. exists v. apply (fully_mono _ _ _ _ _ Hv). lia. }
  destruct (HL (map fst b)) as [K HK]. exists (Nat.max 2 K). intros n.
  destruct (in_dec string_dec n (map fst b)) as [Hn|Hn].
  - destruct (HK n Hn) as [u Hu]. exists u. apply (fully_mono _ _ _ _ _ Hu). lia.
  - exists (TParam n). apply (fully_mono 2); [|lia].
    assert (Hr : resolve b [] n = None).
    { unfold resolve. cbn. clear - Hn. induction b as [|[m o] b IH]; cbn; auto.
      cbn in Hn. destruct (String.eqb n m) eqn:E.
      - apply String.eqb_eq in E. subst. tauto.
      - apply IH. tauto. }
    cbn [fully_substitute substitute]. rewrite Hr. reflexivity.
Qed.

Lemma fully_det k k' b d t a a' :
  fully_substitute k b d t = Some a -> fully_substitute k' b d t = Some a' -> a = a'.
Proof.
  intros H H'. apply (fully_mono _ _ _ _ _) with (k' := Nat.max k k') in H; [|lia].
  apply (fully_mono _ _ _ _ _) with (k' := Nat.max k k') in H'; [|lia]. congruence.
Qed.

Lemma fully_tsub b K : plain_graph (resolve b []) ->
  (forall n, exists u, fully_substitute K b false (TParam n) = Some u) ->
  forall k t a, plain t -> fully_substitute k b false t = Some a -> a = tsub (full_sub K b) t.
Proof.
  intros G HK k. induction k as [|k IH]; intros t a P H; [discriminate|].
  destruct t; try contradiction; try (cbn in H; inversion H; reflexivity).
  - cbn [tsub]. unfold full_sub. destruct (HK name) as [u Hu]. rewrite Hu.
    eapply fully_det; eauto.
  - cbn in H. destruct (fully_substitute k b false t) as [x|] eqn:E; [|discriminate].
    inversion H; subst. cbn [tsub]. f_equal. apply IH; auto.
  - cbn in H, P. destruct P as [P1 P2].
    destruct (fully_substitute k b false t1) as [x|] eqn:E; [|discriminate].
    destruct (fully_substitute k b false t2) as [y|] eqn:E2; [|discriminate].
    inversion H; subst. cbn. rewrite (IH _ _ P1 E), (IH _ _ P2 E2). reflexivity.
  - cbn [fully_substitute] in H.
    destruct (map_opt (fully_substitute k b false) ps) as [qs|] eqn:E; [|discriminate].
    inversion H; subst. cbn [tsub]. f_equal.
    pose proof (proj1 (plain_opaque _ _) P) as Q. clear P H. revert qs E.
    induction ps as [|x ps IHp]; intros qs E; cbn in E; [inversion E; reflexivity|].
    destruct (fully_substitute k b false x) as [x'|] eqn:Ex; [|discriminate].
    destruct (map_opt (fully_substitute k b false) ps) as [ps'|] eqn:Eps; [|discriminate].
    inversion E; subst. cbn [map]. f_equal.
    + apply IH; auto. apply Q. left. reflexivity.
    + apply IHp; auto. intros u Hu. apply Q. right. exact Hu.
Qed.

Lemma fully_param k b d n :
  fully_substitute (S k) b d (TParam n) =
  match substitute k b [] (TParam n) with
  | None => None
  | Some (TParam n) => Some (if d then TDyn else TParam n)
  | Some u => fully_substitute k b d u
  end.
Proof. reflexivity. Qed.

Lemma fully_bound b n u k a :
  resolve b [] n = Some u -> fully_substitute k b false u = Some a ->
  wf (resolve b []) -> exists k', fully_substitute k' b false (TParam n) = Some a.
Proof.
  intros R H W. destruct (substitute_total b [] W u) as (k1 & w & S1).
  destruct (is_param u) eqn:Pu.
  - destruct u; try discriminate. destruct k as [|k]; [discriminate|].
    rewrite fully_param in H.
    destruct (substitute k b [] (TParam name)) as [v|] eqn:Ev; [|discriminate].
    exists (S (S k)). rewrite fully_param.
    replace (substitute (S k) b [] (TParam n)) with (Some v)
      by (cbn [substitute]; rewrite R; auto).
    destruct v; auto; apply (fully_mono _ _ _ _ _ H); lia.
  - exists (S (S k)). rewrite fully_param.
    replace (substitute (S k) b [] (TParam n)) with (Some u).
    + destruct u; try discriminate; apply (fully_mono _ _ _ _ _ H); lia.
    + cbn [substitute]. rewrite R. destruct k as [|k]; [discriminate|].
      rewrite substitute_nonparam; auto.
Qed.

Lemma full_models b K : wf (resolve b []) -> plain_graph (resolve b []) ->
  (forall n, exists u, fully_substitute K b false (TParam n) = Some u) ->
  models (full_sub K b) (resolve b []).
Proof.
  intros W G HK n u R.
  destruct (fully_total b false W u) as (k & a & Ha).
  rewrite <- (fully_tsub b K G HK k u a (G _ _ R) Ha).
  destruct (fully_bound _ _ _ _ _ R Ha W) as [k' Hk'].
  unfold full_sub. destruct (HK n) as [v Hv]. rewrite Hv. eapply fully_det; eauto.
Qed.

(* --- the context -------------------------------------------------------- *)

Lemma respects_models s b : respects s b <-> models s (resolve b []).
Proof.
  unfold respects, models, resolve. cbn. split; intros H n t E; apply H.
  - destruct (bd_find b n) as [[|]|]; congruence.
  - rewrite E. reflexivity.
Qed.

Lemma plain_context_graph c : plain_context c -> plain_graph (resolve (cx_bindings c) []).
Proof.
  intros H n u. unfold resolve. cbn. destruct (bd_find (cx_bindings c) n) as [[v|]|] eqn:E; try discriminate.
  intros [= <-]. apply (H _ _ E).
Qed.

Lemma registered_closed c : plain_context c ->
  closed (resolve (cx_bindings c) []) (registered c).
Proof.
  intros H t u Rt [Hu|[n [-> Hu]]].
  - intros m Hm. apply Rt. econstructor; eauto.
  - unfold resolve in Hu. cbn in Hu.
    destruct (bd_find (cx_bindings c) n) as [[v|]|] eqn:E; try discriminate.
    inversion Hu; subst. apply (H _ _ E).
Qed.

Lemma update_resolve c p : 
  (forall n, resolve (cx_bindings c) p n = resolve (cx_bindings c) [] n \/
             bd_find (cx_bindings c) n <> None) ->
  forall n, resolve (update_bindings (cx_bindings c) p) [] n = resolve (cx_bindings c) p n.
Proof.
  intros H n. specialize (H n). unfold resolve in *. cbn [sm_find] in *. rewrite bd_find_update.
  destruct (bd_find (cx_bindings c) n) as [o|].
  - destruct (sm_find p n); reflexivity.
  - destruct H as [H|H]; [congruence|]. destruct H. reflexivity.
Qed.

Lemma is_assignable_plain k c f t r c' :
  inv c -> plain_context c -> plain f -> plain t -> registered c f -> registered c t ->
  is_assignable k c f t = Some (r, c') ->
  (r = true -> plain_context c' /\
     (forall s, respects s (cx_bindings c') -> respects s (cx_bindings c) /\ tsub s f = tsub s t)) /\
  (forall s, respects s (cx_bindings c) -> tsub s f = tsub s t ->
     r = true /\ respects s (cx_bindings c')).
Proof.
  intros W PC Pf Pt Rf Rt H. unfold is_assignable in H.
  pose proof (plain_context_graph _ PC) as G.
  destruct (assignable_internal k (cx_legacy c) (cx_bindings c) [] f t) as [[x p]|] eqn:E; [|discriminate].
  destruct (assignable_sound _ _ _ _ _ _ _ _ G Pf Pt E) as [[G' X] S].
  destruct (assignable_good _ _ _ _ _ _ _ _ W E) as [W' Win].
  specialize (Win (registered c) (registered_closed _ PC) Rf Rt).
  assert (U : forall n, resolve (update_bindings (cx_bindings c) p) [] n = resolve (cx_bindings c) p n).
  { apply update_resolve. intros n. destruct (Win n) as [Hn|[Hn _]]; auto.
    right. apply Hn. constructor. }
  split.
  - intros ->. destruct x; [|discriminate]. inversion H; subst c'. cbn [cx_bindings set_bindings].
    split.
    + intros n u Hn. assert (Hr : resolve (cx_bindings c) p n = Some u).
      { rewrite <- U. unfold resolve. cbn [sm_find]. cbn [cx_bindings set_bindings] in Hn. rewrite Hn. reflexivity. }
      split; [exact (G' _ _ Hr)|]. intros m Hm. cbn [cx_bindings set_bindings]. rewrite bd_find_update.
      assert (Ru : registered c u).
      { destruct (Win n) as [Hq|[_ (v & Qv & Hv)]].
        - rewrite Hq in Hr. apply (registered_closed _ PC (TParam n)); [|right; eauto].
          intros q Hq'. inversion Hq'; subst; [|contradiction].
          unfold resolve in Hr. cbn in Hr. destruct (bd_find (cx_bindings c) n); congruence.
        - rewrite Hr in Hv. inversion Hv; subst. exact Qv. }
      specialize (Ru m Hm). destruct (bd_find (cx_bindings c) m); [|congruence].
      destruct (sm_find p m); congruence.
    + intros s Hs. apply respects_models in Hs.
      assert (M : models s (resolve (cx_bindings c) p)) by (intros n u Hn; apply Hs; rewrite U; exact Hn).
      split; [|apply S; auto]. apply respects_models. eapply extends_models; eauto.
  - intros s Hs Es. apply respects_models in Hs.
    destruct (assignable_complete _ _ _ s _ _ _ _ _ G Pf Pt E Hs Es) as [-> M].
    inversion H; subst. split; auto. cbn [cx_bindings set_bindings]. apply respects_models.
    intros n u Hn. apply M. rewrite <- U. exact Hn.
Qed.

Lemma is_assignable_equal k c f t c' :
  inv c -> plain_context c -> plain f -> plain t -> registered c f -> registered c t ->
  is_assignable k c f t = Some (true, c') ->
  forall kf kt a a', fully_substitute kf (cx_bindings c') false f = Some a ->
    fully_substitute kt (cx_bindings c') false t = Some a' -> a = a'.
Proof.
  intros W PC Pf Pt Rf Rt H kf kt a a' Ha Ha'.
  destruct (is_assignable_plain _ _ _ _ _ _ W PC Pf Pt Rf Rt H) as [S _].
  destruct (S eq_refl) as [PC' S']. clear S.
  pose proof (is_assignable_inv _ _ _ _ _ _ W H) as W'.
  pose proof (plain_context_graph _ PC') as G'.
  destruct (full_all _ W') as [K HK].
  rewrite (fully_tsub _ K G' HK _ _ _ Pf Ha), (fully_tsub _ K G' HK _ _ _ Pt Ha').
  apply S'. apply respects_models. apply full_models; auto.
Qed.
