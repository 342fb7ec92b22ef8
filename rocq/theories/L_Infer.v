(* Lemmas on the type inference context: the substitution graph, termination
   and acyclicity. *)
From Coq Require Import String List Bool NArith Relations Wellfounded Lia Arith.
From Verif Require Import M_Infer S_Infer.
Import ListNotations.
Open Scope list_scope.

(* --- types ------------------------------------------------------------- *)

Lemma prim_eqb_spec a c : prim_eqb a c = true <-> a = c.
Proof. destruct a, c; cbn; split; congruence. Qed.

Definition prim_eq_dec (a c : prim) : {a = c} + {a <> c}.
Proof. decide equality. Defined.

Definition ty_eq_dec : forall a c : ty, {a = c} + {a <> c}.
Proof.
  fix F 1. intros a c.
  decide equality;
    first [apply string_dec | apply prim_eq_dec | apply (list_eq_dec F)].
Defined.

Section TyInd.
  Variable P : ty -> Prop.
  Hypothesis H : forall t, (forall u, In u (params t) -> P u) -> P t.
  Fixpoint ty_params_ind (t : ty) : P t.
  Proof.
    refine (match t with
            | TType ps => _ | TOpaque n ps => _ | TFunction ps => _
            | TList e => _ | TMap k v => _ | _ => _ end);
      apply H; cbn; intros u Hu; try contradiction.
    - revert u Hu. induction ps as [|x r IH]; intros u Hu; [contradiction|]; destruct Hu as [E|Hu]; [rewrite <- E; apply ty_params_ind | apply IH, Hu].
    - destruct Hu as [E|[]]; rewrite <- E; apply ty_params_ind.
    - destruct Hu as [E|[E|[]]]; rewrite <- E; apply ty_params_ind.
    - revert u Hu. induction ps as [|x r IH]; intros u Hu; [contradiction|]; destruct Hu as [E|Hu]; [rewrite <- E; apply ty_params_ind | apply IH, Hu].
    - revert u Hu. induction ps as [|x r IH]; intros u Hu; [contradiction|]; destruct Hu as [E|Hu]; [rewrite <- E; apply ty_params_ind | apply IH, Hu].
  Qed.
End TyInd.

Fixpoint tys_eqb (l m : list ty) : bool :=
  match l, m with
  | [], [] => true
  | x :: l', y :: m' => ty_eqb x y && tys_eqb l' m'
  | _, _ => false
  end.

Lemma ty_eqb_opaque n l m l' :
  ty_eqb (TOpaque n l) (TOpaque m l') = (String.eqb n m && tys_eqb l l')%bool.
Proof. reflexivity. Qed.

Lemma ty_eqb_function l l' : ty_eqb (TFunction l) (TFunction l') = tys_eqb l l'.
Proof. reflexivity. Qed.

Lemma prim_eqb_refl q : prim_eqb q q = true.
Proof. destruct q; reflexivity. Qed.

Lemma ty_eqb_refl t : ty_eqb t t = true.
Proof.
  induction t as [t IH] using ty_params_ind.
  assert (HL : forall l, (forall u, In u l -> ty_eqb u u = true) -> tys_eqb l l = true).
  { induction l as [|x l IHl]; cbn; intros Hl; auto.
    rewrite (Hl x (or_introl eq_refl)), IHl; auto. }
  destruct t; try reflexivity.
  - cbn. apply prim_eqb_refl.
  - cbn. apply prim_eqb_refl.
  - cbn. apply String.eqb_refl.
  - cbn. apply String.eqb_refl.
  - cbn. apply String.eqb_refl.
  - cbn. apply IH. left. reflexivity.
  - cbn. rewrite !IH; auto; cbn; auto.
  - rewrite ty_eqb_opaque, String.eqb_refl, HL; auto.
  - rewrite ty_eqb_function. apply HL. exact IH.
Qed.

(* --- maps -------------------------------------------------------------- *)

Lemma sm_find_remove p n m :
  sm_find (sm_remove p n) m = if String.eqb m n then None else sm_find p m.
Proof.
  induction p as [|[k t] r IH]; cbn.
  - destruct (String.eqb m n); reflexivity.
  - destruct (String.eqb n k) eqn:E.
    + apply String.eqb_eq in E. subst k. rewrite IH.
      destruct (String.eqb m n); reflexivity.
    + cbn. destruct (String.eqb m k) eqn:E2.
      * apply String.eqb_eq in E2. subst k.
        destruct (String.eqb m n) eqn:E3; auto.
        apply String.eqb_eq in E3. subst. rewrite String.eqb_refl in E. discriminate.
      * exact IH.
Qed.

Lemma sm_find_set p n t m :
  sm_find (sm_set p n t) m = if String.eqb m n then Some t else sm_find p m.
Proof.
  unfold sm_set. cbn. destruct (String.eqb m n) eqn:E; auto.
  rewrite sm_find_remove, E. reflexivity.
Qed.

Lemma resolve_set b p n t m :
  resolve b (sm_set p n t) m = if String.eqb m n then Some t else resolve b p m.
Proof.
  unfold resolve. rewrite sm_find_set. destruct (String.eqb m n); reflexivity.
Qed.

Lemma bd_find_set b n t m :
  bd_find (bd_set b n t) m =
  if String.eqb m n
  then match bd_find b m with None => None | Some _ => Some (Some t) end
  else bd_find b m.
Proof.
  induction b as [|[k o] r IH]; cbn.
  - destruct (String.eqb m n); reflexivity.
  - destruct (String.eqb n k) eqn:E.
    + apply String.eqb_eq in E. subst k. cbn.
      destruct (String.eqb m n); reflexivity.
    + cbn. destruct (String.eqb m k) eqn:E2.
      * apply String.eqb_eq in E2. subst k.
        destruct (String.eqb m n) eqn:E3; auto.
        apply String.eqb_eq in E3. subst. rewrite String.eqb_refl in E. discriminate.
      * exact IH.
Qed.

Lemma bd_find_update b p n :
  bd_find (update_bindings b p) n =
  match bd_find b n with
  | None => None
  | Some o => match sm_find p n with Some t => Some (Some t) | None => Some o end
  end.
Proof.
  induction p as [|[k t] r IH]; cbn.
  - destruct (bd_find b n); reflexivity.
  - rewrite bd_find_set, IH. destruct (bd_find b n) eqn:E.
    + destruct (String.eqb n k); [|reflexivity].
      destruct (sm_find r n); reflexivity.
    + destruct (String.eqb n k); reflexivity.
Qed.

(* --- graphs ------------------------------------------------------------ *)

Definition graph := string -> option ty.

Definition tchild (g : graph) (u t : ty) : Prop :=
  In u (params t) \/ exists n, t = TParam n /\ g n = Some u.

Inductive reach (g : graph) : ty -> ty -> Prop :=
| reach_refl t : reach g t t
| reach_step t u w : tchild g u t -> reach g u w -> reach g t w.

Definition wf (g : graph) : Prop := well_founded (tchild g).

Lemma reach_trans g t u w : reach g t u -> reach g u w -> reach g t w.
Proof. induction 1; auto. intros. econstructor; eauto. Qed.

Lemma reach_child g t u : tchild g u t -> reach g t u.
Proof. intros. econstructor; [eassumption | constructor]. Qed.

Lemma params_param t n : t = TParam n -> params t = [].
Proof. intros ->. reflexivity. Qed.

Lemma wf_add g g' v t :
  wf g -> (forall n, n <> v -> g' n = g n) -> g' v = Some t ->
  ~ reach g t (TParam v) -> wf g'.
Proof.
  intros W Hn Hv Hr.
  assert (A : forall u, Acc (tchild g) u -> ~ reach g u (TParam v) ->
                        Acc (tchild g') u).
  { induction 1 as [u _ IH]. intros Hu. constructor. intros w Hw.
    assert (Hc : tchild g w u).
    { destruct Hw as [Hw|[n [-> Hw]]]; [left; exact Hw|].
      destruct (string_dec n v) as [->|Hd].
      - exfalso. apply Hu. constructor.
      - right. exists n. rewrite <- (Hn _ Hd). auto. }
    apply IH; auto. intros Hx. apply Hu. econstructor; eauto. }
  intros u. induction (W u) as [u _ IH]. constructor. intros w Hw.
  destruct Hw as [Hw|[n [-> Hw]]].
  - apply IH. left. exact Hw.
  - destruct (string_dec n v) as [->|Hd].
    + rewrite Hv in Hw. inversion Hw; subst. apply A; [apply W | exact Hr].
    + apply IH. right. exists n. rewrite <- (Hn _ Hd). auto.
Qed.

Lemma wf_sub g g' :
  wf g -> (forall n t, g' n = Some t -> g n = Some t) -> wf g'.
Proof.
  intros W Hs u. induction (W u) as [u _ IH]. constructor. intros w [Hw|[n [-> Hw]]].
  - apply IH. left. exact Hw.
  - apply IH. right. exists n. auto.
Qed.

Lemma wf_ext g g' : wf g -> (forall n, g' n = g n) -> wf g'.
Proof. intros W H. apply (wf_sub g); auto. intros n t. rewrite H. auto. Qed.

Lemma wf_irrefl g : wf g -> forall u t, tchild g u t -> reach g u t -> False.
Proof.
  intros W u t. revert u. induction (W t) as [t _ IH]. intros u Hc Hr.
  inversion Hr; subst.
  - exact (IH t Hc t Hc (reach_refl _ _)).
  - refine (IH u Hc u0 H _). eapply reach_trans; [eassumption|].
    apply reach_child, Hc.
Qed.

Lemma wf_empty : wf (fun _ => None).
Proof.
  intros t. induction t as [t IH] using ty_params_ind. constructor.
  intros u [Hu|[n [_ Hu]]]; [auto | discriminate].
Qed.

(* The types reachable from a type are finitely many. *)
Lemma reach_list g : wf g -> forall t, exists L, forall x, In x L <-> reach g t x.
Proof.
  intros W t. induction (W t) as [t _ IH].
  assert (HP : forall l, (forall u, In u l -> tchild g u t) ->
             exists L, forall x, In x L <-> exists u, In u l /\ reach g u x).
  { induction l as [|y l IHl]; intros Hl.
    - exists []. intros x. cbn. split; [tauto | intros [u [[] _]]].
    - destruct (IH y (Hl y (or_introl eq_refl))) as [Ly HLy].
      destruct IHl as [Ll HLl]; [intros; apply Hl; right; auto|].
      exists (Ly ++ Ll). intros x. rewrite in_app_iff, HLy, HLl. split.
      + intros [H|[u [H1 H2]]]; [exists y; cbn; auto | exists u; cbn; auto].
      + intros [u [[->|H1] H2]]; [left; auto | right; exists u; auto]. }
  destruct (HP (params t)) as [Lp HLp]; [intros; left; auto|].
  assert (HG : exists Lg, forall x, In x Lg <->
                 exists n u, t = TParam n /\ g n = Some u /\ reach g u x).
  { assert (D : (exists n, t = TParam n) \/ ~ (exists n, t = TParam n))
      by (destruct t; try (right; intros [? E]; discriminate); left; eauto).
    destruct D as [[n ->]|D].
    - destruct (g n) as [u|] eqn:E.
      + destruct (IH u) as [L HL]; [right; eauto|]. exists L. intros x. rewrite HL. split.
        * intros H. exists n, u. auto.
        * intros (n' & u' & E1 & E2 & H). inversion E1; subst. congruence.
      + exists []. intros x. cbn. split; [tauto|].
        intros (n' & u' & E1 & E2 & H). inversion E1; subst. congruence.
    - exists []. intros x. cbn. split; [tauto|].
      intros (n' & u' & E1 & E2 & H). apply D; eauto. }
  destruct HG as [Lg HLg].
  exists (t :: Lp ++ Lg). intros x. cbn. rewrite in_app_iff, HLp, HLg. split.
  - intros [->|[(u & H1 & H2)|(n & u & H1 & H2 & H3)]].
    + constructor.
    + econstructor; [left; eassumption | assumption].
    + econstructor; [right; eauto | assumption].
  - intros H. inversion H; subst; [auto|]. destruct H0 as [H0|[n [H0 H2]]].
    + right. left. eauto.
    + right. right. eauto 6.
Qed.

(* --- fuel monotonicity ------------------------------------------------- *)

Lemma substitute_mono k b p t r :
  substitute k b p t = Some r -> forall k', (k <= k')%nat -> substitute k' b p t = Some r.
Proof.
  revert t. induction k as [|k IH]; intros t H k' Hk; [discriminate|].
  destruct k' as [|k']; [lia|]. cbn in *. destruct t; auto.
  destruct (resolve b p name); auto. apply IH; auto. lia.
Qed.

Lemma any_opt_mono f f' l r :
  (forall x y, f x = Some y -> f' x = Some y) ->
  any_opt f l = Some r -> any_opt f' l = Some r.
Proof.
  intros Hf. induction l as [|x l IH]; cbn; auto.
  destruct (f x) as [y|] eqn:E; [|discriminate]. rewrite (Hf _ _ E).
  destruct y; auto.
Qed.

Lemma occurs_mono k b p v t r :
  occurs_within k b p v t = Some r ->
  forall k', (k <= k')%nat -> occurs_within k' b p v t = Some r.
Proof.
  revert t r. induction k as [|k IH]; intros t r H k' Hk; [discriminate|].
  destruct k' as [|k']; [lia|].
  assert (HA : forall l r, any_opt (occurs_within k b p v) l = Some r ->
               any_opt (occurs_within k' b p v) l = Some r).
  { intros l r0. apply any_opt_mono. intros x y Hxy. apply (IH _ _ Hxy). lia. }
  cbn in *. destruct t; try (apply HA; exact H).
  destruct (String.eqb name v); auto. destruct (resolve b p name); auto.
  apply (IH _ _ H). lia.
Qed.

Lemma max_generality_mono f f' l m a r :
  (forall x y z, f x y = Some z -> f' x y = Some z) ->
  max_generality f a l m = Some r -> max_generality f' a l m = Some r.
Proof.
  intros Hf. revert m a. induction l as [|x l IH]; intros [|y m] a; cbn; auto.
  destruct (f x y) as [z|] eqn:E; [|discriminate]. rewrite (Hf _ _ _ E).
  destruct z; auto.
Qed.

Lemma compare_mono k lg b p f t r :
  compare_generality k lg b p f t = Some r ->
  forall k', (k <= k')%nat -> compare_generality k' lg b p f t = Some r.
Proof.
  revert f t r. induction k as [|k IH]; intros f t r H k' Hk; [discriminate|].
  destruct k' as [|k']; [lia|].
  assert (Hk2 : (k <= k')%nat) by lia.
  cbn [compare_generality] in *.
  destruct (substitute k b p f) as [f1|] eqn:Ef; [|discriminate].
  destruct (substitute k b p t) as [t1|] eqn:Et; [|discriminate].
  rewrite (substitute_mono _ _ _ _ _ Ef _ Hk2), (substitute_mono _ _ _ _ _ Et _ Hk2).
  repeat (match goal with |- (if ?c then _ else _) = _ => destruct c; [exact H|] end).
  destruct f1, t1; auto.
  - destruct (compare_generality k lg b p f1_1 t1_1) as [a|] eqn:Ea; [|discriminate].
    destruct (compare_generality k lg b p f1_2 t1_2) as [c|] eqn:Ec; [|destruct a; discriminate].
    rewrite (IH _ _ _ Ea _ Hk2), (IH _ _ _ Ec _ Hk2). exact H.
  - destruct (String.eqb name name0 && Nat.eqb (length ps) (length ps0))%bool; auto.
    revert H. apply max_generality_mono. intros x y z Hz. apply (IH _ _ _ Hz _ Hk2).
Qed.

Lemma check_params_mono f f' p l m r :
  (forall q x y z, f q x y = Some z -> f' q x y = Some z) ->
  check_params f p l m = Some r -> check_params f' p l m = Some r.
Proof.
  intros Hf. revert m p. induction l as [|x l IH]; intros [|y m] p; cbn; auto.
  destruct (f p x y) as [z|] eqn:E; [|discriminate]. rewrite (Hf _ _ _ _ E).
  destruct z as [[] q]; auto.
Qed.

Lemma constraints_mono k b p f t r :
  assignable_with_constraints k b p f t = Some r ->
  forall k', (k <= k')%nat -> assignable_with_constraints k' b p f t = Some r.
Proof.
  unfold assignable_with_constraints. intros H k' Hk.
  destruct f, t; auto;
    match type of H with
    | context [occurs_within ?k ?b ?p ?n ?t] =>
        destruct (occurs_within k b p n t) as [o|] eqn:E; [|discriminate];
        rewrite (occurs_mono _ _ _ _ _ _ E _ Hk); exact H
    end.
Qed.

Lemma concrete_mono lg f f' p x y r :
  (forall q x y z, f q x y = Some z -> f' q x y = Some z) ->
  assign_concrete lg f p x y = Some r -> assign_concrete lg f' p x y = Some r.
Proof.
  intros Hf. unfold assign_concrete.
  destruct (wrapper_to_primitive y). { destruct (is_null x); auto. }
  destruct (wrapper_to_primitive x); auto.
  repeat (match goal with |- (if ?c then _ else _) = _ -> _ => destruct c; [auto|] end).
  apply check_params_mono, Hf.
Qed.

Lemma widen_mono k k' lg b f f' p to x y r :
  (k <= k')%nat ->
  (forall q x y z, f q x y = Some z -> f' q x y = Some z) ->
  try_widen k lg b f p to x y = Some r -> try_widen k' lg b f' p to x y = Some r.
Proof.
  intros Hk Hf. unfold try_widen. destruct to; auto.
  destruct (sm_find p name); auto.
  destruct (compare_generality k lg b p x y) as [g|] eqn:Eg; [|discriminate].
  rewrite (compare_mono _ _ _ _ _ _ _ Eg _ Hk). destruct g; auto.
  destruct (f p y x) as [[[] q]|] eqn:Ef; try discriminate; rewrite (Hf _ _ _ _ Ef); auto.
  destruct (occurs_within k b q name x) as [o|] eqn:Eo; [|discriminate].
  rewrite (occurs_mono _ _ _ _ _ _ Eo _ Hk). auto.
Qed.

Lemma assignable_mono k lg b p f t r :
  assignable_internal k lg b p f t = Some r ->
  forall k', (k <= k')%nat -> assignable_internal k' lg b p f t = Some r.
Proof.
  revert p f t r. induction k as [|k IH]; intros p f t r H k' Hk; [discriminate|].
  destruct k' as [|k']; [lia|].
  assert (Hk2 : (k <= k')%nat) by lia.
  cbn [assignable_internal] in *.
  destruct (substitute k b p t) as [t1|] eqn:Et; [|discriminate].
  destruct (substitute k b p f) as [f1|] eqn:Ef; [|discriminate].
  rewrite (substitute_mono _ _ _ _ _ Ef _ Hk2), (substitute_mono _ _ _ _ _ Et _ Hk2).
  destruct (ty_eqb t1 f1); auto.
  destruct (is_param t1 || is_param f1)%bool. { apply (constraints_mono k); auto. }
  assert (IH' : forall q x y z, assignable_internal k lg b q x y = Some z ->
                                assignable_internal k' lg b q x y = Some z).
  { intros q x y z Hz. apply (IH _ _ _ _ Hz _ Hk2). }
  destruct (try_widen k lg b (assignable_internal k lg b) p t f1 t1) as [w|] eqn:Ew; [|discriminate].
  rewrite (widen_mono _ _ _ _ _ _ _ _ _ _ _ Hk2 IH' Ew).
  destruct w; auto. revert H. apply concrete_mono, IH'.
Qed.

Lemma map_opt_mono {A B} (f f' : A -> option B) l r :
  (forall x y, f x = Some y -> f' x = Some y) ->
  map_opt f l = Some r -> map_opt f' l = Some r.
Proof.
  intros Hf. revert r. induction l as [|x l IH]; cbn; intros r H; auto.
  destruct (f x) as [y|] eqn:E; [|discriminate]. rewrite (Hf _ _ E).
  destruct (map_opt f l) as [s|]; [|discriminate]. rewrite (IH _ eq_refl). exact H.
Qed.

Lemma fully_mono k b d t r :
  fully_substitute k b d t = Some r ->
  forall k', (k <= k')%nat -> fully_substitute k' b d t = Some r.
Proof.
  revert t r. induction k as [|k IH]; intros t r H k' Hk; [discriminate|].
  destruct k' as [|k']; [lia|].
  assert (Hk2 : (k <= k')%nat) by lia.
  assert (IH' : forall x y, fully_substitute k b d x = Some y -> fully_substitute k' b d x = Some y).
  { intros x y Hy. apply (IH _ _ Hy _ Hk2). }
  cbn [fully_substitute] in *. destruct t; auto.
  - destruct (substitute k b [] (TParam name)) as [u|] eqn:E; [|discriminate].
    rewrite (substitute_mono _ _ _ _ _ E _ Hk2). destruct u; auto.
  - destruct ps as [|x ps]; auto.
    destruct (map_opt (fully_substitute k b d) (x :: ps)) as [s|] eqn:E; [|discriminate].
    rewrite (map_opt_mono _ _ _ _ IH' E). exact H.
  - destruct (fully_substitute k b d t) as [s|] eqn:E; [|discriminate].
    rewrite (IH' _ _ E). exact H.
  - destruct (fully_substitute k b d t1) as [s|] eqn:E; [|discriminate].
    destruct (fully_substitute k b d t2) as [s'|] eqn:E'; [|discriminate].
    rewrite (IH' _ _ E), (IH' _ _ E'). exact H.
  - destruct (map_opt (fully_substitute k b d) ps) as [s|] eqn:E; [|discriminate].
    rewrite (map_opt_mono _ _ _ _ IH' E). exact H.
Qed.

(* --- what the functions do to the graph -------------------------------- *)

Lemma substitute_reach k b p t u :
  substitute k b p t = Some u ->
  reach (resolve b p) t u /\ (forall n, u = TParam n -> resolve b p n = None).
Proof.
  revert t. induction k as [|k IH]; intros t H; [discriminate|].
  cbn in H. destruct t;
    try (inversion H; subst; split; [constructor | intros; discriminate]).
  destruct (resolve b p name) as [w|] eqn:E.
  - destruct (IH _ H) as [H1 H2]. split; auto. econstructor; [right; eauto | exact H1].
  - inversion H; subst. split; [constructor|]. intros n [= <-]. exact E.
Qed.

Lemma substitute_nonparam k b p t :
  is_param t = false -> substitute (S k) b p t = Some t.
Proof. destruct t; cbn; congruence. Qed.

Lemma any_opt_false f l : any_opt f l = Some false -> forall x, In x l -> f x = Some false.
Proof.
  induction l as [|y l IH]; cbn; intros H x Hx; [contradiction|].
  destruct (f y) as [[]|] eqn:E; try discriminate.
  destruct Hx as [->|Hx]; auto.
Qed.

Lemma occurs_false k b p v t :
  occurs_within k b p v t = Some false -> ~ reach (resolve b p) t (TParam v).
Proof.
  revert t. induction k as [|k IH]; intros t H Hr; [discriminate|].
  cbn in H.
  assert (HA : is_param t = false ->
               any_opt (occurs_within k b p v) (params t) = Some false -> False).
  { intros Hn H0. inversion Hr; subst; [discriminate|].
    destruct H1 as [H1|[n [-> _]]]; [|discriminate].
    exact (IH _ (any_opt_false _ _ H0 _ H1) H2). }
  destruct t; try (apply HA; [reflexivity | exact H]).
  destruct (String.eqb name v) eqn:E; [discriminate|].
  inversion Hr; subst.
  - rewrite String.eqb_refl in E. discriminate.
  - destruct H0 as [[]|[n [[= <-] H0]]]. rewrite H0 in H. exact (IH _ H H1).
Qed.

(* A check changes the substitutions only inside any set of types that
   contains the two types and everything they refer to. *)
Definition closed (g : graph) (Q : ty -> Prop) : Prop :=
  forall t u, Q t -> tchild g u t -> Q u.

Definition within (Q : ty -> Prop) (g g' : graph) : Prop :=
  forall n, g' n = g n \/ (Q (TParam n) /\ exists u, Q u /\ g' n = Some u).

Lemma within_refl Q g : within Q g g.
Proof. intros n. left. reflexivity. Qed.

Lemma within_trans Q g g' g'' : within Q g g' -> within Q g' g'' -> within Q g g''.
Proof.
  intros H1 H2 n. destruct (H2 n) as [E|H]; [|right; exact H].
  rewrite E. apply H1.
Qed.

Lemma closed_within Q g g' : closed g Q -> within Q g g' -> closed g' Q.
Proof.
  intros H1 H2 t u Ht [Hu|[n [-> Hu]]].
  - apply (H1 t); auto. left. exact Hu.
  - destruct (H2 n) as [E|[_ [w [Hw E]]]]; rewrite E in Hu.
    + apply (H1 (TParam n)); auto. right. eauto.
    + inversion Hu; subst. exact Hw.
Qed.

Lemma closed_reach Q g t u : closed g Q -> Q t -> reach g t u -> Q u.
Proof. intros C Ht H. induction H; auto. apply IHreach. eapply C; eauto. Qed.

Lemma within_set (Q : ty -> Prop) b p n t :
  Q (TParam n) -> Q t -> within Q (resolve b p) (resolve b (sm_set p n t)).
Proof.
  intros Hn Ht m. rewrite resolve_set. destruct (String.eqb m n) eqn:E; auto.
  apply String.eqb_eq in E. subst. right. eauto.
Qed.

Lemma wf_set b p n t :
  wf (resolve b p) -> ~ reach (resolve b p) t (TParam n) ->
  wf (resolve b (sm_set p n t)).
Proof.
  intros W Hr. apply (wf_add (resolve b p) _ n t); auto.
  - intros m Hm. rewrite resolve_set. apply String.eqb_neq in Hm. rewrite Hm. reflexivity.
  - rewrite resolve_set, String.eqb_refl. reflexivity.
Qed.

Definition good (b : bindings) (p p' : smap) (f t : ty) : Prop :=
  wf (resolve b p') /\
  forall Q, closed (resolve b p) Q -> Q f -> Q t ->
            within Q (resolve b p) (resolve b p').

Lemma good_refl b p f t : wf (resolve b p) -> good b p p f t.
Proof. intros W. split; auto. intros. apply within_refl. Qed.

Lemma constraints_good k b p f t r p' :
  wf (resolve b p) ->
  (forall n, f = TParam n -> resolve b p n = None) ->
  (forall n, t = TParam n -> resolve b p n = None) ->
  assignable_with_constraints k b p f t = Some (r, p') -> good b p p' f t.
Proof.
  intros W Hf Ht H. unfold assignable_with_constraints in H.
  assert (A : forall n u, f = TParam n /\ u = t \/ t = TParam n /\ u = f ->
      ~ reach (resolve b p) u (TParam n) -> good b p (sm_set p n u) f t).
  { intros n u Hu Hr. split; [apply wf_set; auto|].
    intros Q _ Qf Qt. apply within_set; destruct Hu as [[-> ->]|[-> ->]]; auto. }
  assert (B : good b p p f t) by (apply good_refl; exact W).
  destruct f, t;
    try (inversion H; subst; exact B);
    try (match type of H with
    | context [occurs_within ?k ?b ?p ?n ?t] =>
        destruct (occurs_within k b p n t) as [[]|] eqn:E; [| |discriminate];
        inversion H; subst; [exact B | ]
    end; apply A; [tauto | eapply occurs_false; eassumption]).
  inversion H; subst. destruct (String.eqb name0 name) eqn:E; [exact B|].
  apply A; [tauto|]. intros Hr. inversion Hr; subst.
  - rewrite String.eqb_refl in E. discriminate.
  - destruct H0 as [[]|[n [[= <-] H0]]]. rewrite (Ht _ eq_refl) in H0. discriminate.
Qed.

Definition is_prim (t : ty) : bool := match t with TPrim _ => true | _ => false end.

Lemma prim_call k lg b p f t r p' :
  is_param f = false -> is_param t = false -> (is_prim f || is_prim t)%bool = true ->
  assignable_internal k lg b p f t = Some (r, p') -> p' = p.
Proof.
  revert f t r. induction k as [|k IH]; intros f t r Hf Ht Hp H; [discriminate|].
  cbn [assignable_internal] in H.
  destruct k as [|k]; [discriminate|].
  rewrite !substitute_nonparam in H by assumption.
  destruct (ty_eqb t f); [congruence|]. rewrite Hf, Ht in H. cbn [orb] in H.
  assert (Hw : try_widen (S k) lg b (assignable_internal (S k) lg b) p t f t = Some None)
    by (destruct t; try reflexivity; discriminate).
  rewrite Hw in H. unfold assign_concrete in H.
  destruct (wrapper_to_primitive t) as [w|] eqn:Ew.
  { destruct t; try discriminate. inversion Ew; subst.
    destruct (is_null f); [congruence|].
    apply (IH (TPrim p0) f r); auto. }
  destruct (wrapper_to_primitive f) as [w|] eqn:Ew2.
  { destruct f; try discriminate. inversion Ew2; subst.
    apply (IH (TPrim p0) t r); auto. }
  repeat (match type of H with (if ?c then _ else _) = _ => destruct c eqn:?; [congruence|] end).
  apply orb_true_iff in Hp.
  match goal with
  | H : negb (Nat.eqb _ _) = false |- _ =>
      apply negb_false_iff, Nat.eqb_eq in H; rename H into Heqn6
  end.
  assert (Hl : params f = [] /\ params t = []).
  { destruct Hp as [Hp|Hp].
    - assert (E : params f = []) by (destruct f; try discriminate; reflexivity).
      split; [exact E|]. rewrite E in Heqn6. destruct (params t); [reflexivity | discriminate].
    - assert (E : params t = []) by (destruct t; try discriminate; reflexivity).
      split; [|exact E]. rewrite E in Heqn6. destruct (params f); [reflexivity | discriminate]. }
  destruct Hl as [E1 E2]. rewrite E1, E2 in H. cbn in H. congruence.
Qed.

Lemma check_params_good b chk fs ts :
  (forall q x y r q', wf (resolve b q) -> chk q x y = Some (r, q') -> good b q q' x y) ->
  forall p r p' (f t : ty), wf (resolve b p) -> (forall u, In u fs -> In u (params f)) ->
  (forall u, In u ts -> In u (params t)) ->
  check_params chk p fs ts = Some (r, p') -> good b p p' f t.
Proof.
  intros Hc. revert ts. induction fs as [|x fs IH]; intros [|y ts] p r p' f t W Hf Ht H;
    cbn in H; try (inversion H; subst; apply good_refl; exact W).
  destruct (chk p x y) as [[[] q]|] eqn:E; [| |discriminate].
  - destruct (Hc _ _ _ _ _ W E) as [W1 G1].
    destruct (IH ts q r p' f t) as [W2 G2]; auto.
    { intros u Hu. apply Hf. right. exact Hu. }
    { intros u Hu. apply Ht. right. exact Hu. }
    split; auto. intros Q CQ Qf Qt.
    assert (Hw : within Q (resolve b p) (resolve b q)).
    { apply G1; auto.
      - apply (CQ f); auto. left. apply Hf. left. reflexivity.
      - apply (CQ t); auto. left. apply Ht. left. reflexivity. }
    eapply within_trans; [exact Hw|]. apply G2; auto. eapply closed_within; eassumption.
  - inversion H; subst. destruct (Hc _ _ _ _ _ W E) as [W1 G1]. split; auto.
    intros Q CQ Qf Qt. apply G1; auto.
    + apply (CQ f); auto. left. apply Hf. left. reflexivity.
    + apply (CQ t); auto. left. apply Ht. left. reflexivity.
Qed.

Lemma concrete_good k lg b p f t r p' :
  (forall q x y r q', wf (resolve b q) ->
     assignable_internal k lg b q x y = Some (r, q') -> good b q q' x y) ->
  wf (resolve b p) -> is_param f = false -> is_param t = false ->
  assign_concrete lg (assignable_internal k lg b) p f t = Some (r, p') ->
  good b p p' f t.
Proof.
  intros IH W Hf Ht H. unfold assign_concrete in H.
  destruct (wrapper_to_primitive t) as [w|] eqn:Ew.
  { destruct t; try discriminate. inversion Ew; subst.
    destruct (is_null f); [inversion H; subst; apply good_refl; exact W|].
    apply prim_call in H; auto. subst. apply good_refl; exact W. }
  destruct (wrapper_to_primitive f) as [w|] eqn:Ew2.
  { destruct f; try discriminate. inversion Ew2; subst.
    apply prim_call in H; auto. subst. apply good_refl; exact W. }
  repeat (match type of H with (if ?c then _ else _) = _ =>
            destruct c; [inversion H; subst; apply good_refl; exact W|] end).
  eapply check_params_good; eauto.
Qed.

Lemma assignable_good k lg b p f t r p' :
  wf (resolve b p) -> assignable_internal k lg b p f t = Some (r, p') ->
  good b p p' f t.
Proof.
  revert p f t r p'. induction k as [|k IH]; intros p f t r p' W H; [discriminate|].
  cbn [assignable_internal] in H.
  destruct (substitute k b p t) as [t1|] eqn:Et; [|discriminate].
  destruct (substitute k b p f) as [f1|] eqn:Ef; [|discriminate].
  destruct (substitute_reach _ _ _ _ _ Et) as [Rt Nt].
  destruct (substitute_reach _ _ _ _ _ Ef) as [Rf Nf].
  assert (UP : forall q, good b p q f1 t1 -> good b p q f t).
  { intros q [W1 G]. split; auto. intros Q CQ Qf Qt. apply G; auto.
    - exact (closed_reach Q _ f f1 CQ Qf Rf).
    - exact (closed_reach Q _ t t1 CQ Qt Rt). }
  destruct (ty_eqb t1 f1). { inversion H; subst. apply good_refl, W. }
  destruct (is_param t1 || is_param f1)%bool eqn:Ep.
  { apply UP. eapply constraints_good; eauto. }
  apply orb_false_iff in Ep. destruct Ep as [Pt Pf].
  destruct (try_widen k lg b (assignable_internal k lg b) p t f1 t1) as [[w|]|] eqn:Ew; [| |discriminate].
  - inversion H; subst. unfold try_widen in Ew. destruct t; try discriminate.
    destruct (sm_find p name); [|discriminate].
    destruct (compare_generality k lg b p f1 t1) as [[]|]; try discriminate.
    destruct (assignable_internal k lg b p t1 f1) as [[[] cpy]|] eqn:Ec; try discriminate.
    destruct (occurs_within k b cpy name f1) as [[]|] eqn:Eo; try discriminate.
    inversion Ew; subst.
    destruct (IH _ _ _ _ _ W Ec) as [W1 G1]. split.
    + apply wf_set; auto. eapply occurs_false; eassumption.
    + intros Q CQ Qf Qt.
      assert (Q f1) by exact (closed_reach Q _ f f1 CQ Qf Rf).
      assert (Q t1) by exact (closed_reach Q _ _ t1 CQ Qt Rt).
      eapply within_trans; [apply G1; auto|]. apply within_set; auto.
  - apply UP. eapply concrete_good; eauto.
Qed.

(* --- termination ------------------------------------------------------- *)

Lemma substitute_total b p :
  wf (resolve b p) -> forall t, exists k u, substitute k b p t = Some u.
Proof.
  intros W t. induction (W t) as [t _ IH].
  destruct t; try (exists 1%nat; eexists; reflexivity).
  destruct (resolve b p name) as [w|] eqn:E.
  - destruct (IH w) as (k & u & H); [right; eauto|].
    exists (S k), u. cbn. rewrite E. exact H.
  - exists 1%nat, (TParam name). cbn. rewrite E. reflexivity.
Qed.

Lemma occurs_total b p v :
  wf (resolve b p) -> forall t, exists k r, occurs_within k b p v t = Some r.
Proof.
  intros W t. induction (W t) as [t _ IH].
  assert (HL : forall l, (forall u, In u l -> tchild (resolve b p) u t) ->
            exists k r, any_opt (occurs_within k b p v) l = Some r).
  { induction l as [|x l IHl]; intros Hl.
    - exists 0%nat, false. reflexivity.
    - destruct (IH x (Hl x (or_introl eq_refl))) as (k1 & r1 & H1).
      destruct IHl as (k2 & r2 & H2); [intros; apply Hl; right; auto|].
      exists (Nat.max k1 k2). cbn.
      rewrite (occurs_mono _ _ _ _ _ _ H1 (Nat.max k1 k2)) by lia.
      destruct r1; [exists true; reflexivity|]. exists r2.
      eapply any_opt_mono; [|exact H2]. intros y z Hz. apply (occurs_mono _ _ _ _ _ _ Hz). lia. }
  destruct (HL (params t)) as (k & r & H); [intros; left; auto|].
  destruct t; try (exists (S k), r; exact H).
  destruct (String.eqb name v) eqn:En.
  - exists 1%nat, true. cbn. rewrite En. reflexivity.
  - destruct (resolve b p name) as [w|] eqn:E.
    + destruct (IH w) as (k1 & u & H1); [right; eauto|].
      exists (S k1), u. cbn. rewrite En, E. exact H1.
    + exists 1%nat, false. cbn. rewrite En, E. reflexivity.
Qed.

Lemma reach_acc g t u : reach g t u -> Acc (tchild g) t -> Acc (tchild g) u.
Proof. induction 1; auto. intros HA. apply IHreach. inversion HA. auto. Qed.

Lemma acc_strong g (P : ty -> Prop) :
  wf g -> (forall t, (forall c u, tchild g c t -> reach g c u -> P u) -> P t) -> forall t, P t.
Proof.
  intros W H t.
  assert (HA : forall u, reach g t u -> P u).
  { induction (W t) as [t _ IH]. intros u Hu. inversion Hu; subst.
    - apply H. intros c w Hc Hr. apply (IH c); auto.
    - apply (IH u0); auto. }
  apply HA. constructor.
Qed.

Lemma compare_total lg b p :
  wf (resolve b p) -> forall f t, exists k r, compare_generality k lg b p f t = Some r.
Proof.
  intros W. 
  assert (ST : forall t, exists k u, forall k', (k <= k')%nat -> substitute k' b p t = Some u).
  { intros t. destruct (substitute_total b p W t) as (k & u & H). exists k, u.
    intros. eapply substitute_mono; eauto. }
  intros f. pattern f. revert f. apply (acc_strong (resolve b p)); auto. intros f IH t.
  destruct (ST f) as (k1 & f1 & H1). destruct (ST t) as (k2 & t1 & H2).
  assert (Hf : forall x, In x (params f1) -> forall y, exists k r, compare_generality k lg b p x y = Some r).
  { intros x Hx. 
    destruct (substitute_reach _ _ _ _ _ (H1 k1 (le_n _))) as [R _].
    inversion R; subst.
    - apply (IH x x); [left; auto | constructor].
    - apply (IH u x); auto. eapply reach_trans; [eassumption|]. apply reach_child. left. exact Hx. }
  assert (Step : forall k, (Nat.max k1 k2 <= k)%nat ->
     (forall x y, In x (params f1) -> In y (params t1) -> exists r, compare_generality k lg b p x y = Some r) ->
     exists r, compare_generality (S k) lg b p f t = Some r).
  { intros k Hk HP. cbn [compare_generality]. rewrite (H1 k), (H2 k) by lia.
    repeat (match goal with |- exists r, (if ?c then _ else _) = _ => destruct c; [eauto|] end).
    destruct f1, t1; try (eexists; reflexivity).
    - apply HP; left; reflexivity.
    - destruct (HP f1_1 t1_1) as [r1 E1]; [left; reflexivity .. |].
      destruct (HP f1_2 t1_2) as [r2 E2]; [right; left; reflexivity .. |].
      rewrite E1, E2. destruct r1, r2; eexists; reflexivity.
    - destruct (String.eqb name name0 && Nat.eqb (length ps) (length ps0))%bool; [|eauto].
      cbn [params] in HP. generalize kEquivalent. clear - HP. revert ps0 HP.
      induction ps as [|x ps IH]; intros [|y ps0] HP a; cbn; try (eexists; reflexivity).
      destruct (HP x y (or_introl eq_refl) (or_introl eq_refl)) as [r E]. rewrite E.
      assert (HP' : forall x y, In x ps -> In y ps0 -> exists r, compare_generality k lg b p x y = Some r)
        by (intros; apply HP; right; assumption).
      destruct r; eauto. }
  assert (All : forall l m, (forall x, In x l -> In x (params f1)) ->
      exists k, forall x y, In x l -> In y m -> exists r, compare_generality k lg b p x y = Some r).
  { induction l as [|x l IHl]; intros m Hl.
    - exists 0%nat. intros x y [].
    - destruct (IHl m) as [k Hk]; [intros; apply Hl; right; auto|].
      assert (Hx : exists k', forall y, In y m -> exists r, compare_generality k' lg b p x y = Some r).
      { clear Hk. induction m as [|y m IHm].
        - exists 0%nat. intros y [].
        - destruct IHm as [k' Hk'].
          + destruct (Hf x (Hl x (or_introl eq_refl)) y) as (k3 & r & H3).
            exists (Nat.max k3 k'). intros z [<-|Hz].
            * exists r. apply (compare_mono _ _ _ _ _ _ _ H3). lia.
            * destruct (Hk' _ Hz) as [r' Hr']. exists r'. apply (compare_mono _ _ _ _ _ _ _ Hr'). lia. }
      destruct Hx as [k' Hk']. exists (Nat.max k k'). intros z y [<-|Hz] Hy.
      + destruct (Hk' _ Hy) as [r Hr]. exists r. apply (compare_mono _ _ _ _ _ _ _ Hr). lia.
      + destruct (Hk _ _ Hz Hy) as [r Hr]. exists r. apply (compare_mono _ _ _ _ _ _ _ Hr). lia. }
  destruct (All (params f1) (params t1)) as [k Hk]; [auto|].
  destruct (Step (Nat.max (Nat.max k1 k2) k)) as [r Hr]; [lia | | eauto].
  intros x y Hx Hy. destruct (Hk _ _ Hx Hy) as [r Hr]. exists r.
  apply (compare_mono _ _ _ _ _ _ _ Hr). lia.
Qed.

Lemma prim_total lg b p f t :
  is_param f = false -> is_param t = false -> (is_prim f || is_prim t)%bool = true ->
  exists r, assignable_internal 4 lg b p f t = Some r.
Proof.
  assert (A : forall k f t, is_param f = false -> is_param t = false ->
    (is_prim f || is_prim t)%bool = true ->
    (forall w, wrapper_to_primitive f = Some w -> exists r, assignable_internal (S k) lg b p w t = Some r) ->
    (forall w, wrapper_to_primitive t = Some w -> exists r, assignable_internal (S k) lg b p w f = Some r) ->
    exists r, assignable_internal (S (S k)) lg b p f t = Some r).
  { clear f t. intros k f t Hf Ht Hp Wf Wt.
    remember (S k) as k0 eqn:Ek. cbn [assignable_internal]. subst k0.
    rewrite !substitute_nonparam by assumption.
    destruct (ty_eqb t f); [eauto|]. rewrite Hf, Ht. cbn [orb].
    assert (Hw : try_widen (S k) lg b (assignable_internal (S k) lg b) p t f t = Some None)
      by (destruct t; try reflexivity; discriminate).
    rewrite Hw. unfold assign_concrete.
    destruct (wrapper_to_primitive t) as [w|] eqn:Ew.
    { destruct (is_null f); [eauto|]. apply Wt. reflexivity. }
    destruct (wrapper_to_primitive f) as [w|] eqn:Ew2.
    { apply Wf. reflexivity. }
    repeat (match goal with |- exists r, (if ?c then _ else _) = _ => destruct c eqn:?; [eauto|] end).
    match goal with
  | H : negb (Nat.eqb _ _) = false |- _ =>
      apply negb_false_iff, Nat.eqb_eq in H; rename H into Heqn6
  end. apply orb_true_iff in Hp.
    assert (Hl : params f = [] /\ params t = []).
    { destruct Hp as [Hp|Hp].
      - assert (E : params f = []) by (destruct f; try discriminate; reflexivity).
        split; [exact E|]. rewrite E in Heqn6. destruct (params t); [reflexivity | discriminate].
      - assert (E : params t = []) by (destruct t; try discriminate; reflexivity).
        split; [|exact E]. rewrite E in Heqn6. destruct (params f); [reflexivity | discriminate]. }
    destruct Hl as [E1 E2]. rewrite E1, E2. cbn. eauto. }
  intros Hf Ht Hp. apply A; auto; intros w Hw.
  - destruct f; try discriminate. inversion Hw; subst. apply A; auto.
    + intros w' Hw'. discriminate.
    + intros w' Hw'. destruct t; try discriminate.
  - destruct t; try discriminate. inversion Hw; subst. apply A; auto.
    + intros w' Hw'. discriminate.
    + intros w' Hw'. destruct f; discriminate.
Qed.

(* both wrappers *)
Lemma wrapper_total lg b p q f :
  is_param f = false -> exists r, assignable_internal 4 lg b p (TPrim q) f = Some r.
Proof. intros Hf. apply prim_total; auto. Qed.

Definition bounded (b : bindings) (p : smap) (f t : ty) (n : nat) : Prop :=
  exists L, NoDup L /\ (length L <= n)%nat /\ In f L /\ In t L /\
            closed (resolve b p) (fun x => In x L).

Lemma check_params_total lg b L :
  (forall p x y, wf (resolve b p) -> closed (resolve b p) (fun u => In u L) ->
     In x L -> In y L -> exists k r, assignable_internal k lg b p x y = Some r) ->
  forall fs ts p, wf (resolve b p) -> closed (resolve b p) (fun u => In u L) ->
    (forall x, In x fs -> In x L) -> (forall x, In x ts -> In x L) ->
    exists k r, check_params (assignable_internal k lg b) p fs ts = Some r.
Proof.
  intros H. induction fs as [|x fs IH]; intros [|y ts] p W C Hf Ht;
    try (exists 0%nat; eexists; reflexivity).
  destruct (H p x y) as (k1 & [r1 p1] & H1); auto; [apply Hf; left; reflexivity | apply Ht; left; reflexivity |].
  destruct r1.
  - destruct (assignable_good _ _ _ _ _ _ _ _ W H1) as [W1 G1].
    destruct (IH ts p1) as (k2 & r2 & H2); auto.
    + eapply closed_within; [exact C|]. apply G1; auto; [apply Hf | apply Ht]; left; reflexivity.
    + intros; apply Hf; right; auto.
    + intros; apply Ht; right; auto.
    + exists (Nat.max k1 k2), r2. cbn.
      rewrite (assignable_mono _ _ _ _ _ _ _ H1) by lia.
      eapply check_params_mono; [|exact H2].
      intros q u v z Hz. apply (assignable_mono _ _ _ _ _ _ _ Hz). lia.
  - exists k1, (false, p1). cbn. rewrite H1. reflexivity.
Qed.

Lemma concrete_total lg b p f t n :
  (forall p f t m, (m < n)%nat -> wf (resolve b p) -> bounded b p f t m ->
     exists k r, assignable_internal k lg b p f t = Some r) ->
  wf (resolve b p) -> bounded b p f t n ->
  is_param f = false -> is_param t = false ->
  exists k r, assign_concrete lg (assignable_internal k lg b) p f t = Some r.
Proof.
  intros IH W (L & ND & Len & Hf & Ht & C) Pf Pt.
  unfold assign_concrete.
  destruct (wrapper_to_primitive t) as [w|] eqn:Ew.
  { exists 4%nat. destruct (is_null f); [eauto|]. destruct t; try discriminate.
    inversion Ew; subst. apply wrapper_total. exact Pf. }
  destruct (wrapper_to_primitive f) as [w|] eqn:Ew2.
  { exists 4%nat. destruct f; try discriminate. inversion Ew2; subst. apply wrapper_total. exact Pt. }
  repeat (match goal with |- exists k r, (if ?c then _ else _) = _ => destruct c; [exists 0%nat; eauto|] end).
  (* the universe of the parameters *)
  assert (HL : forall l, exists M, forall x, In x M <-> exists u, In u l /\ reach (resolve b p) u x).
  { induction l as [|y l [M HM]].
    - exists []. intros x. cbn. split; [tauto | intros [u [[] _]]].
    - destruct (reach_list _ W y) as [My HMy]. exists (My ++ M). intros x.
      rewrite in_app_iff, HMy, HM. split.
      + intros [H|[u [H1 H2]]]; [exists y; cbn; auto | exists u; cbn; auto].
      + intros [u [[->|H1] H2]]; [left; auto | right; exists u; auto]. }
  destruct (HL (params f ++ params t)) as [M HM].
  set (L' := nodup ty_eq_dec M).
  assert (HL' : forall x, In x L' <-> exists u, In u (params f ++ params t) /\ reach (resolve b p) u x).
  { intros x. unfold L'. rewrite nodup_In. apply HM. }
  assert (ND' : NoDup L') by apply NoDup_nodup.
  assert (Inc : incl L' L).
  { intros x Hx. apply HL' in Hx. destruct Hx as (u & Hu & Hr).
    apply (closed_reach (fun x => In x L) _ u x C); auto.
    apply in_app_iff in Hu. destruct Hu as [Hu|Hu].
    - apply (C f); auto. left. exact Hu.
    - apply (C t); auto. left. exact Hu. }
  assert (Out : exists z, In z L /\ ~ In z L').
  { destruct (in_dec ty_eq_dec f L') as [If|If]; [|exists f; auto].
    destruct (in_dec ty_eq_dec t L') as [It|It]; [|exists t; auto].
    exfalso. apply HL' in If. apply HL' in It.
    destruct If as (u & Hu & Ru). destruct It as (v & Hv & Rv).
    apply in_app_iff in Hu. apply in_app_iff in Hv.
    destruct Hu as [Hu|Hu].
    { eapply (wf_irrefl _ W u f); [left; exact Hu | exact Ru]. }
    destruct Hv as [Hv|Hv].
    - eapply (wf_irrefl _ W u t); [left; exact Hu|].
      eapply reach_trans; [exact Ru|]. eapply reach_trans; [|exact Rv].
      apply reach_child. left. exact Hv.
    - eapply (wf_irrefl _ W v t); [left; exact Hv | exact Rv]. }
  destruct Out as (z & Hz & Nz).
  assert (Lt : (length L' < n)%nat).
  { assert (length (z :: L') <= length L)%nat.
    { apply NoDup_incl_length; [constructor; auto|]. intros x [<-|Hx]; auto. }
    cbn in H. lia. }
  apply (check_params_total lg b L').
  - intros q x y Wq Cq Hx Hy. apply (IH q x y (length L')); auto.
    exists L'. auto.
  - exact W.
  - intros x y Hx Hy. apply HL'. apply HL' in Hx. destruct Hx as (u & Hu & Hr).
    exists u. split; auto. eapply reach_trans; [exact Hr|]. apply reach_child. exact Hy.
  - intros x Hx. apply HL'. exists x. split; [apply in_app_iff; auto | constructor].
  - intros x Hx. apply HL'. exists x. split; [apply in_app_iff; auto | constructor].
Qed.

Lemma constraints_total b p f t :
  wf (resolve b p) -> exists k r, assignable_with_constraints k b p f t = Some r.
Proof.
  intros W. unfold assignable_with_constraints.
  destruct f, t; try (exists 0%nat; eexists; reflexivity);
    match goal with
    | |- context [occurs_within _ ?b ?p ?n ?t] =>
        destruct (occurs_total b p n W t) as (k & r & H); exists k; rewrite H;
        destruct r; eauto
    end.
Qed.

Lemma assignable_total_bounded lg b n :
  forall p f t, wf (resolve b p) -> bounded b p f t n ->
    exists k r, assignable_internal k lg b p f t = Some r.
Proof.
  induction n as [n IHn] using lt_wf_ind.
  assert (IH : forall p f t m, (m < n)%nat -> wf (resolve b p) -> bounded b p f t m ->
     exists k r, assignable_internal k lg b p f t = Some r) by eauto.
  clear IHn.
  (* everything but widening *)
  assert (Core : forall p f t (wid : nat -> option (option smap)), wf (resolve b p) ->
     bounded b p f t n ->
     (forall f1 t1 k1, (forall k, (k1 <= k)%nat -> substitute k b p f = Some f1) ->
        (forall k, (k1 <= k)%nat -> substitute k b p t = Some t1) ->
        is_param f1 = false -> is_param t1 = false -> bounded b p f1 t1 n ->
        exists k r, try_widen k lg b (assignable_internal k lg b) p t f1 t1 = Some r) ->
     exists k r, assignable_internal k lg b p f t = Some r).
  { intros p f t _ W B Hwid.
    destruct (substitute_total b p W f) as (kf & f1 & Ef).
    destruct (substitute_total b p W t) as (kt & t1 & Et).
    set (k1 := Nat.max kf kt).
    assert (Ef' : forall k, (k1 <= k)%nat -> substitute k b p f = Some f1)
      by (intros; apply (substitute_mono _ _ _ _ _ Ef); lia).
    assert (Et' : forall k, (k1 <= k)%nat -> substitute k b p t = Some t1)
      by (intros; apply (substitute_mono _ _ _ _ _ Et); lia).
    destruct (ty_eqb t1 f1) eqn:Eq.
    { exists (S k1), (true, p). cbn [assignable_internal]. rewrite Ef', Et', Eq by lia. reflexivity. }
    destruct (is_param t1 || is_param f1)%bool eqn:Ep.
    { destruct (constraints_total b p f1 t1 W) as (k & r & H).
      exists (S (Nat.max k1 k)), r. cbn [assignable_internal]. rewrite Ef', Et', Eq, Ep by lia.
      apply (constraints_mono _ _ _ _ _ _ H). lia. }
    pose proof Ep as Ep2. apply orb_false_iff in Ep2. destruct Ep2 as [Pt Pf].
    assert (B1 : bounded b p f1 t1 n).
    { destruct B as (L & ND & Len & Hf & Ht & C). exists L. repeat split; auto.
      - apply (closed_reach (fun x => In x L) _ f f1 C Hf), (substitute_reach _ _ _ _ _ Ef).
      - apply (closed_reach (fun x => In x L) _ t t1 C Ht), (substitute_reach _ _ _ _ _ Et). }
    destruct (Hwid f1 t1 k1 Ef' Et' Pf Pt B1) as (k2 & w & Hw).
    destruct (concrete_total lg b p f1 t1 n IH W B1 Pf Pt) as (k3 & r & Hr).
    set (k := Nat.max k1 (Nat.max k2 k3)).
    assert (Hw' : try_widen k lg b (assignable_internal k lg b) p t f1 t1 = Some w).
    { refine (widen_mono k2 k _ _ _ _ _ _ _ _ _ _ _ Hw); [lia|].
      intros q x y z Hz. apply (assignable_mono _ _ _ _ _ _ _ Hz). lia. }
    assert (Hr' : assign_concrete lg (assignable_internal k lg b) p f1 t1 = Some r).
    { refine (concrete_mono _ _ _ _ _ _ _ _ Hr).
      intros q x y z Hz. apply (assignable_mono _ _ _ _ _ _ _ Hz). lia. }
    exists (S k). cbn [assignable_internal]. rewrite Ef', Et', Eq, Ep, Hw' by lia.
    destruct w; eauto. }
  assert (NoVar : forall p f t, is_param t = false -> wf (resolve b p) -> bounded b p f t n ->
     exists k r, assignable_internal k lg b p f t = Some r).
  { intros p f t Pt W B. apply (Core p f t (fun _ => None) W B).
    intros. exists 0%nat, None. destruct t; try reflexivity. discriminate. }
  intros p f t W B. apply (Core p f t (fun _ => None) W B).
  intros f1 t1 k1 Ef Et Pf Pt (L & ND & Len & Hf & Ht & C).
  unfold try_widen. destruct t; try (exists 0%nat; eexists; reflexivity).
  destruct (sm_find p name); [|exists 0%nat; eexists; reflexivity].
  destruct (compare_total lg b p W f1 t1) as (k2 & g & Hg).
  destruct (NoVar p t1 f1 Pf W) as (k3 & [r q] & Hr); [exists L; auto|].
  destruct (assignable_good _ _ _ _ _ _ _ _ W Hr) as [Wq _].
  destruct (occurs_total b q name Wq f1) as (k4 & o & Ho).
  exists (Nat.max k2 (Nat.max k3 k4)).
  rewrite (compare_mono _ _ _ _ _ _ _ Hg) by lia. destruct g; eauto.
  rewrite (assignable_mono _ _ _ _ _ _ _ Hr) by lia. destruct r; eauto.
  rewrite (occurs_mono _ _ _ _ _ _ Ho) by lia. destruct o; eauto.
Qed.

Lemma assignable_total lg b p f t :
  wf (resolve b p) -> exists k r, assignable_internal k lg b p f t = Some r.
Proof.
  intros W. destruct (reach_list _ W f) as [Lf Hf]. destruct (reach_list _ W t) as [Lt Ht].
  apply (assignable_total_bounded lg b (length (nodup ty_eq_dec (Lf ++ Lt)))); auto.
  exists (nodup ty_eq_dec (Lf ++ Lt)). split; [apply NoDup_nodup|]. split; [lia|].
  rewrite !nodup_In, !in_app_iff, !Hf, !Ht.
  split; [left; constructor|]. split; [right; constructor|].
  intros x y. rewrite !nodup_In, !in_app_iff, !Hf, !Ht.
  intros [H|H] Hc; [left|right]; (eapply reach_trans; [exact H|]; apply reach_child; exact Hc).
Qed.

Lemma fully_total b d :
  wf (resolve b []) -> forall t, exists k r, fully_substitute k b d t = Some r.
Proof.
  intros W. apply (acc_strong (resolve b [])); auto. intros t IH.
  assert (HL : forall l, (forall u, In u l -> In u (params t)) ->
     exists k r, map_opt (fully_substitute k b d) l = Some r).
  { induction l as [|x l IHl]; intros Hl.
    - exists 0%nat, []. reflexivity.
    - destruct (IH x x) as (k1 & r1 & H1); [left; apply Hl; left; reflexivity | constructor |].
      destruct IHl as (k2 & r2 & H2); [intros; apply Hl; right; auto|].
      exists (Nat.max k1 k2), (r1 :: r2). cbn.
      rewrite (fully_mono _ _ _ _ _ H1) by lia.
      rewrite (map_opt_mono (fully_substitute k2 b d) (fully_substitute (Nat.max k1 k2) b d) l r2); auto.
      intros y z Hz. apply (fully_mono _ _ _ _ _ Hz). lia. }
  destruct t; try (exists 1%nat; eexists; reflexivity).
  - destruct (substitute_total b [] W (TParam name)) as (k & u & H).
    destruct (substitute_reach _ _ _ _ _ H) as [R N].
    destruct (is_param u) eqn:Pu.
    + destruct u; try discriminate. exists (S k). eexists. cbn [fully_substitute]. rewrite H. reflexivity.
    + inversion R; subst; [discriminate|].
      destruct (IH u0 u H0 H1) as (k2 & r & Hr).
      exists (S (Nat.max k k2)), r. cbn [fully_substitute].
      rewrite (substitute_mono _ _ _ _ _ H) by lia.
      destruct u; try discriminate; apply (fully_mono _ _ _ _ _ Hr); lia.
  - destruct ps as [|x ps]; [exists 1%nat; eexists; reflexivity|].
    destruct (HL (x :: ps)) as (k & r & H); [auto|].
    exists (S k), (TType r). cbn [fully_substitute]. rewrite H. reflexivity.
  - destruct (IH t t) as (k & r & H); [left; left; reflexivity | constructor |].
    exists (S k), (TList r). cbn. rewrite H. reflexivity.
  - destruct (IH t1 t1) as (k & r & H); [left; left; reflexivity | constructor |].
    destruct (IH t2 t2) as (k' & r' & H'); [left; right; left; reflexivity | constructor |].
    exists (S (Nat.max k k')), (TMap r r'). cbn [fully_substitute].
    rewrite (fully_mono _ _ _ _ _ H), (fully_mono _ _ _ _ _ H') by lia. reflexivity.
  - destruct (HL ps) as (k & r & H); [auto|].
    exists (S k), (TOpaque name r). cbn [fully_substitute]. rewrite H. reflexivity.
Qed.
