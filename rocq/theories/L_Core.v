(* The reference semantics: congruence, free variables, substitution. *)
From Coq Require Import ZArith List Bool String Lia.
From Verif Require Import Base M_Overflow M_Number M_Attr M_Value M_Logic M_Expr M_Plan M_Machine
  S_Eval L_Seval L_Alloc L_Budget.
Import ListNotations.
Open Scope list_scope.
Open Scope Z_scope.

Lemma eval_list_ext (f g : core -> out vt) l :
  Forall (fun x => f x = g x) l -> eval_list f l = eval_list g l.
Proof.
  induction 1 as [|x l Hx Hl IH]; cbn [eval_list]; [reflexivity|].
  fold (eval_list f) (eval_list g). now rewrite Hx, IH.
Qed.
Lemma eval_loop_ext sh c c' s s' r r' items : forall a,
  (forall kv x, c kv x = c' kv x) -> (forall kv x, s kv x = s' kv x) -> (forall x, r x = r' x) ->
  eval_loop sh c s r items a = eval_loop sh c' s' r' items a.
Proof.
  induction items as [|kv items IH]; intros a Hc Hs Hr; cbn [eval_loop]; auto.
  rewrite Hc. destruct (c' kv a); cbn [obind]; auto. destruct (loop_condition a0); auto.
  rewrite Hr. destruct (negb b && sh); auto. rewrite Hs. destruct (s' kv a); cbn [obind]; auto.
Qed.
Lemma obind_ext {A B} (o o' : out A) (f g : A -> out B) :
  o = o' -> (forall a, f a = g a) -> obind o f = obind o' g.
Proof. intros -> H. destruct o'; cbn [obind]; auto. Qed.

Ltac ext_step :=
  match goal with
  | |- obind _ _ = obind _ _ => apply obind_ext; [|intros]
  | |- eval_loop _ _ _ _ _ _ = eval_loop _ _ _ _ _ _ => apply eval_loop_ext; intros
  | |- (if ?b then _ else _) = _ => destruct b
  | |- match ?x with _ => _ end = _ => destruct x
  end.

(* the budget is not part of the reference semantics *)
Lemma eval_budget n C e : forall rho, eval (with_budget n C) e rho = eval C e rho.
Proof.
  induction e using core_ind'; intros rho; cbn [eval]; auto.
  - apply obind_ext; auto. intros a. change (sc (with_budget n C)) with (sc C).
    destruct (sc C && decides op (fst a)); auto. apply obind_ext; auto.
  - apply obind_ext; auto. intros a. change (sc (with_budget n C)) with (sc C).
    destruct (sc C); [destruct (BoolCheck a); auto; destruct (is_true (fst a)); auto|].
    apply obind_ext; auto. intros. apply obind_ext; auto.
  - apply obind_ext; auto. intros a. change (sc (with_budget n C)) with (sc C).
    destruct (if sc C then OptionalJump k a else None); auto. apply obind_ext; auto.
  - apply obind_ext; auto.
    apply eval_list_ext. eapply Forall_impl; [|exact H]. auto.
  - apply obind_ext; auto. intros a. change (comp_init (with_budget n C) a) with (comp_init C a).
    destruct (comp_init C a) as [|[b items]]; auto. apply obind_ext; auto. intros i.
    apply eval_loop_ext; intros; auto.
  - rewrite IHe1. auto.
Qed.

(* ---- free variables ---- *)

Lemma reads_app x op args : reads x (KApp op args) = existsb (reads x) args.
Proof. cbn [reads]. induction args as [|a l IH]; cbn [existsb]; [reflexivity|]. now rewrite IH. Qed.
Lemma binds_app x op args : binds x (KApp op args) = existsb (binds x) args.
Proof. cbn [binds]. induction args as [|a l IH]; cbn [existsb]; [reflexivity|]. now rewrite IH. Qed.

(* names bound by a loop *)
Definition loop_name (i i2 y x : string) : bool :=
  String.eqb i x || negb (String.eqb i2 "") && String.eqb i2 x || String.eqb y x.
Lemma loop_env_at C i i2 y b t kv a rho rho' x :
  (loop_name i i2 y x = false -> rho x = rho' x) ->
  loop_env C i i2 y b t kv a rho x = loop_env C i i2 y b t kv a rho' x.
Proof.
  unfold loop_name, loop_env, bind_local. intros H.
  destruct (String.eqb i2 ""); destruct (String.eqb i x); cbn in *; auto;
    destruct (String.eqb i2 x); cbn in *; auto; destruct (String.eqb y x); cbn in *; auto.
Qed.

Lemma eval_free C e : forall rho rho',
  (forall x, reads x e = true -> rho x = rho' x) -> eval C e rho = eval C e rho'.
Proof.
  induction e using core_ind'; intros rho rho' Hr; cbn [eval]; auto.
  - rewrite (Hr n); auto. cbn [reads]. apply String.eqb_refl.
  - apply obind_ext.
    { apply IHe1. intros x Hx. apply Hr. cbn [reads]. now rewrite Hx. }
    intros a. destruct (sc C && decides op (fst a)); auto. apply obind_ext; auto.
    apply IHe2. intros x Hx. apply Hr. cbn [reads]. now rewrite Hx, orb_true_r.
  - assert (H2 : eval C e2 rho = eval C e2 rho')
      by (apply IHe2; intros x Hx; apply Hr; cbn [reads]; now rewrite Hx, orb_true_r).
    assert (H3 : eval C e3 rho = eval C e3 rho')
      by (apply IHe3; intros x Hx; apply Hr; cbn [reads]; now rewrite Hx, orb_true_r).
    apply obind_ext.
    { apply IHe1. intros x Hx. apply Hr. cbn [reads]. now rewrite Hx. }
    intros a. rewrite H2, H3. reflexivity.
  - assert (H2 : eval C e2 rho = eval C e2 rho')
      by (apply IHe2; intros x Hx; apply Hr; cbn [reads]; now rewrite Hx, orb_true_r).
    apply obind_ext.
    { apply IHe1. intros x Hx. apply Hr. cbn [reads]. now rewrite Hx. }
    intros a. rewrite H2. reflexivity.
  - apply obind_ext; auto. apply eval_list_ext. rewrite Forall_forall in *. intros a Ha.
    apply H; auto. intros x Hx. apply Hr. rewrite reads_app, existsb_exists. eauto.
  - cbn [reads] in Hr.
    assert (Hc : forall (e : core), (forall z, reads z e = true -> (reads z e3 || reads z e4) = true) ->
      (forall rho rho', (forall z, reads z e = true -> rho z = rho' z) -> eval C e rho = eval C e rho') ->
      forall t b kv a, eval C e (loop_env C x x2 y b t kv a rho) = eval C e (loop_env C x x2 y b t kv a rho')).
    { intros e He Hev t b kv a. apply Hev. intros z Hz. apply loop_env_at. intros Hn. apply Hr.
      unfold loop_name in Hn. rewrite Hn, (He z Hz). cbn [negb andb]. now rewrite orb_true_r. }
    apply obind_ext.
    { apply IHe1. intros z Hz. apply Hr. now rewrite Hz. }
    intros a. destruct (comp_init C a) as [|[b items]]; auto. apply obind_ext.
    { apply IHe2. intros z Hz. apply Hr. rewrite Hz. now rewrite orb_true_r. }
    intros i. apply eval_loop_ext.
    + intros. apply Hc; auto. intros z ->. reflexivity.
    + intros. apply Hc; auto. intros z ->. apply orb_true_r.
    + intros. apply IHe5. intros z Hz. unfold bind_local. destruct (String.eqb y z) eqn:E; auto.
      apply Hr. rewrite E, Hz. cbn [negb andb]. now rewrite orb_true_r.
  - cbn [reads] in Hr. rewrite (IHe1 rho rho').
    2: { intros z Hz. apply Hr. now rewrite Hz. }
    apply IHe2. intros z Hz. unfold bind_local. destruct (String.eqb y z) eqn:E; auto.
    apply Hr. rewrite E, Hz. cbn [negb andb]. now rewrite orb_true_r.
Qed.

(* ---- substitution ---- *)

Lemma bind_other x o rho y : String.eqb x y = false -> bind_local x o rho y = rho y.
Proof. unfold bind_local. now intros ->. Qed.

(* rho' is rho with x bound to the outcome of a, except where shadowed *)
Lemma eval_subst C x a e : forall rho rho',
  (forall z, reads z a = true -> binds z e = false) ->
  rho' x = Some (eval C a rho) -> (forall z, String.eqb x z = false -> rho' z = rho z) ->
  eval C (subst x a e) rho = eval C e rho'.
Proof.
  induction e using core_ind'; intros rho rho' Hc Hx Ho; cbn [subst eval]; auto.
  - destruct (String.eqb n x) eqn:E.
    + apply String.eqb_eq in E as ->. now rewrite Hx.
    + cbn [eval]. rewrite Ho; auto. rewrite String.eqb_sym. auto.
  - assert (H1 : forall z, reads z a = true -> binds z e1 = false /\ binds z e2 = false).
    { intros z Hz. specialize (Hc z Hz). cbn [binds] in Hc. now apply orb_false_iff in Hc. }
    rewrite (IHe1 rho rho') by (first [now auto | intros z Hz; now apply H1]).
    rewrite (IHe2 rho rho') by (first [now auto | intros z Hz; now apply H1]).
    reflexivity.
  - assert (H1 : forall z, reads z a = true -> binds z e1 = false /\ binds z e2 = false /\ binds z e3 = false).
    { intros z Hz. specialize (Hc z Hz). cbn [binds] in Hc. now rewrite !orb_false_iff in Hc. }
    rewrite (IHe1 rho rho') by (first [now auto | intros z Hz; now apply H1]).
    rewrite (IHe2 rho rho') by (first [now auto | intros z Hz; now apply H1]).
    rewrite (IHe3 rho rho') by (first [now auto | intros z Hz; now apply H1]).
    reflexivity.
  - assert (H1 : forall z, reads z a = true -> binds z e1 = false /\ binds z e2 = false).
    { intros z Hz. specialize (Hc z Hz). cbn [binds] in Hc. now apply orb_false_iff in Hc. }
    rewrite (IHe1 rho rho') by (first [now auto | intros z Hz; now apply H1]).
    rewrite (IHe2 rho rho') by (first [now auto | intros z Hz; now apply H1]).
    reflexivity.
  - assert (E : eval_list (fun e => eval C e rho) (map (subst x a) args) =
                eval_list (fun e => eval C e rho') args).
    { assert (Hc' : forall z, reads z a = true -> forall e, In e args -> binds z e = false).
      { intros z Hz e He. specialize (Hc z Hz). rewrite binds_app in Hc.
        destruct (binds z e) eqn:Eb; auto. exfalso.
        assert (existsb (binds z) args = true) by (apply existsb_exists; eauto). congruence. }
      clear Hc. induction H as [|e l He Hl IH]; cbn [map eval_list]; auto.
      fold (eval_list (fun e => eval C e rho)) (eval_list (fun e => eval C e rho')).
      rewrite (He rho rho'); auto; [|intros z Hz; apply Hc'; auto; now left].
      rewrite IH; auto. intros z Hz e' He'. apply Hc'; auto. now right. }
    now rewrite E.
  - cbn [binds] in Hc.
    assert (Hb : forall z, reads z a = true -> loop_name x0 x2 y z = false /\
       String.eqb y z = false /\
       binds z e1 = false /\ binds z e2 = false /\ binds z e3 = false /\
       binds z e4 = false /\ binds z e5 = false).
    { intros z Hz. specialize (Hc z Hz). rewrite !orb_false_iff in Hc. unfold loop_name.
      destruct Hc as (((((((A1 & A2) & A3) & A4) & A5) & A6) & A7) & A8).
      rewrite A1, A2, A3. rewrite andb_false_r. auto 8. }
    assert (Hin : forall e, (forall z, reads z a = true -> binds z e = false) ->
      (forall rho rho', (forall z, reads z a = true -> binds z e = false) ->
         rho' x = Some (eval C a rho) -> (forall z, String.eqb x z = false -> rho' z = rho z) ->
         eval C (subst x a e) rho = eval C e rho') ->
      forall b t kv u,
      eval C (if String.eqb x0 x || negb (String.eqb x2 "") && String.eqb x2 x || String.eqb y x
              then e else subst x a e) (loop_env C x0 x2 y b t kv u rho)
      = eval C e (loop_env C x0 x2 y b t kv u rho')).
    { intros e He Hev b t kv u.
      assert (Hz : forall z, String.eqb x z = false ->
                 loop_env C x0 x2 y b t kv u rho' z = loop_env C x0 x2 y b t kv u rho z)
        by (intros z Hz; apply loop_env_at; auto).
      fold (loop_name x0 x2 y x). destruct (loop_name x0 x2 y x) eqn:En.
      - apply eval_free. intros z _. apply loop_env_at. intros Hn.
        symmetry. apply Ho. destruct (String.eqb x z) eqn:E; auto. apply String.eqb_eq in E as <-. congruence.
      - apply Hev; auto.
        assert (Hx' : loop_env C x0 x2 y b t kv u rho' x = rho' x).
        { unfold loop_env, loop_name, bind_local in *. rewrite !orb_false_iff in En.
          destruct En as [[E1 E2] E3]. destruct (String.eqb x2 ""); cbn [negb andb] in E2;
          rewrite E1, ?E2, E3; auto. }
        rewrite Hx', Hx. f_equal. apply eval_free. intros z Hzr.
        destruct (Hb z Hzr) as (Hl & _).
        unfold loop_env, loop_name, bind_local in *. rewrite !orb_false_iff in Hl.
        destruct Hl as [[E1 E2] E3]. destruct (String.eqb x2 ""); cbn [negb andb] in E2;
          rewrite E1, ?E2, E3; auto. }
    rewrite (IHe1 rho rho') by (first [now auto | intros z Hz; now apply Hb]).
    apply obind_ext; auto. intros r. destruct (comp_init C r) as [|[b items]]; auto.
    rewrite (IHe2 rho rho') by (first [now auto | intros z Hz; now apply Hb]).
    apply obind_ext; auto. intros i. apply eval_loop_ext.
    + intros kv u. apply Hin; auto. intros z Hz. now apply Hb.
    + intros kv u. apply Hin; auto. intros z Hz. now apply Hb.
    + intros u. destruct (String.eqb y x) eqn:Ey.
      * apply eval_free. intros z _. unfold bind_local. destruct (String.eqb y z) eqn:E; auto.
        symmetry. apply Ho. destruct (String.eqb x z) eqn:E'; auto.
        apply String.eqb_eq in E' as <-. congruence.
      * apply IHe5.
        -- intros z Hz. now apply Hb.
        -- unfold bind_local at 1. rewrite Ey, Hx. f_equal. apply eval_free. intros z Hz.
           symmetry. apply bind_other. now apply Hb.
        -- intros z Hz. unfold bind_local. destruct (String.eqb y z); auto.
  - cbn [binds] in Hc.
    assert (Hb : forall z, reads z a = true -> String.eqb y z = false /\
       binds z e1 = false /\ binds z e2 = false).
    { intros z Hz. specialize (Hc z Hz). now rewrite !orb_false_iff in Hc. }
    rewrite (IHe1 rho rho') by (first [now auto | intros z Hz; now apply Hb]).
    destruct (String.eqb y x) eqn:Ey.
    + apply eval_free. intros z _. unfold bind_local. destruct (String.eqb y z) eqn:E; auto.
      symmetry. apply Ho. destruct (String.eqb x z) eqn:E'; auto.
      apply String.eqb_eq in E' as <-. congruence.
    + apply IHe2.
      * intros z Hz. now apply Hb.
      * unfold bind_local at 1. rewrite Ey, Hx. f_equal. apply eval_free. intros z Hz.
        symmetry. apply bind_other. now apply Hb.
      * intros z Hz. unfold bind_local. destruct (String.eqb y z); auto.
Qed.

(* ---- contexts ---- *)

Lemma eval_list_app_ext f l a b l' : f a = f b -> eval_list f (l ++ a :: l') = eval_list f (l ++ b :: l').
Proof.
  intros H. induction l as [|x l IH]; cbn [app eval_list]; fold (eval_list f).
  - now rewrite H.
  - now rewrite IH.
Qed.
Lemma eval_plug C c a b : (forall rho, eval C a rho = eval C b rho) ->
  forall rho, eval C (plug c a) rho = eval C (plug c b) rho.
Proof.
  intros H. induction c; intros rho; cbn [plug eval]; auto; rewrite ?IHc; auto;
    try (apply obind_ext; auto; intros x; rewrite ?IHc; reflexivity).
  - now rewrite (eval_list_app_ext (fun e => eval C e rho) before (plug c a) (plug c b) after (IHc rho)).
  - apply obind_ext; auto. intros r. destruct (comp_init C r) as [|[bb items]]; auto.
    apply obind_ext; auto. intros. apply eval_loop_ext; auto.
  - apply obind_ext; auto. intros r. destruct (comp_init C r) as [|[bb items]]; auto.
    apply obind_ext; auto. intros. apply eval_loop_ext; auto.
  - apply obind_ext; auto. intros r. destruct (comp_init C r) as [|[bb items]]; auto.
    apply obind_ext; auto. intros. apply eval_loop_ext; auto.
Qed.
