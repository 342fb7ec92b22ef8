From Coq Require Import ZArith List Bool String Lia.
From Verif Require Import Base M_Value.
From Verif Require Import M_Activation S_Activation.
Import ListNotations.
Open Scope list_scope.

Definition locked (c : pc) : bool :=
  match c with PMemo | PCall | PInside _ | PStore _ | PUnlock _ => true | _ => false end.
Definition stack_ok (l : list frame) : Prop :=
  match l with
  | [] | [_] => True
  | [f; g] => locked (f_pc f) = false /\ exists p, f_pc g = PInside p
  | _ => False
  end.
Definition entry_ok (e : ventry) (tr : list event) (t : nat) (n : string) (c : pc) : Prop :=
  match c with
  | PFind | PProvider => True
  | PPlain => ve_provider e = None
  | PLock => ve_provider e <> None
  | PMemo => ve_provider e <> None /\ running tr = None
  | PCall => ve_provider e <> None /\ running tr = None /\ ve_value e = None
  | PInside p => ve_provider e = Some p /\ running tr = Some (t, n) /\ ve_value e = None
  | PStore o => ve_provider e <> None /\ running tr = None /\ ve_value e = None /\ last_of t tr = Some (EvReturn t n o)
  | PUnlock r => ve_provider e <> None /\ running tr = None /\
      match r with
      | Found v => ve_value e = Some v
      | NotFound => ve_value e = None /\ last_of t tr = Some (EvReturn t n Nothing)
      | Error s => ve_value e = None /\ last_of t tr = Some (EvReturn t n (Failed s))
      end
  end.
Definition frame_ok (m : values) (tr : list event) (t : nat) (f : frame) : Prop :=
  match f_pc f with
  | PFind => True
  | c => exists e, m (f_name f) = Some e /\ entry_ok e tr t (f_name f) c
  end.
(* how an entry may have changed *)
Definition keeps (o o' : option ventry) : Prop :=
  match o, o' with
  | None, None => True
  | Some e, Some e' =>
      ve_provider e' = ve_provider e /\
      (ve_provider e = None -> ve_value e' = ve_value e) /\ (forall v, ve_value e = Some v -> ve_value e' = Some v)
  | _, _ => False
  end.
Fixpoint good_trace (m : values) (tr : list event) : Prop :=
  match tr with
  | [] => True
  | ev :: tr' =>
      good_trace m tr' /\
      match ev with
      | EvCall t n p a => call_in_order m n p tr'
      | EvReturn t n o => running tr' = Some (t, n)
      | EvResult t n a r => result_right m t n r tr'
      end
  end.
Record inv (m : values) (s : sys) (tr : list event) : Prop := {
  i_keeps : forall n, keeps (m n) (sy_values s n);
  i_stack : forall t, stack_ok (th_stack (sy_threads s t));
  i_frame : forall t f, In f (th_stack (sy_threads s t)) -> frame_ok (sy_values s) tr t f;
  i_mutex : forall t f, In f (th_stack (sy_threads s t)) -> locked (f_pc f) = true -> sy_mutex s = Some t;
  i_owner : match sy_mutex s with
            | Some t => exists f, In f (th_stack (sy_threads s t)) /\ locked (f_pc f) = true
            | None => running tr = None
            end;
  i_given : forall n v, was_provided n v tr ->
    (exists p, sy_values s n = Some (mkVE (Some v) p)) \/
    (exists t f, In f (th_stack (sy_threads s t)) /\ f_name f = n /\ f_pc f = PStore (Provided v));
  i_memo : forall n p v, sy_values s n = Some (mkVE (Some v) (Some p)) ->
    m n = Some (mkVE (Some v) (Some p)) \/ (m n = Some (mkVE None (Some p)) /\ was_provided n v tr);
  i_trace : good_trace m tr }.

Lemma set_thread_same T t x : set_thread T t x t = x.
Proof. unfold set_thread. now rewrite Nat.eqb_refl. Qed.
Lemma set_thread_other T t x k : k <> t -> set_thread T t x k = T k.
Proof. intros H. unfold set_thread. apply Nat.eqb_neq in H. now rewrite H. Qed.
Lemma keeps_refl o : keeps o o.
Proof. destruct o; cbn; auto. Qed.

(* the locked frame of a thread is unique *)
Lemma locked_unique l f g : stack_ok l -> In f l -> In g l -> locked (f_pc f) = true -> locked (f_pc g) = true -> f = g.
Proof.
  destruct l as [|a [|b [|c l]]]; cbn; try tauto.
  - intros _ [<-|[]] [<-|[]]; auto.
  - intros [Ha _] [<-|[<-|[]]] [<-|[<-|[]]] Hf Hg; auto; congruence.
Qed.

(* a frame of another thread is still all right *)
Lemma frame_other m m' tr tr' t f : frame_ok m tr t f ->
  (forall e, m (f_name f) = Some e -> exists e', m' (f_name f) = Some e' /\ ve_provider e' = ve_provider e) ->
  (locked (f_pc f) = true -> m' (f_name f) = m (f_name f) /\ running tr' = running tr /\ last_of t tr' = last_of t tr) ->
  frame_ok m' tr' t f.
Proof.
  unfold frame_ok. intros H H1 H2. destruct (f_pc f) eqn:E; try exact I; try (destruct H as (e & He & H); cbn [locked] in H2).
  1-3: destruct (H1 e He) as (e' & He' & Hp); exists e'; split; [exact He'|]; cbn [entry_ok] in *; congruence.
  all: destruct (H2 eq_refl) as (G1 & G2 & G3); exists e; (split; [congruence|]); cbn [entry_ok] in *; rewrite G2; try rewrite G3; exact H.
Qed.
Lemma last_other t ev tr : by_thread ev <> t -> last_of t (ev :: tr) = last_of t tr.
Proof. intros H. cbn [last_of]. apply Nat.eqb_neq in H. now rewrite H. Qed.

Section Step.
  Variable (H : host) (m0 : values).

  (* Steps that do not change the variables nor a provider's status: only the
     top frame of one thread changes. *)
  Lemma inv_local m mu T t f rest todo f' tr : inv m0 (mkSys m mu T) tr -> T t = mkThread (f :: rest) todo ->
    f_name f' = f_name f -> locked (f_pc f') = locked (f_pc f) -> frame_ok m tr t f' ->
    (forall o, f_pc f <> PStore o) -> (rest <> [] -> locked (f_pc f') = false) ->
    inv m0 (mkSys m mu (set_thread T t (mkThread (f' :: rest) todo))) tr.
  Proof.
    intros Hi Ht Hn Hl Hf Hs Hr. destruct Hi as [I1 I2 I3 I4 I5 I6 I7 I8]. cbn [sy_values sy_mutex sy_threads] in *.
    assert (Hst : stack_ok (f :: rest)) by (specialize (I2 t); now rewrite Ht in I2).
    constructor; cbn [sy_values sy_mutex sy_threads]; auto.
    - intros k. destruct (Nat.eq_dec k t) as [->|Hk]; [|rewrite set_thread_other by exact Hk; apply I2].
      rewrite set_thread_same. cbn [th_stack]. destruct rest as [|g [|h rest]]; [exact I| |exact Hst].
      destruct Hst as [_ G]. split; [apply Hr; discriminate|exact G].
    - intros k g. destruct (Nat.eq_dec k t) as [->|Hk]; [|rewrite set_thread_other by exact Hk; apply I3].
      rewrite set_thread_same. cbn [th_stack]. intros [<-|Hg]; [exact Hf|]. apply I3. rewrite Ht. now right.
    - intros k g. destruct (Nat.eq_dec k t) as [->|Hk]; [|rewrite set_thread_other by exact Hk; apply I4].
      rewrite set_thread_same. cbn [th_stack]. intros [<-|Hg] Hlk.
      + rewrite Hl in Hlk. eapply I4; [rewrite Ht; now left|exact Hlk].
      + eapply I4; [rewrite Ht; right; exact Hg|exact Hlk].
    - destruct mu as [k|]; [|exact I5]. destruct I5 as (g & Hg & Hlk).
      destruct (Nat.eq_dec k t) as [->|Hk]; [|rewrite set_thread_other by exact Hk; eauto].
      rewrite set_thread_same. cbn [th_stack]. rewrite Ht in Hg. destruct Hg as [<-|Hg]; [exists f'; split; [now left|congruence]|].
      exists g. split; [now right|exact Hlk].
    - intros n v Hv. destruct (I6 n v Hv) as [G|(k & g & Hg & Hgn & Hgp)]; [now left|]. right.
      destruct (Nat.eq_dec k t) as [->|Hk]; [|exists k, g; rewrite set_thread_other by exact Hk; auto].
      rewrite Ht in Hg. destruct Hg as [<-|Hg]; [now destruct (Hs (Provided v))|].
      exists t, g. rewrite set_thread_same. cbn [th_stack]. split; [now right|auto].
  Qed.

  Lemma inv_update m mu T t todo stk' m' mu' tr tr' : inv m0 (mkSys m mu T) tr ->
    (forall n, keeps (m0 n) (m' n)) -> stack_ok stk' ->
    (forall f, In f stk' -> frame_ok m' tr' t f) ->
    (forall k f, k <> t -> In f (th_stack (T k)) -> frame_ok m tr k f -> frame_ok m' tr' k f) ->
    (forall f, In f stk' -> locked (f_pc f) = true -> mu' = Some t) ->
    (forall k, k <> t -> mu = Some k -> mu' = Some k) ->
    match mu' with
    | Some k => (k = t /\ exists f, In f stk' /\ locked (f_pc f) = true) \/ (k <> t /\ mu = Some k)
    | None => running tr' = None
    end ->
    (forall n v, was_provided n v tr' ->
       (exists p, m' n = Some (mkVE (Some v) p)) \/
       (exists f, In f stk' /\ f_name f = n /\ f_pc f = PStore (Provided v)) \/
       (exists k f, k <> t /\ In f (th_stack (T k)) /\ f_name f = n /\ f_pc f = PStore (Provided v))) ->
    (forall n p v, m' n = Some (mkVE (Some v) (Some p)) ->
       m0 n = Some (mkVE (Some v) (Some p)) \/ (m0 n = Some (mkVE None (Some p)) /\ was_provided n v tr')) ->
    good_trace m0 tr' ->
    inv m0 (mkSys m' mu' (set_thread T t (mkThread stk' todo))) tr'.
  Proof.
    intros [I1 I2 I3 I4 I5 I6 I7 I8] N1 N2 N3 N3' N4 N4' N5 N6 N7 N8. cbn [sy_values sy_mutex sy_threads] in *.
    constructor; cbn [sy_values sy_mutex sy_threads]; auto.
    - intros k. destruct (Nat.eq_dec k t) as [->|Hk]; [now rewrite set_thread_same|rewrite set_thread_other by exact Hk; apply I2].
    - intros k g. destruct (Nat.eq_dec k t) as [->|Hk]; [rewrite set_thread_same; apply N3|].
      rewrite set_thread_other by exact Hk. intros Hg. apply N3'; auto.
    - intros k g. destruct (Nat.eq_dec k t) as [->|Hk]; [rewrite set_thread_same; apply N4|].
      rewrite set_thread_other by exact Hk. intros Hg Hl. apply N4'; [exact Hk|]. eapply I4; eauto.
    - destruct mu' as [k|]; [|exact N5]. destruct N5 as [[-> N5]|[Hk ->]]; [now rewrite set_thread_same|].
      rewrite set_thread_other by exact Hk. exact I5.
    - intros n v Hv. destruct (N6 n v Hv) as [G|[(f & G)|(k & f & Hk & G)]]; [now left| |]; right.
      + exists t, f. now rewrite set_thread_same.
      + exists k, f. now rewrite set_thread_other by exact Hk.
  Qed.

  (* every other thread is outside of the lock *)
  Lemma others_unlocked m mu T tr t f : inv m0 (mkSys m mu T) tr -> In f (th_stack (T t)) -> locked (f_pc f) = true ->
    forall k g, k <> t -> In g (th_stack (T k)) -> locked (f_pc g) = false.
  Proof.
    intros Hi Hf Hl k g Hk Hg. destruct (locked (f_pc g)) eqn:E; [|reflexivity].
    pose proof (i_mutex _ _ _ Hi t f Hf Hl) as E1. pose proof (i_mutex _ _ _ Hi k g Hg E) as E2. cbn in *. congruence.
  Qed.
  Lemma rest_empty m mu T tr t f rest todo : inv m0 (mkSys m mu T) tr -> T t = mkThread (f :: rest) todo ->
    locked (f_pc f) = true -> rest = [].
  Proof.
    intros Hi Ht Hl. pose proof (i_stack _ _ _ Hi t) as Hs. cbn in Hs. rewrite Ht in Hs. cbn [th_stack] in Hs.
    destruct rest as [|g [|h rest]]; [reflexivity| |contradiction]. destruct Hs as [Hs _]. congruence.
  Qed.
  (* the clauses about stored values, when no store is under way here *)
  Lemma given_same m mu T tr t f rest todo stk' : inv m0 (mkSys m mu T) tr -> T t = mkThread (f :: rest) todo ->
    (forall o, f_pc f <> PStore o) -> (forall g, In g rest -> In g stk') ->
    forall n v, was_provided n v tr ->
       (exists p, m n = Some (mkVE (Some v) p)) \/
       (exists f, In f stk' /\ f_name f = n /\ f_pc f = PStore (Provided v)) \/
       (exists k f, k <> t /\ In f (th_stack (T k)) /\ f_name f = n /\ f_pc f = PStore (Provided v)).
  Proof.
    intros Hi Ht Hs Hr n v Hv. destruct (i_given _ _ _ Hi n v Hv) as [G|(k & g & Hg & Hgn & Hgp)]; [now left|]. right.
    cbn in Hg. destruct (Nat.eq_dec k t) as [->|Hk]; [|right; exists k, g; auto]. left.
    rewrite Ht in Hg. destruct Hg as [<-|Hg]; [now destruct (Hs (Provided v))|]. exists g. auto.
  Qed.
  Lemma provided_result n v t k a r tr : was_provided n v (EvResult t k a r :: tr) <-> was_provided n v tr.
  Proof.
    split; intros [t' G]; exists t'; [|now right]. destruct G as [G|G]; [discriminate G|exact G].
  Qed.
  Lemma provided_call n v t k p a tr : was_provided n v (EvCall t k p a :: tr) <-> was_provided n v tr.
  Proof.
    split; intros [t' G]; exists t'; [|now right]. destruct G as [G|G]; [discriminate G|exact G].
  Qed.
  Lemma frame_same m tr t f c : f_pc f = c -> frame_ok m tr t f -> frame_ok m tr t (at_pc f c).
  Proof. intros <-. destruct f. exact (fun x => x). Qed.

  (* a value that is there is the first one *)
  Lemma not_yet m mu T tr t f e : inv m0 (mkSys m mu T) tr -> In f (th_stack (T t)) -> locked (f_pc f) = true ->
    (forall o, f_pc f <> PStore o) -> m (f_name f) = Some e -> ve_value e = None -> forall v, ~ was_provided (f_name f) v tr.
  Proof.
    intros Hi Hf Hl Hs He Hv v Hp. destruct (i_given _ _ _ Hi _ _ Hp) as [[p G]|(k & g & Hg & _ & Hgp)].
    - cbn in G. rewrite He in G. injection G as ->. discriminate Hv.
    - cbn in Hg. destruct (Nat.eq_dec k t) as [->|Hk].
      + assert (g = f); [|subst; now destruct (Hs (Provided v))]. eapply (locked_unique (th_stack (T t))); eauto.
        * apply (i_stack _ _ _ Hi).
        * now rewrite Hgp.
      + pose proof (others_unlocked _ _ _ _ _ _ Hi Hf Hl k g Hk Hg) as G. rewrite Hgp in G. discriminate G.
  Qed.
  Lemma keeps_none m mu T tr n e p : inv m0 (mkSys m mu T) tr -> m n = Some e -> ve_provider e = Some p -> ve_value e = None ->
    m0 n = Some (mkVE None (Some p)).
  Proof.
    intros Hi He Hp Hv. pose proof (i_keeps _ _ _ Hi n) as K. cbn in K. rewrite He in K. unfold keeps in K.
    destruct (m0 n) as [[v0 p0]|]; [|contradiction]. cbn in K. destruct K as (K1 & _ & K3). rewrite K1 in Hp. subst p0.
    destruct v0 as [v0|]; [|reflexivity]. rewrite (K3 v0 eq_refl) in Hv. discriminate Hv.
  Qed.

  Lemma inv_step s t ev s' tr : inv m0 s tr -> step H s t ev s' -> inv m0 s' (record ev tr).
  Proof.
    intros Hi Hstep. destruct Hstep as
      [m mu T t n a todo Ht
      |m mu T t f rest todo c Ht Hc
      |m mu T t f rest todo r Ht Hc
      |m T t f rest todo Ht Hc
      |m mu T t f rest todo e Ht Hc He
      |m mu T t f rest todo e p Ht Hc He Hp
      |m mu T t f rest todo p n a Ht Hc Hl
      |m mu T t f rest todo p o Ht Hc Hg
      |m mu T t f rest todo e o Ht Hc He
      |m mu T t f rest todo r Ht Hc]; cbn [record].
    - (* start *)
      apply (inv_update m mu T t todo [mkFrame n a PFind] m mu tr tr Hi); cbn.
      + apply (i_keeps _ _ _ Hi).
      + exact I.
      + intros f [<-|[]]. exact I.
      + auto.
      + intros f [<-|[]]. discriminate.
      + auto.
      + pose proof (i_owner _ _ _ Hi) as O. cbn in O. destruct mu as [k|]; [|exact O]. right. split; [|reflexivity].
        intros ->. rewrite Ht in O. destruct O as (f & [] & _).
      + intros n' v Hv. destruct (i_given _ _ _ Hi _ _ Hv) as [G|(k & g & Hg & G)]; [now left|]. right. right. cbn in Hg.
        exists k, g. split; [|auto]. intros ->. rewrite Ht in Hg. destruct Hg.
      + apply (i_memo _ _ _ Hi).
      + apply (i_trace _ _ _ Hi).
    - (* find *)
      assert (Hu : locked (f_pc f) = false /\ locked c = false).
      { destruct (f_pc f); cbn in Hc; try discriminate Hc; destruct (m (f_name f)) as [e|]; try discriminate Hc;
          injection Hc as <-; split; try reflexivity. now destruct (is_some (ve_provider e)). }
      destruct Hu as [Hu1 Hu2].
      apply (inv_local m mu T t f rest todo (at_pc f c) tr Hi Ht); auto.
      + cbn. congruence.
      + unfold frame_ok. cbn [at_pc f_pc f_name].
        destruct (f_pc f); cbn in Hc; try discriminate Hc; destruct (m (f_name f)) as [e|]; try discriminate Hc; injection Hc as <-.
        * exists e. split; [reflexivity|exact I].
        * destruct (ve_provider e) eqn:E; cbn; exists e; (split; [reflexivity|]); cbn; congruence.
      + intros o E. rewrite E in Hu1. discriminate Hu1.
    - (* found *)
      assert (Hu : locked (f_pc f) = false) by (destruct (f_pc f); cbn in Hc; try discriminate Hc; reflexivity).
      assert (Hns : forall o, f_pc f <> PStore o) by (intros o E; rewrite E in Hu; discriminate Hu).
      pose proof (i_stack _ _ _ Hi t) as Hs. cbn in Hs. rewrite Ht in Hs. cbn [th_stack] in Hs.
      assert (Hrest : forall g, In g rest -> exists p, f_pc g = PInside p).
      { destruct rest as [|g [|h rest]]; [intros ? []| |contradiction]. intros g' [<-|[]]. apply Hs. }
      assert (Hin : forall g, In g rest -> In g (th_stack (T t))) by (intros g Hg; rewrite Ht; now right).
      apply (inv_update m mu T t todo rest m mu tr _ Hi); cbn [running].
      + apply (i_keeps _ _ _ Hi).
      + destruct rest as [|g [|h rest]]; try exact I. contradiction.
      + intros g Hg. pose proof (i_frame _ _ _ Hi t g (Hin g Hg)) as Hf. cbn in Hf. destruct (Hrest g Hg) as [p E].
        unfold frame_ok in *. rewrite E in *. exact Hf.
      + intros k g Hk Hg Hf. eapply frame_other; [exact Hf|eauto|]. intros _. repeat split. apply last_other. cbn. congruence.
      + intros g Hg Hl. eapply (i_mutex _ _ _ Hi); [apply Hin, Hg|exact Hl].
      + auto.
      + pose proof (i_owner _ _ _ Hi) as O. cbn in O. destruct mu as [k|]; [|exact O].
        destruct (Nat.eq_dec k t) as [->|Hk]; [left; split; [reflexivity|]|now right].
        destruct O as (g & Hg & Hl). rewrite Ht in Hg. destruct Hg as [<-|Hg]; [congruence|]. eauto.
      + intros n v Hv. rewrite provided_result in Hv. eapply given_same; eauto.
      + intros n p v Hv. rewrite provided_result. now apply (i_memo _ _ _ Hi).
      + split; [apply (i_trace _ _ _ Hi)|]. unfold result_right.
        pose proof (i_keeps _ _ _ Hi (f_name f)) as K. pose proof (i_frame _ _ _ Hi t f) as Hf. cbn in K, Hf. rewrite Ht in Hf.
        specialize (Hf (or_introl eq_refl)). unfold frame_ok in Hf.
        destruct (f_pc f); cbn in Hc; try discriminate Hc; destruct (m (f_name f)) as [e|] eqn:Em; try discriminate Hc.
        * injection Hc as <-. destruct (m0 (f_name f)); [contradiction|reflexivity].
        * injection Hc as <-. destruct Hf as (e' & [= <-] & Hp). cbn in Hp.
          destruct (m0 (f_name f)) as [[v0 p0]|]; [|contradiction]. cbn in K. destruct K as (K1 & K2 & _). rewrite Hp in K1. subst p0.
          rewrite (K2 eq_refl). destruct v0; reflexivity.
    - (* lock *)
      assert (Hrest : rest = []).
      { destruct rest as [|g rest]; [reflexivity|]. pose proof (i_stack _ _ _ Hi t) as Hs. cbn in Hs. rewrite Ht in Hs. cbn in Hs.
        destruct rest; [|contradiction]. destruct Hs as (_ & p & Hs).
        assert (G : @None nat = Some t); [|discriminate G].
        apply (i_mutex _ _ _ Hi t g); cbn; [rewrite Ht; right; now left|now rewrite Hs]. }
      subst rest.
      pose proof (i_frame _ _ _ Hi t f) as Hf. cbn in Hf. rewrite Ht in Hf. specialize (Hf (or_introl eq_refl)).
      unfold frame_ok in Hf. rewrite Hc in Hf. destruct Hf as (e & He & Hf). cbn in Hf.
      pose proof (i_owner _ _ _ Hi) as O. cbn in O.
      apply (inv_update m None T t todo [at_pc f PMemo] m (Some t) tr tr Hi).
      + apply (i_keeps _ _ _ Hi).
      + exact I.
      + intros g [<-|[]]. exists e. split; [exact He|]. split; assumption.
      + auto.
      + intros g [<-|[]] _. reflexivity.
      + discriminate.
      + left. split; [reflexivity|]. exists (at_pc f PMemo). split; [now left|reflexivity].
      + eapply given_same; eauto; [rewrite Hc; discriminate|intros ? []].
      + apply (i_memo _ _ _ Hi).
      + apply (i_trace _ _ _ Hi).
    - (* memo *)
      assert (Hl : locked (f_pc f) = true) by now rewrite Hc.
      pose proof (rest_empty _ _ _ _ _ _ _ _ Hi Ht Hl). subst rest.
      pose proof (i_frame _ _ _ Hi t f) as Hf. cbn in Hf. rewrite Ht in Hf. specialize (Hf (or_introl eq_refl)).
      unfold frame_ok in Hf. rewrite Hc in Hf. destruct Hf as (e' & He' & Hf). rewrite He in He'. injection He' as <-. cbn in Hf.
      apply (inv_local m mu T t f [] todo (at_pc f (memo_next e)) tr Hi Ht).
      + reflexivity.
      + rewrite Hl. cbn. unfold memo_next. now destruct (ve_value e).
      + unfold frame_ok, memo_next. cbn. destruct (ve_value e) eqn:E; exists e; (split; [exact He|]); cbn; intuition.
      + rewrite Hc. discriminate.
      + contradiction.
    - (* call *)
      assert (Hl : locked (f_pc f) = true) by now rewrite Hc.
      assert (Hin : In f (th_stack (T t))) by (rewrite Ht; now left).
      assert (Hns : forall o, f_pc f <> PStore o) by (rewrite Hc; discriminate).
      pose proof (rest_empty _ _ _ _ _ _ _ _ Hi Ht Hl). subst rest.
      pose proof (i_frame _ _ _ Hi t f Hin) as Hf. cbn in Hf.
      unfold frame_ok in Hf. rewrite Hc in Hf. destruct Hf as (e' & He' & Hf). rewrite He in He'. injection He' as <-. cbn in Hf.
      destruct Hf as (_ & Hrun & Hv).
      apply (inv_update m mu T t todo [at_pc f (PInside p)] m mu tr _ Hi).
      + apply (i_keeps _ _ _ Hi).
      + exact I.
      + intros g [<-|[]]. exists e. split; [exact He|]. cbn. auto.
      + intros k g Hk Hg Hf. eapply frame_other; [exact Hf|eauto|].
        intros E. pose proof (others_unlocked _ _ _ _ _ _ Hi Hin Hl k g Hk Hg) as G. congruence.
      + intros g [<-|[]] _. exact (i_mutex _ _ _ Hi t f Hin Hl).
      + auto.
      + pose proof (i_mutex _ _ _ Hi t f Hin Hl) as E. cbn in E. subst mu. left. split; [reflexivity|].
        exists (at_pc f (PInside p)). split; [now left|reflexivity].
      + intros n v Hw. rewrite provided_call in Hw. eapply given_same; eauto. intros ? [].
      + intros n q v Hw. rewrite provided_call. now apply (i_memo _ _ _ Hi).
      + split; [apply (i_trace _ _ _ Hi)|]. split; [exact Hrun|]. split; [eapply keeps_none; eauto|]. eapply not_yet; eauto.
    - (* nested *)
      assert (Hlk : locked (f_pc f) = true) by now rewrite Hc.
      assert (Hin : In f (th_stack (T t))) by (rewrite Ht; now left).
      pose proof (rest_empty _ _ _ _ _ _ _ _ Hi Ht Hlk). subst rest.
      pose proof (i_mutex _ _ _ Hi t f Hin Hlk) as Hm. cbn in Hm. subst mu.
      apply (inv_update m (Some t) T t todo [mkFrame n a PFind; f] m (Some t) tr tr Hi).
      + apply (i_keeps _ _ _ Hi).
      + split; [reflexivity|eauto].
      + intros g [<-|[<-|[]]]; [exact I|]. apply (i_frame _ _ _ Hi t f Hin).
      + auto.
      + auto.
      + auto.
      + left. split; [reflexivity|]. exists f. split; [right; now left|exact Hlk].
      + eapply given_same; eauto; [rewrite Hc; discriminate|intros ? []].
      + apply (i_memo _ _ _ Hi).
      + apply (i_trace _ _ _ Hi).
    - (* return *)
      assert (Hl : locked (f_pc f) = true) by now rewrite Hc.
      assert (Hin : In f (th_stack (T t))) by (rewrite Ht; now left).
      assert (Hns : forall o, f_pc f <> PStore o) by (rewrite Hc; discriminate).
      pose proof (rest_empty _ _ _ _ _ _ _ _ Hi Ht Hl). subst rest.
      pose proof (i_frame _ _ _ Hi t f Hin) as Hf. cbn in Hf.
      unfold frame_ok in Hf. rewrite Hc in Hf. destruct Hf as (e & He & Hf). cbn in Hf. destruct Hf as (Hp & Hrun & Hv).
      pose proof (i_mutex _ _ _ Hi t f Hin Hl) as Hm. cbn in Hm. subst mu.
      apply (inv_update m (Some t) T t todo [at_pc f (PStore o)] m (Some t) tr _ Hi).
      + apply (i_keeps _ _ _ Hi).
      + exact I.
      + intros g [<-|[]]. exists e. split; [exact He|]. cbn. rewrite Nat.eqb_refl. repeat split; auto. congruence.
      + intros k g Hk Hg' Hf. eapply frame_other; [exact Hf|eauto|].
        intros E. pose proof (others_unlocked _ _ _ _ _ _ Hi Hin Hl k g Hk Hg') as G. congruence.
      + auto.
      + auto.
      + left. split; [reflexivity|]. exists (at_pc f (PStore o)). split; [now left|reflexivity].
      + intros n v [t' [E|E]].
        * injection E as -> <- ->. right. left. exists (at_pc f (PStore (Provided v))). split; [now left|auto].
        * eapply given_same; eauto; [intros ? []|]. exists t'. exact E.
      + intros n q v Hw. destruct (i_memo _ _ _ Hi n q v Hw) as [G|[G [t' G']]]; [now left|]. right. split; [exact G|].
        exists t'. now right.
      + split; [apply (i_trace _ _ _ Hi)|exact Hrun].
    - (* store *)
      assert (Hl : locked (f_pc f) = true) by now rewrite Hc.
      assert (Hin : In f (th_stack (T t))) by (rewrite Ht; now left).
      pose proof (rest_empty _ _ _ _ _ _ _ _ Hi Ht Hl). subst rest.
      pose proof (i_frame _ _ _ Hi t f Hin) as Hf. cbn in Hf.
      unfold frame_ok in Hf. rewrite Hc in Hf. destruct Hf as (e' & He' & Hf). rewrite He in He'. injection He' as <-. cbn in Hf.
      destruct Hf as (Hp & Hrun & Hv & Hlast).
      pose proof (i_mutex _ _ _ Hi t f Hin Hl) as Hm. cbn in Hm. subst mu.
      destruct (ve_provider e) as [p|] eqn:Ep; [|congruence].
      pose proof (keeps_none _ _ _ _ _ _ _ Hi He Ep Hv) as Hm0.
      assert (Hold : forall n, n <> f_name f -> set_entry m (f_name f) (fst (store_next e o)) n = m n).
      { intros n Hn. unfold set_entry. apply String.eqb_neq in Hn. now rewrite Hn. }
      assert (Hnew : set_entry m (f_name f) (fst (store_next e o)) (f_name f) = Some (fst (store_next e o))).
      { unfold set_entry. now rewrite String.eqb_refl. }
      assert (Hpn : ve_provider (fst (store_next e o)) = Some p) by (destruct o; exact Ep).
      apply (inv_update m (Some t) T t todo [at_pc f (PUnlock (snd (store_next e o)))] _ (Some t) tr tr Hi).
      + intros n. destruct (string_dec n (f_name f)) as [->|Hn]; [|rewrite Hold by exact Hn; apply (i_keeps _ _ _ Hi)].
        rewrite Hnew, Hm0. cbn. split; [exact Hpn|]. split; discriminate.
      + exact I.
      + intros g [<-|[]]. exists (fst (store_next e o)). split; [exact Hnew|]. cbn. rewrite Hpn.
        split; [discriminate|]. split; [exact Hrun|]. destruct o; cbn; auto.
      + intros k g Hk Hg Hf. eapply frame_other; [exact Hf| |].
        * intros e1 He1. destruct (string_dec (f_name g) (f_name f)) as [E|Hn]; [|rewrite Hold by exact Hn; eauto].
          rewrite E in *. rewrite Hnew. exists (fst (store_next e o)). split; [reflexivity|]. rewrite He in He1. injection He1 as <-. congruence.
        * intros E. pose proof (others_unlocked _ _ _ _ _ _ Hi Hin Hl k g Hk Hg) as G. congruence.
      + auto.
      + auto.
      + left. split; [reflexivity|]. exists (at_pc f (PUnlock (snd (store_next e o)))). split; [now left|reflexivity].
      + intros n v Hw. destruct (i_given _ _ _ Hi n v Hw) as [[q G]|(k & g & Hg & Hgn & Hgp)].
        * left. cbn in G. destruct (string_dec n (f_name f)) as [->|Hn]; [|rewrite Hold by exact Hn; eauto].
          rewrite He in G. injection G as ->. discriminate Hv.
        * cbn in Hg. destruct (Nat.eq_dec k t) as [->|Hk]; [|right; right; exists k, g; auto]. left.
          rewrite Ht in Hg. destruct Hg as [<-|[]]. subst n. rewrite Hnew. rewrite Hc in Hgp. injection Hgp as ->. cbn. eauto.
      + intros n q v Hw. destruct (string_dec n (f_name f)) as [->|Hn].
        * rewrite Hnew in Hw. injection Hw as Hw. destruct o as [v'| |]; cbn in Hw.
          -- injection Hw as -> E. rewrite Ep in E. injection E as ->. right. split; [exact Hm0|]. exists t.
             clear - Hlast. induction tr as [|ev tr IH]; [discriminate Hlast|]. cbn in Hlast.
             destruct (Nat.eqb (by_thread ev) t); [injection Hlast as ->; now left|right; auto].
          -- subst e. discriminate Hv.
          -- subst e. discriminate Hv.
        * rewrite Hold in Hw by exact Hn. now apply (i_memo _ _ _ Hi).
      + apply (i_trace _ _ _ Hi).
    - (* unlock *)
      assert (Hl : locked (f_pc f) = true) by now rewrite Hc.
      assert (Hin : In f (th_stack (T t))) by (rewrite Ht; now left).
      assert (Hns : forall o, f_pc f <> PStore o) by (rewrite Hc; discriminate).
      pose proof (rest_empty _ _ _ _ _ _ _ _ Hi Ht Hl). subst rest.
      pose proof (i_frame _ _ _ Hi t f Hin) as Hf. cbn in Hf.
      unfold frame_ok in Hf. rewrite Hc in Hf. destruct Hf as (e & He & Hf). cbn in Hf. destruct Hf as (Hp & Hrun & Hr).
      pose proof (i_mutex _ _ _ Hi t f Hin Hl) as Hm. cbn in Hm. subst mu.
      apply (inv_update m (Some t) T t todo [] m None tr _ Hi).
      + apply (i_keeps _ _ _ Hi).
      + exact I.
      + intros ? [].
      + intros k g Hk Hg' Hf. eapply frame_other; [exact Hf|eauto|].
        intros E. pose proof (others_unlocked _ _ _ _ _ _ Hi Hin Hl k g Hk Hg') as G. congruence.
      + intros ? [].
      + intros k Hk [= ->]. contradiction.
      + exact Hrun.
      + intros n v Hw. rewrite provided_result in Hw. eapply given_same; eauto.
      + intros n q v Hw. rewrite provided_result. now apply (i_memo _ _ _ Hi).
      + split; [apply (i_trace _ _ _ Hi)|]. unfold result_right.
        destruct e as [v p]. cbn in Hp, Hr. destruct p as [p|]; [|congruence].
        destruct v as [v|].
        * destruct r as [v'| |e']; try (destruct Hr; discriminate). injection Hr as <-.
          destruct (i_memo _ _ _ Hi _ _ _ He) as [E|[E G]]; rewrite E; auto.
        * rewrite (keeps_none _ _ _ _ _ _ _ Hi He eq_refl eq_refl).
          destruct r; [discriminate Hr| |]; apply Hr.
  Qed.
  Lemma inv_start todo : inv m0 (start m0 todo) [].
  Proof.
    constructor; cbn; auto; try tauto.
    - intros n. apply keeps_refl.
    - intros n v [t []].
  Qed.
  Lemma inv_runs todo s tr : runs H m0 todo s tr -> inv m0 s tr.
  Proof. induction 1; [apply inv_start|eapply inv_step; eauto]. Qed.
End Step.

Lemma good_suffix m later : forall tr, good_trace m (later ++ tr) -> good_trace m tr.
Proof. induction later as [|e l IH]; intros tr H; [exact H|]. apply IH. apply H. Qed.

Lemma no_race m s tr : inv m s tr -> ~ race s.
Proof.
  intros Hi (t1 & t2 & f1 & r1 & d1 & f2 & r2 & d2 & l & k1 & k2 & Hne & H1 & H2 & A1 & A2 & Hw).
  assert (In1 : In f1 (th_stack (sy_threads s t1))) by (rewrite H1; now left).
  assert (In2 : In f2 (th_stack (sy_threads s t2))) by (rewrite H2; now left).
  pose proof (i_frame _ _ _ Hi t1 f1 In1) as F1. pose proof (i_frame _ _ _ Hi t2 f2 In2) as F2.
  assert (Hboth : locked (f_pc f1) = true -> locked (f_pc f2) = true -> False).
  { intros L1 L2. pose proof (i_mutex _ _ _ Hi _ _ In1 L1). pose proof (i_mutex _ _ _ Hi _ _ In2 L2). congruence. }
  unfold accesses, frame_ok in *.
  assert (Hplain : forall n e1 e2, sy_values s n = Some e1 -> sy_values s n = Some e2 ->
            ve_provider e1 = None -> ve_provider e2 <> None -> False) by (intros; congruence).
  destruct (f_pc f1) as [| | | | | |p1|o1|q1] eqn:E1; try destruct o1; try destruct q1; cbn in A1;
    destruct (f_pc f2) as [| | | | | |p2|o2|q2] eqn:E2; try destruct o2; try destruct q2; cbn in A2;
    try (exfalso; apply Hboth; reflexivity);
    repeat (match goal with H : _ \/ _ |- _ => destruct H | H : False |- _ => destruct H end);
    try congruence;
    repeat match goal with H : (_, _) = (_, _) |- _ => injection H as ? ?; subst end; try congruence.
  all: destruct F1 as (e1 & M1 & F1), F2 as (e2 & M2 & F2); cbn in F1, F2.
  all: repeat match goal with H : LValue _ = LValue _ |- _ => injection H as H | H : _ /\ _ |- _ => destruct H end.
  all: congruence.
Qed.
