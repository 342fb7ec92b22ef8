(* C58, C59, C60: variables of an activation shared by threads, moves of
   activations, and the arenas of provided values. *)
From Coq Require Import ZArith List Bool String Lia.
From Verif Require Import Base M_Value.
From Verif Require Import M_Activation S_Activation L_Activation.
Import ListNotations.
Open Scope string_scope.
Open Scope list_scope.

(* C58.  Any number of threads look up variables of one activation. *)

(* no two of them touch the same data at once, one changing it *)
Theorem C58_no_race : forall H m todo s tr, runs H m todo s tr -> ~ race s.
Proof. intros H m todo s tr Hr. eapply no_race, inv_runs, Hr. Qed.
Print Assumptions C58_no_race.

(* providers are called one at a time, and never again once they gave a value *)
Theorem C58_provider_calls : forall H m todo s tr t n p a later earlier,
  runs H m todo s tr -> tr = later ++ EvCall t n p a :: earlier -> call_in_order m n p earlier.
Proof.
  intros H m todo s tr t n p a later earlier Hr ->. pose proof (i_trace _ _ _ (inv_runs _ _ _ _ _ Hr)) as G.
  apply good_suffix in G. apply G.
Qed.
Print Assumptions C58_provider_calls.
Theorem C58_provider_once : forall H m todo s tr t n p a t' v later between earlier,
  runs H m todo s tr -> tr <> later ++ EvCall t n p a :: between ++ EvReturn t' n (Provided v) :: earlier.
Proof.
  intros H m todo s tr t n p a t' v later between earlier Hr E.
  destruct (C58_provider_calls _ _ _ _ _ _ _ _ _ _ _ Hr E) as (_ & _ & Hv). apply (Hv v). exists t'.
  apply in_or_app. right. now left.
Qed.
Print Assumptions C58_provider_once.
Theorem C58_no_overlap : forall H m todo s tr t n p a t' n' p' a' later between earlier,
  runs H m todo s tr -> tr = later ++ EvCall t n p a :: between ++ EvCall t' n' p' a' :: earlier ->
  exists k o, In (EvReturn t' k o) between.
Proof.
  intros H m todo s tr t n p a t' n' p' a' later between earlier Hr E.
  pose proof (i_trace _ _ _ (inv_runs _ _ _ _ _ Hr)) as G.
  destruct (C58_provider_calls _ _ _ _ _ _ _ _ _ _ _ Hr E) as (Hrun & _). rewrite E in G. apply good_suffix in G.
  destruct G as [G _]. clear - Hrun G.
  assert (Hgen : forall b, good_trace m (b ++ EvCall t' n' p' a' :: earlier) ->
     (exists k o, In (EvReturn t' k o) b) \/ running (b ++ EvCall t' n' p' a' :: earlier) = Some (t', n')).
  { intros b. induction b as [|ev b IH]; cbn [app]; intros Gt; [right; reflexivity|].
    destruct Gt as [Gt Ge]. destruct (IH Gt) as [(k & o & I1)|I1]; [left; exists k, o; now right|].
    destruct ev as [t2 n2 p2 a2|t2 k o|t2 k a2 r].
    - destruct Ge as [Ge _]. congruence.
    - rewrite I1 in Ge. injection Ge as <- <-. left. exists n', o. now left.
    - right. exact I1. }
  destruct (Hgen between G) as [I1|I1]; [exact I1|congruence].
Qed.
Print Assumptions C58_no_overlap.

(* every lookup gives the value bound or provided, or what the provider said *)
Theorem C58_results : forall H m todo s tr t n a r later earlier,
  runs H m todo s tr -> tr = later ++ EvResult t n a r :: earlier -> result_right m t n r earlier.
Proof.
  intros H m todo s tr t n a r later earlier Hr ->. pose proof (i_trace _ _ _ (inv_runs _ _ _ _ _ Hr)) as G.
  apply good_suffix in G. apply G.
Qed.
Print Assumptions C58_results.

(* all threads see the same value *)
Lemma given_unique m s tr n v v' : inv m s tr -> was_provided n v tr -> was_provided n v' tr -> v = v'.
Proof.
  intros Hi H1 H2. destruct (i_given _ _ _ Hi n v H1) as [[p G1]|(t1 & f1 & I1 & N1 & P1)];
    destruct (i_given _ _ _ Hi n v' H2) as [[p' G2]|(t2 & f2 & I2 & N2 & P2)].
  - congruence.
  - exfalso. pose proof (i_frame _ _ _ Hi t2 f2 I2) as F. unfold frame_ok in F. rewrite P2 in F.
    destruct F as (e & E & F). cbn in F. rewrite N2, G1 in E. injection E as <-. cbn in F. now destruct F as (_ & _ & F & _).
  - exfalso. pose proof (i_frame _ _ _ Hi t1 f1 I1) as F. unfold frame_ok in F. rewrite P1 in F.
    destruct F as (e & E & F). cbn in F. rewrite N1, G2 in E. injection E as <-. cbn in F. now destruct F as (_ & _ & F & _).
  - assert (L1 : locked (f_pc f1) = true) by now rewrite P1. assert (L2 : locked (f_pc f2) = true) by now rewrite P2.
    pose proof (i_mutex _ _ _ Hi _ _ I1 L1) as M1. pose proof (i_mutex _ _ _ Hi _ _ I2 L2) as M2.
    rewrite M1 in M2. injection M2 as <-.
    pose proof (locked_unique _ f1 f2 (i_stack _ _ _ Hi t1) I1 I2 L1 L2). subst f2. rewrite P1 in P2. now injection P2.
Qed.
Theorem C58_agreement : forall H m todo s tr t n a v t' a' v',
  runs H m todo s tr -> In (EvResult t n a (Found v)) tr -> In (EvResult t' n a' (Found v')) tr -> v = v'.
Proof.
  intros H m todo s tr t n a v t' a' v' Hr H1 H2.
  assert (G : forall t a v, In (EvResult t n a (Found v)) tr ->
            match m n with
            | Some (mkVE (Some w) _) => v = w
            | Some (mkVE None (Some p)) => was_provided n v tr
            | _ => False
            end).
  { intros t0 a0 v0 H0. apply in_split in H0. destruct H0 as (later & earlier & E).
    pose proof (C58_results _ _ _ _ _ _ _ _ _ _ _ Hr E) as R. unfold result_right in R.
    destruct (m n) as [[[w|] [p|]]|]; try congruence.
    destruct R as [k R]. exists k. rewrite E. apply in_or_app. right. now right. }
  apply G in H1, H2. destruct (m n) as [[[w|] [p|]]|]; try congruence; try contradiction.
  eapply given_unique; eauto. eapply inv_runs; eauto.
Qed.
Print Assumptions C58_agreement.

(* a binding takes effect for every lookup after it, whatever was there before *)
Theorem C58_bindings : forall m n v p,
  (fst (InsertOrAssignValue m n v) = true <-> m n = None) /\
  (fst (InsertOrAssignValueProvider m n p) = true <-> m n = None) /\
  (forall k, k <> n -> snd (InsertOrAssignValue m n v) k = m k /\ snd (InsertOrAssignValueProvider m n p) k = m k) /\
  (forall H todo s tr t a r, runs H (snd (InsertOrAssignValue m n v)) todo s tr -> In (EvResult t n a r) tr -> r = Found v) /\
  (forall H todo s tr t a w, runs H (snd (InsertOrAssignValueProvider m n p)) todo s tr -> In (EvResult t n a (Found w)) tr ->
     was_provided n w tr).
Proof.
  intros m n v p. cbn. assert (E : forall e, set_entry m n e n = Some e) by (intros e; unfold set_entry; now rewrite String.eqb_refl).
  repeat split.
  - destruct (m n); [discriminate|reflexivity].
  - intros ->. reflexivity.
  - destruct (m n); [discriminate|reflexivity].
  - intros ->. reflexivity.
  - unfold set_entry. apply String.eqb_neq in H. now rewrite H.
  - unfold set_entry. apply String.eqb_neq in H. now rewrite H.
  - intros H todo s tr t a r Hr Hin. apply in_split in Hin. destruct Hin as (later & earlier & Et).
    pose proof (C58_results _ _ _ _ _ _ _ _ _ _ _ Hr Et) as R. unfold result_right in R. now rewrite E in R.
  - intros H todo s tr t a w Hr Hin. apply in_split in Hin. destruct Hin as (later & earlier & Et).
    pose proof (C58_results _ _ _ _ _ _ _ _ _ _ _ Hr Et) as R. unfold result_right in R. rewrite E in R.
    destruct R as [k R]. exists k. rewrite Et. apply in_or_app. right. now right.
Qed.
Print Assumptions C58_bindings.

(* Progress: as long as some thread has a lookup to make or to finish, some
   thread can go on, if providers end and do not look up provided variables. *)
Definition no_reentry (H : host) (m : values) : Prop :=
  forall p a n a', h_looks H p a n a' -> forall v q, m n <> Some (mkVE v (Some q)).
Definition providers_end (H : host) : Prop := forall p n a, exists o, h_gives H p n a o.
Definition busy (s : sys) (t : nat) : Prop := sy_threads s t <> mkThread [] [].

Lemma step_frames H s t ev s' : step H s t ev s' ->
  forall k f g rest, th_stack (sy_threads s' k) = f :: g :: rest ->
  (exists f0 rest', th_stack (sy_threads s k) = f0 :: g :: rest' /\ f_name f0 = f_name f) \/
  (exists p, f_pc g = PInside p /\ h_looks H p (f_arena g) (f_name f) (f_arena f)) \/
  (exists f0, th_stack (sy_threads s k) = f0 :: f :: g :: rest).
Proof.
  intros Hs k f g rest E. destruct (Nat.eq_dec k t) as [->|Hk].
  - inversion Hs; subst; cbn [sy_threads] in *; rewrite set_thread_same in E; cbn [th_stack] in E; try discriminate E;
      rewrite ?H0; cbn [th_stack].
    all: try (injection E as <- E; subst; left; do 2 eexists; split; [reflexivity|reflexivity]).
    all: try (right; right; subst; eexists; reflexivity).
    injection E as <- <- <-. right. left. exists p. auto.
  - left. exists f, rest. split; [|reflexivity].
    inversion Hs; subst; cbn [sy_threads] in *; now rewrite set_thread_other in E by exact Hk.
Qed.
Lemma nested_plain H m todo s tr : no_reentry H m -> runs H m todo s tr ->
  forall t f g rest, th_stack (sy_threads s t) = f :: g :: rest -> forall v q, m (f_name f) <> Some (mkVE v (Some q)).
Proof.
  intros Hn Hr. induction Hr as [|s tr k ev s' Hr IH Hs]; intros t f g rest E; [discriminate E|].
  destruct (step_frames _ _ _ _ _ Hs t f g rest E) as [(f0 & r' & G & <-)|[(p & _ & G)|(f0 & G)]].
  - eapply IH; eauto.
  - eapply Hn; eauto.
  - exfalso. pose proof (i_stack _ _ _ (inv_runs _ _ _ _ _ Hr) t) as K. rewrite G in K. exact K.
Qed.
Lemma can_step H m s tr t f rest todo : inv m s tr -> providers_end H -> sy_threads s t = mkThread (f :: rest) todo ->
  f_pc f <> PLock -> exists ev s', step H s t ev s'.
Proof.
  intros Hi He Ht Hl. pose proof (i_frame _ _ _ Hi t f) as F. rewrite Ht in F. specialize (F (or_introl eq_refl)).
  unfold frame_ok in F. destruct s as [vals mu T]. cbn [sy_threads sy_values] in *.
  destruct (f_pc f) as [| | | | | |p|o|r] eqn:E.
  - destruct (vals (f_name f)) eqn:Ev.
    + do 2 eexists. eapply step_find; [exact Ht|]. rewrite E, Ev. reflexivity.
    + do 2 eexists. eapply step_found; [exact Ht|]. rewrite E, Ev. reflexivity.
  - destruct F as (e & Ev & _). do 2 eexists. eapply step_find; [exact Ht|]. rewrite E, Ev. reflexivity.
  - destruct F as (e & Ev & _). do 2 eexists. eapply step_found; [exact Ht|]. rewrite E, Ev. reflexivity.
  - contradiction.
  - destruct F as (e & Ev & _). do 2 eexists. eapply step_memo; eauto.
  - destruct F as (e & Ev & Hp & _). destruct (ve_provider e) eqn:Ep; [|congruence]. do 2 eexists. eapply step_call; eauto.
  - destruct (He p (f_name f) (f_arena f)) as [o Ho]. do 2 eexists. eapply step_return; eauto.
  - destruct F as (e & Ev & _). do 2 eexists. eapply step_store; eauto.
  - do 2 eexists. eapply step_unlock; eauto.
Qed.
Theorem C58_progress_partial : forall H m todo s tr t,
  no_reentry H m -> providers_end H -> runs H m todo s tr -> busy s t ->
  exists k ev s', step H s k ev s'.
Proof.
  intros H m todo s tr t Hn He Hr Hb. pose proof (inv_runs _ _ _ _ _ Hr) as Hi.
  destruct (sy_threads s t) as [[|f rest] d] eqn:Et.
  - unfold busy in Hb. rewrite Et in Hb. destruct d as [|[n a] d]; [contradiction|]. destruct s as [vals mu T]. cbn in Et.
    do 3 eexists. eapply step_start. exact Et.
  - assert (Hlock : f_pc f = PLock \/ f_pc f <> PLock) by (destruct (f_pc f); auto; right; discriminate).
    destruct Hlock as [Hlock|Hlock]; [|exists t; eapply can_step; eauto].
    destruct (sy_mutex s) as [k|] eqn:Em.
    + exists k. pose proof (i_owner _ _ _ Hi) as O. rewrite Em in O. destruct O as (g & Hg & Hlk).
      pose proof (i_stack _ _ _ Hi k) as Hs. destruct (sy_threads s k) as [[|f1 [|f2 r2]] d2] eqn:Ek; cbn in Hg, Hs.
      * destruct Hg.
      * destruct Hg as [<-|[]]. eapply can_step; eauto. intros E. rewrite E in Hlk. discriminate Hlk.
      * eapply can_step; eauto. intros E. pose proof (i_frame _ _ _ Hi k f1) as F. rewrite Ek in F.
        specialize (F (or_introl eq_refl)). unfold frame_ok in F. rewrite E in F. destruct F as (e & Ev & F). cbn in F.
        pose proof (i_keeps _ _ _ Hi (f_name f1)) as K. rewrite Ev in K. unfold keeps in K.
        destruct (m (f_name f1)) as [[v0 [q0|]]|] eqn:E0; try contradiction.
        -- eapply (nested_plain _ _ _ _ _ Hn Hr k f1 f2 r2); [now rewrite Ek|exact E0].
        -- cbn in K. destruct K as [K _]. congruence.
    + destruct s as [vals mu T]. cbn in *. subst mu. do 3 eexists. eapply step_lock; eauto.
Qed.
Print Assumptions C58_progress_partial.

(* What is missing: a provider that looks up a provided variable of the same
   activation waits for the lock it holds, for ever. *)
Definition two : value := VInt 2.
Definition ex_host : host := mkHost
  (fun p _ n _ => p = 1%nat /\ n = "y")
  (fun p _ a o => o = Provided (mkHeld two (Some a))).
Definition ex_vals : values := fun n =>
  if String.eqb n "x" then Some (mkVE None (Some 1%nat))
  else if String.eqb n "y" then Some (mkVE None (Some 2%nat))
  else if String.eqb n "z" then Some (mkVE (Some (mkHeld (VInt 7) None)) None) else None.
Definition ex_todo : nat -> list (string * arena) := fun t =>
  match t with O => [("x", 10%nat)] | _ => [] end.
Theorem C58_progress_refuted : exists H m todo s tr t,
  providers_end H /\ runs H m todo s tr /\ busy s t /\ forall k ev s', ~ step H s k ev s'.
Proof.
  exists ex_host, ex_vals, ex_todo.
  assert (R : exists T, runs ex_host ex_vals ex_todo
     (mkSys ex_vals (Some 0%nat) T) [EvCall 0 "x" 1 10%nat] /\
     T 0%nat = mkThread [mkFrame "y" 10%nat PLock; mkFrame "x" 10%nat (PInside 1)] [] /\ forall k, k <> 0%nat -> T k = mkThread [] []).
  { pose proof (runs_start ex_host ex_vals ex_todo) as R. unfold start in R.
    eassert (R1 : runs _ _ _ _ _) by (eapply (runs_step _ _ _ _ _ 0%nat _ _ R); eapply step_start; reflexivity).
    eassert (R2 : runs _ _ _ _ _) by (eapply (runs_step _ _ _ _ _ 0%nat _ _ R1); eapply step_find; reflexivity).
    eassert (R3 : runs _ _ _ _ _) by (eapply (runs_step _ _ _ _ _ 0%nat _ _ R2); eapply step_find; reflexivity).
    eassert (R4 : runs _ _ _ _ _) by (eapply (runs_step _ _ _ _ _ 0%nat _ _ R3); eapply step_lock; reflexivity).
    eassert (R5 : runs _ _ _ _ _) by (eapply (runs_step _ _ _ _ _ 0%nat _ _ R4); eapply step_memo; reflexivity).
    eassert (R6 : runs _ _ _ _ _) by (eapply (runs_step _ _ _ _ _ 0%nat _ _ R5); eapply step_call; reflexivity).
    eassert (R7 : runs _ _ _ _ _) by (eapply (runs_step _ _ _ _ _ 0%nat _ _ R6); eapply (step_nested _ _ _ _ _ _ _ _ _ "y" 10%nat); [reflexivity|reflexivity|split; reflexivity]).
    eassert (R8 : runs _ _ _ _ _) by (eapply (runs_step _ _ _ _ _ 0%nat _ _ R7); eapply step_find; reflexivity).
    eassert (R9 : runs _ _ _ _ _) by (eapply (runs_step _ _ _ _ _ 0%nat _ _ R8); eapply step_find; reflexivity).
    eexists. split; [exact R9|]. split; [reflexivity|]. intros [|k] Hk; [contradiction|reflexivity]. }
  destruct R as (T & R & T0 & Tk). exists (mkSys ex_vals (Some 0%nat) T), [EvCall 0 "x" 1 10%nat], 0%nat.
  split; [intros p n a; eexists; reflexivity|]. split; [exact R|].
  split; [unfold busy; cbn; rewrite T0; discriminate|].
  intros k ev s' Hs. destruct (Nat.eq_dec k 0) as [->|Hk].
  - inversion Hs; subst; try (rewrite T0 in *); try discriminate;
      match goal with G : mkThread _ _ = mkThread _ _ |- _ => injection G as <- <- <- end; cbn in *; discriminate.
  - inversion Hs; subst; match goal with G : T k = _ |- _ => rewrite (Tk k Hk) in G; discriminate G end.
Qed.
Print Assumptions C58_progress_refuted.

(* two threads: one calls the provider, the other gets what it gave *)
Definition ex_todo2 : nat -> list (string * arena) := fun t =>
  match t with O => [("y", 10%nat)] | 1%nat => [("y", 11%nat); ("z", 11%nat)] | _ => [] end.
Lemma ex_shared : exists s, runs ex_host ex_vals ex_todo2 s
  [EvResult 1 "y" 11%nat (Found (mkHeld two (Some 10%nat))); EvResult 0 "y" 10%nat (Found (mkHeld two (Some 10%nat)));
   EvReturn 0 "y" (Provided (mkHeld two (Some 10%nat))); EvCall 0 "y" 2 10%nat].
Proof.
  pose proof (runs_start ex_host ex_vals ex_todo2) as R. unfold start in R.
  eassert (R1 : runs _ _ _ _ _) by (eapply (runs_step _ _ _ _ _ 0%nat _ _ R); eapply step_start; reflexivity).
  eassert (R2 : runs _ _ _ _ _) by (eapply (runs_step _ _ _ _ _ 0%nat _ _ R1); eapply step_find; reflexivity).
  eassert (R3 : runs _ _ _ _ _) by (eapply (runs_step _ _ _ _ _ 0%nat _ _ R2); eapply step_find; reflexivity).
  eassert (R4 : runs _ _ _ _ _) by (eapply (runs_step _ _ _ _ _ 0%nat _ _ R3); eapply step_lock; reflexivity).
  eassert (R5 : runs _ _ _ _ _) by (eapply (runs_step _ _ _ _ _ 1%nat _ _ R4); eapply step_start; reflexivity).
  eassert (R6 : runs _ _ _ _ _) by (eapply (runs_step _ _ _ _ _ 1%nat _ _ R5); eapply step_find; reflexivity).
  eassert (R7 : runs _ _ _ _ _) by (eapply (runs_step _ _ _ _ _ 1%nat _ _ R6); eapply step_find; reflexivity).
  eassert (R8 : runs _ _ _ _ _) by (eapply (runs_step _ _ _ _ _ 0%nat _ _ R7); eapply step_memo; reflexivity).
  eassert (R9 : runs _ _ _ _ _) by (eapply (runs_step _ _ _ _ _ 0%nat _ _ R8); eapply step_call; reflexivity).
  eassert (R10 : runs _ _ _ _ _) by (eapply (runs_step _ _ _ _ _ 0%nat _ _ R9); eapply step_return; reflexivity).
  eassert (R11 : runs _ _ _ _ _) by (eapply (runs_step _ _ _ _ _ 0%nat _ _ R10); eapply step_store; reflexivity).
  eassert (R12 : runs _ _ _ _ _) by (eapply (runs_step _ _ _ _ _ 0%nat _ _ R11); eapply step_unlock; reflexivity).
  eassert (R13 : runs _ _ _ _ _) by (eapply (runs_step _ _ _ _ _ 1%nat _ _ R12); eapply step_lock; reflexivity).
  eassert (R14 : runs _ _ _ _ _) by (eapply (runs_step _ _ _ _ _ 1%nat _ _ R13); eapply step_memo; reflexivity).
  eassert (R15 : runs _ _ _ _ _) by (eapply (runs_step _ _ _ _ _ 1%nat _ _ R14); eapply step_unlock; reflexivity).
  eexists. exact R15.
Qed.
Example ex_no_reentry : no_reentry (mkHost (fun _ _ n _ => n = "z") (h_gives ex_host)) ex_vals /\ providers_end ex_host.
Proof. split; [intros p a n a' -> v q; cbn; discriminate|intros p n a; eexists; reflexivity]. Qed.

(* C59.  Moving an activation moves what it holds: variables, functions and
   attribute patterns. *)
Theorem C59_move_partial : forall F P M (f : F) (p : P) (this other : activation F P M),
  let new := fst (move_construct f p other) in
  let assigned := fst (move_assign f p this other) in
  (forall n, a_values new n = a_values other n) /\ a_functions new = a_functions other /\
  a_unknown new = a_unknown other /\ a_missing new = a_missing other /\
  (forall n, a_values assigned n = a_values other n) /\ a_functions assigned = a_functions other /\
  a_unknown assigned = a_unknown other /\ a_missing assigned = a_missing other /\
  (forall n, a_values (snd (move_construct f p other)) n = None) /\
  (forall n, a_values (snd (move_assign f p this other)) n = None).
Proof. intros. cbn. repeat split. Qed.
Print Assumptions C59_move_partial.
(* What is missing: its attribute matcher stays behind.  Evaluation with the
   moved activation then treats other attributes as unknown. *)
Theorem C59_matcher_refuted : forall F P M (f : F) (p : P) (this other : activation F P M),
  a_matcher (fst (move_construct f p other)) = None /\
  a_matcher (snd (move_construct f p other)) = a_matcher other /\
  a_matcher (fst (move_assign f p this other)) = a_matcher this.
Proof. intros. cbn. repeat split. Qed.
Print Assumptions C59_matcher_refuted.
Example ex_move : a_matcher (fst (move_construct tt tt (mkActivation ex_vals tt tt tt (Some 5%nat)))) <> Some 5%nat.
Proof. discriminate. Qed.

(* C60.  A lookup gives a value on the arena it was asked to use, or on none. *)
Definition on (v : held) (a : arena) : Prop := h_arena v = None \/ h_arena v = Some a.
Definition arenas_respected (H : host) : Prop :=
  (forall p n a v, h_gives H p n a (Provided v) -> on v a) /\ (forall p a n a', h_looks H p a n a' -> a' = a).
Theorem C60_arena_partial : forall H m todo s tr a0,
  arenas_respected H -> (forall n v p, m n = Some (mkVE (Some v) p) -> on v a0) ->
  (forall t n a, In (n, a) (todo t) -> a = a0) ->
  runs H m todo s tr -> forall t n a v, In (EvResult t n a (Found v)) tr -> a = a0 /\ on v a.
Proof.
  intros H m todo s tr a0 [Hg Hl] Hm Ht Hr.
  assert (G : (forall t f, In f (th_stack (sy_threads s t)) -> f_arena f = a0) /\
              (forall t n a, In (n, a) (th_todo (sy_threads s t)) -> a = a0) /\
              (forall t n v, In (EvReturn t n (Provided v)) tr -> on v a0) /\
              (forall t n a r, In (EvResult t n a r) tr -> a = a0)).
  { induction Hr as [|s tr t ev s' Hr IH Hs]; [cbn; repeat split; try contradiction; exact Ht|].
    destruct IH as (A & B & C & D).
    destruct Hs as
      [vm mu T t n a d Et|vm mu T t f rest d c Et Hc|vm mu T t f rest d r Et Hc|vm T t f rest d Et Hc
      |vm mu T t f rest d e Et Hc He|vm mu T t f rest d e p Et Hc He Hp|vm mu T t f rest d p n a Et Hc Hk
      |vm mu T t f rest d p o Et Hc Ho|vm mu T t f rest d e o Et Hc He|vm mu T t f rest d r Et Hc];
      cbn [sy_threads sy_values record] in *.
    all: assert (A' := A t); assert (B' := B t); rewrite Et in A', B'; cbn [th_stack th_todo] in A', B'.
    all: split; [intros k g; destruct (Nat.eq_dec k t) as [->|Hkt];
          [rewrite set_thread_same; cbn [th_stack]|rewrite set_thread_other by exact Hkt; apply A]|split;
          [intros k n1 a1; destruct (Nat.eq_dec k t) as [->|Hkt];
           [rewrite set_thread_same; cbn [th_todo]|rewrite set_thread_other by exact Hkt; apply B]|]].
    all: try (exact (B' n1 a1)).
    all: try (split; [exact C|exact D]).
    all: try (intros [<-|Hin]; [|apply A'; right; exact Hin]; cbn [f_arena at_pc]; apply A'; now left).
    - intros [<-|[]]. cbn. apply (B' n a). now left.
    - intros Hin. apply (B' n1 a1). now right.
    - intros Hin. apply A'. now right.
    - split; [intros k n1 v [E|Hin]; [discriminate E|eauto]|].
      intros k n1 a1 r1 [E|Hin]; [injection E as <- <- <- <-; apply A'; now left|eauto].
    - split; [intros k n1 v [E|Hin]; [discriminate E|eauto]|].
      intros k n1 a1 r1 [E|Hin]; [discriminate E|eauto].
    - intros [<-|Hin]; [|apply A'; exact Hin]. cbn. rewrite (Hl _ _ _ _ Hk). apply A'. now left.
    - split; [|intros k n1 a1 r1 [E|Hin]; [discriminate E|eauto]].
      intros k n1 v [E|Hin]; [|eauto]. injection E as <- <- ->. rewrite <- (A' f) by now left. eapply Hg. exact Ho.
    - intros Hin. apply A'. now right.
    - split; [intros k n1 v [E|Hin]; [discriminate E|eauto]|].
      intros k n1 a1 r1 [E|Hin]; [injection E as <- <- <- <-; apply A'; now left|eauto]. }
  destruct G as (_ & _ & C & D). intros t n a v Hin. pose proof (D _ _ _ _ Hin) as ->. split; [reflexivity|].
  apply in_split in Hin. destruct Hin as (later & earlier & E).
  pose proof (C58_results _ _ _ _ _ _ _ _ _ _ _ Hr E) as R. unfold result_right in R.
  destruct (m n) as [[[w|] [p|]]|] eqn:Em; try discriminate R.
  - injection R as ->. eapply Hm; eauto.
  - injection R as ->. eapply Hm; eauto.
  - destruct R as [k R]. apply (C k n v). rewrite E. apply in_or_app. right. now right.
Qed.
Print Assumptions C60_arena_partial.
(* What is missing: evaluations with different arenas.  The value is kept on the
   arena of the first and given to the others, even after that arena is gone. *)
Theorem C60_arena_refuted : exists H m todo s tr t n a v,
  arenas_respected H /\ (forall n v p, m n = Some (mkVE (Some v) p) -> h_arena v = None) /\
  runs H m todo s tr /\ In (EvResult t n a (Found v)) tr /\ ~ on v a.
Proof.
  pose (H := mkHost (fun _ _ _ _ => False) (h_gives ex_host)).
  assert (Rn : exists s, runs H ex_vals ex_todo2 s
    [EvResult 1 "y" 11%nat (Found (mkHeld two (Some 10%nat))); EvResult 0 "y" 10%nat (Found (mkHeld two (Some 10%nat)));
     EvReturn 0 "y" (Provided (mkHeld two (Some 10%nat))); EvCall 0 "y" 2 10%nat]).
  { pose proof (runs_start H ex_vals ex_todo2) as R. unfold start in R.
    eassert (R1 : runs _ _ _ _ _) by (eapply (runs_step _ _ _ _ _ 0%nat _ _ R); eapply step_start; reflexivity).
    eassert (R2 : runs _ _ _ _ _) by (eapply (runs_step _ _ _ _ _ 0%nat _ _ R1); eapply step_find; reflexivity).
    eassert (R3 : runs _ _ _ _ _) by (eapply (runs_step _ _ _ _ _ 0%nat _ _ R2); eapply step_find; reflexivity).
    eassert (R4 : runs _ _ _ _ _) by (eapply (runs_step _ _ _ _ _ 0%nat _ _ R3); eapply step_lock; reflexivity).
    eassert (R5 : runs _ _ _ _ _) by (eapply (runs_step _ _ _ _ _ 0%nat _ _ R4); eapply step_memo; reflexivity).
    eassert (R6 : runs _ _ _ _ _) by (eapply (runs_step _ _ _ _ _ 0%nat _ _ R5); eapply step_call; reflexivity).
    eassert (R7 : runs _ _ _ _ _) by (eapply (runs_step _ _ _ _ _ 0%nat _ _ R6); eapply step_return; reflexivity).
    eassert (R8 : runs _ _ _ _ _) by (eapply (runs_step _ _ _ _ _ 0%nat _ _ R7); eapply step_store; reflexivity).
    eassert (R9 : runs _ _ _ _ _) by (eapply (runs_step _ _ _ _ _ 0%nat _ _ R8); eapply step_unlock; reflexivity).
    eassert (R10 : runs _ _ _ _ _) by (eapply (runs_step _ _ _ _ _ 1%nat _ _ R9); eapply step_start; reflexivity).
    eassert (R11 : runs _ _ _ _ _) by (eapply (runs_step _ _ _ _ _ 1%nat _ _ R10); eapply step_find; reflexivity).
    eassert (R12 : runs _ _ _ _ _) by (eapply (runs_step _ _ _ _ _ 1%nat _ _ R11); eapply step_find; reflexivity).
    eassert (R13 : runs _ _ _ _ _) by (eapply (runs_step _ _ _ _ _ 1%nat _ _ R12); eapply step_lock; reflexivity).
    eassert (R14 : runs _ _ _ _ _) by (eapply (runs_step _ _ _ _ _ 1%nat _ _ R13); eapply step_memo; reflexivity).
    eassert (R15 : runs _ _ _ _ _) by (eapply (runs_step _ _ _ _ _ 1%nat _ _ R14); eapply step_unlock; reflexivity).
    eexists. exact R15. }
  destruct Rn as [s' R']. exists H, ex_vals, ex_todo2, s'. eexists. exists 1%nat, "y", 11%nat, (mkHeld two (Some 10%nat)).
  repeat split.
  - intros p n a v E. cbn in E. injection E as ->. right. reflexivity.
  - contradiction.
  - intros n v p. unfold ex_vals. destruct (String.eqb n "x"), (String.eqb n "y"), (String.eqb n "z"); try discriminate.
    intros [= <- _]. reflexivity.
  - exact R'.
  - now left.
  - intros [E|E]; discriminate E.
Qed.
Print Assumptions C60_arena_refuted.
Example ex_arena : arenas_respected (mkHost (fun _ a _ a' => a' = a) (h_gives ex_host)).
Proof. split; [|auto]. intros p n a v E. cbn in E. injection E as ->. right. reflexivity. Qed.
