(* Property C75: reference-counted objects under every schedule. *)
From Coq Require Import List Bool ZArith Lia.
From Verif Require Import Base.
From Verif Require Import M_RefCount S_RefCount.
Import ListNotations.
Open Scope Z_scope.

(* ---- sums over threads ---- *)
Lemma total_set f l : forall i t t', nth_error l i = Some t ->
  total f (set_thread l i t') = total f l - f t + f t'.
Proof.
  induction l as [|x l IH]; intros [|i] t t' E; try discriminate; cbn [set_thread total fold_right nth_error] in *.
  - injection E as ->. lia.
  - fold (total f (set_thread l i t')). fold (total f l). rewrite (IH i t t' E). lia.
Qed.
Lemma total_app f l t : total f (l ++ [t]) = total f l + f t.
Proof. unfold total. induction l as [|x l IH]; cbn; [lia|]. rewrite IH. lia. Qed.
Lemma total_nonneg f l : (forall t, In t l -> 0 <= f t) -> 0 <= total f l.
Proof.
  intros H. induction l as [|x l IH]; cbn; [lia|]. fold (total f l).
  assert (0 <= f x) by (apply H; left; reflexivity).
  assert (0 <= total f l) by (apply IH; intros t Ht; apply H; right; exact Ht). lia.
Qed.
Lemma total_at f l i t : (forall t, In t l -> 0 <= f t) -> nth_error l i = Some t -> f t <= total f l.
Proof.
  intros H. revert i. induction l as [|x l IH]; intros [|i] E; try discriminate; cbn in *; fold (total f l).
  - injection E as ->. assert (0 <= total f l) by (apply total_nonneg; auto). lia.
  - assert (f t <= total f l) by (apply (IH (fun t Ht => H t (or_intror Ht)) i E)).
    assert (0 <= f x) by (apply H; left; reflexivity). lia.
Qed.
Lemma total_two f l : forall i j t u, (forall t, In t l -> 0 <= f t) -> i <> j ->
  nth_error l i = Some t -> nth_error l j = Some u -> f t + f u <= total f l.
Proof.
  induction l as [|x l IH]; intros [|i] [|j] t u H N Ei Ej; try discriminate; cbn in *; fold (total f l).
  - lia.
  - injection Ei as ->. assert (f u <= total f l) by (eapply total_at; eauto). lia.
  - injection Ej as ->. assert (f t <= total f l) by (eapply total_at; eauto). lia.
  - assert (f t + f u <= total f l) by (eapply (IH i j); eauto). assert (0 <= f x) by auto. lia.
Qed.
Lemma set_other l : forall i j t, i <> j -> nth_error (set_thread l i t) j = nth_error l j.
Proof.
  induction l as [|x l IH]; intros [|i] [|j] t N; cbn; try reflexivity; try lia; auto.
Qed.
Lemma in_set l : forall i t x, In x (set_thread l i t) -> x = t \/ In x l.
Proof.
  induction l as [|y l IH]; intros [|i] t x H; cbn in *; auto.
  - destruct H; auto.
  - destruct H as [-> | H]; auto. destruct (IH i t x H); auto.
Qed.

(* ---- the invariant ---- *)
Definition is_finalizing t := match at_place t with ToFinalize => 1 | _ => 0 end.
Definition is_releasing t := match at_place t with ToReleaseWeak => 1 | _ => 0 end.
Definition is_deleting t := match at_place t with ToDelete => 1 | _ => 0 end.
Definition sane (t : thread) : Prop :=
  0 <= own_strong t /\ 0 <= own_weak t /\
  match at_place t with ToExchange c => 0 < c /\ 0 < own_weak t | _ => True end.
(* the six phases of the life of an object *)
Definition phase (b : block) (S W F R D : Z) : Prop :=
  strong b = S /\
  ((0 < S /\ F = 0 /\ R = 0 /\ D = 0 /\ finalized b = 0%nat /\ deleted b = 0%nat /\ weak b = W + 1) \/
   (S = 0 /\ F = 1 /\ R = 0 /\ D = 0 /\ finalized b = 0%nat /\ deleted b = 0%nat /\ weak b = W + 1) \/
   (S = 0 /\ F = 0 /\ R = 1 /\ D = 0 /\ finalized b = 1%nat /\ deleted b = 0%nat /\ weak b = W + 1) \/
   (S = 0 /\ F = 0 /\ R = 0 /\ D = 0 /\ finalized b = 1%nat /\ deleted b = 0%nat /\ weak b = W /\ 0 < W) \/
   (S = 0 /\ F = 0 /\ R = 0 /\ D = 1 /\ finalized b = 1%nat /\ deleted b = 0%nat /\ weak b = W /\ W = 0) \/
   (S = 0 /\ F = 0 /\ R = 0 /\ D = 0 /\ finalized b = 1%nat /\ deleted b = 1%nat /\ weak b = W /\ W = 0)).
Definition inv (s : system) : Prop :=
  (forall t, In t (threads s) -> sane t) /\
  phase (the_block s) (strong_owned s) (weak_owned s)
    (total is_finalizing (threads s)) (total is_releasing (threads s)) (total is_deleting (threads s)).

Lemma wrap32_id z : - 2 ^ 31 <= z < 2 ^ 31 -> wrap32 z = z.
Proof. intros H. unfold wrap32. rewrite Z.mod_small; lia. Qed.

Lemma inv_start : inv start.
Proof.
  split.
  - intros t [<- | []]. repeat split; cbn; lia.
  - split; [reflexivity|]. left. cbn. repeat split; lia.
Qed.

Ltac cl := repeat match goal with |- _ /\ _ => split end; lia.
Ltac pick :=
  solve [ left; cl | right; left; cl | right; right; left; cl
        | right; right; right; left; cl | right; right; right; right; left; cl
        | right; right; right; right; right; cl ].
(* what an action does to the totals, and that it is defined *)
Lemma act_inv s i t a : inv s -> limit s -> nth_error (threads s) i = Some t -> may s t a ->
  forall r, act (the_block s) t a = Some r ->
  match r with
  | Undefined => False
  | Next b' t' _ => limit (mkSystem b' (set_thread (threads s) i t')) -> inv (mkSystem b' (set_thread (threads s) i t'))
  end.
Proof.
  intros [I1 [Ist I2]] [L1 L2] Et M r A.
  assert (Hin : In t (threads s)) by (eapply nth_error_In; eauto).
  destruct (I1 t Hin) as (T1 & T2 & T3).
  assert (P : forall f, (forall t, In t (threads s) -> 0 <= f t) -> 0 <= f t <= total f (threads s)).
  { intros f Hf. split; [apply Hf, Hin | eapply total_at; eauto]. }
  pose proof (P own_strong (fun t Ht => proj1 (I1 t Ht))) as PS.
  pose proof (P own_weak (fun t Ht => proj1 (proj2 (I1 t Ht)))) as PW.
  assert (PF : 0 <= is_finalizing t <= total is_finalizing (threads s)).
  { apply P. intros x _. unfold is_finalizing. destruct (at_place x); lia. }
  assert (PR : 0 <= is_releasing t <= total is_releasing (threads s)).
  { apply P. intros x _. unfold is_releasing. destruct (at_place x); lia. }
  assert (PD : 0 <= is_deleting t <= total is_deleting (threads s)).
  { apply P. intros x _. unfold is_deleting. destruct (at_place x); lia. }
  clear P. unfold strong_owned, weak_owned in *.
  set (S0 := total own_strong (threads s)) in *. set (W0 := total own_weak (threads s)) in *.
  set (F0 := total is_finalizing (threads s)) in *. set (R0 := total is_releasing (threads s)) in *.
  set (D0 := total is_deleting (threads s)) in *.
  assert (Lift : forall b' t' (o : option bool), sane t' ->
    (S0 - own_strong t + own_strong t' < 2 ^ 31 -> W0 - own_weak t + own_weak t' < 2 ^ 31 - 1 ->
     phase b' (S0 - own_strong t + own_strong t') (W0 - own_weak t + own_weak t')
       (F0 - is_finalizing t + is_finalizing t') (R0 - is_releasing t + is_releasing t')
       (D0 - is_deleting t + is_deleting t')) ->
    limit (mkSystem b' (set_thread (threads s) i t')) -> inv (mkSystem b' (set_thread (threads s) i t'))).
  { intros b' t' o Sa Ph [Q1 Q2]. unfold strong_owned, weak_owned in Q1, Q2. cbn [threads] in Q1, Q2.
    rewrite (total_set own_strong _ _ _ t' Et) in Q1. rewrite (total_set own_weak _ _ _ t' Et) in Q2.
    split; cbn [threads the_block].
    - intros x Hx. destruct (in_set _ _ _ _ Hx) as [-> | Hx']; auto.
    - unfold strong_owned, weak_owned. cbn [threads]. rewrite !(total_set _ _ _ _ t' Et). apply Ph; assumption. }
  unfold act in A. unfold may, strong_owned, weak_owned in M. fold S0 W0 in M.
  unfold is_finalizing, is_releasing, is_deleting, sane, phase in *.
  destruct t as [os ow pl]. cbn [own_strong own_weak at_place] in *.
  destruct I2 as [I2 | [I2 | [I2 | [I2 | [I2 | I2]]]]];
    repeat match goal with X : _ /\ _ |- _ => destruct X end;
    destruct pl; destruct a; try discriminate A; cbn [own_strong own_weak at_place] in *;
    match goal with X : deleted _ = _ |- _ => rewrite X in A end; cbn [Nat.eqb] in A;
    try (match goal with X : finalized _ = _ |- _ => rewrite X in A end; cbn [Nat.eqb] in A);
    repeat match type of A with
    | context [if ?x then _ else _] => let E := fresh "E" in destruct x eqn:E
    end;
    injection A as <-; clearbody S0 W0 F0 R0 D0.
  all: clear Et Hin.
  all: repeat match goal with
       | X : andb _ _ = true |- _ => apply andb_true_iff in X; destruct X
       | X : (_ <=? _) = true |- _ => apply Z.leb_le in X
       | X : (_ <=? _) = false |- _ => apply Z.leb_gt in X
       | X : (_ <? _) = true |- _ => apply Z.ltb_lt in X
       | X : (_ <? _) = false |- _ => apply Z.ltb_ge in X
       | X : (_ =? _) = true |- _ => apply Z.eqb_eq in X
       | X : (_ =? _) = false |- _ => apply Z.eqb_neq in X
       end.
  all: try (clear Lift; exfalso; lia).
  all: intros Lm; apply (Lift _ _ None); clear Lift; [| |exact Lm]; clear Lm I1.
  all: cbn [own_strong own_weak at_place strong weak finalized deleted].
  all: match goal with
       | |- _ /\ _ => split; [lia|]; split; [lia|]; first [exact I | split; lia]
       | |- _ => intros Q1 Q2; rewrite ?wrap32_id by lia; (split; [lia|]); pick
       end.
Qed.

Lemma inv_hand s i j t u n m : inv s -> i <> j ->
  nth_error (threads s) i = Some t -> nth_error (threads s) j = Some u ->
  at_place t = Idle -> at_place u = Idle -> 0 <= n <= own_strong t -> 0 <= m <= own_weak t ->
  inv (mkSystem (the_block s)
        (set_thread (set_thread (threads s) i (mkThread (own_strong t - n) (own_weak t - m) Idle))
           j (mkThread (own_strong u + n) (own_weak u + m) Idle))).
Proof.
  intros [I1 I2] N Et Eu Pt Pu Hn Hm.
  set (t' := mkThread (own_strong t - n) (own_weak t - m) Idle). set (u' := mkThread (own_strong u + n) (own_weak u + m) Idle).
  assert (Eu' : nth_error (set_thread (threads s) i t') j = Some u) by (rewrite set_other; auto).
  assert (T : forall f, f t' + f u' = f t + f u ->
    total f (set_thread (set_thread (threads s) i t') j u') = total f (threads s)).
  { intros f Hf. rewrite (total_set _ _ _ _ u' Eu'), (total_set _ _ _ _ t' Et). lia. }
  destruct (I1 t (nth_error_In _ _ Et)) as (T1 & T2 & _). destruct (I1 u (nth_error_In _ _ Eu)) as (U1 & U2 & _).
  split; cbn [threads the_block].
  - intros x Hx. destruct (in_set _ _ _ _ Hx) as [-> | Hx'].
    + unfold sane, u'. cbn. lia.
    + destruct (in_set _ _ _ _ Hx') as [-> | Hx'']; [unfold sane, t'; cbn; lia | auto].
  - unfold strong_owned, weak_owned in *. cbn [threads].
    rewrite !T; [exact I2 | | | | |]; unfold is_finalizing, is_releasing, is_deleting, t', u';
      cbn [own_strong own_weak at_place]; rewrite ?Pt, ?Pu; lia.
Qed.
Lemma inv_spawn s : inv s -> inv (mkSystem (the_block s) (threads s ++ [mkThread 0 0 Idle])).
Proof.
  intros [I1 I2]. split; cbn [threads the_block].
  - intros x Hx. apply in_app_or in Hx. destruct Hx as [Hx | [<- | []]]; [auto|]. unfold sane. cbn. lia.
  - unfold strong_owned, weak_owned in *. cbn [threads]. rewrite !total_app. cbn. rewrite !Z.add_0_r. exact I2.
Qed.
Lemma reaches_limit s : reaches limit s -> limit s.
Proof. intros H. destruct H; auto. split; reflexivity. Qed.
Lemma reaches_inv s : reaches limit s -> inv s.
Proof.
  induction 1 as [|s e s' Hs IH R L]; [apply inv_start|]. pose proof (reaches_limit _ Hs) as Ls.
  inversion R; subst.
  - match goal with X : nth_error _ _ = _, Y : may _ _ _, Z : act _ _ _ = _ |- _ => exact (act_inv s _ _ _ IH Ls X Y _ Z L) end.
  - apply inv_hand; auto.
  - apply inv_spawn, IH.
Qed.

(* ------------------------------------------------------------------ C75 *)
(* Under every schedule of every set of threads that use only references they
   own, as long as fewer than 2^31 references exist: *)

(* nothing touches the object after it is destroyed or the counters after they
   are freed, nothing is destroyed or freed twice *)
Theorem C75_never_undefined : forall s e, reaches limit s -> ~ runs s e None.
Proof.
  intros s e H R. pose proof (reaches_inv s H) as I. pose proof (reaches_limit s H) as L.
  inversion R; subst.
  match goal with X : nth_error _ _ = _, Y : may _ _ _, Z : act _ _ _ = _ |- _ => exact (act_inv s _ _ _ I L X Y _ Z) end.
Qed.
Print Assumptions C75_never_undefined.

(* the object lives as long as a strong reference is owned, and the counters as
   long as any reference is *)
Theorem C75_alive_while_owned : forall s, reaches limit s ->
  (0 < strong_owned s -> finalized (the_block s) = 0%nat) /\
  (0 < strong_owned s \/ 0 < weak_owned s -> deleted (the_block s) = 0%nat) /\
  (finalized (the_block s) <= 1)%nat /\ (deleted (the_block s) <= finalized (the_block s))%nat.
Proof.
  intros s H. destruct (reaches_inv s H) as [_ [_ P]].
  repeat match goal with |- _ /\ _ => split end; try intros; lia.
Qed.
Print Assumptions C75_alive_while_owned.

(* nothing leaks: when no thread owns a reference and none is within one of the
   functions, the object has been destroyed and the counters freed, once *)
Theorem C75_nothing_leaks : forall s, reaches limit s -> quiet s ->
  finalized (the_block s) = 1%nat /\ deleted (the_block s) = 1%nat.
Proof.
  intros s H Q. destruct (reaches_inv s H) as [_ [_ P]].
  assert (Z : forall f, (forall t, own_strong t = 0 /\ own_weak t = 0 /\ at_place t = Idle -> f t = 0) ->
    total f (threads s) = 0).
  { intros f Hf. unfold quiet in Q. clear H P. induction Q as [|t l Ht Q' IH]; [reflexivity|].
    cbn [total fold_right]. fold (total f l). rewrite IH, (Hf t Ht). reflexivity. }
  unfold strong_owned, weak_owned in P.
  rewrite !Z in P by (intros t (A & B & E); unfold is_finalizing, is_releasing, is_deleting; rewrite ?E; auto).
  lia.
Qed.
Print Assumptions C75_nothing_leaks.

(* turning a weak reference into a strong one succeeds only while the object
   lives, and then it stays alive; it fails only when no strong reference is
   owned, and then it fails for ever *)
Lemma runs_inv s i a r s' : runs s (Acts i a r) (Some s') -> exists t b' t',
  nth_error (threads s) i = Some t /\ may s t a /\ act (the_block s) t a = Some (Next b' t' r) /\
  s' = mkSystem b' (set_thread (threads s) i t').
Proof. intros H. inversion H; subst. eauto 10. Qed.
Theorem C75_strengthen : forall s i a s', reaches limit s -> a = ALoad \/ (exists sp, a = AExchange sp) ->
  (runs s (Acts i a (Some true)) (Some s') ->
     0 < strong_owned s /\ strong_owned s' = strong_owned s + 1 /\ finalized (the_block s') = 0%nat) /\
  (runs s (Acts i a (Some false)) (Some s') -> strong_owned s = 0 /\ strong_owned s' = 0).
Proof.
  intros s i a s' H Ha. destruct (reaches_inv s H) as [I1 [St P]]. clear H.
  split; intros R; apply runs_inv in R; destruct R as (t & b' & t' & E & _ & A & ->);
    unfold strong_owned at 1 2 in P; unfold strong_owned in *; cbn [threads the_block];
    rewrite (total_set own_strong _ _ _ t' E); destruct (I1 t (nth_error_In _ _ E)) as (_ & _ & Ex);
    unfold act in A; destruct t as [os ow pl]; cbn [own_strong own_weak at_place] in *;
    destruct Ha as [-> | [sp ->]]; destruct pl; try discriminate A;
    destruct (Nat.eqb _ _); try discriminate A.
  - repeat match type of A with context [if ?x then _ else _] => destruct x end; discriminate.
  - destruct ((strong (the_block s) =? count) && negb sp)%bool eqn:C.
    + injection A as <- <-. apply andb_true_iff in C. destruct C as [C _]. apply Z.eqb_eq in C.
      cbn [own_strong finalized]. lia.
    + repeat match type of A with context [if ?x then _ else _] => destruct x end; discriminate.
  - destruct (strong (the_block s) <? 0); [discriminate|].
    destruct (strong (the_block s) =? 0) eqn:C; [|discriminate]. injection A as <- <-. apply Z.eqb_eq in C. cbn [own_strong]. lia.
  - destruct ((strong (the_block s) =? count) && negb sp)%bool; [discriminate|]. destruct (strong (the_block s) <? 0); [discriminate|].
    destruct (strong (the_block s) =? 0) eqn:C; [|discriminate]. injection A as <- <-. apply Z.eqb_eq in C. cbn [own_strong]. lia.
Qed.
Print Assumptions C75_strengthen.

(* once no strong reference is owned, none ever is again *)
Theorem C75_expired_for_ever : forall s e s', reaches limit s -> runs s e (Some s') -> limit s' ->
  strong_owned s = 0 -> strong_owned s' = 0.
Proof.
  intros s e s' H R L Z0.
  destruct (reaches_inv s H) as [I1 [St P]]. destruct (reaches_inv s' (reach_step _ _ _ _ H R L)) as [I1' [St' P']].
  destruct e as [i a r|i j n m|].
  - apply runs_inv in R. destruct R as (t & b' & t' & E & M & A & ->). cbn [the_block] in St'. rewrite <- St'.
    clear I1' St' P'. rewrite Z0 in *.
    assert (T0 : own_strong t = 0).
    { assert (own_strong t <= 0) by (rewrite <- Z0; eapply total_at; [intros x Hx; apply (I1 x Hx) | exact E]).
      destruct (I1 t (nth_error_In _ _ E)) as (T1 & _). lia. }
    destruct (I1 t (nth_error_In _ _ E)) as (_ & _ & Ex).
    unfold act in A. unfold may in M. destruct t as [os ow pl]. cbn [own_strong own_weak at_place] in *.
    destruct pl, a; try discriminate A; try lia; destruct (Nat.eqb (deleted _) 0); try discriminate A;
      repeat match type of A with context [if ?x then _ else _] => let C := fresh "C" in destruct x eqn:C end;
      try discriminate A; injection A as <- <- <-; cbn [strong]; try exact St;
      apply andb_true_iff in C; destruct C as [C _]; apply Z.eqb_eq in C; lia.
  - inversion R; subst. cbn [the_block] in St'. lia.
  - inversion R; subst. cbn [the_block] in St'. lia.
Qed.
Print Assumptions C75_expired_for_ever.

(* an owner that is told it is the only one is; one that is told the object has
   expired is right too *)
Theorem C75_unique_expired : forall s i r s', reaches limit s ->
  (runs s (Acts i AUnique (Some r)) (Some s') -> (r = true <-> strong_owned s = 1)) /\
  (runs s (Acts i AExpired (Some r)) (Some s') -> (r = true <-> strong_owned s = 0)).
Proof.
  intros s i r s' H. destruct (reaches_inv s H) as [_ [St _]]. rewrite <- St.
  split; intros R; apply runs_inv in R; destruct R as (t & b' & t' & E & _ & A & ->); unfold act in A;
    destruct (at_place t); try discriminate A; destruct (Nat.eqb _ _); try discriminate A.
  - destruct (strong (the_block s) <=? 0); [discriminate A|]. injection A as _ _ <-. apply Z.eqb_eq.
  - destruct (strong (the_block s) <? 0); [discriminate A|]. injection A as _ _ <-. apply Z.eqb_eq.
Qed.
Print Assumptions C75_unique_expired.

(* ---- a schedule ---- *)
(* Thread 0 makes a weak reference, starts thread 1 and hands it the weak
   reference; thread 1 reads the count while thread 0 drops the last strong
   reference, so its exchange fails; the object is destroyed before and the
   counters are freed after thread 1 drops the weak reference. *)
Ltac goes R e :=
  first
  [ eapply (reach_step limit _ e) in R;
    [| eapply run_action; [reflexivity | cbn; first [exact I | lia] | reflexivity] | split; reflexivity]
  | eapply (reach_step limit _ e) in R;
    [| eapply run_hand; [discriminate | reflexivity | reflexivity | reflexivity | reflexivity | cbn; lia | cbn; lia] | split; reflexivity]
  | eapply (reach_step limit _ e) in R; [| apply run_start | split; reflexivity] ]; cbn in R.
Example C75_ex : exists s, reaches limit s /\ quiet s /\ the_block s = mkBlock 0 0 1 1 /\ length (threads s) = 2%nat.
Proof.
  pose proof (reach_start limit) as R. unfold start in R.
  goes R (Acts 0 AWeakRef None). goes R Starts. goes R (Hands 0 1 0 1). goes R (Acts 1 ALoad None).
  goes R (Acts 0 AStrongUnref None). goes R (Acts 1 (AExchange false) (Some false)). goes R (Acts 0 AFinalize None).
  goes R (Acts 0 AReleaseWeak None). goes R (Acts 1 AWeakUnref None). goes R (Acts 1 ADelete None).
  eexists. split; [exact R|]. split; [repeat constructor|]. split; reflexivity.
Qed.
(* and one in which strengthening succeeds while the other owner lets go *)
Example C75_ex_strengthen : exists s s', reaches limit s /\ runs s (Acts 1 (AExchange false) (Some true)) (Some s') /\
  strong_owned s' = 2.
Proof.
  pose proof (reach_start limit) as R. unfold start in R.
  goes R (Acts 0 AWeakRef None). goes R Starts. goes R (Hands 0 1 0 1). goes R (Acts 1 ALoad None).
  eexists. eexists. split; [exact R|]. split; [|shelve].
  eapply run_action; [reflexivity | exact I | reflexivity].
  Unshelve. reflexivity.
Qed.

(* Without the limit the claim fails: the counter is 32 bits wide, and after
   2^32 copies it reads 1, so that dropping one of 2^32 + 1 references destroys
   the object. *)
Lemma copies n : reaches (fun _ => True)
  (mkSystem (mkBlock (wrap32 (1 + Z.of_nat n)) 1 0 0) [mkThread (1 + Z.of_nat n) 0 Idle]).
Proof.
  induction n as [|n IH]; [exact (reach_start _)|].
  replace (wrap32 (1 + Z.of_nat (S n))) with (wrap32 (wrap32 (1 + Z.of_nat n) + 1)).
  2:{ unfold wrap32. rewrite Nat2Z.inj_succ. f_equal.
      replace (1 + Z.succ (Z.of_nat n) + 2 ^ 31) with ((1 + Z.of_nat n + 2 ^ 31) + 1) by lia.
      rewrite <- (Z.add_mod_idemp_l (1 + Z.of_nat n + 2 ^ 31)) by discriminate. f_equal. lia. }
  replace (1 + Z.of_nat (S n)) with (1 + Z.of_nat n + 1) by lia.
  eapply (reach_step _ _ (Acts 0 AStrongRef None)); [exact IH | | exact I].
  refine (run_action (mkSystem (mkBlock (wrap32 (1 + Z.of_nat n)) 1 0 0) [mkThread (1 + Z.of_nat n) 0 Idle]) 0 (mkThread (1 + Z.of_nat n) 0 Idle) AStrongRef
    (mkBlock (wrap32 (wrap32 (1 + Z.of_nat n) + 1)) 1 0 0) (mkThread (1 + Z.of_nat n + 1) 0 Idle) None eq_refl _ eq_refl).
  cbn [may]. unfold strong_owned, total. cbn [threads fold_right own_strong]. lia.
Qed.
Theorem C75_limit_needed : exists s, reaches (fun _ => True) s /\
  strong_owned s = 2 ^ 32 /\ finalized (the_block s) = 1%nat /\
  runs s (Acts 1 AUse None) None.
Proof.
  pose proof (copies (Z.to_nat (2 ^ 32))) as R. rewrite Z2Nat.id in R by discriminate.
  change (wrap32 (1 + 2 ^ 32)) with 1 in R. change (1 + 2 ^ 32) with 4294967297 in R.
  eapply (reach_step (fun _ => True) _ (Acts 0 AStrongUnref None)) in R;
    [| eapply run_action; [reflexivity | reflexivity | reflexivity] | exact I]. cbn in R.
  eapply (reach_step (fun _ => True) _ (Acts 0 AFinalize None)) in R;
    [| eapply run_action; [reflexivity | exact I | reflexivity] | exact I]. cbn in R.
  eapply (reach_step (fun _ => True) _ Starts) in R; [| apply run_start | exact I]. cbn in R.
  eexists. split; [exact R|]. split; [reflexivity|]. split; [reflexivity|].
  eapply run_undefined; reflexivity.
Qed.
Print Assumptions C75_limit_needed.
