(* A condition on expressions under which the recursive evaluator's loop steps
   do not disturb their accumulator. *)
From Coq Require Import ZArith List Bool String Lia.
From Verif Require Import Base M_Overflow M_Number M_Attr M_Value M_Logic M_Expr M_Plan M_Machine M_Direct
  S_Direct S_Eval L_Seval L_Alloc.
Import ListNotations.
Local Open Scope string_scope.
Open Scope list_scope.
Open Scope Z_scope.

(* ---- on planned cores ---- *)

Definition shadows (x x2 y z : string) : bool :=
  String.eqb x z || negb (String.eqb x2 "") && String.eqb x2 z || String.eqb y z.
Definition any_core (f : core -> bool) :=
  fix go (l : list core) : bool := match l with [] => false | x :: l' => f x || go l' end.
Definition all_core (f : core -> bool) :=
  fix go (l : list core) : bool := match l with [] => true | x :: l' => f x && go l' end.

(* some cel.bind in e has an initialiser that reads z *)
Fixpoint khides (z : string) (e : core) : bool :=
  match e with
  | KConst _ | KVar _ | KGlobal _ => false
  | KLogic _ a b | KOr _ a b => khides z a || khides z b
  | KCond c a b => khides z c || khides z a || khides z b
  | KApp _ args => any_core (khides z) args
  | KComp x x2 y r i c s b =>
      khides z r || khides z i || negb (shadows x x2 y z) && (khides z c || khides z s)
      || negb (String.eqb y z) && khides z b
  | KBind y i b => reads z i || khides z i || negb (String.eqb y z) && khides z b
  end.
(* when e is evaluated in place of z, no part of e reads z after a write *)
Fixpoint kin_place (z : string) (e : core) : bool :=
  match e with
  | KConst _ | KVar _ | KGlobal _ => true
  | KLogic _ a b | KOr _ a b => kin_place z a && negb (reads z b)
  | KCond _ a b => kin_place z a && kin_place z b
  | KApp op args =>
      match op, args with
      | (OSelect _ _ | ONot | ONotStrictlyFalse), _ => all_core (kin_place z) args
      | (OEqual _ | OIn | OList _), x :: args' => kin_place z x && negb (any_core (reads z) args')
      | _, _ => true
      end
  | KComp x x2 y r i c s b => String.eqb y z || kin_place z b
  | KBind y i b => String.eqb y z || kin_place z b
  end.
Fixpoint kalias_free (e : core) : bool :=
  match e with
  | KConst _ | KVar _ | KGlobal _ => true
  | KLogic _ a b | KOr _ a b => kalias_free a && kalias_free b
  | KCond c a b => kalias_free c && kalias_free a && kalias_free b
  | KApp _ args => all_core kalias_free args
  | KComp x x2 y r i c s b =>
      negb (khides y c) && negb (khides y s) && kin_place y s &&
      kalias_free r && kalias_free i && kalias_free c && kalias_free s && kalias_free b
  | KBind y i b => kalias_free i && kalias_free b
  end.

Definition loop_scope (x x2 y : string) (n : nat) (scp : scope) : scope :=
  let two := negb (String.eqb x2 "") in
  let it2 := if two then S n else n in
  (x, LSlot n) :: (if two then [(x2, LSlot it2)] else []) ++ (y, LSlot (S it2)) :: scp.

Lemma lookup_loop x x2 y m scp z r : lookup_slot (loop_scope x x2 y m scp) z = Some r ->
  (shadows x x2 y z = true /\ exists q, r = LSlot q /\ (m <= q)%nat) \/
  (shadows x x2 y z = false /\ lookup_slot scp z = Some r).
Proof.
  unfold loop_scope, shadows. destruct (String.eqb x2 "") eqn:E2; cbn [negb andb app lookup_slot].
  - destruct (String.eqb x z); [intros [= <-]; left; split; eauto|].
    destruct (String.eqb y z); [intros [= <-]; left; split; eauto|]. auto.
  - destruct (String.eqb x z); [intros [= <-]; left; split; eauto|].
    destruct (String.eqb x2 z); [intros [= <-]; left; split; eauto|].
    destruct (String.eqb y z); [intros [= <-]; left; split; eauto|]. auto.
Qed.
Lemma lookup_cons x rf scp z r : lookup_slot ((x, rf) :: scp) z = Some r ->
  (String.eqb x z = true /\ r = rf) \/ (String.eqb x z = false /\ lookup_slot scp z = Some r).
Proof. cbn [lookup_slot]. destruct (String.eqb x z); [intros [= <-]; auto|auto]. Qed.

Section Slot.
  Variable n : nat.
  (* the bind variables in scope keep away from slot n *)
  Definition quiet (M : nat -> bool) (scp : scope) : Prop :=
    forall z q i, lookup_slot scp z = Some (LLazy q i) -> q <> n /\ M i = false.
  Definition names (scp : scope) (P : string -> Prop) : Prop :=
    forall z, lookup_slot scp z = Some (LSlot n) -> P z.

  Lemma quiet_loop M x x2 y m scp : quiet M scp -> quiet M (loop_scope x x2 y m scp).
  Proof.
    intros H z q i Hl. apply lookup_loop in Hl. destruct Hl as [(_ & q' & E & _)|[_ Hl]]; [discriminate|eauto].
  Qed.
  Lemma quiet_slot M y m scp : quiet M scp -> quiet M ((y, LSlot m) :: scp).
  Proof. intros H z q i Hl. apply lookup_cons in Hl. destruct Hl as [[_ E]|[_ Hl]]; [discriminate|eauto]. Qed.
  Lemma quiet_lazy M y m i scp : quiet M scp -> m <> n -> quiet (also i false M) ((y, LLazy m i) :: scp).
  Proof.
    intros H Hm z q j Hl. apply lookup_cons in Hl. unfold also. destruct Hl as [[_ E]|[_ Hl]].
    - injection E as -> ->. now rewrite Nat.eqb_refl.
    - apply H in Hl. destruct (Nat.eqb j i); tauto.
  Qed.
  Lemma names_loop (P : string -> Prop) x x2 y m scp : (n < m)%nat -> names scp (fun z => shadows x x2 y z = false -> P z) ->
    names (loop_scope x x2 y m scp) P.
  Proof.
    intros Hm H z Hl. apply lookup_loop in Hl. destruct Hl as [(_ & q' & E & Hq)|[E Hl]]; [|now apply H].
    injection E as <-. lia.
  Qed.
  Lemma names_cons (P : string -> Prop) y rf scp : rf <> LSlot n -> names scp (fun z => String.eqb y z = false -> P z) ->
    names ((y, rf) :: scp) P.
  Proof.
    intros Hm H z Hl. apply lookup_cons in Hl. destruct Hl as [[_ E]|[E Hl]]; [congruence|now apply H].
  Qed.
  Lemma names_impl (P Q : string -> Prop) scp : names scp P -> (forall z, P z -> Q z) -> names scp Q.
  Proof. intros H HI z Hz. auto. Qed.

  Lemma reads_comp z x x2 y r i c s b : reads z (KComp x x2 y r i c s b) = false ->
    reads z r = false /\ reads z i = false /\
    (shadows x x2 y z = false -> reads z c = false /\ reads z s = false) /\
    (String.eqb y z = false -> reads z b = false).
  Proof.
    cbn [reads]. fold (shadows x x2 y z). rewrite !orb_false_iff. intros [[[H1 H2] H3] H4].
    split; auto. split; auto. split.
    - intros E. rewrite E in H3. cbn [negb andb] in H3. now apply orb_false_iff in H3.
    - intros E. rewrite E in H4. exact H4.
  Qed.
  Lemma khides_comp z x x2 y r i c s b : khides z (KComp x x2 y r i c s b) = false ->
    khides z r = false /\ khides z i = false /\
    (shadows x x2 y z = false -> khides z c = false /\ khides z s = false) /\
    (String.eqb y z = false -> khides z b = false).
  Proof.
    cbn [khides]. rewrite !orb_false_iff. intros [[[H1 H2] H3] H4].
    split; auto. split; auto. split.
    - intros E. rewrite E in H3. cbn [negb andb] in H3. now apply orb_false_iff in H3.
    - intros E. rewrite E in H4. exact H4.
  Qed.

  Lemma alloc_comp ii scp x x2 y e1 e2 e3 e4 e5 s r s' :
    alloc ii scp (KComp x x2 y e1 e2 e3 e4 e5) s = (r, s') -> sane s ->
    exists k it2 r1 s1 r2 s2 r3 s3 r4 s4 r5 s5,
      (al_next s < al_next (ReserveSlots k s))%nat /\ sane (ReserveSlots k s) /\
      (al_next s <= it2)%nat /\ (S it2 < al_next (ReserveSlots k s))%nat /\
      (it2 <= S (al_next s))%nat /\
      alloc ii scp e1 (ReserveSlots k s) = (r1, s1) /\ grows (ReserveSlots k s) s1 /\ sane s1 /\
      alloc ii scp e2 s1 = (r2, s2) /\ grows s1 s2 /\ sane s2 /\
      alloc ii (loop_scope x x2 y (al_next s) scp) e3 s2 = (r3, s3) /\ grows s2 s3 /\ sane s3 /\
      alloc ii (loop_scope x x2 y (al_next s) scp) e4 s3 = (r4, s4) /\ grows s3 s4 /\ sane s4 /\
      alloc ii ((y, LSlot (S it2)) :: scp) e5 s4 = (r5, s5) /\ grows s4 s5 /\ sane s5 /\
      r = RComp (al_next s) it2 (S it2) r1 r2 r3 r4 r5 /\
      it2 = (if negb (String.eqb x2 "") then S (al_next s) else al_next s) /\
      s' = if ii then s5 else release_to (al_next s) s5.
  Proof.
    intros H0 Hs. cbn [alloc] in H0. cbv zeta in H0.
    set (k := if negb (String.eqb x2 "") then 3%nat else 2%nat) in *.
    set (it2 := if negb (String.eqb x2 "") then S (al_next s) else al_next s) in *.
    change ((x, LSlot (al_next s)) :: (if negb (String.eqb x2 "") then [(x2, LSlot it2)] else [])
              ++ (y, LSlot (S it2)) :: scp) with (loop_scope x x2 y (al_next s) scp) in H0.
    assert (Hs0 : sane (ReserveSlots k s)) by (unfold sane, ReserveSlots; cbn [al_next al_max]; lia).
    pair_destruct. injection H0 as <- <-.
    destruct (alloc_grows _ _ _ _ _ _ E Hs0) as (G1 & S1 & _).
    destruct (alloc_grows _ _ _ _ _ _ E0 S1) as (G2 & S2 & _).
    destruct (alloc_grows _ _ _ _ _ _ E1 S2) as (G3 & S3 & _).
    destruct (alloc_grows _ _ _ _ _ _ E2 S3) as (G4 & S4 & _).
    destruct (alloc_grows _ _ _ _ _ _ E3 S4) as (G5 & S5 & _).
    exists k, it2, r0, s0, r1, s1, r2, s2, r3, s3, r4, s4.
    assert (Hk : (S it2 < al_next (ReserveSlots k s))%nat /\ (al_next s <= it2)%nat /\ (it2 <= S (al_next s))%nat).
    { unfold it2, k, ReserveSlots; cbn [al_next]. destruct (negb _); lia. }
    repeat (split; auto); lia.
  Qed.
  Lemma alloc_bind ii scp y e1 e2 s r s' :
    alloc ii scp (KBind y e1 e2) s = (r, s') -> sane s ->
    exists r1 s1 r2 s2,
      (al_next s < al_next (ReserveSlots 1 s))%nat /\ sane (ReserveSlots 1 s) /\
      alloc true scp e1 (ReserveSlots 1 s) = (r1, s1) /\ grows (ReserveSlots 1 s) s1 /\ sane s1 /\
      alloc ii ((y, LLazy (al_next s) (List.length (al_subs s1))) :: scp) e2 (extract r1 s1) = (r2, s2) /\
      sane (extract r1 s1) /\ grows (extract r1 s1) s2 /\ sane s2 /\
      r = RBind (al_next s) (List.length (al_subs s1)) r1 r2 /\
      s' = if ii then s2 else release_to (al_next s) s2.
  Proof.
    intros H0 Hs. cbn [alloc] in H0. cbv zeta in H0.
    assert (Hs0 : sane (ReserveSlots 1 s)) by (unfold sane, ReserveSlots; cbn [al_next al_max]; lia).
    pair_destruct. injection H0 as <- <-.
    destruct (alloc_grows _ _ _ _ _ _ E Hs0) as (G1 & S1 & _).
    assert (S1' : sane (extract r0 s0)) by exact S1.
    destruct (alloc_grows _ _ _ _ _ _ E0 S1') as (G2 & S2 & _).
    exists r0, s0, r1, s1. repeat (split; auto); unfold ReserveSlots; cbn [al_next]; lia.
  Qed.
  Lemma lt_grows s s' : (n < al_next s)%nat -> grows s s' -> (n < al_next s')%nat.
  Proof. intros H (G & _). lia. Qed.
  Lemma reads_app z op args : reads z (KApp op args) = any_core (reads z) args.
  Proof. reflexivity. Qed.

  (* an expression that does not read a name of slot n leaves it alone *)
  Lemma touches_alloc e : forall ii scp s r s' M, alloc ii scp e s = (r, s') -> sane s ->
    (n < al_next s)%nat -> quiet M scp -> names scp (fun z => reads z e = false) -> touches n M r = false.
  Proof.
    induction e using core_ind'; intros ii scp s r s' M H0 Hs Hn Hq Hr.
    - injection H0 as <- <-. reflexivity.
    - cbn [alloc] in H0. destruct (lookup_slot scp n0) as [[k|k i]|] eqn:El; injection H0 as <- <-; cbn [touches].
      + apply Nat.eqb_neq. intros ->. specialize (Hr _ El). cbn [reads] in Hr.
        now rewrite String.eqb_refl in Hr.
      + apply Hq in El. destruct El as [E1 ->]. apply Nat.eqb_neq in E1. now rewrite E1.
      + reflexivity.
    - injection H0 as <- <-. reflexivity.
    - cbn [alloc] in H0. pair_destruct. injection H0 as <- <-.
      destruct (alloc_grows _ _ _ _ _ _ E Hs) as (G1 & S1 & _). cbn [touches].
      rewrite (IHe1 _ _ _ _ _ _ E), (IHe2 _ _ _ _ _ _ E0); eauto using lt_grows;
        intros z Hz; specialize (Hr z Hz); cbn [reads] in Hr; apply orb_false_iff in Hr; tauto.
    - cbn [alloc] in H0. pair_destruct. injection H0 as <- <-.
      destruct (alloc_grows _ _ _ _ _ _ E Hs) as (G1 & S1 & _).
      destruct (alloc_grows _ _ _ _ _ _ E0 S1) as (G2 & S2 & _). cbn [touches].
      rewrite (IHe1 _ _ _ _ _ _ E), (IHe2 _ _ _ _ _ _ E0), (IHe3 _ _ _ _ _ _ E1); eauto using lt_grows;
        intros z Hz; specialize (Hr z Hz); cbn [reads] in Hr; rewrite !orb_false_iff in Hr; tauto.
    - cbn [alloc] in H0. pair_destruct. injection H0 as <- <-.
      destruct (alloc_grows _ _ _ _ _ _ E Hs) as (G1 & S1 & _). cbn [touches].
      rewrite (IHe1 _ _ _ _ _ _ E), (IHe2 _ _ _ _ _ _ E0); eauto using lt_grows;
        intros z Hz; specialize (Hr z Hz); cbn [reads] in Hr; apply orb_false_iff in Hr; tauto.
    - rewrite alloc_app in H0. pair_destruct. injection H0 as <- <-. cbn [touches].
      revert s r0 s0 E Hs Hn Hr. induction H as [|x l Hx Hl IH]; intros s r0 s0 E Hs Hn Hr; cbn [alloc_list] in E.
      + injection E as <- <-. reflexivity.
      + fold (alloc_list ii scp) in E. pair_destruct. injection E as <- <-.
        destruct (alloc_grows _ _ _ _ _ _ E0 Hs) as (G1 & S1 & _).
        cbn [any_of]. rewrite (Hx _ _ _ _ _ _ E0), (IH _ _ _ E1); eauto using lt_grows;
          intros z Hz; specialize (Hr z Hz); cbn [reads] in Hr; apply orb_false_iff in Hr; tauto.
    - apply alloc_comp in H0; [|exact Hs].
      destruct H0 as (k & it2 & r1 & s1 & r2 & s2 & r3 & s3 & r4 & s4 & r5 & s5 & L0 & S0 & L1 & L2 & L3 &
        E1 & G1 & S1 & E2 & G2 & S2 & E3 & G3 & S3 & E4 & G4 & S4 & E5 & G5 & S5 & -> & _ & ->).
      assert (N0 : (n < al_next (ReserveSlots k s))%nat) by lia.
      assert (N1 := lt_grows _ _ N0 G1). assert (N2 := lt_grows _ _ N1 G2).
      assert (N3 := lt_grows _ _ N2 G3). assert (N4 := lt_grows _ _ N3 G4).
      cbn [touches]. rewrite (proj2 (Nat.eqb_neq (al_next s) n)) by lia.
      rewrite (proj2 (Nat.eqb_neq it2 n)) by lia. rewrite (proj2 (Nat.eqb_neq (S it2) n)) by lia.
      rewrite (IHe1 _ _ _ _ _ _ E1), (IHe2 _ _ _ _ _ _ E2), (IHe3 _ _ _ _ _ _ E3), (IHe4 _ _ _ _ _ _ E4),
        (IHe5 _ _ _ _ _ _ E5); auto using quiet_loop, quiet_slot.
      + apply names_cons; [intros [= E]; lia|]. intros z Hz. specialize (Hr z Hz). apply reads_comp in Hr. tauto.
      + apply names_loop; [lia|]. intros z Hz. specialize (Hr z Hz). apply reads_comp in Hr. tauto.
      + apply names_loop; [lia|]. intros z Hz. specialize (Hr z Hz). apply reads_comp in Hr. tauto.
      + intros z Hz. specialize (Hr z Hz). apply reads_comp in Hr. tauto.
      + intros z Hz. specialize (Hr z Hz). apply reads_comp in Hr. tauto.
    - apply alloc_bind in H0; [|exact Hs].
      destruct H0 as (r1 & s1 & r2 & s2 & L0 & S0 & E1 & G1 & S1 & E2 & S1' & G2 & S2 & -> & ->).
      assert (N0 : (n < al_next (ReserveSlots 1 s))%nat) by lia. assert (N1 := lt_grows _ _ N0 G1).
      cbn [touches]. rewrite (proj2 (Nat.eqb_neq (al_next s) n)) by lia.
      rewrite (IHe1 _ _ _ _ _ M E1); auto.
      2: { intros z Hz. specialize (Hr z Hz). cbn [reads] in Hr. apply orb_false_iff in Hr. tauto. }
      cbn [orb]. eapply IHe2; [exact E2|exact S1'|exact N1|apply quiet_lazy; [exact Hq|lia]|].
      apply names_cons; [discriminate|]. intros z Hz E. specialize (Hr z Hz). cbn [reads] in Hr.
      rewrite E in Hr. apply orb_false_iff in Hr. tauto.
  Qed.

  Lemma overwrites_alloc e : forall ii scp s r s' M, alloc ii scp e s = (r, s') -> sane s ->
    (n < al_next s)%nat -> quiet M scp -> names scp (fun z => khides z e = false) -> overwrites n M r = false.
  Proof.
    induction e using core_ind'; intros ii scp s r s' M H0 Hs Hn Hq Hr.
    - injection H0 as <- <-. reflexivity.
    - cbn [alloc] in H0. destruct (lookup_slot scp n0) as [[k|k i]|] eqn:El; injection H0 as <- <-; cbn [overwrites];
        auto.
      apply Hq in El. destruct El as [E1 ->]. apply Nat.eqb_neq in E1. now rewrite E1.
    - injection H0 as <- <-. reflexivity.
    - cbn [alloc] in H0. pair_destruct. injection H0 as <- <-.
      destruct (alloc_grows _ _ _ _ _ _ E Hs) as (G1 & S1 & _). cbn [overwrites].
      rewrite (IHe1 _ _ _ _ _ _ E), (IHe2 _ _ _ _ _ _ E0); eauto using lt_grows;
        intros z Hz; specialize (Hr z Hz); cbn [khides] in Hr; apply orb_false_iff in Hr; tauto.
    - cbn [alloc] in H0. pair_destruct. injection H0 as <- <-.
      destruct (alloc_grows _ _ _ _ _ _ E Hs) as (G1 & S1 & _).
      destruct (alloc_grows _ _ _ _ _ _ E0 S1) as (G2 & S2 & _). cbn [overwrites].
      rewrite (IHe1 _ _ _ _ _ _ E), (IHe2 _ _ _ _ _ _ E0), (IHe3 _ _ _ _ _ _ E1); eauto using lt_grows;
        intros z Hz; specialize (Hr z Hz); cbn [khides] in Hr; rewrite !orb_false_iff in Hr; tauto.
    - cbn [alloc] in H0. pair_destruct. injection H0 as <- <-.
      destruct (alloc_grows _ _ _ _ _ _ E Hs) as (G1 & S1 & _). cbn [overwrites].
      rewrite (IHe1 _ _ _ _ _ _ E), (IHe2 _ _ _ _ _ _ E0); eauto using lt_grows;
        intros z Hz; specialize (Hr z Hz); cbn [khides] in Hr; apply orb_false_iff in Hr; tauto.
    - rewrite alloc_app in H0. pair_destruct. injection H0 as <- <-. cbn [overwrites].
      revert s r0 s0 E Hs Hn Hr. induction H as [|x l Hx Hl IH]; intros s r0 s0 E Hs Hn Hr; cbn [alloc_list] in E.
      + injection E as <- <-. reflexivity.
      + fold (alloc_list ii scp) in E. pair_destruct. injection E as <- <-.
        destruct (alloc_grows _ _ _ _ _ _ E0 Hs) as (G1 & S1 & _).
        cbn [any_of]. rewrite (Hx _ _ _ _ _ _ E0), (IH _ _ _ E1); eauto using lt_grows;
          intros z Hz; specialize (Hr z Hz); cbn [khides any_core] in Hr; apply orb_false_iff in Hr; tauto.
    - apply alloc_comp in H0; [|exact Hs].
      destruct H0 as (k & it2 & r1 & s1 & r2 & s2 & r3 & s3 & r4 & s4 & r5 & s5 & L0 & S0 & L1 & L2 & L3 &
        E1 & G1 & S1 & E2 & G2 & S2 & E3 & G3 & S3 & E4 & G4 & S4 & E5 & G5 & S5 & -> & _ & ->).
      assert (N0 : (n < al_next (ReserveSlots k s))%nat) by lia.
      assert (N1 := lt_grows _ _ N0 G1). assert (N2 := lt_grows _ _ N1 G2).
      assert (N3 := lt_grows _ _ N2 G3). assert (N4 := lt_grows _ _ N3 G4).
      cbn [overwrites]. rewrite (proj2 (Nat.eqb_neq (al_next s) n)) by lia.
      rewrite (proj2 (Nat.eqb_neq it2 n)) by lia. rewrite (proj2 (Nat.eqb_neq (S it2) n)) by lia.
      rewrite (IHe1 _ _ _ _ _ _ E1), (IHe2 _ _ _ _ _ _ E2), (IHe3 _ _ _ _ _ _ E3), (IHe4 _ _ _ _ _ _ E4),
        (IHe5 _ _ _ _ _ _ E5); auto using quiet_loop, quiet_slot.
      + apply names_cons; [intros [= E]; lia|]. intros z Hz. specialize (Hr z Hz). apply khides_comp in Hr. tauto.
      + apply names_loop; [lia|]. intros z Hz. specialize (Hr z Hz). apply khides_comp in Hr. tauto.
      + apply names_loop; [lia|]. intros z Hz. specialize (Hr z Hz). apply khides_comp in Hr. tauto.
      + intros z Hz. specialize (Hr z Hz). apply khides_comp in Hr. tauto.
      + intros z Hz. specialize (Hr z Hz). apply khides_comp in Hr. tauto.
    - apply alloc_bind in H0; [|exact Hs].
      destruct H0 as (r1 & s1 & r2 & s2 & L0 & S0 & E1 & G1 & S1 & E2 & S1' & G2 & S2 & -> & ->).
      assert (N0 : (n < al_next (ReserveSlots 1 s))%nat) by lia. assert (N1 := lt_grows _ _ N0 G1).
      cbn [overwrites]. rewrite (proj2 (Nat.eqb_neq (al_next s) n)) by lia.
      rewrite (IHe1 _ _ _ _ _ M E1); auto.
      2: { intros z Hz. specialize (Hr z Hz). cbn [khides] in Hr. rewrite !orb_false_iff in Hr. tauto. }
      rewrite (touches_alloc e1 _ _ _ _ _ M E1); auto.
      2: { intros z Hz. specialize (Hr z Hz). cbn [khides] in Hr. rewrite !orb_false_iff in Hr. tauto. }
      cbn [orb]. eapply IHe2; [exact E2|exact S1'|exact N1|apply quiet_lazy; [exact Hq|lia]|].
      apply names_cons; [discriminate|]. intros z Hz E. specialize (Hr z Hz). cbn [khides] in Hr.
      rewrite E in Hr. rewrite !orb_false_iff in Hr. tauto.
  Qed.

  Lemma touches_list ii scp l : forall s rs s' M, alloc_list ii scp l s = (rs, s') -> sane s ->
    (n < al_next s)%nat -> quiet M scp -> names scp (fun z => any_core (reads z) l = false) ->
    any_of (touches n M) rs = false.
  Proof.
    intros s rs s' M E Hs Hn Hq Hr.
    pose proof (touches_alloc (KApp OIndex l) ii scp s (RApp OIndex rs) s' M) as H. cbn [touches] in H.
    apply H; auto. rewrite alloc_app, E. reflexivity.
  Qed.
  Lemma in_place_alloc e : forall ii scp s r s' M, alloc ii scp e s = (r, s') -> sane s ->
    (n < al_next s)%nat -> quiet M scp -> names scp (fun z => khides z e = false /\ kin_place z e = true) ->
    in_place n M r = true.
  Proof.
    induction e using core_ind'; intros ii scp s r s' M H0 Hs Hn Hq Hr.
    - injection H0 as <- <-. reflexivity.
    - cbn [alloc] in H0. destruct (lookup_slot scp n0) as [[k|k i]|] eqn:El; injection H0 as <- <-; cbn [in_place];
        auto.
      apply Hq in El. destruct El as [E1 ->]. reflexivity.
    - injection H0 as <- <-. reflexivity.
    - cbn [alloc] in H0. pair_destruct. injection H0 as <- <-.
      destruct (alloc_grows _ _ _ _ _ _ E Hs) as (G1 & S1 & _). cbn [in_place].
      rewrite (IHe1 _ _ _ _ _ _ E), (touches_alloc e2 _ _ _ _ _ M E0); eauto using lt_grows;
        intros z Hz; destruct (Hr z Hz) as [Hr1 Hr2]; cbn [khides kin_place] in Hr1, Hr2;
        rewrite ?orb_false_iff in Hr1; rewrite ?andb_true_iff, ?negb_true_iff in Hr2; tauto.
    - cbn [alloc] in H0. pair_destruct. injection H0 as <- <-.
      destruct (alloc_grows _ _ _ _ _ _ E Hs) as (G1 & S1 & _).
      destruct (alloc_grows _ _ _ _ _ _ E0 S1) as (G2 & S2 & _). cbn [in_place].
      rewrite (IHe2 _ _ _ _ _ _ E0), (IHe3 _ _ _ _ _ _ E1); eauto using lt_grows;
        intros z Hz; destruct (Hr z Hz) as [Hr1 Hr2]; cbn [khides kin_place] in Hr1, Hr2;
        rewrite ?orb_false_iff in Hr1; rewrite ?andb_true_iff, ?negb_true_iff in Hr2; tauto.
    - cbn [alloc] in H0. pair_destruct. injection H0 as <- <-.
      destruct (alloc_grows _ _ _ _ _ _ E Hs) as (G1 & S1 & _). cbn [in_place].
      rewrite (IHe1 _ _ _ _ _ _ E), (touches_alloc e2 _ _ _ _ _ M E0); eauto using lt_grows;
        intros z Hz; destruct (Hr z Hz) as [Hr1 Hr2]; cbn [khides kin_place] in Hr1, Hr2;
        rewrite ?orb_false_iff in Hr1; rewrite ?andb_true_iff, ?negb_true_iff in Hr2; tauto.
    - rewrite alloc_app in H0. pair_destruct. injection H0 as <- <-. cbn [in_place].
      assert (Hall : names scp (fun z => khides z (KApp op args) = false /\ all_core (kin_place z) args = true) ->
                     all_of (in_place n M) r0 = true).
      { clear Hr. revert s r0 s0 E Hs Hn.
        induction H as [|x l Hx Hl IH]; intros s r0 s0 E Hs Hn Hr; cbn [alloc_list] in E.
        - injection E as <- <-. reflexivity.
        - fold (alloc_list ii scp) in E. pair_destruct. injection E as <- <-.
          destruct (alloc_grows _ _ _ _ _ _ E0 Hs) as (G1 & S1 & _).
          cbn [all_of]. rewrite (Hx _ _ _ _ _ _ E0), (IH _ _ _ E1); eauto using lt_grows;
            intros z Hz; destruct (Hr z Hz) as [Hr1 Hr2]; cbn [khides any_core all_core] in Hr1, Hr2;
            apply orb_false_iff in Hr1; apply andb_prop in Hr2; tauto. }
      assert (Hfirst : names scp (fun z => khides z (KApp op args) = false /\
                         match args with x :: l => kin_place z x && negb (any_core (reads z) l) | [] => true end = true) ->
                match r0 with x :: l => in_place n M x && negb (any_of (touches n M) l) | [] => true end = true).
      { clear Hr Hall. intros Hr. destruct args as [|x l]; cbn [alloc_list] in E.
        - injection E as <- <-. reflexivity.
        - fold (alloc_list ii scp) in E. pair_destruct. injection E as <- <-.
          destruct (alloc_grows _ _ _ _ _ _ E0 Hs) as (G1 & S1 & _).
          inversion H as [|? ? Hx _]; subst.
          rewrite (Hx _ _ _ _ _ _ E0), (touches_list _ _ _ _ _ _ M E1); eauto using lt_grows;
            intros z Hz; destruct (Hr z Hz) as [Hr1 Hr2]; cbn [khides any_core] in Hr1;
            apply orb_false_iff in Hr1; apply andb_prop in Hr2; rewrite negb_true_iff in Hr2; tauto. }
      destruct op; try (destruct r0; reflexivity); try (apply Hall; exact Hr);
        (destruct r0 as [|x0 r0]; [reflexivity|]; apply Hfirst; intros z Hz; destruct (Hr z Hz) as [Hr1 Hr2];
         split; [exact Hr1|]; destruct args; [reflexivity|exact Hr2]).
    - apply alloc_comp in H0; [|exact Hs].
      destruct H0 as (k & it2 & r1 & s1 & r2 & s2 & r3 & s3 & r4 & s4 & r5 & s5 & L0 & S0 & L1 & L2 & L3 &
        E1 & G1 & S1 & E2 & G2 & S2 & E3 & G3 & S3 & E4 & G4 & S4 & E5 & G5 & S5 & -> & _ & ->).
      assert (N0 : (n < al_next (ReserveSlots k s))%nat) by lia.
      assert (N1 := lt_grows _ _ N0 G1). assert (N2 := lt_grows _ _ N1 G2).
      assert (N3 := lt_grows _ _ N2 G3). assert (N4 := lt_grows _ _ N3 G4).
      cbn [in_place]. eapply IHe5; eauto using quiet_slot.
      apply names_cons; [intros [= E]; lia|]. intros z Hz Ey. destruct (Hr z Hz) as [Hr1 Hr2].
      apply khides_comp in Hr1. cbn [kin_place] in Hr2. rewrite Ey in Hr2. tauto.
    - apply alloc_bind in H0; [|exact Hs].
      destruct H0 as (r1 & s1 & r2 & s2 & L0 & S0 & E1 & G1 & S1 & E2 & S1' & G2 & S2 & -> & ->).
      assert (N0 : (n < al_next (ReserveSlots 1 s))%nat) by lia. assert (N1 := lt_grows _ _ N0 G1).
      cbn [in_place].
      rewrite (touches_alloc e1 _ _ _ _ _ M E1); auto.
      2: { intros z Hz. destruct (Hr z Hz) as [Hr1 Hr2]. cbn [khides] in Hr1. rewrite !orb_false_iff in Hr1. tauto. }
      eapply IHe2; [exact E2|exact S1'|exact N1|apply quiet_lazy; [exact Hq|lia]|].
      apply names_cons; [discriminate|]. intros z Hz E. destruct (Hr z Hz) as [Hr1 Hr2].
      cbn [khides kin_place] in Hr1, Hr2. rewrite E in Hr1, Hr2. rewrite !orb_false_iff in Hr1. tauto.
  Qed.
End Slot.

(* slots above those an initialiser reserved are not its own *)
Definition low (b : nat) (M : nat -> bool) (scp : scope) : Prop :=
  forall z, match lookup_slot scp z with
            | Some (LSlot q) => (q < b)%nat
            | Some (LLazy q i) => (q < b)%nat /\ M i = false
            | None => True
            end.
Lemma low_le b b' M scp : (b <= b')%nat -> low b M scp -> low b' M scp.
Proof.
  intros Hb H z. specialize (H z). destruct (lookup_slot scp z) as [[q|q i]|]; auto; [lia|].
  destruct H. split; [lia|assumption].
Qed.
Lemma low_loop b M x x2 y m scp : (S (if negb (String.eqb x2 "") then S m else m) < b)%nat ->
  low b M scp -> low b M (loop_scope x x2 y m scp).
Proof.
  intros Hm H z. specialize (H z). unfold loop_scope.
  destruct (String.eqb x2 ""); cbn [negb app lookup_slot] in *.
  - destruct (String.eqb x z); [lia|]. destruct (String.eqb y z); [lia|exact H].
  - destruct (String.eqb x z); [lia|]. destruct (String.eqb x2 z); [lia|]. destruct (String.eqb y z); [lia|exact H].
Qed.
Lemma low_slot b M y m scp : (m < b)%nat -> low b M scp -> low b M ((y, LSlot m) :: scp).
Proof. intros Hm H z. specialize (H z). cbn [lookup_slot]. destruct (String.eqb y z); auto. Qed.
Lemma low_lazy b M y m i c scp : (m < b)%nat -> c = false -> low b M scp ->
  low b (also i c M) ((y, LLazy m i) :: scp).
Proof.
  intros Hm -> H z. specialize (H z). unfold also. cbn [lookup_slot]. destruct (String.eqb y z).
  - now rewrite Nat.eqb_refl.
  - destruct (lookup_slot scp z) as [[q|q j]|]; auto. destruct (Nat.eqb j i); tauto.
Qed.
Lemma le_grows a s s' : (a <= al_next s)%nat -> grows s s' -> (a <= al_next s')%nat.
Proof. intros H (G & _). lia. Qed.
Lemma ge_grows n s s' : grows s s' -> (al_next s' <= n)%nat -> (al_next s <= n)%nat.
Proof. intros (G & _). lia. Qed.
Lemma low_grows s s' M scp : grows s s' -> low (al_next s) M scp -> low (al_next s') M scp.
Proof. intros (G & _). now apply low_le. Qed.

Lemma touches_above n e : forall scp s r s' M, alloc true scp e s = (r, s') -> sane s ->
  (al_next s' <= n)%nat -> low (al_next s) M scp -> touches n M r = false.
Proof.
  induction e using core_ind'; intros scp s r s' M H0 Hs Hn Hl.
  - injection H0 as <- <-. reflexivity.
  - cbn [alloc] in H0. specialize (Hl n0).
    destruct (lookup_slot scp n0) as [[k|k i]|]; injection H0 as <- <-; cbn [touches]; auto.
    + apply Nat.eqb_neq. lia.
    + destruct Hl as [H1 ->]. rewrite (proj2 (Nat.eqb_neq k n)) by lia. reflexivity.
  - injection H0 as <- <-. reflexivity.
  - cbn [alloc] in H0. pair_destruct. injection H0 as <- <-.
    destruct (alloc_grows _ _ _ _ _ _ E Hs) as (G1 & S1 & _).
    destruct (alloc_grows _ _ _ _ _ _ E0 S1) as (G2 & S2 & _). cbn [touches].
    rewrite (IHe1 _ _ _ _ _ E), (IHe2 _ _ _ _ _ E0); eauto using low_grows, ge_grows.
  - cbn [alloc] in H0. pair_destruct. injection H0 as <- <-.
    destruct (alloc_grows _ _ _ _ _ _ E Hs) as (G1 & S1 & _).
    destruct (alloc_grows _ _ _ _ _ _ E0 S1) as (G2 & S2 & _).
    destruct (alloc_grows _ _ _ _ _ _ E1 S2) as (G3 & S3 & _). cbn [touches].
    rewrite (IHe1 _ _ _ _ _ E), (IHe2 _ _ _ _ _ E0), (IHe3 _ _ _ _ _ E1); eauto using low_grows, ge_grows.
  - cbn [alloc] in H0. pair_destruct. injection H0 as <- <-.
    destruct (alloc_grows _ _ _ _ _ _ E Hs) as (G1 & S1 & _).
    destruct (alloc_grows _ _ _ _ _ _ E0 S1) as (G2 & S2 & _). cbn [touches].
    rewrite (IHe1 _ _ _ _ _ E), (IHe2 _ _ _ _ _ E0); eauto using low_grows, ge_grows.
  - rewrite alloc_app in H0. pair_destruct. injection H0 as <- <-. cbn [touches].
    assert (G : forall l, Forall (fun _ => True) l -> forall s r0 s0, alloc_list true scp l s = (r0, s0) -> sane s -> grows s s0).
    { induction 1 as [|x l _ _ IHl]; intros s1 r1 s2 E1 Hs1; cbn [alloc_list] in E1.
      - injection E1 as <- <-. apply grows_refl.
      - fold (alloc_list true scp) in E1. pair_destruct. injection E1 as <- <-.
        destruct (alloc_grows _ _ _ _ _ _ E0 Hs1) as (G1 & S1 & _). eapply grows_trans; eauto. }
    revert s r0 s0 E Hs Hn Hl. induction H as [|x l Hx Hf IH]; intros s r0 s0 E Hs Hn Hl; cbn [alloc_list] in E.
    + injection E as <- <-. reflexivity.
    + fold (alloc_list true scp) in E. pair_destruct. injection E as <- <-.
      destruct (alloc_grows _ _ _ _ _ _ E0 Hs) as (G1 & S1 & _).
      assert (G2 : grows s1 s2).
      { eapply (G l); eauto. apply Forall_forall. auto. }
      cbn [any_of]. rewrite (Hx _ _ _ _ _ E0), (IH _ _ _ E1); eauto using low_grows, ge_grows.
  - apply alloc_comp in H0; [|exact Hs].
    destruct H0 as (k & it2 & r1 & s1 & r2 & s2 & r3 & s3 & r4 & s4 & r5 & s5 & L0 & S0 & L1 & L2 & L3 &
      E1 & G1 & S1 & E2 & G2 & S2 & E3 & G3 & S3 & E4 & G4 & S4 & E5 & G5 & S5 & -> & Ei & ->).
    assert (N4 := ge_grows _ _ _ G5 Hn). assert (N3 := ge_grows _ _ _ G4 N4).
    assert (N2 := ge_grows _ _ _ G3 N3). assert (N1 := ge_grows _ _ _ G2 N2).
    assert (N0 := ge_grows _ _ _ G1 N1).
    assert (W0 : low (al_next (ReserveSlots k s)) M scp) by (eapply low_le; [|exact Hl]; lia).
    assert (W1 := low_grows _ _ _ _ G1 W0). assert (W2 := low_grows _ _ _ _ G2 W1).
    assert (A2 : (al_next (ReserveSlots k s) <= al_next s2)%nat) by (destruct G1, G2; lia).
    assert (W2' : low (al_next s2) M (loop_scope x x2 y (al_next s) scp)).
    { apply low_loop; [|exact W2]. rewrite <- Ei. lia. }
    assert (W3 := low_grows _ _ _ _ G3 W2). assert (W3' := low_grows _ _ _ _ G3 W2').
    assert (W4 := low_grows _ _ _ _ G4 W3).
    assert (A4 : (al_next s2 <= al_next s4)%nat) by (destruct G3, G4; lia).
    cbn [touches]. rewrite (proj2 (Nat.eqb_neq (al_next s) n)) by lia.
    rewrite (proj2 (Nat.eqb_neq it2 n)) by lia. rewrite (proj2 (Nat.eqb_neq (S it2) n)) by lia.
    rewrite (IHe1 _ _ _ _ _ E1), (IHe2 _ _ _ _ _ E2), (IHe3 _ _ _ _ _ E3), (IHe4 _ _ _ _ _ E4),
      (IHe5 _ _ _ _ _ E5); auto.
    apply low_slot; [lia|exact W4].
  - apply alloc_bind in H0; [|exact Hs].
    destruct H0 as (r1 & s1 & r2 & s2 & L0 & S0 & E1 & G1 & S1 & E2 & S1' & G2 & S2 & -> & ->).
    assert (N1 : (al_next s1 <= n)%nat) by (apply (ge_grows _ _ _ G2) in Hn; exact Hn).
    assert (N0 := ge_grows _ _ _ G1 N1).
    assert (W0 : low (al_next (ReserveSlots 1 s)) M scp) by (eapply low_le; [|exact Hl]; lia).
    assert (W1 := low_grows _ _ _ _ G1 W0).
    cbn [touches]. rewrite (proj2 (Nat.eqb_neq (al_next s) n)) by lia.
    rewrite (IHe1 _ _ _ _ M E1); auto. cbn [orb].
    eapply IHe2; [exact E2|exact S1'|exact Hn|]. apply low_lazy; [|reflexivity|exact W1].
    change (al_next (extract r1 s1)) with (al_next s1). destruct G1. lia.
Qed.

(* ---- planned programs ---- *)

Lemma alias_free_alloc e : forall ii scp s r s' M, alloc ii scp e s = (r, s') -> sane s ->
  (forall n, (al_next s <= n)%nat -> low (al_next s) (fun j => M j n) scp) ->
  kalias_free e = true -> alias_free M r = true.
Proof.
  assert (Hg : forall s s' (M : nat -> nat -> bool) scp, grows s s' ->
            (forall n, (al_next s <= n)%nat -> low (al_next s) (fun j => M j n) scp) ->
            forall n, (al_next s' <= n)%nat -> low (al_next s') (fun j => M j n) scp).
  { intros s s' M scp G H n Hn. eapply low_grows; [exact G|]. apply H. eapply ge_grows; eauto. }
  induction e using core_ind'; intros ii scp s r s' M H0 Hs Hl Hk.
  - injection H0 as <- <-. reflexivity.
  - cbn [alloc] in H0. destruct (lookup_slot scp n) as [[k|k i]|]; injection H0 as <- <-; reflexivity.
  - injection H0 as <- <-. reflexivity.
  - cbn [alloc] in H0. pair_destruct. injection H0 as <- <-.
    destruct (alloc_grows _ _ _ _ _ _ E Hs) as (G1 & S1 & _).
    cbn [alias_free kalias_free] in *. apply andb_prop in Hk. destruct Hk as [K1 K2].
    rewrite (IHe1 _ _ _ _ _ _ E), (IHe2 _ _ _ _ _ _ E0); eauto.
  - cbn [alloc] in H0. pair_destruct. injection H0 as <- <-.
    destruct (alloc_grows _ _ _ _ _ _ E Hs) as (G1 & S1 & _).
    destruct (alloc_grows _ _ _ _ _ _ E0 S1) as (G2 & S2 & _).
    cbn [alias_free kalias_free] in *. apply andb_prop in Hk. destruct Hk as [K1 K3].
    apply andb_prop in K1. destruct K1 as [K1 K2].
    rewrite (IHe1 _ _ _ _ _ _ E), (IHe2 _ _ _ _ _ _ E0), (IHe3 _ _ _ _ _ _ E1); eauto using grows_trans.
  - cbn [alloc] in H0. pair_destruct. injection H0 as <- <-.
    destruct (alloc_grows _ _ _ _ _ _ E Hs) as (G1 & S1 & _).
    cbn [alias_free kalias_free] in *. apply andb_prop in Hk. destruct Hk as [K1 K2].
    rewrite (IHe1 _ _ _ _ _ _ E), (IHe2 _ _ _ _ _ _ E0); eauto.
  - rewrite alloc_app in H0. pair_destruct. injection H0 as <- <-. cbn [alias_free kalias_free] in *.
    revert s r0 s0 E Hs Hl Hk.
    induction H as [|x l Hx Hf IH]; intros s r0 s0 E Hs Hl Hk; cbn [alloc_list] in E.
    + injection E as <- <-. reflexivity.
    + fold (alloc_list ii scp) in E. pair_destruct. injection E as <- <-.
      destruct (alloc_grows _ _ _ _ _ _ E0 Hs) as (G1 & S1 & _).
      cbn [all_core] in Hk. apply andb_prop in Hk. destruct Hk as [K1 K2].
      cbn [all_of]. rewrite (Hx _ _ _ _ _ _ E0), (IH _ _ _ E1); eauto.
  - apply alloc_comp in H0; [|exact Hs].
    destruct H0 as (k & it2 & r1 & s1 & r2 & s2 & r3 & s3 & r4 & s4 & r5 & s5 & L0 & S0 & L1 & L2 & L3 &
      E1 & G1 & S1 & E2 & G2 & S2 & E3 & G3 & S3 & E4 & G4 & S4 & E5 & G5 & S5 & -> & Ei & ->).
    cbn [kalias_free] in Hk. rewrite !andb_true_iff, !negb_true_iff in Hk.
    destruct Hk as (((((((K1 & K2) & K3) & K4) & K5) & K6) & K7) & K8).
    assert (W0 : forall n, (al_next (ReserveSlots k s) <= n)%nat ->
                   low (al_next (ReserveSlots k s)) (fun j => M j n) scp).
    { intros n Hn. eapply low_le; [|apply Hl]; lia. }
    assert (W1 := Hg _ _ _ _ G1 W0). assert (W2 := Hg _ _ _ _ G2 W1).
    assert (A2 : (al_next (ReserveSlots k s) <= al_next s2)%nat) by (destruct G1, G2; lia).
    assert (W2' : forall n, (al_next s2 <= n)%nat ->
                   low (al_next s2) (fun j => M j n) (loop_scope x x2 y (al_next s) scp)).
    { intros n Hn. apply low_loop; [|now apply W2]. rewrite <- Ei. lia. }
    assert (W3 := Hg _ _ _ _ G3 W2). assert (W3' := Hg _ _ _ _ G3 W2').
    assert (W4 := Hg _ _ _ _ G4 W3).
    assert (A3 : (al_next s2 <= al_next s3)%nat) by (destruct G3; lia).
    assert (A4 : (al_next s2 <= al_next s4)%nat) by (destruct G3, G4; lia).
    (* the accumulator's slot *)
    assert (Hq : quiet (S it2) (fun j => M j (S it2)) (loop_scope x x2 y (al_next s) scp)).
    { apply quiet_loop. intros z q i Hz. pose proof (Hl (S it2) ltac:(lia) z) as Hlz. rewrite Hz in Hlz.
      destruct Hlz. split; [lia|assumption]. }
    assert (Hy : names (S it2) (loop_scope x x2 y (al_next s) scp) (fun z => z = y)).
    { intros z Hz. unfold loop_scope in Hz. rewrite <- Ei in Hz.
      pose proof (Hl (S it2) ltac:(lia) z) as Hlz.
      destruct (String.eqb x2 ""); cbn [negb app lookup_slot] in Hz, Ei.
      - destruct (String.eqb x z); [injection Hz as Hz; lia|].
        destruct (String.eqb_spec y z) as [->|]; [reflexivity|]. rewrite Hz in Hlz. lia.
      - destruct (String.eqb x z); [injection Hz as Hz; lia|].
        destruct (String.eqb x2 z); [injection Hz as Hz; lia|].
        destruct (String.eqb_spec y z) as [->|]; [reflexivity|]. rewrite Hz in Hlz. lia. }
    cbn [alias_free].
    rewrite (overwrites_alloc (S it2) e3 _ _ _ _ _ _ E3); [|exact S2|lia|exact Hq|].
    2: { intros z Hz. apply Hy in Hz. now subst z. }
    rewrite (overwrites_alloc (S it2) e4 _ _ _ _ _ _ E4); [|exact S3|lia|exact Hq|].
    2: { intros z Hz. apply Hy in Hz. now subst z. }
    rewrite (in_place_alloc (S it2) e4 _ _ _ _ _ _ E4); [|exact S3|lia|exact Hq|].
    2: { intros z Hz. apply Hy in Hz. now subst z. }
    rewrite (IHe1 _ _ _ _ _ _ E1), (IHe2 _ _ _ _ _ _ E2), (IHe3 _ _ _ _ _ _ E3), (IHe4 _ _ _ _ _ _ E4),
      (IHe5 _ _ _ _ _ _ E5); auto.
    intros n Hn. apply low_slot; [lia|]. now apply W4.
  - apply alloc_bind in H0; [|exact Hs].
    destruct H0 as (r1 & s1 & r2 & s2 & L0 & S0 & E1 & G1 & S1 & E2 & S1' & G2 & S2 & -> & ->).
    cbn [kalias_free] in Hk. apply andb_prop in Hk. destruct Hk as [K1 K2].
    assert (W0 : forall n, (al_next (ReserveSlots 1 s) <= n)%nat ->
                   low (al_next (ReserveSlots 1 s)) (fun j => M j n) scp).
    { intros n Hn. eapply low_le; [|apply Hl]; lia. }
    assert (W1 := Hg _ _ _ _ G1 W0).
    cbn [alias_free]. rewrite (IHe1 _ _ _ _ _ M E1); auto. cbn [andb].
    eapply IHe2; [exact E2|exact S1'| |exact K2].
    change (al_next (extract r1 s1)) with (al_next s1). intros n Hn.
    apply (low_lazy _ (fun j => M j n) _ _ (List.length (al_subs s1)) (touches n (fun j => M j n) r1)).
    + destruct G1. lia.
    + apply (touches_above n e1 _ _ _ _ _ E1); auto. apply W0. destruct G1. lia.
    + now apply W1.
Qed.
Lemma alias_free_resolved k : kalias_free k = true -> alias_free no_inits (resolved k) = true.
Proof.
  intros Hk. unfold resolved. destruct (alloc false [] k (mkAlloc 0 0 [])) as [r s'] eqn:E. cbn [fst].
  eapply alias_free_alloc; [exact E| | |exact Hk].
  - unfold sane; cbn; lia.
  - intros n _ z. exact I.
Qed.
