(* Evaluation of a planned expression never faults, and modifies only the slots
   reserved for it and those of the binds in scope. *)
From Coq Require Import ZArith List Bool String Lia.
From Verif Require Import Base M_Overflow M_Number M_Attr M_Value M_Logic M_Expr M_Plan M_Machine
  L_Seval L_Alloc.
Import ListNotations.
Open Scope list_scope.
Open Scope Z_scope.

Definition set_on (D : nat -> Prop) (s : est) : Prop := forall k, D k -> e_slots s k <> None.
Definition frame_on (M : nat -> Prop) (s s' : est) : Prop :=
  forall k, ~ M k -> e_slots s' k = e_slots s k.

Definition ok_after {A} (M : nat -> Prop) (s : est) (r : res A) : Prop :=
  match r with
  | RVal _ s' => frame_on M s s'
  | RErr _ _ => True
  | RFault _ => False
  | RUB => True
  end.
Definition safe {A} (D M : nat -> Prop) (f : est -> res A) : Prop :=
  forall s, set_on D s -> ok_after M s (f s).

Lemma frame_refl M s : frame_on M s s.
Proof. now intros k _. Qed.
Lemma frame_trans M a b c : frame_on M a b -> frame_on M b c -> frame_on M a c.
Proof. intros H1 H2 k Hk. rewrite (H2 k Hk). auto. Qed.
Lemma frame_mono (M M' : nat -> Prop) a b :
  (forall k, M k -> M' k) -> frame_on M a b -> frame_on M' a b.
Proof. intros Hm H k Hk. apply H. auto. Qed.
Lemma frame_set (M : nat -> Prop) n x s : M n -> frame_on M s (set_slot n x s).
Proof.
  intros Hn k Hk. cbn [set_slot e_slots]. unfold slot_set.
  destruct (Nat.eqb_spec k n); [subst; tauto|reflexivity].
Qed.
Lemma frame_clear (M : nat -> Prop) n s : M n -> frame_on M s (clear_slot n s).
Proof.
  intros Hn k Hk. cbn [clear_slot e_slots]. unfold slot_set.
  destruct (Nat.eqb_spec k n); [subst; tauto|reflexivity].
Qed.
Lemma frame_set_iter (M : nat -> Prop) C it it2 b t kv s :
  M it -> M it2 -> frame_on M s (set_iter C it it2 b t kv s).
Proof.
  intros H1 H2. unfold set_iter. destruct (Nat.eqb it it2); [now apply frame_set|].
  destruct (iter_two C t kv). eapply frame_trans; apply frame_set; auto.
Qed.
Lemma frame_clear_iter (M : nat -> Prop) it it2 s :
  M it -> M it2 -> frame_on M s (clear_iter it it2 s).
Proof.
  intros H1 H2. unfold clear_iter. destruct (Nat.eqb it it2); [now apply frame_clear|].
  eapply frame_trans; apply frame_clear; auto.
Qed.
Lemma set_on_frame (D M : nat -> Prop) s s' :
  (forall k, D k -> ~ M k) -> frame_on M s s' -> set_on D s -> set_on D s'.
Proof. intros Hd Hf Hs k Hk. rewrite (Hf k (Hd k Hk)). auto. Qed.
Lemma safe_mono {A} (D M D' M' : nat -> Prop) (f : est -> res A) :
  (forall k, D k -> D' k) -> (forall k, M k -> M' k) -> safe D M f -> safe D' M' f.
Proof.
  intros Hd Hm H s Hs. specialize (H s (fun k Hk => Hs k (Hd k Hk))).
  destruct (f s); cbn [ok_after] in *; auto. eapply frame_mono; eauto.
Qed.
Lemma ok_bind {A B} (M : nat -> Prop) s (r : res A) (g : A -> est -> res B) :
  ok_after M s r ->
  (forall a s', frame_on M s s' -> r = RVal a s' -> ok_after M s' (g a s')) ->
  ok_after M s (rbind r g).
Proof.
  intros Hr Hg. destruct r; cbn [ok_after rbind] in *; auto.
  specialize (Hg a s0 Hr eq_refl). destruct (g a s0); cbn [ok_after] in *; auto.
  eapply frame_trans; eauto.
Qed.
Lemma safe_bind {A B} (D M : nat -> Prop) (f : est -> res A) (g : A -> est -> res B) :
  (forall k, D k -> ~ M k) -> safe D M f -> (forall a, safe D M (g a)) ->
  safe D M (fun s => rbind (f s) g).
Proof.
  intros Hd Hf Hg s Hs. apply ok_bind; [auto|]. intros a s' Hfr _. apply Hg.
  eapply set_on_frame; eauto.
Qed.
Lemma safe_val {A} (D M : nat -> Prop) (a : A) : safe D M (fun s => RVal a s).
Proof. intros s _. apply frame_refl. Qed.
Lemma safe_lift {A} (D M : nat -> Prop) (o : out A) : safe D M (fun s => rlift o s).
Proof. intros s _. destruct o; cbn [rlift ok_after]; auto using frame_refl. Qed.
Lemma safe_op (D M : nat -> Prop) C op args : safe D M (fun s => do_op C op args s).
Proof.
  intros s _. unfold do_op. destruct (apply_op C op args); cbn [rlift ok_after]; auto.
  intros k _. reflexivity.
Qed.
Lemma frame_incr (M : nat -> Prop) C s :
  ok_after M s (IncrementIterations C s).
Proof.
  unfold IncrementIterations. destruct (_ =? 0); [intros k _; reflexivity|].
  destruct (_ <=? _); cbn [ok_after]; auto. intros k _; reflexivity.
Qed.

Section SafeLoop.
  Variables (C : config) (it it2 ac : nat) (b : bool) (t : trail) (fc fs : comp).
  Variables (D M1 M : nat -> Prop).
  Hypothesis Hdisj : forall k, D k -> ~ M k.
  Hypothesis Hit : M it. Hypothesis Hit2 : M it2. Hypothesis Hac : M ac.
  Hypothesis Hne : it <> ac. Hypothesis Hne2 : it2 <> ac.
  Hypothesis H1 : forall k, M1 k -> M k.
  Hypothesis Hn1 : ~ M1 it. Hypothesis Hn2 : ~ M1 it2. Hypothesis Hn3 : ~ M1 ac.
  Definition D' (k : nat) : Prop := D k \/ k = it \/ k = it2 \/ k = ac.
  Hypothesis Hfc : safe D' M1 fc.
  Hypothesis Hfs : safe D' M1 fs.

  Lemma D'_disj k : D' k -> ~ M1 k.
  Proof. intros [H|[->|[->| ->]]]; auto. intros Hk. exact (Hdisj k H (H1 k Hk)). Qed.

  Lemma set_iter_set kv s :
    e_slots (set_iter C it it2 b t kv s) it <> None /\ e_slots (set_iter C it it2 b t kv s) it2 <> None
    /\ e_slots (set_iter C it it2 b t kv s) ac = e_slots s ac.
  Proof.
    unfold set_iter. destruct (Nat.eqb_spec it it2) as [<-|E].
    - cbn [set_slot e_slots]. unfold slot_set. rewrite Nat.eqb_refl.
      destruct (Nat.eqb_spec ac it); [congruence|]. repeat split; congruence.
    - destruct (iter_two C t kv). cbn [set_slot e_slots]. unfold slot_set.
      rewrite !Nat.eqb_refl. destruct (Nat.eqb_spec it it2); [congruence|].
      destruct (Nat.eqb_spec ac it2); [congruence|].
      destruct (Nat.eqb_spec ac it); [congruence|]. repeat split; congruence.
  Qed.
  Lemma clear_iter_ac s : e_slots (clear_iter it it2 s) ac = e_slots s ac.
  Proof.
    unfold clear_iter. destruct (Nat.eqb it it2); cbn [clear_slot e_slots]; unfold slot_set;
      destruct (Nat.eqb_spec ac it); try congruence; destruct (Nat.eqb_spec ac it2); congruence.
  Qed.

  Lemma safe_loop items : forall accu s, set_on D s ->
    match sloop C it it2 ac b t fc fs items accu s with
    | RVal o s' => frame_on M s s' /\ (o = None -> e_slots s' ac <> None)
    | RFault _ => False
    | _ => True
    end.
  Proof.
    induction items as [|kv items IH]; intros accu s Hs; cbn [sloop].
    - split.
      + eapply frame_trans; [apply frame_set|apply frame_clear_iter]; auto.
      + intros _. rewrite clear_iter_ac. cbn [set_slot e_slots]. unfold slot_set.
        rewrite Nat.eqb_refl. discriminate.
    - pose proof (frame_incr M C (set_slot ac accu s)) as Hi.
      pose proof (frame_incr (fun _ => False) C (set_slot ac accu s)) as Hi0.
      destruct (IncrementIterations C (set_slot ac accu s)) as [u s2|e s2|w|];
        cbn [rbind ok_after] in *; auto.
      assert (F2 : frame_on M s s2).
      { eapply frame_trans; [|exact Hi]. apply frame_set; auto. }
      set (s3 := set_iter C it it2 b t kv (count_loop s2)) in *.
      assert (F3 : frame_on M s s3).
      { eapply frame_trans; [exact F2|]. eapply frame_trans; [|apply frame_set_iter; auto].
        intros q _. reflexivity. }
      assert (D3 : set_on D' s3).
      { destruct (set_iter_set kv (count_loop s2)) as (Hx & Hy & Hz). fold s3 in Hx, Hy, Hz.
        intros k [Hk|[->|[->| ->]]]; auto.
        - eapply (set_on_frame D M); eauto.
        - rewrite Hz. cbn [count_loop e_slots]. rewrite (Hi0 ac (fun h => h)). cbn [set_slot e_slots]. unfold slot_set.
          rewrite Nat.eqb_refl. discriminate. }
      pose proof (Hfc s3 D3) as Hc. destruct (fc s3) as [c s4|e s4|w|]; cbn [rbind ok_after] in *; auto.
      assert (F4 : frame_on M s s4).
      { eapply frame_trans; [exact F3|]. eapply frame_mono; eauto. }
      assert (D4 : set_on D' s4) by (eapply set_on_frame; eauto using D'_disj).
      destruct (loop_condition c) as [r|b0].
      + split; [|discriminate].
        eapply frame_trans; [exact F4|].
        eapply frame_trans; [apply frame_clear_iter|apply frame_clear]; auto.
      + destruct (negb b0 && sc C).
        * split; auto. intros _. apply D4. unfold D'; auto.
        * pose proof (Hfs s4 D4) as Hst. destruct (fs s4) as [a s5|e s5|w|];
            cbn [rbind ok_after] in *; auto.
          assert (F5 : frame_on M s s5).
          { eapply frame_trans; [exact F4|]. eapply frame_mono; eauto. }
          assert (D5 : set_on D s5) by (eapply set_on_frame; eauto).
          specialize (IH a s5 D5).
          destruct (sloop C it it2 ac b t fc fs items a s5) as [o s6|e s6|w|]; auto.
          destruct IH as [IH1 IH2]. split; auto. eapply frame_trans; eauto.
  Qed.
End SafeLoop.

(* the slots an allocation from a to b owns *)
Definition owns (ii : bool) (a b : alloc_state) (k : nat) : Prop :=
  (al_next a <= k)%nat /\ (ii = true -> (k < al_next b)%nat).
Lemma owns_sub ii a b c d k :
  grows a b -> grows c d -> owns ii b c k -> owns ii a d k.
Proof.
  intros (H1 & _) (H2 & _) (H3 & H4). split; [lia|]. intros E. specialize (H4 E). lia.
Qed.

Definition scope_in (W D : nat -> Prop) (L : list nat) (scp : scope) : Prop :=
  Forall (fun p => match snd p with
                   | LSlot k => D k
                   | LLazy k i => W k /\ In i L
                   end) scp.
Lemma scope_in_lookup W D L scp x ref :
  scope_in W D L scp -> lookup_slot scp x = Some ref ->
  match ref with LSlot k => D k | LLazy k i => W k /\ In i L end.
Proof.
  induction 1 as [|[y rf] scp H Hf IH]; cbn [lookup_slot]; [discriminate|].
  destruct (String.eqb y x); [|auto]. intros [= <-]. exact H.
Qed.

Definition MW (W : nat -> Prop) ii a b (k : nat) : Prop := W k \/ owns ii a b k.
Lemma MW_disj (W D : nat -> Prop) ii a b :
  (forall k, D k -> (k < al_next a)%nat /\ ~ W k) -> forall k, D k -> ~ MW W ii a b k.
Proof. intros H k Hk [Hw|[Ho _]]; destruct (H k Hk); [tauto|lia]. Qed.
Lemma MW_sub W ii a b c d k : grows a b -> grows c d -> MW W ii b c k -> MW W ii a d k.
Proof. intros G1 G2 [H|H]; [left; auto|right; eapply owns_sub; eauto]. Qed.
Lemma grows_next a b : grows a b -> (al_next a <= al_next b)%nat.
Proof. now intros (H & _). Qed.

Ltac sub_safe M0 := eapply (safe_mono _ M0); [intros ? HH; exact HH| |].

Lemma alloc_safe C e : forall ii scp s r s' (W D : nat -> Prop) L lz,
  alloc ii scp e s = (r, s') -> sane s -> scope_in W D L scp ->
  (forall k, W k -> (k < al_next s)%nat) ->
  (forall k, D k -> (k < al_next s)%nat /\ ~ W k) ->
  (forall i, In i L -> safe D W (lz i)) ->
  safe D (MW W ii s s') (seval C r lz).
Proof.
  induction e using core_ind'; intros ii scp s r s' W D L lz H0 Hs Hsc HW HD Hlz.
  - injection H0 as <- <-. intros s0 _. apply frame_refl.
  - cbn [alloc] in H0.
    destruct (lookup_slot scp n) as [[k|k i]|] eqn:El; injection H0 as <- <-; cbn [seval].
    + pose proof (scope_in_lookup _ _ _ _ _ _ Hsc El) as Hk. cbv beta iota in Hk.
      intros s0 Hs0. unfold read_slot. specialize (Hs0 k Hk).
      destruct (e_slots s0 k); [apply frame_refl|congruence].
    + pose proof (scope_in_lookup _ _ _ _ _ _ Hsc El) as [Hk Hi].
      intros s0 Hs0. cbn [seval]. destruct (e_slots s0 k) as [x|]; [apply frame_refl|].
      apply ok_bind.
      * pose proof (Hlz i Hi (count_init i s0) Hs0) as Hl.
        destruct (lz i (count_init i s0)); cbn [ok_after] in *; auto.
        intros k' Hk'. apply Hl. intros Hw. apply Hk'. now left.
      * intros x s1 _ _. apply frame_set. now left.
    + apply safe_lift.
  - injection H0 as <- <-. apply safe_lift.
  - cbn [alloc] in H0. pair_destruct. injection H0 as <- <-.
    edestruct (alloc_grows e1) as (G1 & S1 & N1); eauto.
    edestruct (alloc_grows e2) as (G2 & S2 & N2); eauto.
    pose proof (grows_next _ _ G1) as X1. pose proof (grows_next _ _ G2) as X2.
    cbn [seval]. apply safe_bind; [now apply MW_disj| |].
    + sub_safe (MW W ii s s0); [|eapply IHe1; eauto].
      intros k. apply MW_sub; auto using grows_refl.
    + intros x. destruct (sc C && decides op (fst x)); [apply safe_val|].
      apply safe_bind; [now apply MW_disj| |intros y; apply safe_val].
      sub_safe (MW W ii s0 s1); [|eapply IHe2; eauto].
      * intros k. apply MW_sub; auto using grows_refl.
      * intros k Hk. specialize (HW k Hk). lia.
      * intros k Hk. destruct (HD k Hk). split; [lia|auto].
  - cbn [alloc] in H0. pair_destruct. injection H0 as <- <-.
    edestruct (alloc_grows e1) as (G1 & S1 & N1); eauto.
    edestruct (alloc_grows e2) as (G2 & S2 & N2); eauto.
    edestruct (alloc_grows e3) as (G3 & S3 & N3); eauto.
    pose proof (grows_next _ _ G1) as X1. pose proof (grows_next _ _ G2) as X2.
    pose proof (grows_next _ _ G3) as X3.
    assert (SA : safe D (MW W ii s s2) (seval C r1 lz)).
    { sub_safe (MW W ii s0 s1); [|eapply IHe2; eauto].
      * intros k. apply MW_sub; auto.
      * intros k Hk. specialize (HW k Hk). lia.
      * intros k Hk. destruct (HD k Hk). split; [lia|auto]. }
    assert (SB : safe D (MW W ii s s2) (seval C r2 lz)).
    { sub_safe (MW W ii s1 s2); [|eapply IHe3; eauto].
      * intros k. apply MW_sub; [exact (grows_trans _ _ _ G1 G2)|apply grows_refl].
      * intros k Hk. specialize (HW k Hk). lia.
      * intros k Hk. destruct (HD k Hk). split; [lia|auto]. }
    cbn [seval]. apply safe_bind; [now apply MW_disj| |].
    + sub_safe (MW W ii s s0); [|eapply IHe1; eauto].
      intros k. apply MW_sub; [apply grows_refl|exact (grows_trans _ _ _ G2 G3)].
    + intros x. destruct (sc C).
      * destruct (BoolCheck x); [apply safe_val|]. destruct (is_true (fst x)); auto.
      * apply safe_bind; [now apply MW_disj|exact SA|]. intros y.
        apply safe_bind; [now apply MW_disj|exact SB|]. intros z. apply safe_val.
  - cbn [alloc] in H0. pair_destruct. injection H0 as <- <-.
    edestruct (alloc_grows e1) as (G1 & S1 & N1); eauto.
    edestruct (alloc_grows e2) as (G2 & S2 & N2); eauto.
    pose proof (grows_next _ _ G1) as X1. pose proof (grows_next _ _ G2) as X2.
    cbn [seval]. apply safe_bind; [now apply MW_disj| |].
    + sub_safe (MW W ii s s0); [|eapply IHe1; eauto].
      intros q. apply MW_sub; auto using grows_refl.
    + intros x. destruct (if sc C then OptionalJump k x else None); [apply safe_val|].
      apply safe_bind; [now apply MW_disj| |intros y; apply safe_val].
      sub_safe (MW W ii s0 s1); [|eapply IHe2; eauto].
      * intros q. apply MW_sub; auto using grows_refl.
      * intros q Hk. specialize (HW q Hk). lia.
      * intros q Hk. destruct (HD q Hk). split; [lia|auto].
  - rewrite alloc_app in H0. pair_destruct. injection H0 as <- <-.
    cbn [seval]. fold (seval_list (fun x => seval C x lz)).
    apply safe_bind; [now apply MW_disj| |intros vs; apply safe_op].
    revert s r0 s0 E Hs HW HD.
    induction H as [|x l Hx Hl IH]; intros s r0 s0 E Hs HW HD; cbn [alloc_list] in E.
    + injection E as <- <-. apply safe_val.
    + fold (alloc_list ii scp) in E. pair_destruct. injection E as <- <-.
      destruct (alloc_grows _ _ _ _ _ _ E0 Hs) as (G1 & S1 & N1).
      assert (G2 : grows s1 s2).
      { pose proof (alloc_grows (KApp OIndex l) ii scp s1 (RApp OIndex r1) s2) as G.
        rewrite alloc_app, E1 in G. destruct (G eq_refl S1) as (G2 & _). exact G2. }
      pose proof (grows_next _ _ G1) as X1. pose proof (grows_next _ _ G2) as X2.
      cbn [seval_list]. fold (seval_list (fun x => seval C x lz)).
      apply safe_bind; [now apply MW_disj| |].
      * sub_safe (MW W ii s s1); [|eapply Hx; eauto].
        intros q. apply MW_sub; auto using grows_refl.
      * intros v. apply safe_bind; [now apply MW_disj| |intros vs; apply safe_val].
        sub_safe (MW W ii s1 s2); [|eapply IH; eauto].
        -- intros q. apply MW_sub; auto using grows_refl.
        -- intros q Hk. specialize (HW q Hk). lia.
        -- intros q Hk. destruct (HD q Hk). split; [lia|auto].
  - cbn [alloc] in H0. cbv zeta in H0.
    set (k := if negb (String.eqb x2 "") then 3%nat else 2%nat) in *.
    set (j := if negb (String.eqb x2 "") then S (al_next s) else al_next s) in *.
    assert (Hk : (2 <= k)%nat) by (unfold k; destruct (negb (String.eqb x2 "")); lia).
    assert (Hj : (al_next s <= j)%nat /\ (S j < al_next s + k)%nat)
      by (unfold j, k; destruct (negb (String.eqb x2 "")); lia).
    clearbody k j.
    pair_destruct. injection H0 as <- <-.
    assert (Hs0 : sane (ReserveSlots k s)).
    { unfold sane, ReserveSlots; cbn [al_next al_max]. lia. }
    edestruct (alloc_grows e1) as (G1 & S1 & N1); eauto.
    edestruct (alloc_grows e2) as (G2 & S2 & N2); eauto.
    edestruct (alloc_grows e3) as (G3 & S3 & N3); eauto.
    edestruct (alloc_grows e4) as (G4 & S4 & N4); eauto.
    edestruct (alloc_grows e5) as (G5 & S5 & N5); eauto.
    set (fin := if ii then s4 else release_to (al_next s) s4) in *.
    assert (Hfin : forall q, (ii = true -> (q < al_next s4)%nat) ->
              (ii = true -> (q < al_next fin)%nat)).
    { intros q Hq E5. specialize (Hq E5). unfold fin. now rewrite E5. }
    assert (X0 : al_next (ReserveSlots k s) = (al_next s + k)%nat) by reflexivity.
    pose proof (grows_next _ _ G1) as X1. pose proof (grows_next _ _ G2) as X2.
    pose proof (grows_next _ _ G3) as X3. pose proof (grows_next _ _ G4) as X4.
    pose proof (grows_next _ _ G5) as X5. rewrite X0 in X1. clearbody fin.
    assert (Hown : forall q, (al_next s <= q)%nat -> (q < al_next s + k)%nat -> MW W ii s fin q).
    { intros q H1 H2. right. split; [lia|]. apply Hfin. intros _. lia. }
    assert (Hsub : forall a b, (al_next s <= al_next a)%nat -> (al_next b <= al_next s4)%nat ->
              forall q, MW W ii a b q -> MW W ii s fin q).
    { intros a b Ha Hb q [Hq|[Hq1 Hq2]]; [now left|]. right. split; [lia|]. apply Hfin.
      intros E5. specialize (Hq2 E5). lia. }
    assert (Hdis : forall q, D q -> ~ MW W ii s fin q) by (now apply MW_disj).
    cbn [seval]. apply safe_bind; [exact Hdis| |].
    + sub_safe (MW W ii (ReserveSlots k s) s0); [|eapply IHe1; eauto].
      * apply Hsub; lia.
      * intros q Hq. specialize (HW q Hq). lia.
      * intros q Hq. destruct (HD q Hq). split; [lia|auto].
    + intros rv. destruct (comp_init C rv) as [r'|[b items]]; [apply safe_val|].
      apply safe_bind; [exact Hdis| |].
      * sub_safe (MW W ii s0 s1); [|eapply IHe2; eauto].
        -- apply Hsub; lia.
        -- intros q Hq. specialize (HW q Hq). lia.
        -- intros q Hq. destruct (HD q Hq). split; [lia|auto].
      * intros iv st Hst.
        set (DL := fun q => D q \/ q = al_next s \/ q = j \/ q = S j).
        assert (Hscl : scope_in W DL L
                  ((x, LSlot (al_next s)) :: (if negb (String.eqb x2 "") then [(x2, LSlot j)] else [])
                   ++ (y, LSlot (S j)) :: scp)).
        { destruct (negb (String.eqb x2 "")); cbn [app];
            [do 3 (constructor; [cbn [snd]; unfold DL; tauto|])
            |do 2 (constructor; [cbn [snd]; unfold DL; tauto|])];
            (eapply Forall_impl; [|exact Hsc]; intros [z [q|q i]]; cbn [snd]; unfold DL; auto). }
        assert (HDL : forall q, DL q -> (q < al_next s + k)%nat /\ ~ W q).
        { intros q [Hq|[->|[->| ->]]].
          - destruct (HD q Hq). split; [lia|auto].
          - split; [lia|]. intros Hq. specialize (HW _ Hq). lia.
          - split; [lia|]. intros Hq. specialize (HW _ Hq). lia.
          - split; [lia|]. intros Hq. specialize (HW _ Hq). lia. }
        assert (HLl : forall i, In i L -> safe DL W (lz i)).
        { intros i Hi. eapply safe_mono; [| |exact (Hlz i Hi)]; unfold DL; auto. }
        set (M1 := fun q => W q \/ (al_next s + k <= q /\ (ii = true -> q < al_next s4))%nat).
        assert (Hc : safe DL M1 (seval C r2 lz)).
        { sub_safe (MW W ii s1 s2); [|eapply IHe3; eauto].
          - intros q [Hq|[Hq1 Hq2]]; [now left|right]. split; [lia|]. intros E6.
            specialize (Hq2 E6). lia.
          - intros q Hq. specialize (HW q Hq). lia.
          - intros q Hq. destruct (HDL q Hq). split; [lia|auto]. }
        assert (Hst' : safe DL M1 (seval C r3 lz)).
        { sub_safe (MW W ii s2 s3); [|eapply IHe4; eauto].
          - intros q [Hq|[Hq1 Hq2]]; [now left|right]. split; [lia|]. intros E6.
            specialize (Hq2 E6). lia.
          - intros q Hq. specialize (HW q Hq). lia.
          - intros q Hq. destruct (HDL q Hq). split; [lia|auto]. }
        assert (HM1 : forall q, M1 q -> MW W ii s fin q).
        { intros q [Hq|[Hq1 Hq2]]; [now left|right]. split; [lia|]. now apply Hfin. }
        assert (Hno : forall q, (al_next s <= q)%nat -> (q < al_next s + k)%nat -> ~ M1 q).
        { intros q Hq1 Hq2 [Hq|Hq]; [specialize (HW q Hq)|]; lia. }
        pose proof (safe_loop C (al_next s) j (S j) b (snd rv) (seval C r2 lz) (seval C r3 lz)
                      D M1 (MW W ii s fin) Hdis) as HL.
        specialize (HL (Hown (al_next s) ltac:(lia) ltac:(lia)) (Hown j ltac:(lia) ltac:(lia))
                       (Hown (S j) ltac:(lia) ltac:(lia)) ltac:(lia) ltac:(lia) HM1
                       (Hno (al_next s) ltac:(lia) ltac:(lia)) (Hno j ltac:(lia) ltac:(lia))
                       (Hno (S j) ltac:(lia) ltac:(lia)) Hc Hst' items iv st Hst).
        destruct (sloop C (al_next s) j (S j) b (snd rv) (seval C r2 lz) (seval C r3 lz) items iv st)
          as [o s5|e s5|w|]; cbn [rbind ok_after]; auto.
        destruct HL as [HL1 HL2]. destruct o as [r'|]; [exact HL1|].
        set (DR := fun q => D q \/ q = S j).
        assert (HDR : forall q, DR q -> (q < al_next s + k)%nat /\ ~ W q).
        { intros q [Hq|Hq]; apply HDL; unfold DL; auto. }
        assert (Hr : safe DR (MW W ii s3 s4) (seval C r4 lz)).
        { eapply IHe5; eauto.
          - constructor; [right; reflexivity|].
            eapply Forall_impl; [|exact Hsc].
            intros [z [q|q i]]; cbn [snd]; unfold DR; [tauto|exact (fun h => h)].
          - intros q Hq. specialize (HW q Hq). lia.
          - intros q Hq. destruct (HDR q Hq). split; [lia|auto].
          - intros i Hi. eapply safe_mono; [| |exact (Hlz i Hi)]; unfold DR; auto. }
        assert (D5 : set_on DR s5).
        { intros q [Hq| ->]; [|auto]. eapply (set_on_frame D); eauto. }
        specialize (Hr s5 D5).
        destruct (seval C r4 lz s5) as [v s6|e s6|w|]; cbn [rbind ok_after] in *; auto.
        eapply frame_trans; [exact HL1|]. eapply frame_trans; [|apply frame_clear; apply Hown; lia].
        eapply frame_mono; [|exact Hr]. apply Hsub; lia.
  - cbn [alloc] in H0. cbv zeta in H0. pair_destruct. injection H0 as <- <-.
    assert (Hs0 : sane (ReserveSlots 1 s)).
    { unfold sane, ReserveSlots; cbn [al_next al_max]. lia. }
    edestruct (alloc_grows e1) as (G1 & S1 & N1); eauto.
    assert (Hs1 : sane (extract r0 s0)) by exact S1.
    edestruct (alloc_grows e2) as (G2 & S2 & N2); eauto.
    assert (X0 : al_next (ReserveSlots 1 s) = (al_next s + 1)%nat) by reflexivity.
    assert (X0' : al_next (extract r0 s0) = al_next s0) by reflexivity.
    pose proof (grows_next _ _ G1) as X1. pose proof (grows_next _ _ G2) as X2.
    set (fin := if ii then s1 else release_to (al_next s) s1) in *.
    assert (Hfin : forall q, (ii = true -> (q < al_next s1)%nat) ->
              (ii = true -> (q < al_next fin)%nat)).
    { intros q Hq E5. specialize (Hq E5). unfold fin. now rewrite E5. }
    clearbody fin.
    set (W' := fun q => W q \/ (al_next s <= q < al_next s0)%nat).
    assert (Hbody : safe D (MW W' ii (extract r0 s0) s1)
              (seval C r1 (set_lz (List.length (al_subs s0)) (seval C r0 lz) lz))).
    { eapply (IHe2 ii _ _ _ _ W' D (List.length (al_subs s0) :: L)); eauto.
      - constructor; cbn [snd].
        + split; [right; lia|left; reflexivity].
        + eapply Forall_impl; [|exact Hsc]. intros [z [q|q i]]; cbn [snd]; unfold W'; auto.
          intros [? ?]. split; auto. right; auto.
      - intros q [Hq|Hq]; [specialize (HW q Hq)|]; lia.
      - intros q Hq. destruct (HD q Hq). split; [lia|]. intros [?|?]; [tauto|lia].
      - intros i Hi. unfold set_lz. destruct (Nat.eqb_spec i (List.length (al_subs s0))) as [E1|E1].
        + eapply safe_mono; [| |eapply (IHe1 true scp); eauto]; auto.
          * intros q [Hq|[Hq1 Hq2]]; [now left|right]. specialize (Hq2 eq_refl). lia.
          * intros q Hq. specialize (HW q Hq). lia.
          * intros q Hq. destruct (HD q Hq). split; [lia|auto].
        + eapply safe_mono; [| |apply Hlz]; auto.
          * intros q Hq. now left.
          * destruct Hi; [congruence|auto]. }
    cbn [seval]. apply safe_bind; [now apply MW_disj| |].
    + eapply safe_mono; [| |exact Hbody]; auto.
      intros q [[Hq|Hq]|[Hq1 Hq2]]; [now left| |]; right; (split; [lia|]); apply Hfin; intros E5;
        [|specialize (Hq2 E5)]; lia.
    + intros v st _. cbn [ok_after]. apply frame_clear. right. split; [lia|]. apply Hfin. lia.
Qed.

Lemma resolved_no_fault C e : forall w, seval C (resolved e) no_lazy est_init <> RFault w.
Proof.
  intros w Hw. unfold resolved in Hw.
  destruct (alloc false [] e (mkAlloc 0 0 [])) as [r s'] eqn:E. cbn [fst] in Hw.
  pose proof (alloc_safe C e false [] _ _ _ (fun _ => False) (fun _ => False) [] no_lazy E) as H.
  assert (H0 : safe (fun _ => False) (MW (fun _ => False) false (mkAlloc 0 0 []) s')
                 (seval C r no_lazy)).
  { apply H; try tauto.
    - unfold sane; cbn; lia.
    - constructor.
    - intros i []. }
  specialize (H0 est_init (fun k (h : False) => match h with end)). rewrite Hw in H0. exact H0.
Qed.
