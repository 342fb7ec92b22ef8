(* What slot allocation guarantees: the planned expression is well formed, so
   the machine simulates its structural semantics. *)
From Coq Require Import ZArith List Bool String Lia.
From Verif Require Import Base M_Overflow M_Number M_Attr M_Value M_Logic M_Expr M_Plan M_Machine
  L_Seval.
Import ListNotations.
Open Scope list_scope.
Open Scope Z_scope.

(* operands, named *)
Definition alloc_list (in_init : bool) (scp : scope) :=
  fix go (l : list core) (s : alloc_state) : list rcore * alloc_state :=
    match l with
    | [] => ([], s)
    | x :: l' => let (r, s1) := alloc in_init scp x s in
                 let (rs, s2) := go l' s1 in (r :: rs, s2)
    end.
Lemma alloc_app ii scp op args s :
  alloc ii scp (KApp op args) s =
  let (rs, s1) := alloc_list ii scp args s in (RApp op rs, s1).
Proof. reflexivity. Qed.

Definition grows (s s' : alloc_state) : Prop :=
  (al_next s <= al_next s')%nat /\ (al_max s <= al_max s')%nat /\
  (exists x, al_subs s' = al_subs s ++ x).
Definition sane (s : alloc_state) : Prop := (al_next s <= al_max s)%nat.

Lemma grows_refl s : grows s s.
Proof. repeat split; auto. exists []. now rewrite app_nil_r. Qed.
Lemma grows_trans a b c : grows a b -> grows b c -> grows a c.
Proof.
  intros (H1 & H2 & x & H3) (H4 & H5 & y & H6). repeat split; try lia.
  exists (x ++ y). rewrite H6, H3. now rewrite app_assoc.
Qed.
Lemma grows_reserve k s : grows s (ReserveSlots k s).
Proof.
  unfold ReserveSlots, grows; cbn [al_next al_max al_subs]. repeat split; try lia.
  exists []. now rewrite app_nil_r.
Qed.
Lemma grows_extract r s : grows s (extract r s).
Proof. unfold extract, grows; cbn [al_next al_max al_subs]. repeat split; try lia. now exists [r]. Qed.
Lemma grows_release n s s' : grows s s' -> (al_next s <= n)%nat -> grows s (release_to n s').
Proof. intros (H1 & H2 & H3) Hn. unfold release_to, grows; cbn [al_next al_max al_subs]. auto. Qed.

Ltac pair_destruct :=
  repeat match goal with
  | |- context [let (_, _) := ?x in _] =>
      let r := fresh "r" in let s := fresh "s" in let E := fresh "E" in
      destruct x as [r s] eqn:E
  | H : context [let (_, _) := ?x in _] |- _ =>
      let r := fresh "r" in let s := fresh "s" in let E := fresh "E" in
      destruct x as [r s] eqn:E
  end.

Lemma alloc_grows e : forall ii scp s r s',
  alloc ii scp e s = (r, s') -> sane s -> grows s s' /\ sane s' /\ (ii = false -> al_next s' = al_next s).
Proof.
  induction e using core_ind'; intros ii scp s r s' H0 Hs.
  - injection H0 as <- <-. auto using grows_refl.
  - cbn [alloc] in H0. destruct (lookup_slot scp n) as [[k|k i]|]; injection H0 as <- <-;
      auto using grows_refl.
  - injection H0 as <- <-. auto using grows_refl.
  - cbn [alloc] in H0. pair_destruct. injection H0 as <- <-.
    edestruct IHe1 as (G1 & S1 & N1); eauto. edestruct IHe2 as (G2 & S2 & N2); eauto.
    repeat split; try (eapply grows_trans; eauto); auto. intros E1. rewrite N2, N1; auto.
  - cbn [alloc] in H0. pair_destruct. injection H0 as <- <-.
    edestruct IHe1 as (G1 & S1 & N1); eauto. edestruct IHe2 as (G2 & S2 & N2); eauto.
    edestruct IHe3 as (G3 & S3 & N3); eauto.
    split; [eauto using grows_trans|]. split; auto. intros E1'. rewrite N3, N2, N1; auto.
  - cbn [alloc] in H0. pair_destruct. injection H0 as <- <-.
    edestruct IHe1 as (G1 & S1 & N1); eauto. edestruct IHe2 as (G2 & S2 & N2); eauto.
    split; [eauto using grows_trans|]. split; auto. intros E1. rewrite N2, N1; auto.
  - rewrite alloc_app in H0. pair_destruct. injection H0 as <- <-.
    revert s r0 s0 E Hs. induction H as [|x l Hx Hl IH]; intros s r0 s0 E Hs; cbn [alloc_list] in E.
    + injection E as <- <-. auto using grows_refl.
    + fold (alloc_list ii scp) in E. pair_destruct. injection E as <- <-.
      edestruct Hx as (G1 & S1 & N1); eauto. edestruct IH as (G2 & S2 & N2); eauto.
      split; [eauto using grows_trans|]. split; auto. intros E1'. rewrite N2, N1; auto.
  - cbn [alloc] in H0. cbv zeta in H0.
    set (k := if negb (String.eqb x2 "") then 3%nat else 2%nat) in *.
    pair_destruct. injection H0 as <- <-.
    assert (Hs0 : sane (ReserveSlots k s)).
    { unfold sane, ReserveSlots; cbn [al_next al_max]. lia. }
    edestruct IHe1 as (G1 & S1 & N1); eauto. edestruct IHe2 as (G2 & S2 & N2); eauto.
    edestruct IHe3 as (G3 & S3 & N3); eauto. edestruct IHe4 as (G4 & S4 & N4); eauto.
    edestruct IHe5 as (G5 & S5 & N5); eauto.
    assert (G : grows s s4).
    { exact (grows_trans _ _ _ (grows_reserve k s) (grows_trans _ _ _ G1 (grows_trans _ _ _ G2
        (grows_trans _ _ _ G3 (grows_trans _ _ _ G4 G5))))). }
    destruct ii.
    + split; auto. split; auto. discriminate.
    + split; [apply grows_release; auto|]. split; [|reflexivity].
      unfold sane, release_to; cbn [al_next al_max]. unfold sane in Hs.
      destruct G as (_ & G & _). lia.
  - cbn [alloc] in H0. cbv zeta in H0. pair_destruct. injection H0 as <- <-.
    assert (Hs0 : sane (ReserveSlots 1 s)).
    { unfold sane, ReserveSlots; cbn [al_next al_max]. lia. }
    edestruct IHe1 as (G1 & S1 & N1); eauto.
    assert (Hs1 : sane (extract r0 s0)) by exact S1.
    edestruct IHe2 as (G2 & S2 & N2); eauto.
    assert (G : grows s s1).
    { exact (grows_trans _ _ _ (grows_reserve 1 s) (grows_trans _ _ _ G1
        (grows_trans _ _ _ (grows_extract r0 s0) G2))). }
    destruct ii.
    + split; auto. split; auto. discriminate.
    + split; [apply grows_release; auto|]. split; [|reflexivity].
      unfold sane, release_to; cbn [al_next al_max]. unfold sane in Hs.
      destruct G as (_ & G & _). lia.
Qed.

(* names in scope refer to reserved slots and enclosing binds *)
Definition scope_ok (n : nat) (L : list nat) (scp : scope) : Prop :=
  Forall (fun p => match snd p with
                   | LSlot k => (k < n)%nat
                   | LLazy k i => (k < n)%nat /\ In i L
                   end) scp.
Lemma scope_ok_lookup n L scp x ref :
  scope_ok n L scp -> lookup_slot scp x = Some ref ->
  match ref with LSlot k => (k < n)%nat | LLazy k i => (k < n)%nat /\ In i L end.
Proof.
  induction 1 as [|[y rf] scp H Hf IH]; cbn [lookup_slot]; [discriminate|].
  destruct (String.eqb y x); [|auto]. intros [= <-]. exact H.
Qed.
Lemma scope_ok_mono n n' L L' scp :
  (n <= n')%nat -> incl L L' -> scope_ok n L scp -> scope_ok n' L' scp.
Proof.
  intros Hn Hl H. eapply Forall_impl; [|exact H]. intros [x [k|k i]]; cbn [snd].
  - lia.
  - intros [H1 H2]. split; [lia|auto].
Qed.
Lemma wf_mono n n' subs x L r :
  (n <= n')%nat -> wf n subs L r -> wf n' (subs ++ x) L r.
Proof.
  intros Hn. revert L. induction r using rcore_ind'; intros L0 Hw; cbn [wf] in *; auto;
    try (repeat match goal with H : _ /\ _ |- _ => destruct H end; repeat split; auto; lia).
  - refine (proj2 (wf_app n' (subs ++ x) L0 op args) _).
    apply (wf_app n subs L0 op args) in Hw.
    rewrite Forall_forall in *. auto.
  - destruct Hw as (H1 & H2 & H3 & H4). split; [lia|]. split; [|split]; auto.
    rewrite nth_error_app1; auto. apply nth_error_Some. congruence.
Qed.
Lemma wf_grows s s' L r :
  grows s s' -> wf (al_max s) (al_subs s) L r -> wf (al_max s') (al_subs s') L r.
Proof. intros (_ & H1 & x & ->). now apply wf_mono. Qed.

Lemma alloc_wf e : forall ii scp s r s' L,
  alloc ii scp e s = (r, s') -> sane s -> scope_ok (al_next s) L scp ->
  wf (al_max s') (al_subs s') L r.
Proof.
  induction e using core_ind'; intros ii scp s r s' L H0 Hs Hok.
  - injection H0 as <- <-. exact I.
  - cbn [alloc] in H0. unfold sane in Hs.
    destruct (lookup_slot scp n) as [[k|k i]|] eqn:El; injection H0 as <- <-; cbn [wf]; auto.
    + pose proof (scope_ok_lookup _ _ _ _ _ Hok El) as Hr. cbv beta iota in Hr. lia.
    + pose proof (scope_ok_lookup _ _ _ _ _ Hok El) as [Hr Hi]. split; [lia|auto].
  - injection H0 as <- <-. exact I.
  - cbn [alloc] in H0. pair_destruct. injection H0 as <- <-.
    edestruct (alloc_grows e1) as (G1 & S1 & N1); eauto.
    edestruct (alloc_grows e2) as (G2 & S2 & N2); eauto.
    cbn [wf]. split.
    + eapply wf_grows; [exact G2|]. eapply IHe1; eauto.
    + eapply IHe2; eauto. eapply scope_ok_mono; [|apply incl_refl|exact Hok]. apply G1.
  - cbn [alloc] in H0. pair_destruct. injection H0 as <- <-.
    edestruct (alloc_grows e1) as (G1 & S1 & N1); eauto.
    edestruct (alloc_grows e2) as (G2 & S2 & N2); eauto.
    edestruct (alloc_grows e3) as (G3 & S3 & N3); eauto.
    cbn [wf]. split; [|split].
    + eapply wf_grows; [exact (grows_trans _ _ _ G2 G3)|]. eapply IHe1; eauto.
    + eapply wf_grows; [exact G3|]. eapply IHe2; eauto.
      eapply scope_ok_mono; [|apply incl_refl|exact Hok]. apply G1.
    + eapply IHe3; eauto. eapply scope_ok_mono; [|apply incl_refl|exact Hok].
      destruct G1, G2. lia.
  - cbn [alloc] in H0. pair_destruct. injection H0 as <- <-.
    edestruct (alloc_grows e1) as (G1 & S1 & N1); eauto.
    edestruct (alloc_grows e2) as (G2 & S2 & N2); eauto.
    cbn [wf]. split.
    + eapply wf_grows; [exact G2|]. eapply IHe1; eauto.
    + eapply IHe2; eauto. eapply scope_ok_mono; [|apply incl_refl|exact Hok]. apply G1.
  - rewrite alloc_app in H0. pair_destruct. injection H0 as <- <-. apply wf_app.
    revert s r0 s0 E Hs Hok.
    induction H as [|x l Hx Hl IH]; intros s r0 s0 E Hs Hok; cbn [alloc_list] in E.
    + injection E as <- <-. constructor.
    + fold (alloc_list ii scp) in E. pair_destruct. injection E as <- <-.
      destruct (alloc_grows _ _ _ _ _ _ E0 Hs) as (G1 & S1 & N1).
      assert (G2 : grows s1 s2).
      { pose proof (alloc_grows (KApp OIndex l) ii scp s1 (RApp OIndex r1) s2) as G.
        rewrite alloc_app, E1 in G. destruct (G eq_refl S1) as (G2 & _). exact G2. }
      assert (Hok1 : scope_ok (al_next s1) L scp).
      { eapply scope_ok_mono; [|apply incl_refl|exact Hok]. apply G1. }
      constructor.
      * eapply wf_grows; [exact G2|]. eapply Hx; eauto.
      * eapply IH; eauto.
  - cbn [alloc] in H0. cbv zeta in H0.
    set (k := if negb (String.eqb x2 "") then 3%nat else 2%nat) in *.
    set (j := if negb (String.eqb x2 "") then S (al_next s) else al_next s) in *.
    assert (Hjk : (al_next s <= j /\ S j < al_next s + k)%nat \/ (al_next s <= j /\ S j = al_next s + k - 1)%nat).
    { unfold j, k. destruct (negb (String.eqb x2 "")); lia. }
    assert (Hk : (2 <= k)%nat) by (unfold k; destruct (negb (String.eqb x2 "")); lia).
    assert (Hj : (S j < al_next s + k)%nat) by (destruct Hjk; lia).
    pair_destruct. injection H0 as <- <-.
    assert (Hs0 : sane (ReserveSlots k s)).
    { unfold sane, ReserveSlots; cbn [al_next al_max]. lia. }
    edestruct (alloc_grows e1) as (G1 & S1 & N1); eauto.
    edestruct (alloc_grows e2) as (G2 & S2 & N2); eauto.
    edestruct (alloc_grows e3) as (G3 & S3 & N3); eauto.
    edestruct (alloc_grows e4) as (G4 & S4 & N4); eauto.
    edestruct (alloc_grows e5) as (G5 & S5 & N5); eauto.
    assert (Hmax : (al_next s + k <= al_max s4)%nat).
    { destruct G1 as (_ & M1 & _), G2 as (_ & M2 & _), G3 as (_ & M3 & _),
        G4 as (_ & M4 & _), G5 as (_ & M5 & _).
      unfold ReserveSlots in M1; cbn [al_max] in M1. lia. }
    assert (Hn1 : (al_next s + k <= al_next s0)%nat).
    { destruct G1 as (M1 & _). exact M1. }
    assert (Hok1 : forall q, (al_next s <= q)%nat -> scope_ok q L scp).
    { intros q Hq. eapply scope_ok_mono; [exact Hq|apply incl_refl|exact Hok]. }
    assert (Hloop : forall q, (al_next s + k <= q)%nat ->
      scope_ok q L ((x, LSlot (al_next s)) :: (if negb (String.eqb x2 "") then [(x2, LSlot j)] else [])
                      ++ (y, LSlot (S j)) :: scp)).
    { intros q Hq. destruct (negb (String.eqb x2 "")); cbn [app]; repeat constructor; cbn [snd];
        try lia; apply Hok1; lia. }
    assert (Hm : forall m, al_max (if ii then m else release_to (al_next s) m) = al_max m).
    { intros m. destruct ii; reflexivity. }
    assert (Hb : forall m, al_subs (if ii then m else release_to (al_next s) m) = al_subs m).
    { intros m. destruct ii; reflexivity. }
    rewrite Hm, Hb. cbn [wf].
    destruct G1 as (M1 & G1'), G2 as (M2 & G2'), G3 as (M3 & G3'), G4 as (M4 & G4'), G5 as (M5 & G5').
    assert (G1 : grows (ReserveSlots k s) s0) by (split; auto).
    assert (G2 : grows s0 s1) by (split; auto). assert (G3 : grows s1 s2) by (split; auto).
    assert (G4 : grows s2 s3) by (split; auto). assert (G5 : grows s3 s4) by (split; auto).
    split; [split; [|split]; lia|].
    split; [|split; [|split; [|split]]].
    + eapply wf_grows; [exact (grows_trans _ _ _ G2 (grows_trans _ _ _ G3 (grows_trans _ _ _ G4 G5)))|].
      eapply IHe1; eauto. unfold ReserveSlots; cbn [al_next]. apply Hok1. lia.
    + eapply wf_grows; [exact (grows_trans _ _ _ G3 (grows_trans _ _ _ G4 G5))|].
      eapply IHe2; eauto. apply Hok1. lia.
    + eapply wf_grows; [exact (grows_trans _ _ _ G4 G5)|]. eapply IHe3; eauto. apply Hloop. lia.
    + eapply wf_grows; [exact G5|]. eapply IHe4; eauto. apply Hloop. lia.
    + eapply IHe5; eauto. constructor; [cbn [snd]; lia|]. apply Hok1. lia.
  - cbn [alloc] in H0. cbv zeta in H0. pair_destruct. injection H0 as <- <-.
    assert (Hs0 : sane (ReserveSlots 1 s)).
    { unfold sane, ReserveSlots; cbn [al_next al_max]. lia. }
    edestruct (alloc_grows e1) as (G1 & S1 & N1); eauto.
    assert (Hs1 : sane (extract r0 s0)) by exact S1.
    edestruct (alloc_grows e2) as (G2 & S2 & N2); eauto.
    assert (Hm : forall m, al_max (if ii then m else release_to (al_next s) m) = al_max m).
    { intros m. destruct ii; reflexivity. }
    assert (Hb : forall m, al_subs (if ii then m else release_to (al_next s) m) = al_subs m).
    { intros m. destruct ii; reflexivity. }
    assert (Gx : grows (extract r0 s0) s1) by exact G2.
    destruct G1 as (M1 & M1' & G1'), G2 as (M2 & M2' & x2 & G2').
    unfold ReserveSlots in M1, M1'; cbn [al_next al_max] in M1, M1'.
    unfold extract in M2, M2', G2'; cbn [al_next al_max al_subs] in M2, M2', G2'.
    rewrite Hm, Hb. cbn [wf].
    split; [lia|]. split; [|split].
    + rewrite G2', <- app_assoc. rewrite nth_error_app2 by lia. now rewrite Nat.sub_diag.
    + eapply wf_grows; [exact Gx|]. apply (wf_mono (al_max s0)); [reflexivity|].
      eapply IHe1; eauto. unfold ReserveSlots; cbn [al_next].
      eapply scope_ok_mono; [|apply incl_refl|exact Hok]. lia.
    + eapply IHe2; eauto. unfold extract; cbn [al_next].
      constructor; [cbn [snd]; split; [lia|left; reflexivity]|].
      eapply scope_ok_mono; [|apply incl_tl, incl_refl|exact Hok]. lia.
Qed.

(* ---- the machine on a planned program ---- *)

Definition no_lazy : nat -> comp := fun _ _ => RUB.

Lemma machine_seval C e :
  exists t, Run C (plan_core (sc C) e) m_init t /\
    t = match seval C (resolved e) no_lazy est_init with
        | RVal x s => TDone [x] [] s
        | RErr er s => TErr er s
        | RFault w => TFault w
        | RUB => TUB
        end.
Proof.
  unfold plan_core, resolved.
  destruct (alloc false [] e (mkAlloc 0 0 [])) as [r s'] eqn:E. cbn [fst].
  set (P := mkProgram _ _ _).
  assert (Hwf : wf (al_max s') (al_subs s') [] r).
  { eapply alloc_wf; [exact E|unfold sane; cbn; lia|constructor]. }
  eexists. split; [|reflexivity].
  eapply (sim_seval C P (al_subs s') (al_max s') eq_refl eq_refl r [] no_lazy Hwf).
  - intros i [].
  - exists (code (sc C) r), [], []. cbn [app]. rewrite app_nil_r. auto.
  - destruct (seval C r no_lazy est_init) as [x s|er s|w|]; cbn [cont]; auto.
    apply Run_stop; [|discriminate]. unfold turn_of. cbn [m_path path_of p_main P m_pc].
    replace (nth_error (code (sc C) r) (0 + List.length (code (sc C) r))) with (@None step)
      by (symmetry; apply nth_error_None; lia).
    rewrite Nat.eqb_refl. reflexivity.
Qed.
