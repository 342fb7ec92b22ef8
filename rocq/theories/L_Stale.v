(* When no bind reuses a slot that a comprehension can leave set, the planned
   program computes the reference semantics. *)
From Coq Require Import ZArith List Bool String Lia.
From Verif Require Import Base M_Overflow M_Number M_Attr M_Value M_Logic M_Expr M_Plan M_Machine
  S_Eval L_Seval L_Alloc L_Safe L_Tree.
Import ListNotations.
Open Scope list_scope.
Open Scope Z_scope.

Lemma bind_slot_app n op args : bind_slot n (RApp op args) <-> Exists (bind_slot n) args.
Proof.
  cbn [bind_slot]. induction args as [|x l IH].
  - split; [tauto|]. inversion 1.
  - rewrite Exists_cons, <- IH. reflexivity.
Qed.
Lemma exit_slot_app n op args : early_exit_slot n (RApp op args) <-> Exists (early_exit_slot n) args.
Proof.
  cbn [early_exit_slot]. induction args as [|x l IH].
  - split; [tauto|]. inversion 1.
  - rewrite Exists_cons, <- IH. reflexivity.
Qed.

Lemma clean_of C (B : nat -> Prop) r :
  (forall n, bind_slot n r -> B n) -> (sc C = true -> forall n, early_exit_slot n r -> ~ B n) -> clean C B r.
Proof.
  induction r using rcore_ind'; intros Hb He; cbn [clean]; auto.
  - split; [apply IHr1|apply IHr2]; firstorder.
  - split; [|split]; [apply IHr1|apply IHr2|apply IHr3]; firstorder.
  - split; [apply IHr1|apply IHr2]; firstorder.
  - apply (clean_app C B op). rewrite Forall_forall in *. intros x Hx. apply H; auto.
    + intros n Hn. apply Hb. apply bind_slot_app, Exists_exists. eauto.
    + intros Hs n Hn. apply He; auto. apply exit_slot_app, Exists_exists. eauto.
  - cbn [bind_slot early_exit_slot] in *. split.
    { intros Hs Hc. assert (r3 <> RConst (VBool true)) by (intros ->; discriminate).
      split; apply He; auto. }
    split; [|split; [|split; [|split]]]; [apply IHr1|apply IHr2|apply IHr3|apply IHr4|apply IHr5];
      try (intros; apply Hb; tauto); intros; apply He; tauto.
  - cbn [bind_slot early_exit_slot] in *. split; [apply Hb; auto|].
    split; [apply IHr1|apply IHr2]; try (intros; apply Hb; tauto); intros; apply He; tauto.
Qed.

(* ---- syntactic sufficient conditions ---- *)

Lemma no_binds_app op args : no_binds (KApp op args) <-> Forall no_binds args.
Proof.
  cbn [no_binds]. induction args as [|x l IH]; [split; auto|].
  rewrite Forall_cons_iff, <- IH. reflexivity.
Qed.
Lemma run_through_app op args : run_through (KApp op args) <-> Forall run_through args.
Proof.
  cbn [run_through]. induction args as [|x l IH]; [split; auto|].
  rewrite Forall_cons_iff, <- IH. reflexivity.
Qed.

Lemma no_binds_slots e : forall ii scp s r s', alloc ii scp e s = (r, s') ->
  no_binds e -> forall n, ~ bind_slot n r.
Proof.
  induction e using core_ind'; intros ii scp s r s' E Hn q Hk.
  1-3: cbn [alloc] in E; try destruct (lookup_slot scp n) as [[]|]; injection E as <- <-; exact Hk.
  1-3: cbn [alloc no_binds] in E, Hn; pair_destruct; injection E as <- <-; cbn [bind_slot] in Hk;
       intuition eauto.
  - rewrite alloc_app in E. destruct (alloc_list ii scp args s) as [rs s1] eqn:E1.
    injection E as <- <-. apply (no_binds_app op) in Hn. apply bind_slot_app in Hk.
    revert s rs s1 E1 Hk. induction H as [|x l Hx Hl IH]; intros s rs s1 E1 Hk; cbn [alloc_list] in E1.
    + injection E1 as <- <-. inversion Hk.
    + apply Forall_cons_iff in Hn. destruct Hn as [H1 H2].
      destruct (alloc ii scp x s) as [rx sx] eqn:Ex. destruct (alloc_list ii scp l sx) as [rl sl] eqn:El.
      injection E1 as <- <-. apply Exists_cons in Hk. destruct Hk as [Hk|Hk]; eauto.
      eapply Hx; eauto.
  - cbn [alloc no_binds] in E, Hn. pair_destruct. injection E as <- <-. cbn [bind_slot] in Hk.
    intuition eauto.
  - exact Hn.
Qed.
Lemma run_through_slots e : forall ii scp s r s', alloc ii scp e s = (r, s') ->
  run_through e -> forall n, ~ early_exit_slot n r.
Proof.
  induction e using core_ind'; intros ii scp s r s' E Hn q Hk.
  1-3: cbn [alloc] in E; try destruct (lookup_slot scp n) as [[]|]; injection E as <- <-; exact Hk.
  1-3: cbn [alloc run_through] in E, Hn; pair_destruct; injection E as <- <-; cbn [early_exit_slot] in Hk;
       intuition eauto.
  - rewrite alloc_app in E. destruct (alloc_list ii scp args s) as [rs s1] eqn:E1.
    injection E as <- <-. apply (run_through_app op) in Hn. apply exit_slot_app in Hk.
    revert s rs s1 E1 Hk. induction H as [|x l Hx Hl IH]; intros s rs s1 E1 Hk; cbn [alloc_list] in E1.
    + injection E1 as <- <-. inversion Hk.
    + apply Forall_cons_iff in Hn. destruct Hn as [H1 H2].
      destruct (alloc ii scp x s) as [rx sx] eqn:Ex. destruct (alloc_list ii scp l sx) as [rl sl] eqn:El.
      injection E1 as <- <-. apply Exists_cons in Hk. destruct Hk as [Hk|Hk]; eauto.
      eapply Hx; eauto.
  - cbn [run_through] in Hn. destruct Hn as (-> & Hn). cbn [alloc] in E. pair_destruct.
    injection E as <- <-. cbn [early_exit_slot] in Hk.
    destruct Hk as [[Hk _]|Hk]; [now apply Hk|]. intuition eauto.
  - cbn [alloc run_through] in E, Hn. pair_destruct. injection E as <- <-. cbn [early_exit_slot] in Hk.
    intuition eauto.
Qed.
