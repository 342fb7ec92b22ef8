(* An invariant of the invocation log over every evaluation. *)
From Coq Require Import ZArith List Bool String Lia.
From Verif Require Import Base M_Overflow M_Number M_Attr M_Value M_Logic M_Expr M_Plan M_Machine
  S_Eval L_Seval L_Alloc L_Meaning.
Import ListNotations.
Open Scope list_scope.
Open Scope Z_scope.

(* every operation node of an expression satisfies Q (operation, operand count) *)
Fixpoint kops (Q : sop -> nat -> Prop) (e : core) : Prop :=
  match e with
  | KConst _ | KVar _ | KGlobal _ => True
  | KLogic _ a b | KOr _ a b => kops Q a /\ kops Q b
  | KCond c a b => kops Q c /\ kops Q a /\ kops Q b
  | KApp op args =>
      Q op (List.length args) /\
      (fix go l := match l with [] => True | x :: l' => kops Q x /\ go l' end) args
  | KComp _ _ _ r i c s b => kops Q r /\ kops Q i /\ kops Q c /\ kops Q s /\ kops Q b
  | KBind _ i b => kops Q i /\ kops Q b
  end.
Lemma kops_app Q op args :
  kops Q (KApp op args) <-> Q op (List.length args) /\ Forall (kops Q) args.
Proof. cbn [kops]. now rewrite (go_forall (kops Q) args). Qed.
Fixpoint rops (Q : sop -> nat -> Prop) (e : rcore) : Prop :=
  match e with
  | RConst _ | RVar _ | RSlot _ _ | RLazy _ _ => True
  | RLogic _ a b | ROr _ a b => rops Q a /\ rops Q b
  | RCond c a b => rops Q c /\ rops Q a /\ rops Q b
  | RApp op args =>
      Q op (List.length args) /\
      (fix go l := match l with [] => True | x :: l' => rops Q x /\ go l' end) args
  | RComp _ _ _ r i c s b => rops Q r /\ rops Q i /\ rops Q c /\ rops Q s /\ rops Q b
  | RBind _ _ i b => rops Q i /\ rops Q b
  end.
Lemma rops_app Q op args :
  rops Q (RApp op args) <-> Q op (List.length args) /\ Forall (rops Q) args.
Proof.
  cbn [rops]. assert (H : (fix go l := match l with [] => True | x :: l' => rops Q x /\ go l' end) args
                          <-> Forall (rops Q) args).
  { induction args as [|x l IH]; [split; auto|]. rewrite Forall_cons_iff, <- IH. reflexivity. }
  now rewrite H.
Qed.
Lemma alloc_rops Q e : forall ii scp s r s',
  alloc ii scp e s = (r, s') -> kops Q e -> rops Q r.
Proof.
  induction e using core_ind'; intros ii scp s r s' H0 Hk; try rewrite alloc_app in H0;
    cbn [alloc] in H0.
  - injection H0 as <- <-. exact I.
  - destruct (lookup_slot scp n) as [[k|k i]|]; injection H0 as <- <-; exact I.
  - injection H0 as <- <-. exact I.
  - pair_destruct. injection H0 as <- <-. destruct Hk. cbn [rops]. repeat split; eauto.
  - pair_destruct. injection H0 as <- <-. destruct Hk as (?&?&?). cbn [rops]. repeat split; eauto.
  - pair_destruct. injection H0 as <- <-. destruct Hk. cbn [rops]. repeat split; eauto.
  - pair_destruct. injection H0 as <- <-. apply kops_app in Hk. destruct Hk as [Hq Hk].
    apply rops_app.
    assert (G : List.length r0 = List.length args /\ Forall (rops Q) r0).
    { clear Hq. revert s r0 s0 E. induction H as [|x l Hx Hl IH]; intros s r0 s0 E; cbn [alloc_list] in E.
      + injection E as <- <-. auto.
      + fold (alloc_list ii scp) in E. pair_destruct. injection E as <- <-.
        apply Forall_cons_iff in Hk. destruct Hk as [H1 H2].
        destruct (IH H2 _ _ _ E1) as [H3 H4]. cbn [List.length]. split; [auto|].
        constructor; eauto. }
    destruct G as [-> G]. auto.
  - cbv zeta in H0. pair_destruct. injection H0 as <- <-. destruct Hk as (?&?&?&?&?). cbn [rops].
    repeat split; eauto.
  - cbv zeta in H0. pair_destruct. injection H0 as <- <-. destruct Hk. cbn [rops]. repeat split; eauto.
Qed.
Lemma elaborate_kops O R e k : elaborate O R e = Val k -> kops (planned_op R) k.
Proof.
  intros E.
  apply (elaborate_pred O R (fun _ _ _ _ _ _ _ _ => false) (kops (planned_op R))) with (e := e);
    cbn [kops]; auto.
  - intros op l Ho Hl. split; [exact Ho|now apply go_forall].
  - clear. induction e using expr_ind'; cbn [any_comp]; auto.
    + destruct t; rewrite ?H; cbn [orb]; clear H; induction H0 as [|x l Hx Hl IH]; auto; now rewrite Hx.
    + induction H as [|[o x] l Hx Hl IH]; auto. cbn [snd] in Hx. now rewrite Hx.
    + induction H as [|[o [x z]] l [Hx Hz] Hl IH]; auto. cbn [fst snd] in *. now rewrite Hx, Hz.
    + now rewrite IHe1, IHe2, IHe3, IHe4, IHe5.
Qed.

Section LogInv.
  Variable C : config.
  Variable Q : sop -> nat -> Prop.
  Variable Inv : list invocation -> Prop.
  Hypothesis Hop : forall op args log, Q op (List.length args) -> Inv log ->
    Inv (op_invokes C op args ++ log).

  Definition inv {A} (r : res A) : Prop :=
    match r with RVal _ s | RErr _ s => Inv (e_log s) | RFault _ | RUB => True end.
  Lemma inv_bind {A B} (r : res A) (k : A -> est -> res B) :
    inv r -> (forall a s, r = RVal a s -> Inv (e_log s) -> inv (k a s)) -> inv (rbind r k).
  Proof. destruct r; cbn [rbind inv]; auto. Qed.
  Lemma inv_lift {A} (o : out A) s : Inv (e_log s) -> inv (rlift o s).
  Proof. destruct o; cbn [rlift inv]; auto. Qed.
  Lemma clear_iter_log it it2 s : e_log (clear_iter it it2 s) = e_log s.
  Proof. unfold clear_iter. destruct (Nat.eqb it it2); reflexivity. Qed.
  Lemma set_iter_log it it2 b t kv s : e_log (set_iter C it it2 b t kv s) = e_log s.
  Proof. unfold set_iter. destruct (Nat.eqb it it2); [reflexivity|]. destruct (iter_two C t kv). reflexivity. Qed.
  Lemma inv_loop it it2 ac b t fc fs (Hc : forall s, Inv (e_log s) -> inv (fc s))
    (Hs : forall s, Inv (e_log s) -> inv (fs s)) items : forall accu s, Inv (e_log s) ->
    inv (sloop C it it2 ac b t fc fs items accu s).
  Proof.
    induction items as [|kv items IH]; intros accu s Hi; cbn [sloop].
    - cbn [inv]. now rewrite clear_iter_log.
    - apply inv_bind.
      { unfold IncrementIterations. destruct (_ =? _); [exact Hi|]. destruct (_ <=? _); exact Hi. }
      intros _ s1 _ H1. apply inv_bind; [apply Hc; now rewrite set_iter_log|].
      intros c s2 _ H2. destruct (loop_condition c) as [x|go_on]; [cbn [inv]; cbn [clear_slot e_log]; now rewrite clear_iter_log|].
      destruct (_ && _); [exact H2|]. apply inv_bind; [now apply Hs|]. intros a s3 _ H3. now apply IH.
  Qed.
  Lemma seval_list_len f l : forall s vs s', seval_list f l s = RVal vs s' -> List.length vs = List.length l.
  Proof.
    induction l as [|x l IH]; intros s vs s' H; cbn [seval_list] in H.
    - injection H as <- <-. reflexivity.
    - fold (seval_list f) in H. destruct (f x s) as [v s1|?|?|]; cbn [rbind] in H; try discriminate.
      destruct (seval_list f l s1) as [ws s2|?|?|] eqn:E; cbn [rbind] in H; try discriminate.
      injection H as <- <-. cbn [List.length]. f_equal. eauto.
  Qed.
  Lemma seval_inv r : forall lz s, rops Q r -> Inv (e_log s) ->
    (forall i s, Inv (e_log s) -> inv (lz i s)) -> inv (seval C r lz s).
  Proof.
    induction r using rcore_ind'; intros lz s Hr Hi Hl; cbn [seval].
    - exact Hi.
    - now apply inv_lift.
    - unfold read_slot. destruct (e_slots s n); [exact Hi|exact I].
    - destruct (e_slots s n); [exact Hi|]. apply inv_bind; [now apply Hl|]. intros a s1 _ H1. exact H1.
    - destruct Hr. apply inv_bind; [eauto|]. intros x s1 _ H1. destruct (_ && _); [exact H1|].
      apply inv_bind; [eauto|]. intros y s2 _ H2. exact H2.
    - destruct Hr as (?&?&?). apply inv_bind; [eauto|]. intros x s1 _ H3. destruct (sc C).
      + destruct (BoolCheck x); [exact H3|]. destruct (is_true (fst x)); eauto.
      + apply inv_bind; [eauto|]. intros y s2 _ H4. apply inv_bind; [eauto|]. intros z s3 _ H5. exact H5.
    - destruct Hr. apply inv_bind; [eauto|]. intros x s1 _ H1. destruct (if sc C then _ else _); [exact H1|].
      apply inv_bind; [eauto|]. intros y s2 _ H2. exact H2.
    - fold (seval_list (fun x => seval C x lz)). apply (rops_app Q op) in Hr. destruct Hr as [Hq Hr].
      apply inv_bind.
      + clear Hq. revert s Hi. induction H as [|x l Hx Hls IH]; intros s Hi; cbn [seval_list]; [exact Hi|].
        fold (seval_list (fun x => seval C x lz)). apply Forall_cons_iff in Hr. destruct Hr.
        apply inv_bind; [eauto|]. intros v s1 _ H3. apply inv_bind; [eauto|]. intros vs s2 _ H4. exact H4.
      + intros vs s1 E H1. unfold do_op. apply inv_lift. cbn [add_log e_log]. apply Hop; [|exact H1].
        now rewrite (seval_list_len _ _ _ _ _ E).
    - destruct Hr as (?&?&?&?&?). apply inv_bind; [eauto|]. intros rv s1 _ H4.
      destruct (comp_init C rv) as [|[b items]]; [exact H4|].
      apply inv_bind; [eauto|]. intros iv s2 _ H5.
      apply inv_bind; [apply inv_loop; eauto|]. intros [o|] s3 _ H6; [exact H6|].
      apply inv_bind; [eauto|]. intros x s4 _ H7. exact H7.
    - destruct Hr. apply inv_bind; [|intros x s1 _ H1; exact H1].
      apply IHr2; auto. intros j s1 H1. unfold set_lz. destruct (Nat.eqb j i); auto.
  Qed.
End LogInv.
