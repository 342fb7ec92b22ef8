(* The initialiser of a bind is evaluated at most once per evaluation of the
   bind, and not at all if its variable is not read. *)
From Coq Require Import ZArith List Bool String Lia.
From Verif Require Import Base M_Overflow M_Number M_Attr M_Value M_Logic M_Expr M_Plan M_Machine
  S_Eval L_Seval L_Alloc L_Core.
Import ListNotations.
Open Scope list_scope.
Open Scope Z_scope.

(* r does not write slot n nor initialise i, except, when allowed, by reading
   the bind variable of slot n *)
Fixpoint touch (allow : bool) (n i : nat) (r : rcore) : Prop :=
  match r with
  | RConst _ | RVar _ | RSlot _ _ => True
  | RLazy k j => (allow = true /\ k = n /\ j = i) \/ (k <> n /\ j <> i)
  | RLogic _ a b | ROr _ a b => touch allow n i a /\ touch allow n i b
  | RCond c a b => touch allow n i c /\ touch allow n i a /\ touch allow n i b
  | RApp _ args =>
      (fix go l := match l with [] => True | a :: l' => touch allow n i a /\ go l' end) args
  | RComp it it2 ac r0 i0 c s b =>
      (it <> n /\ it2 <> n /\ ac <> n) /\ touch allow n i r0 /\ touch allow n i i0 /\
      touch allow n i c /\ touch allow n i s /\ touch allow n i b
  | RBind k j e b => (k <> n /\ j <> i) /\ touch allow n i e /\ touch allow n i b
  end.
Lemma touch_app allow n i op args : touch allow n i (RApp op args) <-> Forall (touch allow n i) args.
Proof.
  cbn [touch]. induction args as [|x l IH]; [split; auto|].
  rewrite Forall_cons_iff, <- IH. reflexivity.
Qed.

Section Pres.
  Variables (C : config) (allow : bool) (n i : nat) (R RE : est -> est -> Prop).
  Hypothesis REerr : forall a b, R a b -> RE a b.
  Hypothesis REtrans : forall a b c, R a b -> RE b c -> RE a c.
  Hypothesis Rrefl : forall s, R s s.
  Hypothesis Rtrans : forall a b c, R a b -> R b c -> R a c.
  Hypothesis Rset : forall k x s, k <> n -> R s (set_slot k x s).
  Hypothesis Rclear : forall k s, k <> n -> R s (clear_slot k s).
  Hypothesis Rlog : forall l s, R s (add_log l s).
  Hypothesis Rloop : forall s, R s (count_loop s).
  Hypothesis Rinit : forall j s, j <> i -> R s (count_init j s).
  Hypothesis Rincr : forall z s, R s (mkEst (e_slots s) z (e_log s) (e_loops s) (e_inits s)).

  Definition after {A} (s : est) (r : res A) : Prop :=
    match r with RVal _ s' => R s s' | RErr _ s' => RE s s' | _ => True end.
  Definition pres {A} (f : est -> res A) : Prop := forall s, after s (f s).

  Lemma after_from {A} a b (r : res A) : R a b -> after b r -> after a r.
  Proof. intros H. destruct r; cbn [after]; eauto. Qed.
  Lemma after_bind {A B} s (r : res A) (k : A -> est -> res B) :
    after s r -> (forall a s', after s' (k a s')) -> after s (rbind r k).
  Proof.
    intros H1 H2. destruct r as [a s1|e s1|w|]; cbn [rbind]; auto.
    eapply after_from; [exact H1|apply H2].
  Qed.
  Lemma after_val {A} (a : A) s : after s (RVal a s).
  Proof. apply Rrefl. Qed.
  Lemma after_lift {A} (o : out A) s : after s (rlift o s).
  Proof. destruct o; cbn [rlift after]; auto. Qed.
  Lemma after_op op args s : after s (do_op C op args s).
  Proof. unfold do_op. eapply after_from; [apply Rlog|apply after_lift]. Qed.
  Lemma after_incr s : after s (IncrementIterations C s).
  Proof. unfold IncrementIterations. destruct (_ =? _); [apply Rrefl|]. destruct (_ <=? _); cbn [after]; auto. Qed.
  Lemma R_set_iter it it2 b t kv s : it <> n -> it2 <> n -> R s (set_iter C it it2 b t kv s).
  Proof.
    intros H1 H2. unfold set_iter. destruct (Nat.eqb it it2); [auto|].
    destruct (iter_two C t kv). eauto.
  Qed.
  Lemma R_clear_iter it it2 s : it <> n -> it2 <> n -> R s (clear_iter it it2 s).
  Proof. intros H1 H2. unfold clear_iter. destruct (Nat.eqb it it2); eauto. Qed.

  Lemma pres_loop it it2 ac b rv fc fs items :
    it <> n -> it2 <> n -> ac <> n -> pres fc -> pres fs ->
    forall a, pres (sloop C it it2 ac b rv fc fs items a).
  Proof.
    intros H1 H2 H3 Hc Hs. induction items as [|kv items IH]; intros a s; cbn [sloop].
    - cbn [after]. eapply Rtrans; [apply (Rset ac); auto|]. now apply R_clear_iter.
    - eapply after_from; [apply (Rset ac a); auto|].
      apply after_bind; [apply after_incr|]. intros _ s2.
      eapply after_from; [apply Rloop|].
      eapply after_from; [apply (R_set_iter it it2 b rv kv); auto|].
      apply after_bind; [apply Hc|]. intros c s3. destruct (loop_condition c) as [r|g].
      + cbn [after]. eapply Rtrans; [apply (R_clear_iter it it2); auto|]. auto.
      + destruct (negb g && sc C).
        * try apply after_val. 
        * try (apply after_bind; [apply Hs|]; intros; apply IH).
  Qed.

  Lemma pres_seval r : forall lz, touch allow n i r ->
    (forall j, j <> i -> pres (lz j)) ->
    (allow = true -> pres (fun s => seval C (RLazy n i) lz s)) ->
    pres (seval C r lz).
  Proof.
    induction r using rcore_ind'; intros lz Ht Hl Ha s; cbn [seval].
    - apply after_val.
    - apply after_lift.
    - unfold read_slot. destruct (e_slots s n0); cbn [after]; auto.
    - cbn [touch] in Ht. destruct Ht as [(Hal & -> & ->)|[Hk Hj]]; [apply (Ha Hal)|].
      destruct (e_slots s n0); [apply after_val|].
      eapply after_from; [apply (Rinit i0); auto|]. apply after_bind; [apply Hl; auto|].
      intros; cbn [after]; auto.
    - destruct Ht. apply after_bind; [apply IHr1; auto|]. intros x s1.
      destruct (sc C && decides op (fst x)); [apply after_val|].
      apply after_bind; [apply IHr2; auto|]. intros; apply after_val.
    - destruct Ht as (?&?&?). apply after_bind; [apply IHr1; auto|]. intros x s1.
      destruct (sc C).
      + destruct (BoolCheck x); [apply after_val|].
        destruct (is_true (fst x)); [apply IHr2|apply IHr3]; auto.
      + apply after_bind; [apply IHr2; auto|]. intros. apply after_bind; [apply IHr3; auto|].
        intros; apply after_val.
    - destruct Ht. apply after_bind; [apply IHr1; auto|]. intros x s1.
      destruct (if sc C then _ else _); [apply after_val|].
      apply after_bind; [apply IHr2; auto|]. intros; apply after_val.
    - fold (seval_list (fun x => seval C x lz)). apply (touch_app allow n i op) in Ht.
      apply after_bind; [|intros; apply after_op].
      revert s. induction H as [|x l Hx Hls IH]; intros s; cbn [seval_list]; [apply after_val|].
      fold (seval_list (fun x => seval C x lz)).
      apply Forall_cons_iff in Ht. destruct Ht.
      apply after_bind; [apply Hx; auto|]. intros v s1. apply after_bind; [apply IH; auto|].
      intros; apply after_val.
    - destruct Ht as ((?&?&?)&?&?&?&?&?). apply after_bind; [apply IHr1; auto|]. intros rv s1.
      destruct (comp_init C rv) as [|[b items]]; [apply after_val|].
      apply after_bind; [apply IHr2; auto|]. intros iv s2.
      apply after_bind; [apply pres_loop; auto|]. intros [o|] s3; [apply after_val|].
      apply after_bind; [apply IHr5; auto|]. intros; cbn [after]; auto.
    - destruct Ht as ((?&?)&?&?). apply after_bind.
      + apply IHr2; auto.
        * intros j Hj. unfold set_lz. destruct (Nat.eqb_spec j i0); [|auto].
          intros s0. apply IHr1; auto.
        * intros Hal s0. cbn [seval]. unfold set_lz. destruct (Nat.eqb_spec i i0); [congruence|].
          apply (Ha Hal s0).
      + intros; cbn [after]; auto.
  Qed.
End Pres.

(* ---- the allocator's programs ---- *)

Definition apart (allow : bool) (n i : nat) (v : option vref) : Prop :=
  match v with
  | Some (LLazy k j) => (allow = true /\ k = n /\ j = i) \/ (k <> n /\ j <> i)
  | _ => True
  end.
Definition subs_len (s : alloc_state) : nat := List.length (al_subs s).
Lemma grows_subs a b : grows a b -> (subs_len a <= subs_len b)%nat.
Proof. intros (_ & _ & x & H). unfold subs_len. rewrite H, app_length. lia. Qed.
Lemma grows_next' a b : grows a b -> (al_next a <= al_next b)%nat.
Proof. now intros (H & _). Qed.

Ltac ag E Hs G Hs' := destruct (alloc_grows _ _ _ _ _ _ E Hs) as (G & Hs' & _).

Lemma alloc_touch allow n i e : forall ii scp s r s',
  alloc ii scp e s = (r, s') -> sane s -> (n < al_next s)%nat ->
  (i < subs_len s)%nat \/ (subs_len s' <= i)%nat ->
  (forall x, reads x e = true -> apart allow n i (lookup_slot scp x)) ->
  touch allow n i r.
Proof.
  induction e using core_ind'; intros ii scp s r s' E Hsn Hn Hi Hr.
  - injection E as <- <-. exact I.
  - cbn [alloc] in E. specialize (Hr n0). cbn [reads] in Hr. rewrite String.eqb_refl in Hr.
    specialize (Hr eq_refl). destruct (lookup_slot scp n0) as [[]|]; injection E as <- <-; cbn [touch]; auto.
  - injection E as <- <-. exact I.
  - cbn [alloc] in E. pair_destruct. injection E as <- <-.
    ag E0 Hsn G0 Hs1. ag E1 Hs1 G1 Hs2.
    pose proof (grows_next' _ _ G0). pose proof (grows_subs _ _ G0). pose proof (grows_subs _ _ G1).
    split; [eapply IHe1|eapply IHe2]; eauto; try lia; intros x Hx; apply Hr; cbn [reads]; rewrite Hx;
      auto using orb_true_r.
  - cbn [alloc] in E. pair_destruct. injection E as <- <-.
    ag E0 Hsn G0 Hs1. ag E1 Hs1 G1 Hs2. ag E2 Hs2 G2 Hs3.
    pose proof (grows_next' _ _ G0). pose proof (grows_subs _ _ G0). pose proof (grows_subs _ _ G1).
    pose proof (grows_next' _ _ G1). pose proof (grows_subs _ _ G2).
    split; [|split]; [eapply IHe1|eapply IHe2|eapply IHe3]; eauto; try lia;
      intros x Hx; apply Hr; cbn [reads]; rewrite Hx; auto using orb_true_r.
    now rewrite orb_true_r.
  - cbn [alloc] in E. pair_destruct. injection E as <- <-.
    ag E0 Hsn G0 Hs1. ag E1 Hs1 G1 Hs2.
    pose proof (grows_next' _ _ G0). pose proof (grows_subs _ _ G0). pose proof (grows_subs _ _ G1).
    split; [eapply IHe1|eapply IHe2]; eauto; try lia; intros x Hx; apply Hr; cbn [reads]; rewrite Hx;
      auto using orb_true_r.
  - rewrite alloc_app in E. destruct (alloc_list ii scp args s) as [rs s1] eqn:E1.
    injection E as <- <-. apply touch_app.
    assert (Hr' : forall x a, In a args -> reads x a = true -> apart allow n i (lookup_slot scp x)).
    { intros x a Ha Hx. apply Hr. rewrite reads_app, existsb_exists. eauto. }
    clear Hr. revert s rs s1 E1 Hsn Hn Hi.
    induction H as [|x l Hx Hl IH]; intros s rs s1 E1 Hsn Hn Hi; cbn [alloc_list] in E1.
    + injection E1 as <- <-. constructor.
    + destruct (alloc ii scp x s) as [rx sx] eqn:Ex. destruct (alloc_list ii scp l sx) as [rl sl] eqn:El.
      injection E1 as <- <-. ag Ex Hsn G0 Hs1.
      assert (G1 : grows sx sl).
      { clear - El Hs1. revert sx rl sl El Hs1. induction l as [|y l IH]; intros sx rl sl El Hs1; cbn [alloc_list] in El.
        - injection El as <- <-. apply grows_refl.
        - destruct (alloc ii scp y sx) as [ry sy] eqn:Ey.
          destruct (alloc_list ii scp l sy) as [rl' sl'] eqn:El'. injection El as <- <-.
          ag Ey Hs1 G1 Hs2. eapply grows_trans; [exact G1|eauto]. }
      pose proof (grows_next' _ _ G0). pose proof (grows_subs _ _ G0). pose proof (grows_subs _ _ G1).
      constructor.
      * eapply Hx; eauto; [lia|]. intros z Hz. apply (Hr' z x); auto. now left.
      * eapply IH; eauto; try lia. intros z a Ha. apply Hr'. now right.
  - cbn [alloc] in E. pair_destruct. injection E as <- Es.
    match goal with H : alloc _ _ e1 (ReserveSlots ?k s) = _ |- _ => set (sR := ReserveSlots k s) in * end.
    assert (G : grows s sR) by apply grows_reserve.
    assert (Hs0 : sane sR) by (unfold sR, sane, ReserveSlots; cbn [al_next al_max]; lia).
    ag E0 Hs0 G0 Hs1. ag E1 Hs1 G1 Hs2. ag E2 Hs2 G2 Hs3. ag E3 Hs3 G3 Hs4. ag E4 Hs4 G4 Hs5.
    assert (Hs' : subs_len s' = subs_len s4) by (rewrite <- Es; destruct ii; reflexivity).
    pose proof (grows_next' _ _ G) as N. pose proof (grows_next' _ _ G0) as N0.
    pose proof (grows_next' _ _ G1) as N1. pose proof (grows_next' _ _ G2) as N2.
    pose proof (grows_next' _ _ G3) as N3.
    pose proof (grows_subs _ _ G) as S0. pose proof (grows_subs _ _ G0) as S1.
    pose proof (grows_subs _ _ G1) as S2. pose proof (grows_subs _ _ G2) as S3.
    pose proof (grows_subs _ _ G3) as S4. pose proof (grows_subs _ _ G4) as S5.
    cbn [reads] in Hr.
    assert (Hloop : forall z, reads z e3 || reads z e4 = true ->
      apart allow n i (lookup_slot ((x, LSlot (al_next s)) ::
         (if negb (String.eqb x2 "") then [(x2, LSlot (if negb (String.eqb x2 "") then S (al_next s) else al_next s))] else [])
         ++ (y, LSlot (S (if negb (String.eqb x2 "") then S (al_next s) else al_next s))) :: scp) z)).
    { intros z Hz. cbn [lookup_slot]. destruct (String.eqb x z) eqn:Ex; [exact I|].
      assert (Hy : (String.eqb y z = false -> (negb (String.eqb x2 "") && String.eqb x2 z) = false ->
                    apart allow n i (lookup_slot scp z))).
      { intros Ey E2'. apply Hr. rewrite Ex, E2', Ey. cbn [orb negb andb].
        rewrite Hz. now rewrite orb_true_r. }
      destruct (String.eqb x2 "") eqn:Ee; cbn [negb app lookup_slot andb] in *.
      - destruct (String.eqb y z) eqn:Ey; [exact I|auto].
      - destruct (String.eqb x2 z); [exact I|]. destruct (String.eqb y z) eqn:Ey; [exact I|auto]. }
    cbn [touch]. split; [|split; [|split; [|split; [|split]]]].
    + destruct (negb (String.eqb x2 "")); lia.
    + eapply IHe1; eauto; try lia. intros z Hz. apply Hr. now rewrite Hz.
    + eapply IHe2; eauto; try lia. intros z Hz. apply Hr. rewrite Hz. now rewrite orb_true_r.
    + eapply IHe3; eauto; try lia. intros z Hz. apply Hloop. now rewrite Hz.
    + eapply IHe4; eauto; try lia. intros z Hz. apply Hloop. now rewrite Hz, orb_true_r.
    + eapply IHe5; eauto; try lia. intros z Hz. cbn [lookup_slot].
      destruct (String.eqb y z) eqn:Ey; [exact I|]. apply Hr. rewrite Hz, Ey. cbn [negb andb].
      now rewrite orb_true_r.
  - cbn [alloc] in E. pair_destruct. injection E as <- Es.
    assert (G : grows s (ReserveSlots 1 s)) by apply grows_reserve.
    assert (Hs0 : sane (ReserveSlots 1 s)) by (unfold sane, ReserveSlots; cbn [al_next al_max]; lia).
    ag E0 Hs0 G0 Hs1.
    assert (Gx : grows s0 (extract r0 s0)) by apply grows_extract.
    assert (Hsx : sane (extract r0 s0)) by exact Hs1.
    ag E1 Hsx G1 Hs2.
    assert (Hs' : subs_len s' = subs_len s1) by (rewrite <- Es; destruct ii; reflexivity).
    pose proof (grows_next' _ _ G) as N. pose proof (grows_next' _ _ G0) as N0.
    pose proof (grows_next' _ _ Gx) as N1.
    pose proof (grows_subs _ _ G) as S0. pose proof (grows_subs _ _ G0) as S1.
    pose proof (grows_subs _ _ Gx) as S2. pose proof (grows_subs _ _ G1) as S3.
    assert (Hx : subs_len (extract r0 s0) = S (subs_len s0))
      by (unfold subs_len, extract; cbn [al_subs]; rewrite app_length; cbn; lia).
    cbn [reads] in Hr. cbn [touch]. fold (subs_len s0).
    split; [split; lia|split].
    + eapply IHe1; eauto; try lia. intros z Hz. apply Hr. now rewrite Hz.
    + eapply IHe2; eauto; try lia. intros z Hz. cbn [lookup_slot].
      destruct (String.eqb y z) eqn:Ey; [cbn [apart]; fold (subs_len s0); right; split; lia|].
      apply Hr. rewrite Hz, Ey. cbn [negb andb]. now rewrite orb_true_r.
Qed.

(* ---- counting ---- *)

Section Count.
  Variables (C : config) (n i : nat).
  Definition same (s s' : est) : Prop :=
    e_slots s' n = e_slots s n /\ inits_of i s' = inits_of i s.
  Definition bound (s : est) : nat :=
    (inits_of i s + match e_slots s n with None => 1 | Some _ => 0 end)%nat.
  Definition once (s s' : est) : Prop :=
    (inits_of i s <= inits_of i s')%nat /\ (bound s' <= bound s)%nat.

  Lemma get_ne k x (s : est) : k <> n -> slot_set k x (e_slots s) n = e_slots s n.
  Proof. intros H. unfold slot_set. destruct (Nat.eqb_spec n k); congruence. Qed.
  Lemma same_once s s' : same s s' -> once s s'.
  Proof. intros [H1 H2]. unfold once, bound. rewrite H1, H2. lia. Qed.

  Lemma neutral_seval lz r : touch false n i r -> (forall j, j <> i -> pres same same (lz j)) ->
    pres same same (seval C r lz).
  Proof.
    intros Ht Hl. apply (pres_seval C false n i same same); auto; unfold same;
      try (intros; split; reflexivity).
    - intros a b c [H1 H2] [H3 H4]. split; congruence.
    - intros a b c [H1 H2] [H3 H4]. split; congruence.
    - intros k x s Hk. cbn [set_slot e_slots]. rewrite get_ne; auto.
    - intros k s Hk. cbn [clear_slot e_slots]. rewrite get_ne; auto.
    - intros j s Hj. split; [reflexivity|]. unfold inits_of. cbn [count_init e_inits count_occ].
      destruct (Nat.eq_dec j i); [congruence|reflexivity].
    - discriminate.
  Qed.
  Definition once_err (s s' : est) : Prop :=
    (inits_of i s <= inits_of i s' <= bound s)%nat.
  Lemma once_seval lz r : touch true n i r -> (forall j, j <> i -> pres once once_err (lz j)) ->
    pres same same (lz i) -> pres once once_err (seval C r lz).
  Proof.
    intros Ht Hl Hi. apply (pres_seval C true n i once once_err); auto.
    - intros a b [H1 H2]. unfold once_err. unfold bound in *. destruct (e_slots b n); lia.
    - intros a b c [H1 H2] H3. unfold once_err in *. lia.
    - intros s. apply same_once. split; reflexivity.
    - intros a b c [H1 H2] [H3 H4]. split; lia.
    - intros k x s Hk. apply same_once. split; [|reflexivity]. cbn [set_slot e_slots]. now rewrite get_ne.
    - intros k s Hk. apply same_once. split; [|reflexivity]. cbn [clear_slot e_slots]. now rewrite get_ne.
    - intros l s. apply same_once. split; reflexivity.
    - intros s. apply same_once. split; reflexivity.
    - intros j s Hj. apply same_once. split; [reflexivity|].
      unfold inits_of. cbn [count_init e_inits count_occ]. destruct (Nat.eq_dec j i); [congruence|reflexivity].
    - intros z s. apply same_once. split; reflexivity.
    - intros _ s. cbn [seval]. destruct (e_slots s n) eqn:En; [apply same_once; split; reflexivity|].
      specialize (Hi (count_init i s)).
      assert (Hc : inits_of i (count_init i s) = S (inits_of i s)).
      { unfold inits_of. cbn [count_init e_inits count_occ]. destruct (Nat.eq_dec i i); congruence. }
      destruct (lz i (count_init i s)) as [x s1|e s1|w|]; cbn [rbind after] in *; auto.
      + destruct Hi as [H1 H2]. rewrite Hc in H2. unfold once, bound. rewrite En.
        cbn [set_slot e_slots]. unfold slot_set. rewrite Nat.eqb_refl.
        change (inits_of i (set_slot n x s1)) with (inits_of i s1). lia.
      + destruct Hi as [H1 H2]. rewrite Hc in H2. unfold once_err, bound. rewrite En. lia.
  Qed.
End Count.

Definition inits_after (i : nat) (r : res vt) : nat :=
  match r with RVal _ s | RErr _ s => inits_of i s | _ => 0%nat end.

Lemma no_lazy_pres R RE j : pres R RE (no_lazy j).
Proof. intros s. exact I. Qed.

Lemma bind_inits C y e1 e2 :
  let k := KBind y e1 e2 in
  (inits_after (root_index k) (seval C (resolved k) no_lazy est_init) <=
   if reads y e2 then 1 else 0)%nat.
Proof.
  intros k. unfold root_index, resolved, k. cbn [alloc].
  destruct (alloc true [] e1 (ReserveSlots 1 (mkAlloc 0 0 []))) as [r1 s1] eqn:E1.
  destruct (alloc false [(y, LLazy (al_next (mkAlloc 0 0 [])) (List.length (al_subs s1)))] e2
             (extract r1 s1)) as [r2 s2] eqn:E2. cbn [fst seval al_next].
  set (i := List.length (al_subs s1)) in *. cbn [al_next] in *.
  assert (Hs0 : sane (ReserveSlots 1 (mkAlloc 0 0 []))) by (unfold sane; cbn; lia).
  ag E1 Hs0 G1 Hs1. assert (Hx : sane (extract r1 s1)) by exact Hs1. ag E2 Hx G2 Hs2.
  assert (Hlen : subs_len (extract r1 s1) = S i)
    by (unfold subs_len, extract; cbn [al_subs]; rewrite app_length; cbn; lia).
  assert (Hnx : (0 < al_next (extract r1 s1))%nat).
  { pose proof (grows_next' _ _ G1) as N. cbn in N |- *. lia. }
  assert (Hi : pres (same 0 i) (same 0 i) (seval C r1 no_lazy)).
  { apply neutral_seval; [|intros; apply no_lazy_pres].
    eapply alloc_touch; [exact E1|exact Hs0|cbn; lia| |intros; exact I].
    right. unfold subs_len. lia. }
  assert (Hb : forall s, match seval C r2 (set_lz i (seval C r1 no_lazy) no_lazy) s with
                         | RVal _ s' | RErr _ s' =>
                             (inits_of i s' <= inits_of i s + if reads y e2 then 1 else 0)%nat
                         | _ => True end).
  { intros s. destruct (reads y e2) eqn:Er.
    - pose proof (once_seval C 0 i (set_lz i (seval C r1 no_lazy) no_lazy) r2) as H.
      assert (Ht : touch true 0 i r2).
      { eapply alloc_touch; [exact E2|exact Hx|exact Hnx|lia|]. intros x _. cbn [lookup_slot].
        destruct (String.eqb y x); [left; auto|exact I]. }
      specialize (H Ht).
      assert (H' : pres (once 0 i) (once_err 0 i) (seval C r2 (set_lz i (seval C r1 no_lazy) no_lazy))).
      { apply H.
        - intros j Hj. unfold set_lz. destruct (Nat.eqb_spec j i); [congruence|apply no_lazy_pres].
        - unfold set_lz. now rewrite Nat.eqb_refl. }
      specialize (H' s). destruct (seval C r2 _ s); cbn [after] in H'; auto.
      + destruct H' as [_ H']. unfold bound in H'. destruct (e_slots s 0%nat), (e_slots s0 0%nat); lia.
      + unfold once_err, bound in H'. destruct (e_slots s 0%nat); lia.
    - assert (Ht : touch false 0 i r2).
      { eapply alloc_touch; [exact E2|exact Hx|exact Hnx|lia|]. intros x Hxr. cbn [lookup_slot].
        destruct (String.eqb y x) eqn:Ey; [apply String.eqb_eq in Ey; congruence|exact I]. }
      assert (H' : pres (same 0 i) (same 0 i) (seval C r2 (set_lz i (seval C r1 no_lazy) no_lazy))).
      { apply neutral_seval; [exact Ht|].
        intros j Hj. unfold set_lz. destruct (Nat.eqb_spec j i); [congruence|apply no_lazy_pres]. }
      specialize (H' s). destruct (seval C r2 _ s); cbn [after] in H'; auto; destruct H'; lia. }
  specialize (Hb est_init). destruct (seval C r2 _ est_init); cbn [rbind inits_after] in *; auto; lia.
Qed.
