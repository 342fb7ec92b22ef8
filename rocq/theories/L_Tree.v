(* The structural semantics of a planned expression is the reference semantics
   of the expression, when no bind reuses a slot that a short-circuited
   comprehension can leave set. *)
From Coq Require Import ZArith List Bool String Lia.
From Verif Require Import Base M_Overflow M_Number M_Attr M_Value M_Logic M_Expr M_Plan M_Machine
  S_Eval L_Seval L_Alloc L_Safe.
Import ListNotations.
Open Scope list_scope.
Open Scope Z_scope.

(* a bind whose initialiser may be pending: its slot, the end of the slots of
   its initialiser, its index, the initialiser's outcome *)
Record lrec := mkRec { l_lo : nat; l_size : nat; l_idx : nat; l_out : out vt }.
Definition l_hi (l : lrec) : nat := S (l_lo l + l_size l).
Lemma lo_hi l : (l_lo l < l_hi l)%nat.
Proof. unfold l_hi. lia. Qed.
Definition Wof (w : list lrec) (k : nat) : Prop :=
  exists l, In l w /\ (l_lo l <= k < l_hi l)%nat.

Section Tree.
  Variable C : config.
  Variable B : nat -> Prop.

  Definition rec_inv (s : est) (l : lrec) : Prop :=
    (e_slots s (l_lo l) = None \/ exists v, e_slots s (l_lo l) = Some v /\ l_out l = Val v) /\
    forall k, (l_lo l < k < l_hi l)%nat -> B k -> e_slots s k = None.
  Definition Inv (w : list lrec) (V : nat -> vt -> Prop) (O : nat -> Prop) (s : est) : Prop :=
    (forall l, In l w -> rec_inv s l) /\
    (forall k v, V k v -> e_slots s k = Some v) /\
    (forall k, O k -> B k -> e_slots s k = None).
  Definition WO (w : list lrec) (O : nat -> Prop) (k : nat) : Prop := Wof w k \/ O k.

  Definition gives {A} (w : list lrec) (V : nat -> vt -> Prop) (O : nat -> Prop) (s : est)
      (r : res A) (o : out A) : Prop :=
    match o with
    | Val x => exists s', r = RVal x s' /\ Inv w V O s' /\ frame_on (WO w O) s s'
    | Err e => exists s', r = RErr e s'
    | UB => r = RUB
    end.
  Definition comp_ok {A} (w : list lrec) (V : nat -> vt -> Prop) (O : nat -> Prop)
      (f : est -> res A) (o : out A) : Prop :=
    forall s, Inv w V O s -> gives w V O s (f s) o.

  (* pending initialisers compute their outcome *)
  Fixpoint lazies (V : nat -> vt -> Prop) (w : list lrec) (lz : nat -> comp) : Prop :=
    match w with
    | [] => True
    | l :: w' =>
        (forall k, Wof w' k -> (k < l_lo l)%nat) /\
        (exists V' : nat -> vt -> Prop, (forall k v, V' k v -> V k v) /\
           comp_ok w' V' (fun k => (l_lo l < k < l_hi l)%nat) (lz (l_idx l)) (l_out l)) /\
        lazies V w' lz
    end.
  Lemma lazies_mono (V V2 : nat -> vt -> Prop) w lz :
    (forall k v, V k v -> V2 k v) -> lazies V w lz -> lazies V2 w lz.
  Proof.
    intros HV. induction w as [|l w IH]; cbn [lazies]; auto.
    intros (H2 & (V' & H3 & H4) & H5). repeat split; auto. exists V'. auto.
  Qed.
  Lemma lazies_lz V w lz lz' :
    (forall l, In l w -> lz' (l_idx l) = lz (l_idx l)) -> lazies V w lz -> lazies V w lz'.
  Proof.
    induction w as [|l w IH]; cbn [lazies]; auto. intros He (H2 & (V' & H3 & H4) & H5).
    repeat split; auto.
    - exists V'. split; auto. rewrite He; auto. now left.
    - apply IH; auto. intros m Hm. apply He. now right.
  Qed.

  (* using a pending initialiser *)
  Lemma lazy_use (V : nat -> vt -> Prop) (O : nat -> Prop) w lz l :
    lazies V w lz -> In l w ->
    (forall k v, V k v -> ~ Wof w k) -> (forall k, O k -> ~ Wof w k) ->
    comp_ok w V O (fun s => match e_slots s (l_lo l) with
                            | Some x => RVal x s
                            | None => rbind (lz (l_idx l) (count_init (l_idx l) s)) (fun x s1 => RVal x (set_slot (l_lo l) x s1))
                            end) (l_out l).
  Proof.
    intros Hl Hin HV HO s HI.
    assert (Hrec : rec_inv s l) by (now apply HI).
    destruct Hrec as [[Hn|(v & Hv & Ho)] Hr].
    2: { rewrite Hv, Ho. cbn [gives]. exists s. split; auto. split; [auto|apply frame_refl]. }
    rewrite Hn.
    apply in_split in Hin. destruct Hin as (w1 & w2 & ->).
    (* facts about the split *)
    assert (Hsplit : (forall m, In m w1 -> (l_hi l <= l_lo m)%nat) /\
              (l_lo l < l_hi l)%nat /\ (forall k, Wof w2 k -> (k < l_lo l)%nat) /\
              exists V' : nat -> vt -> Prop, (forall k v, V' k v -> V k v) /\
                comp_ok w2 V' (fun k => (l_lo l < k < l_hi l)%nat) (lz (l_idx l)) (l_out l)).
    { clear - Hl. induction w1 as [|m w1 IH]; cbn [app lazies] in Hl.
      - destruct Hl as (H2 & H3 & H4). split; [intros m []|]. auto using lo_hi.
      - destruct Hl as (H2 & H3 & H4). destruct (IH H4) as (G1 & G2 & G3).
        split; auto. intros m' [<-|Hm']; auto.
        destruct (Nat.le_gt_cases (l_hi l) (l_lo m)) as [|Hlt]; auto.
        specialize (H2 (l_hi l - 1)%nat).
        assert (Wof (w1 ++ l :: w2) (l_hi l - 1)).
        { pose proof (lo_hi l). exists l. split; [apply in_or_app; right; now left|lia]. }
        specialize (H2 H). lia. }
    destruct Hsplit as (Hup & Hlt & Hdown & V' & HV' & Hok).
    destruct HI as (I1 & I2 & I3).
    assert (HI2 : Inv w2 V' (fun k => (l_lo l < k < l_hi l)%nat) s).
    { repeat split; auto.
      - apply I1. apply in_or_app. right. now right.
      - apply I1. apply in_or_app. right. now right. }
    specialize (Hok (count_init (l_idx l) s) HI2). unfold gives in *.
    destruct (l_out l) as [x|e|] eqn:Eo.
    - destruct Hok as (s1 & -> & (J1 & J2 & J3) & Hf). cbn [rbind].
      exists (set_slot (l_lo l) x s1). split; [reflexivity|].
      assert (Hf' : forall k, ~ Wof (w1 ++ l :: w2) k -> e_slots (set_slot (l_lo l) x s1) k = e_slots s k).
      { intros k Hk. cbn [set_slot e_slots]. unfold slot_set.
        destruct (Nat.eqb_spec k (l_lo l)) as [->|].
        - exfalso. apply Hk. exists l. split; [apply in_or_app; right; now left|lia].
        - apply Hf. intros [(m & Hm & Hr')|Hr'].
          + apply Hk. exists m. split; [apply in_or_app; right; now right|auto].
          + apply Hk. exists l. split; [apply in_or_app; right; now left|lia]. }
      split.
      + assert (Habove : forall k, (l_hi l <= k)%nat -> e_slots (set_slot (l_lo l) x s1) k = e_slots s k).
        { intros k Hk. cbn [set_slot e_slots]. unfold slot_set.
          destruct (Nat.eqb_spec k (l_lo l)); [lia|]. apply Hf.
          intros [Hw|Hw]; [specialize (Hdown k Hw)|]; lia. }
        split; [|split].
        * intros m Hm. apply in_app_or in Hm. destruct Hm as [Hm|[<-|Hm]].
          -- specialize (Hup m Hm). assert (Hm' : rec_inv s m) by (apply I1, in_or_app; now left).
             destruct Hm' as [M1 M2]. split.
             ++ rewrite Habove by lia. exact M1.
             ++ intros k Hk Hb. rewrite Habove by lia. auto.
          -- split.
             ++ right. exists x. cbn [set_slot e_slots]. unfold slot_set. rewrite Nat.eqb_refl. auto.
             ++ intros k Hk Hb. cbn [set_slot e_slots]. unfold slot_set.
                destruct (Nat.eqb_spec k (l_lo l)); [lia|]. now apply J3.
          -- assert (Hwm : forall k, (l_lo m <= k < l_hi m)%nat -> (k < l_lo l)%nat).
             { intros k Hk. apply Hdown. exists m. auto. }
             destruct (J1 m Hm) as [M1 M2].
             assert (Hne : forall k, (l_lo m <= k < l_hi m)%nat ->
                       e_slots (set_slot (l_lo l) x s1) k = e_slots s1 k).
             { intros k Hk. specialize (Hwm k Hk). cbn [set_slot e_slots]. unfold slot_set.
               destruct (Nat.eqb_spec k (l_lo l)); [lia|reflexivity]. }
             split.
             ++ rewrite Hne by (pose proof (lo_hi m); lia). exact M1.
             ++ intros k Hk Hb. rewrite Hne by lia. auto.
        * intros k v Hv. rewrite Hf'; eauto.
        * intros k Hk Hb. rewrite Hf'; auto.
      + intros k Hk. apply Hf'. intros Hw. apply Hk. now left.
    - destruct Hok as (s1 & ->). cbn [rbind]. eauto.
    - rewrite Hok. reflexivity.
  Qed.

  (* ---- weakening and sequencing ---- *)

  Lemma comp_weaken {A} w (V V2 : nat -> vt -> Prop) (O O2 : nat -> Prop) (f : est -> res A) o :
    (forall k v, V k v -> V2 k v) -> (forall k, O k -> O2 k) ->
    (forall k v, V2 k v -> ~ WO w O k) -> (forall k, O2 k -> ~ Wof w k) ->
    comp_ok w V O f o -> comp_ok w V2 O2 f o.
  Proof.
    intros HV HO DV DO H s (I1 & I2 & I3).
    assert (HI : Inv w V O s) by (repeat split; auto; try apply I1; auto).
    specialize (H s HI). unfold gives in *. destruct o as [x|e|]; auto.
    destruct H as (s' & -> & (J1 & J2 & J3) & Hf). exists s'. split; auto. split.
    - split; [exact J1|]. split.
      + intros k v Hk. rewrite (Hf k); eauto.
      + intros k Hk Hb. destruct (e_slots s' k) eqn:E; auto.
        assert (Hc : ~ ~ WO w O k).
        { intros Hn. rewrite (Hf k Hn), I3 in E; auto. discriminate. }
        exfalso. apply Hc. intros [Hw|Ho]; [exact (DO k Hk Hw)|].
        rewrite (J3 k Ho Hb) in E. discriminate.
    - eapply frame_mono; [|exact Hf]. intros k [Hk|Hk]; [left|right]; auto.
  Qed.

  Lemma comp_bind {A A2} w V O (f : est -> res A) o (g : A -> est -> res A2) (h : A -> out A2) :
    comp_ok w V O f o -> (forall a, o = Val a -> comp_ok w V O (g a) (h a)) ->
    comp_ok w V O (fun s => rbind (f s) g) (obind o h).
  Proof.
    intros Hf Hg s HI. specialize (Hf s HI). unfold gives in Hf. destruct o as [a|e|]; cbn [obind].
    - destruct Hf as (s1 & -> & HI1 & F1). cbn [rbind]. specialize (Hg a eq_refl s1 HI1).
      unfold gives in *. destruct (h a) as [b|e|]; auto.
      destruct Hg as (s2 & E & HI2 & F2). exists s2. split; auto. split; auto.
      eapply frame_trans; eauto.
    - destruct Hf as (s1 & ->). cbn [rbind gives]. eauto.
    - rewrite Hf. reflexivity.
  Qed.
  Lemma comp_val {A} w V O (a : A) : comp_ok w V O (fun s => RVal a s) (Val a).
  Proof. intros s HI. exists s. split; auto. split; auto. apply frame_refl. Qed.
  Lemma comp_lift {A} w V O (o : out A) : comp_ok w V O (fun s => rlift o s) o.
  Proof.
    intros s HI. destruct o; cbn [rlift gives]; eauto. exists s. split; auto. split; auto.
    apply frame_refl.
  Qed.
  Lemma Inv_log w V O l s : Inv w V O s -> Inv w V O (add_log l s).
  Proof. exact (fun h => h). Qed.
  Lemma comp_op w V O op args : comp_ok w V O (fun s => do_op C op args s) (apply_op C op args).
  Proof.
    intros s HI. unfold do_op. destruct (apply_op C op args); cbn [rlift gives]; eauto.
    exists (add_log (op_invokes C op args) s). split; auto. split; [exact HI|].
    intros k _. reflexivity.
  Qed.

  (* ---- binds do not reuse leaked slots ---- *)

  Definition const_true (r : rcore) : bool :=
    match r with RConst (VBool true) => true | _ => false end.
  (* every bind slot is in B; the iteration slots of a comprehension that can
     be left early by its condition are not *)
  Fixpoint clean (r : rcore) : Prop :=
    match r with
    | RConst _ | RVar _ | RSlot _ _ | RLazy _ _ => True
    | RLogic _ a b | ROr _ a b => clean a /\ clean b
    | RCond c a b => clean c /\ clean a /\ clean b
    | RApp _ args => (fix go l := match l with [] => True | x :: l' => clean x /\ go l' end) args
    | RComp it it2 ac r i c s b =>
        (sc C = true -> const_true c = false -> ~ B it /\ ~ B it2) /\
        clean r /\ clean i /\ clean c /\ clean s /\ clean b
    | RBind n _ i b => B n /\ clean i /\ clean b
    end.
  Lemma clean_app op args : clean (RApp op args) <-> Forall clean args.
  Proof.
    cbn [clean]. induction args as [|x l IH]; [split; auto|].
    rewrite Forall_cons_iff, <- IH. reflexivity.
  Qed.

  Hypothesis Hmax : o_max_iterations (cf_opts C) = 0.

  (* ---- the loop ---- *)
  Section TreeLoop.
    Variables (w : list lrec) (V : nat -> vt -> Prop) (O1 : nat -> Prop).
    Variables (it it2 ac : nat) (is_map : bool) (t : trail) (fc fs fr : comp).
    Variables (ec es : value * value -> vt -> out vt) (er : vt -> out vt).
    Definition first_it (kv : value * value) : vt :=
      if Nat.eqb it it2 then iter_one C is_map t kv else fst (iter_two C t kv).
    Definition second_it (kv : value * value) : vt :=
      if Nat.eqb it it2 then iter_one C is_map t kv else snd (iter_two C t kv).
    Definition VL (kv : value * value) (accu : vt) (k : nat) (v : vt) : Prop :=
      V k v \/ (k = it /\ v = first_it kv) \/ (k = it2 /\ v = second_it kv) \/ (k = ac /\ v = accu).
    Definition VR (accu : vt) (k : nat) (v : vt) : Prop := V k v \/ (k = ac /\ v = accu).
    Hypothesis Hfc : forall kv accu, comp_ok w (VL kv accu) O1 fc (ec kv accu).
    Hypothesis Hfs : forall kv accu, comp_ok w (VL kv accu) O1 fs (es kv accu).
    Hypothesis Hfr : forall accu, comp_ok w (VR accu) O1 fr (er accu).
    Hypothesis Hne : it <> ac. Hypothesis Hne2 : it2 <> ac.
    Let T k := k = it \/ k = it2 \/ k = ac.
    Hypothesis HTW : forall k, T k -> ~ Wof w k.
    Hypothesis HTO : forall k, T k -> ~ O1 k.
    Hypothesis HTV : forall k v, T k -> ~ V k v.
    Hypothesis HVO : forall k v, V k v -> ~ WO w O1 k.
    Let O2 k := O1 k \/ T k.
    (* either the condition never stops the loop, or the iteration slots may
       stay set *)
    Hypothesis Hleak : sc C = false \/ (forall kv accu, ec kv accu = Val (VBool true, None)) \/
                       (~ B it /\ ~ B it2).

    Lemma T_dec k : T k \/ ~ T k.
    Proof. unfold T. lia. Qed.
    Lemma Inv_change (V1 V2 : nat -> vt -> Prop) s s' :
      Inv w V1 O1 s -> frame_on T s s' -> (forall k v, V2 k v -> e_slots s' k = Some v) ->
      Inv w V2 O1 s'.
    Proof.
      intros (I1 & I2 & I3) Hf HV2. split; [|split; auto].
      - intros l Hl. destruct (I1 l Hl) as [M1 M2]. 
        split.
        + destruct (T_dec (l_lo l)) as [Ht|Ht]; [|rewrite (Hf _ Ht); exact M1].
          (* the region starts at a loop slot: it would be empty *)
          exfalso. apply (HTW _ Ht). exists l. split; auto. pose proof (lo_hi l). lia.
        + intros k Hk Hb. destruct (T_dec k) as [Ht|Ht]; [|rewrite (Hf _ Ht); auto].
          exfalso. apply (HTW _ Ht). exists l. split; auto. lia.
      - intros k Ho Hb. destruct (T_dec k) as [Ht|Ht]; [exfalso; exact (HTO k Ht Ho)|].
        rewrite (Hf _ Ht). auto.
    Qed.
    Lemma get_set k x s : e_slots (set_slot k x s) k = Some x.
    Proof. cbn [set_slot e_slots]. unfold slot_set. now rewrite Nat.eqb_refl. Qed.
    Lemma get_set_ne k j x s : j <> k -> e_slots (set_slot k x s) j = e_slots s j.
    Proof. intros H. cbn [set_slot e_slots]. unfold slot_set. destruct (Nat.eqb_spec j k); [congruence|reflexivity]. Qed.
    Lemma get_clear k s : e_slots (clear_slot k s) k = None.
    Proof. cbn [clear_slot e_slots]. unfold slot_set. now rewrite Nat.eqb_refl. Qed.
    Lemma get_clear_ne k j s : j <> k -> e_slots (clear_slot k s) j = e_slots s j.
    Proof. intros H. cbn [clear_slot e_slots]. unfold slot_set. destruct (Nat.eqb_spec j k); [congruence|reflexivity]. Qed.
    Lemma get_clear_iter s :
      e_slots (clear_iter it it2 s) it = None /\ e_slots (clear_iter it it2 s) it2 = None /\
      e_slots (clear_iter it it2 s) ac = e_slots s ac.
    Proof.
      unfold clear_iter. destruct (Nat.eqb_spec it it2) as [<-|E].
      - rewrite get_clear, get_clear_ne by auto. auto.
      - rewrite get_clear. rewrite (get_clear_ne it2 it) by auto. rewrite get_clear.
        rewrite !get_clear_ne by auto. auto.
    Qed.
    Lemma get_set_iter kv s :
      e_slots (set_iter C it it2 is_map t kv s) it = Some (first_it kv) /\
      e_slots (set_iter C it it2 is_map t kv s) it2 = Some (second_it kv) /\
      e_slots (set_iter C it it2 is_map t kv s) ac = e_slots s ac.
    Proof.
      unfold set_iter, first_it, second_it. destruct (Nat.eqb_spec it it2) as [<-|E].
      - rewrite get_set, get_set_ne by auto. auto.
      - destruct (iter_two C t kv) as [x1 x2]. cbn [fst snd]. rewrite get_set.
        rewrite (get_set_ne it2 it) by auto. rewrite get_set.
        rewrite !get_set_ne by auto. auto.
    Qed.
    Lemma frame_T {s s'} : frame_on T s s' -> frame_on (WO w O2) s s'.
    Proof. apply frame_mono. intros k Hk. right. now right. Qed.
    Lemma frame_1 {s s'} : frame_on (WO w O1) s s' -> frame_on (WO w O2) s s'.
    Proof. apply frame_mono. intros k [Hk|Hk]; [now left|right; now left]. Qed.
    Lemma Inv_final (V1 : nat -> vt -> Prop) s :
      Inv w V1 O1 s -> (forall k v, V k v -> V1 k v) ->
      (forall k, T k -> B k -> e_slots s k = None) -> Inv w V O2 s.
    Proof.
      intros (I1 & I2 & I3) HV HT. split; [auto|]. split; [auto|].
      intros k [Hk|Hk] Hb; auto.
    Qed.
    Lemma tree_result accu s :
      Inv w (VR accu) O1 s -> (B it -> e_slots s it = None) -> (B it2 -> e_slots s it2 = None) ->
      gives w V O2 s (rbind (fr s) (fun x s4 => RVal x (clear_slot ac s4))) (er accu).
    Proof.
      intros HI H1 H2. specialize (Hfr accu s HI). unfold gives in *.
      destruct (er accu) as [x|e|]; auto.
      - destruct Hfr as (s1 & -> & HI1 & F1). cbn [rbind]. exists (clear_slot ac s1).
        split; [reflexivity|].
        assert (Fc : frame_on T s1 (clear_slot ac s1)) by (apply frame_clear; unfold T; auto).
        split.
        + eapply Inv_final with (V1 := V); auto.
          * eapply Inv_change; [exact HI1|exact Fc|]. intros k v Hv.
            rewrite Fc; [|intros Ht; exact (HTV k v Ht Hv)].
            destruct HI1 as (_ & HI1 & _). apply HI1. now left.
          * intros k Hk Hb. destruct (Nat.eq_dec k ac) as [->|Hka]; [apply get_clear|].
            rewrite get_clear_ne by auto.
            assert (Hn : ~ WO w O1 k) by (intros [Hx|Hx]; [exact (HTW k Hk Hx)|exact (HTO k Hk Hx)]).
            rewrite (F1 k Hn). destruct Hk as [->|[->| ->]]; auto. congruence.
        + eapply frame_trans; [exact (frame_1 F1)|exact (frame_T Fc)].
      - destruct Hfr as (s1 & ->). cbn [rbind]. eauto.
      - rewrite Hfr. reflexivity.
    Qed.

    Definition loop_then (items : list (value * value)) (accu : vt) (s : est) : res vt :=
      rbind (sloop C it it2 ac is_map t fc fs items accu s)
        (fun o s3 => match o with
                     | Some r => RVal r s3
                     | None => rbind (fr s3) (fun x s4 => RVal x (clear_slot ac s4))
                     end).
    Lemma gives_frame {A} s s' (r : res A) o :
      frame_on (WO w O2) s s' -> gives w V O2 s' r o -> gives w V O2 s r o.
    Proof.
      intros Hf. unfold gives. destruct o; auto. intros (s1 & E & HI & F1).
      exists s1. split; auto. split; auto. eapply frame_trans; eauto.
    Qed.
    Lemma tree_loop items : forall accu s,
      Inv w V O1 s -> gives w V O2 s (loop_then items accu s) (eval_loop (sc C) ec es er items accu).
    Proof.
      induction items as [|kv items IH]; intros accu s HI; unfold loop_then; cbn [sloop eval_loop];
        cbv zeta.
      - cbn [rbind].
        assert (F1 : frame_on T s (clear_iter it it2 (set_slot ac accu s))).
        { eapply frame_trans; [apply frame_set|apply frame_clear_iter]; unfold T; auto. }
        destruct (get_clear_iter (set_slot ac accu s)) as (G1 & G2 & G3).
        eapply gives_frame; [exact (frame_T F1)|]. apply tree_result; auto.
        eapply Inv_change; [exact HI|exact F1|]. intros k v [Hv|[-> ->]].
        + rewrite F1; [|intros Ht; exact (HTV k v Ht Hv)]. now apply HI.
        + rewrite G3. apply get_set.
      - unfold IncrementIterations. rewrite Hmax. cbn [Z.eqb rbind].
        set (s1 := set_iter C it it2 is_map t kv (count_loop (set_slot ac accu s))).
        assert (F1 : frame_on T s s1).
        { eapply frame_trans; [apply (frame_set T ac accu); unfold T; auto|].
          eapply frame_trans; [|apply frame_set_iter; unfold T; auto]. intros k _. reflexivity. }
        destruct (get_set_iter kv (count_loop (set_slot ac accu s))) as (G1 & G2 & G3).
        fold s1 in G1, G2, G3.
        assert (HI1 : Inv w (VL kv accu) O1 s1).
        { eapply Inv_change; [exact HI|exact F1|].
          intros k v [Hv|[[-> ->]|[[-> ->]|[-> ->]]]]; auto.
          - rewrite F1; [|intros Ht; exact (HTV k v Ht Hv)]. now apply HI.
          - rewrite G3. apply get_set. }
        clearbody s1. pose proof (Hfc kv accu s1 HI1) as Hc. unfold gives in Hc.
        destruct (ec kv accu) as [c|e|] eqn:Ec; cbn [obind].
        2: { destruct Hc as (s2 & ->). cbn [rbind gives]. eauto. }
        2: { rewrite Hc. reflexivity. }
        destruct Hc as (s2 & -> & HI2 & F2). cbn [rbind].
        assert (F2' : frame_on (WO w O2) s s2).
        { eapply frame_trans; [exact (frame_T F1)|exact (frame_1 F2)]. }
        eapply gives_frame; [exact F2'|].
        destruct (loop_condition c) as [r|go_on] eqn:Elc; cbn [rbind].
        + cbn [gives]. eexists. split; [reflexivity|].
          assert (F3 : frame_on T s2 (clear_slot ac (clear_iter it it2 s2))).
          { eapply frame_trans; [apply frame_clear_iter|apply frame_clear]; unfold T; auto. }
          split; [|exact (frame_T F3)].
          eapply Inv_final with (V1 := V); auto.
          * eapply Inv_change; [exact HI2|exact F3|]. intros k v Hv.
            rewrite F3; [|intros Ht; exact (HTV k v Ht Hv)]. apply HI2. now left.
          * destruct (get_clear_iter s2) as (K1 & K2 & K3).
            intros k Hk _. destruct (Nat.eq_dec k ac) as [->|Hka]; [apply get_clear|].
            rewrite get_clear_ne by auto. destruct Hk as [->|[->| ->]]; auto. congruence.
        + destruct (negb go_on && sc C) eqn:Es; cbn [rbind].
          * apply andb_true_iff in Es. destruct Es as [Es1 Es2].
            destruct Hleak as [Hk|[Hk|[Hk1 Hk2]]].
            -- congruence.
            -- rewrite Hk in Ec. injection Ec as <-. cbn in Elc. injection Elc as <-. discriminate.
            -- apply tree_result; [|tauto|tauto].
               destruct HI2 as (J1 & J2 & J3). split; auto. split; auto.
               intros k v [Hv|Hv]; apply J2; unfold VL; tauto.
          * pose proof (Hfs kv accu s2 HI2) as Hs. unfold gives in Hs.
            destruct (es kv accu) as [a|e|]; cbn [obind].
            2: { destruct Hs as (s3 & ->). cbn [rbind gives]. eauto. }
            2: { rewrite Hs. reflexivity. }
            destruct Hs as (s3 & -> & HI3 & F3). cbn [rbind].
            eapply gives_frame; [exact (frame_1 F3)|]. apply IH.
            destruct HI3 as (J1 & J2 & J3). split; auto. split; auto.
            intros k v Hv. apply J2. now left.
    Qed.
  End TreeLoop.

  (* ---- expressions ---- *)

  Definition agree (scp : scope) (w : list lrec) (V : nat -> vt -> Prop) (rho : env) : Prop :=
    forall x, match lookup_slot scp x with
              | None => rho x = None
              | Some (LSlot k) => exists v, rho x = Some (Val v) /\ V k v
              | Some (LLazy k i) =>
                  exists l, In l w /\ l_lo l = k /\ l_idx l = i /\ rho x = Some (l_out l)
              end.
  Lemma agree_bind scp w (V V2 : nat -> vt -> Prop) rho x k v :
    agree scp w V rho -> (forall k v, V k v -> V2 k v) -> V2 k v ->
    agree ((x, LSlot k) :: scp) w V2 (bind_local x (Val v) rho).
  Proof.
    intros Ha HV Hk y. unfold bind_local. cbn [lookup_slot].
    destruct (String.eqb x y); [eauto|]. specialize (Ha y).
    destruct (lookup_slot scp y) as [[q|q i]|]; auto.
    destruct Ha as (u & H1 & H2). eauto.
  Qed.

  Definition side (s : alloc_state) (w : list lrec) (V : nat -> vt -> Prop) (lz : nat -> comp) : Prop :=
    (forall k, Wof w k -> (k < al_next s)%nat) /\
    (forall k v, V k v -> (k < al_next s)%nat /\ ~ Wof w k) /\
    lazies V w lz /\
    (forall l, In l w -> (l_idx l < List.length (al_subs s))%nat).
  Lemma side_grows s s' w V lz : grows s s' -> side s w V lz -> side s' w V lz.
  Proof.
    intros (G1 & _ & x & G3) (H1 & H2 & H3 & H4). split; [|split; [|split]]; auto.
    - intros k Hk. specialize (H1 k Hk). lia.
    - intros k v Hk. destruct (H2 k v Hk). split; [lia|auto].
    - intros l Hl. rewrite G3, app_length. specialize (H4 l Hl). lia.
  Qed.

  Definition tree_ok (e : core) : Prop := forall ii scp s r s' w V lz rho,
    alloc ii scp e s = (r, s') -> sane s -> clean r -> agree scp w V rho -> side s w V lz ->
    comp_ok w V (owns ii s s') (seval C r lz) (eval C e rho).
  (* widening the owned range *)
  Lemma own_weaken {A} (a b c d : alloc_state) ii w V lz (f : est -> res A) o :
    side a w V lz -> grows a b -> grows c d ->
    comp_ok w V (owns ii b c) f o -> comp_ok w V (owns ii a d) f o.
  Proof.
    intros (H1 & H2 & H3 & H4) G1 G2. apply comp_weaken; auto.
    - intros k. now apply owns_sub.
    - intros k v Hk [Hw|[Ho _]]; destruct (H2 k v Hk) as [Hx Hy]; [auto|].
      pose proof (grows_next _ _ G1). lia.
    - intros k [Ho _] Hw. specialize (H1 k Hw). lia.
  Qed.

  Lemma tree e : tree_ok e.
  Proof.
    induction e using core_ind'; intros ii scp s r s' w V lz rho H0 Hs Hcl Hag Hsd.
    - injection H0 as <- <-. apply comp_val.
    - cbn [alloc] in H0. specialize (Hag n). cbn [eval].
      destruct (lookup_slot scp n) as [[k|k i]|]; injection H0 as <- <-; cbn [seval].
      + destruct Hag as (v & -> & Hv). intros st HI. unfold read_slot.
        assert (E : e_slots st k = Some v) by (now apply HI). rewrite E.
        cbn [gives]. exists st. split; auto. split; auto. apply frame_refl.
      + destruct Hag as (l & Hl & <- & <- & ->). destruct Hsd as (H1 & H2 & H3 & H4).
        apply lazy_use; auto.
        * intros k v Hk. now apply H2 in Hk.
        * intros k [Ho _] Hw. specialize (H1 k Hw). lia.
      + rewrite Hag. apply comp_lift.
    - injection H0 as <- <-. apply comp_lift.
    - cbn [alloc] in H0. pair_destruct. injection H0 as <- <-. destruct Hcl as [C1 C2].
      edestruct (alloc_grows e1) as (G1 & S1 & N1); eauto.
      edestruct (alloc_grows e2) as (G2 & S2 & N2); eauto.
      cbn [seval eval]. apply comp_bind.
      + eapply (own_weaken s s s0 s1); eauto using grows_refl.
      + intros x _. destruct (sc C && decides op (fst x)); [apply comp_val|].
        apply comp_bind; [|intros; apply comp_val].
        eapply (own_weaken s s0 s1 s1); eauto using grows_refl.
        eapply IHe2; eauto using side_grows.
    - cbn [alloc] in H0. pair_destruct. injection H0 as <- <-. destruct Hcl as (C1 & C2 & C3).
      edestruct (alloc_grows e1) as (G1 & S1 & N1); eauto.
      edestruct (alloc_grows e2) as (G2 & S2 & N2); eauto.
      edestruct (alloc_grows e3) as (G3 & S3 & N3); eauto.
      assert (K2 : comp_ok w V (owns ii s s2) (seval C r1 lz) (eval C e2 rho)).
      { eapply (own_weaken s s0 s1 s2); eauto. eapply IHe2; eauto using side_grows. }
      assert (K3 : comp_ok w V (owns ii s s2) (seval C r2 lz) (eval C e3 rho)).
      { eapply (own_weaken s s1 s2 s2); eauto using grows_refl, grows_trans.
        eapply IHe3; eauto using side_grows, grows_trans. }
      cbn [seval eval]. apply comp_bind.
      + eapply (own_weaken s s s0 s2); eauto using grows_refl, grows_trans.
      + intros x _. destruct (sc C).
        * destruct (BoolCheck x); [apply comp_val|]. destruct (is_true (fst x)); auto.
        * apply comp_bind; [exact K2|]. intros y _. apply comp_bind; [exact K3|].
          intros z _. apply comp_val.
    - cbn [alloc] in H0. pair_destruct. injection H0 as <- <-. destruct Hcl as [C1 C2].
      edestruct (alloc_grows e1) as (G1 & S1 & N1); eauto.
      edestruct (alloc_grows e2) as (G2 & S2 & N2); eauto.
      cbn [seval eval]. apply comp_bind.
      + eapply (own_weaken s s s0 s1); eauto using grows_refl.
      + intros x _. destruct (if sc C then OptionalJump k x else None); [apply comp_val|].
        apply comp_bind; [|intros; apply comp_val].
        eapply (own_weaken s s0 s1 s1); eauto using grows_refl.
        eapply IHe2; eauto using side_grows.
    - rewrite alloc_app in H0. pair_destruct. injection H0 as <- <-.
      apply clean_app in Hcl. cbn [seval eval]. fold (seval_list (fun x => seval C x lz)).
      apply comp_bind; [|intros vs _; apply comp_op].
      revert s r0 s0 E Hs Hsd Hcl.
      induction H as [|x l Hx Hl IH]; intros s r0 s0 E Hs Hsd Hcl; cbn [alloc_list] in E.
      + injection E as <- <-. apply comp_val.
      + fold (alloc_list ii scp) in E. pair_destruct. injection E as <- <-.
        apply Forall_cons_iff in Hcl. destruct Hcl as [C1 C2].
        destruct (alloc_grows _ _ _ _ _ _ E0 Hs) as (G1 & S1 & N1).
        assert (G2 : grows s1 s2).
        { pose proof (alloc_grows (KApp OIndex l) ii scp s1 (RApp OIndex r1) s2) as G.
          rewrite alloc_app, E1 in G. destruct (G eq_refl S1) as (G2 & _). exact G2. }
        cbn [seval_list eval_list]. fold (seval_list (fun x => seval C x lz)).
        fold (eval_list (fun x => eval C x rho)).
        apply comp_bind.
        * eapply (own_weaken s s s1 s2); eauto using grows_refl.
        * intros v _. apply comp_bind; [|intros; apply comp_val].
          eapply (own_weaken s s1 s2 s2); eauto using grows_refl.
          eapply IH; eauto using side_grows.
    - cbn [alloc] in H0. cbv zeta in H0.
      set (two := negb (String.eqb x2 "")) in *.
      set (k := if two then 3%nat else 2%nat) in *.
      set (j := if two then S (al_next s) else al_next s) in *.
      assert (Hk : (2 <= k)%nat) by (unfold k; destruct two; lia).
      assert (Hj : (al_next s <= j)%nat /\ (S j < al_next s + k)%nat)
        by (unfold j, k; destruct two; lia).
      assert (Htwo : Nat.eqb (al_next s) j = negb two).
      { unfold j. destruct two; cbn [negb]; [apply Nat.eqb_neq; lia|apply Nat.eqb_refl]. }
      clearbody k j.
      pair_destruct. injection H0 as <- <-. destruct Hcl as (Hlk & C1 & C2 & C3 & C4 & C5).
      assert (Hs0 : sane (ReserveSlots k s)).
      { unfold sane, ReserveSlots; cbn [al_next al_max]. lia. }
      assert (G0 : grows s (ReserveSlots k s)) by apply grows_reserve.
      edestruct (alloc_grows e1) as (G1 & S1 & N1); eauto.
      edestruct (alloc_grows e2) as (G2 & S2 & N2); eauto.
      edestruct (alloc_grows e3) as (G3 & S3 & N3); eauto.
      edestruct (alloc_grows e4) as (G4 & S4 & N4); eauto.
      edestruct (alloc_grows e5) as (G5 & S5 & N5); eauto.
      set (fin := if ii then s4 else release_to (al_next s) s4) in *.
      assert (Hown : forall q, owns ii s fin q <-> owns ii s s4 q).
      { intros q. unfold owns, fin. destruct ii; [tauto|]. split; intros [? ?]; split; auto; discriminate. }
      clearbody fin.
      assert (Hfin : forall A (f : est -> res A) o,
                comp_ok w V (owns ii s s4) f o -> comp_ok w V (owns ii s fin) f o).
      { intros A f o Hc. eapply comp_weaken; [| | | |exact Hc]; auto.
        - intros q. apply Hown.
        - destruct Hsd as (_ & H2 & _). intros q v Hq [Hw|[Hw _]]; destruct (H2 q v Hq); [auto|lia].
        - destruct Hsd as (H1 & _). intros q [Hq _] Hw. specialize (H1 q Hw). lia. }
      assert (X0 : al_next (ReserveSlots k s) = (al_next s + k)%nat) by reflexivity.
      pose proof (grows_next _ _ G1) as X1. pose proof (grows_next _ _ G2) as X2.
      pose proof (grows_next _ _ G3) as X3. pose proof (grows_next _ _ G4) as X4.
      pose proof (grows_next _ _ G5) as X5. rewrite X0 in X1.
      cbn [seval eval]. apply Hfin. apply comp_bind.
      + eapply (own_weaken s (ReserveSlots k s) s0 s4); eauto 6 using grows_trans.
        eapply IHe1; eauto using side_grows.
      + intros rv _. destruct (comp_init C rv) as [r'|[b items]]; [apply comp_val|].
        apply comp_bind.
        * eapply (own_weaken s s0 s1 s4); eauto 6 using grows_trans.
          eapply IHe2; eauto 6 using side_grows, grows_trans.
        * intros iv _ st Hst.
          set (O1 := owns ii s1 s4).
          set (EL := fun kv accu => loop_env C x x2 y b (snd rv) kv accu rho).
          set (VLk := fun kv accu => VL V (al_next s) j (S j) b (snd rv) kv accu).
          assert (HsdL : forall kv accu, side s1 w (VLk kv accu) lz).
          { intros kv accu. destruct Hsd as (H1 & H2 & H3 & H4). split; [|split; [|split]].
            - intros q Hq. specialize (H1 q Hq). lia.
            - intros q v [Hq|[[-> _]|[[-> _]|[-> _]]]].
              + destruct (H2 q v Hq). split; [lia|auto].
              + split; [lia|]. intros Hw. specialize (H1 _ Hw). lia.
              + split; [lia|]. intros Hw. specialize (H1 _ Hw). lia.
              + split; [lia|]. intros Hw. specialize (H1 _ Hw). lia.
            - eapply lazies_mono; [|exact H3]. intros q v Hq. now left.
            - intros l Hl. specialize (H4 l Hl).
              assert (Gx : grows s s1) by eauto using grows_trans.
              destruct Gx as (_ & _ & z & ->). rewrite app_length. lia. }
          assert (HagL : forall kv accu,
                    agree ((x, LSlot (al_next s)) :: (if two then [(x2, LSlot j)] else [])
                           ++ (y, LSlot (S j)) :: scp) w (VLk kv accu) (EL kv accu)).
          { intros kv accu. unfold EL, loop_env.
            assert (A1 : agree ((y, LSlot (S j)) :: scp) w (VLk kv accu) (bind_local y (Val accu) rho)).
            { eapply agree_bind; [exact Hag| |]; unfold VLk, VL; tauto. }
            unfold two in *. destruct (String.eqb x2 ""); cbn [negb app] in *.
            - eapply agree_bind; [exact A1|auto|]. unfold VLk, VL, first_it. rewrite Htwo. tauto.
            - apply (agree_bind _ _ (VLk kv accu) (VLk kv accu)); auto.
              + apply (agree_bind _ _ (VLk kv accu) (VLk kv accu)); auto.
                unfold VLk, VL, second_it. rewrite Htwo. right; right; left. auto.
              + unfold VLk, VL, first_it. rewrite Htwo. right; left. auto. }
          set (VRk := fun accu => VR V (S j) accu).
          assert (HsdR : forall accu, side s3 w (VRk accu) lz).
          { intros accu. destruct Hsd as (H1 & H2 & H3 & H4). split; [|split; [|split]].
            - intros q Hq. specialize (H1 q Hq). lia.
            - intros q v [Hq|[-> _]].
              + destruct (H2 q v Hq). split; [lia|auto].
              + split; [lia|]. intros Hw. specialize (H1 _ Hw). lia.
            - eapply lazies_mono; [|exact H3]. intros q v Hq. now left.
            - intros l Hl. specialize (H4 l Hl).
              assert (Gx : grows s s3) by eauto 6 using grows_trans.
              destruct Gx as (_ & _ & z & ->). rewrite app_length. lia. }
          assert (HVO : forall q v kv accu, VLk kv accu q v -> ~ WO w O1 q).
          { intros q v kv accu Hq [Hw|[Ho _]]; destruct (HsdL kv accu) as (_ & H2 & _);
              destruct (H2 q v Hq); [auto|lia]. }
          assert (HO1 : forall q, O1 q -> ~ Wof w q).
          { intros q [Ho _] Hw. destruct Hsd as (H1 & _). specialize (H1 q Hw). lia. }
          assert (Kc : forall kv accu, comp_ok w (VLk kv accu) O1 (seval C r2 lz) (eval C e3 (EL kv accu))).
          { intros kv accu. eapply (own_weaken s1 s1 s2 s4); eauto using grows_refl, grows_trans. }
          assert (Ks : forall kv accu, comp_ok w (VLk kv accu) O1 (seval C r3 lz) (eval C e4 (EL kv accu))).
          { intros kv accu. eapply (own_weaken s1 s2 s3 s4); eauto.
            eapply IHe4; eauto using side_grows. }
          assert (Kr : forall accu, comp_ok w (VRk accu) O1 (seval C r4 lz)
                         (eval C e5 (bind_local y (Val accu) rho))).
          { intros accu. eapply (own_weaken s1 s3 s4 s4); eauto using grows_refl, grows_trans.
            - destruct (HsdL (VNull, VNull) accu) as (H1 & H2 & H3 & H4). split; [auto|].
              split; [|split].
              + intros q v [Hq|[-> ->]]; (eapply H2; unfold VLk, VL); [left; eauto|tauto].
              + destruct Hsd as (_ & _ & H5 & _). eapply lazies_mono; [|exact H5].
                intros q v Hq. now left.
              + auto.
            - eapply IHe5; eauto. eapply agree_bind; [exact Hag| |]; unfold VRk, VR; tauto. }
          assert (Hleak : sc C = false \/
                    (forall kv accu, eval C e3 (EL kv accu) = Val (VBool true, None)) \/
                    (~ B (al_next s) /\ ~ B j)).
          { destruct (sc C) eqn:Esc; [right|now left].
            destruct (const_true r2) eqn:Ect; [left|right; now apply Hlk].
            intros kv accu. destruct r2 as [v| | | | | | | | |]; try discriminate.
            destruct v as [|[]| | | | | | | | | | | | |]; try discriminate.
            clear - E1. destruct e3; cbn [alloc] in E1.
            - injection E1 as <- <-. reflexivity.
            - destruct (lookup_slot _ _) as [[]|]; discriminate.
            - discriminate.
            - pair_destruct. discriminate.
            - pair_destruct. discriminate.
            - pair_destruct. discriminate.
            - fold (alloc_list ii ((x, LSlot (al_next s)) :: (if two then [(x2, LSlot j)] else [])
                           ++ (y, LSlot (S j)) :: scp)) in E1. pair_destruct. discriminate.
            - cbv zeta in E1. pair_destruct. discriminate.
            - cbv zeta in E1. pair_destruct. discriminate. }
          assert (HI1 : Inv w V O1 st).
          { destruct Hst as (I1 & I2 & I3). split; auto. split; auto.
            intros q [Hq1 Hq2] Hb. apply I3; auto. split; [lia|auto]. }
          pose proof (tree_loop w V O1 (al_next s) j (S j) b (snd rv) (seval C r2 lz)
            (seval C r3 lz) (seval C r4 lz)
            (fun kv accu => eval C e3 (EL kv accu)) (fun kv accu => eval C e4 (EL kv accu))
            (fun accu => eval C e5 (bind_local y (Val accu) rho)) Kc Ks Kr) as HT.
          assert (HT' : gives w V (fun q => O1 q \/ (q = al_next s \/ q = j \/ q = S j)) st
            (loop_then (al_next s) j (S j) b (snd rv) (seval C r2 lz) (seval C r3 lz)
               (seval C r4 lz) items iv st)
            (eval_loop (sc C) (fun kv accu => eval C e3 (EL kv accu))
               (fun kv accu => eval C e4 (EL kv accu))
               (fun accu => eval C e5 (bind_local y (Val accu) rho)) items iv)).
          { destruct Hsd as (H1 & H2 & H3 & H4).
            apply HT; auto; try lia.
            - intros q Hq Hw. specialize (H1 q Hw). lia.
            - intros q Hq [Ho _]. lia.
            - intros q v Hq Hv. destruct (H2 q v Hv). lia. }
          change (gives w V (owns ii s s4) st
            (loop_then (al_next s) j (S j) b (snd rv) (seval C r2 lz) (seval C r3 lz)
               (seval C r4 lz) items iv st)
            (eval_loop (sc C) (fun kv accu => eval C e3 (EL kv accu))
               (fun kv accu => eval C e4 (EL kv accu))
               (fun accu => eval C e5 (bind_local y (Val accu) rho)) items iv)).
          revert HT'. generalize (loop_then (al_next s) j (S j) b (snd rv) (seval C r2 lz) (seval C r3 lz)
               (seval C r4 lz) items iv st) as res0.
          generalize (eval_loop (sc C) (fun kv accu => eval C e3 (EL kv accu))
               (fun kv accu => eval C e4 (EL kv accu))
               (fun accu => eval C e5 (bind_local y (Val accu) rho)) items iv) as out0.
          intros out0 res0. unfold gives. destruct out0; auto.
          intros (st' & -> & (J1 & J2 & J3) & F). exists st'. split; auto.
          assert (Hoo : forall q, (O1 q \/ (q = al_next s \/ q = j \/ q = S j)) -> owns ii s s4 q).
          { intros q [[Hq1 Hq2]|Hq]; (split; [lia|]); intros E9; [specialize (Hq2 E9)|]; lia. }
          split.
          -- split; auto. split; auto. intros q Hq Hb.
             destruct (Nat.eq_dec q (al_next s)) as [->|n1]; [apply J3; tauto|].
             destruct (Nat.eq_dec q j) as [->|n2]; [apply J3; tauto|].
             destruct (Nat.eq_dec q (S j)) as [->|n3]; [apply J3; tauto|].
             destruct Hst as (I1 & I2 & I3).
             destruct (Nat.le_gt_cases (al_next s1) q) as [Hge|Hlt].
             ++ apply J3; auto. left. split; auto. apply Hq.
             ++ rewrite (F q); [apply I3; auto|].
                intros [Hw|[[Ho _]|Ho]]; [|lia|lia].
                destruct Hsd as (H1 & _). specialize (H1 q Hw). destruct Hq. lia.
          -- eapply frame_mono; [|exact F]. intros q [Hq|Hq]; [now left|right; auto].
    - cbn [alloc] in H0. cbv zeta in H0. pair_destruct. injection H0 as <- <-.
      destruct Hcl as (Hb & C1 & C2).
      assert (Hs0 : sane (ReserveSlots 1 s)).
      { unfold sane, ReserveSlots; cbn [al_next al_max]. lia. }
      assert (G0 : grows s (ReserveSlots 1 s)) by apply grows_reserve.
      edestruct (alloc_grows e1) as (G1 & S1 & N1); eauto.
      assert (Hs1 : sane (extract r0 s0)) by exact S1.
      edestruct (alloc_grows e2) as (G2 & S2 & N2); eauto.
      assert (X0 : al_next (ReserveSlots 1 s) = (al_next s + 1)%nat) by reflexivity.
      assert (X0' : al_next (extract r0 s0) = al_next s0) by reflexivity.
      pose proof (grows_next _ _ G1) as X1. pose proof (grows_next _ _ G2) as X2.
      set (fin := if ii then s1 else release_to (al_next s) s1) in *.
      assert (Hown : forall q, owns ii s fin q <-> owns ii s s1 q).
      { intros q. unfold owns, fin. destruct ii; [tauto|]. split; intros [? ?]; split; auto; discriminate. }
      clearbody fin.
      set (l := mkRec (al_next s) (al_next s0 - al_next s - 1) (List.length (al_subs s0)) (eval C e1 rho)).
      assert (Hhi : l_hi l = al_next s0) by (unfold l_hi, l; cbn [l_lo l_size]; lia).
      pose proof Hsd as (H1 & H2 & H3 & H4).
      assert (Ki : comp_ok w V (fun q => (al_next s < q < al_next s0)%nat) (seval C r0 lz) (eval C e1 rho)).
      { pose proof (IHe1 true scp _ _ _ w V lz rho E Hs0 C1 Hag (side_grows _ _ _ _ _ G0 Hsd)) as K.
        eapply comp_weaken; [| | | |exact K]; auto.
        - intros q [Hq1 Hq2]. specialize (Hq2 eq_refl). lia.
        - intros q v Hq [Hw|[Ho _]]; destruct (H2 q v Hq); [auto|lia].
        - intros q Hq Hw. specialize (H1 q Hw). lia. }
      assert (HW' : forall q, Wof (l :: w) q <-> (al_next s <= q < al_next s0)%nat \/ Wof w q).
      { intros q. split.
        - intros (m & [<-|Hm] & Hq).
          + left. rewrite Hhi in Hq. exact Hq.
          + right. exists m. auto.
        - intros [Hq|(m & Hm & Hq)].
          + exists l. split; [now left|]. rewrite Hhi. exact Hq.
          + exists m. split; [now right|auto]. }
      assert (Kb : comp_ok (l :: w) V (owns ii (extract r0 s0) s1)
                (seval C r1 (set_lz (List.length (al_subs s0)) (seval C r0 lz) lz))
                (eval C e2 (bind_local y (eval C e1 rho) rho))).
      { eapply IHe2; eauto.
        - intros z. unfold bind_local. cbn [lookup_slot]. destruct (String.eqb y z).
          + exists l. split; [now left|]. auto.
          + specialize (Hag z). destruct (lookup_slot scp z) as [[q|q i]|]; auto.
            destruct Hag as (m & Hm & Hm'). exists m. split; [now right|auto].
        - split; [|split; [|split]].
          + intros q Hq. apply HW' in Hq. destruct Hq as [Hq|Hq]; [|specialize (H1 q Hq)]; lia.
          + intros q v Hq. destruct (H2 q v Hq). split; [lia|]. rewrite HW'. intros [?|?]; [lia|auto].
          + cbn [lazies]. split; [|split].
            * exact H1.
            * exists V. split; auto. rewrite Hhi. cbn [l_lo l_idx l_out l]. unfold set_lz.
              rewrite Nat.eqb_refl. exact Ki.
            * eapply lazies_lz; [|exact H3]. intros m Hm. unfold set_lz.
              specialize (H4 m Hm). destruct G1 as (_ & _ & z & G1). 
              rewrite G1, app_length. cbn [ReserveSlots al_subs].
              destruct (Nat.eqb_spec (l_idx m) (List.length (al_subs s) + List.length z)); [lia|reflexivity].
          + intros m [<-|Hm]; cbn [extract al_subs]; rewrite app_length; cbn [List.length l_idx l].
            * lia.
            * specialize (H4 m Hm). destruct G1 as (_ & _ & z & ->). rewrite app_length.
              cbn [ReserveSlots al_subs]. lia. }
      intros st Hst. destruct Hst as (I1 & I2 & I3).
      assert (Hst' : Inv (l :: w) V (owns ii (extract r0 s0) s1) st).
      { split; [|split]; auto.
        - intros m [<-|Hm]; [|auto]. split.
          + left. apply I3; auto. apply Hown. split; [cbn [l_lo l]; lia|]. cbn [l_lo l]. lia.
          + rewrite Hhi. cbn [l_lo l]. intros q Hq Hbq. apply I3; auto. apply Hown.
            split; [lia|]. lia.
        - intros q [Hq1 Hq2] Hbq. apply I3; auto. apply Hown. split; [lia|auto]. }
      specialize (Kb st Hst'). cbn [seval eval]. unfold gives in *.
      destruct (eval C e2 (bind_local y (eval C e1 rho) rho)) as [v|er|].
      2: { destruct Kb as (st1 & ->). cbn [rbind]. eauto. }
      2: { now rewrite Kb. }
      destruct Kb as (st1 & -> & (J1 & J2 & J3) & F). cbn [rbind].
      exists (clear_slot (al_next s) st1). split; [reflexivity|].
      assert (Hnw : forall q, V q v \/ True -> True) by auto. clear Hnw.
      split.
      + split; [|split].
        * intros m Hm. assert (Hlt : forall q, (l_lo m <= q < l_hi m)%nat -> (q < al_next s)%nat).
          { intros q Hq. apply H1. exists m. auto. }
          destruct (J1 m (or_intror Hm)) as [M1 M2]. split.
          -- rewrite get_clear_ne; [exact M1|]. specialize (Hlt (l_lo m)). pose proof (lo_hi m). lia.
          -- intros q Hq Hbq. rewrite get_clear_ne; auto. specialize (Hlt q). lia.
        * intros q u Hq. destruct (H2 q u Hq). rewrite get_clear_ne by lia. auto.
        * intros q Hq Hbq. apply Hown in Hq. destruct (Nat.eq_dec q (al_next s)) as [->|Hne];
            [apply get_clear|]. rewrite get_clear_ne by auto.
          destruct (Nat.le_gt_cases (al_next s0) q) as [Hge|Hlt].
          -- apply J3; auto. split; [lia|apply Hq].
          -- destruct (J1 l (or_introl eq_refl)) as [M1 M2]. apply M2; auto. rewrite Hhi.
             cbn [l_lo l]. destruct Hq. lia.
      + intros q Hq. rewrite get_clear_ne.
        * apply F. intros [Hw|[Ho1 Ho2]].
          -- apply HW' in Hw. destruct Hw as [Hw|Hw]; apply Hq; [right|now left].
             apply Hown. split; lia.
          -- apply Hq. right. apply Hown. split; [lia|auto].
        * intros ->. apply Hq. right. apply Hown. split; [lia|]. lia.
  Qed.
End Tree.
