(* A structural semantics of resolved expressions that mirrors the iterative
   evaluator step for step, and the proof that the machine of M_Machine, run on
   the code of M_Plan, computes it. *)
From Coq Require Import ZArith List Bool String Lia.
From Verif Require Import Base M_Overflow M_Number M_Attr M_Value M_Logic M_Expr M_Plan M_Machine.
Import ListNotations.
Open Scope list_scope.
Open Scope Z_scope.

(* ---- induction on resolved expressions ---- *)

Section RcoreInd.
  Variable Q : rcore -> Prop.
  Hypothesis HConst : forall v, Q (RConst v).
  Hypothesis HVar : forall n, Q (RVar n).
  Hypothesis HSlot : forall x n, Q (RSlot x n).
  Hypothesis HLazy : forall n i, Q (RLazy n i).
  Hypothesis HLogic : forall op a b, Q a -> Q b -> Q (RLogic op a b).
  Hypothesis HCond : forall c a b, Q c -> Q a -> Q b -> Q (RCond c a b).
  Hypothesis HOr : forall k a b, Q a -> Q b -> Q (ROr k a b).
  Hypothesis HApp : forall op args, Forall Q args -> Q (RApp op args).
  Hypothesis HComp : forall it it2 ac r i c s b,
    Q r -> Q i -> Q c -> Q s -> Q b -> Q (RComp it it2 ac r i c s b).
  Hypothesis HBind : forall n i e b, Q e -> Q b -> Q (RBind n i e b).
  Fixpoint rcore_ind' (r : rcore) : Q r :=
    match r with
    | RConst v => HConst v
    | RVar n => HVar n
    | RSlot x n => HSlot x n
    | RLazy n i => HLazy n i
    | RLogic op a b => HLogic op a b (rcore_ind' a) (rcore_ind' b)
    | RCond c a b => HCond c a b (rcore_ind' c) (rcore_ind' a) (rcore_ind' b)
    | ROr k a b => HOr k a b (rcore_ind' a) (rcore_ind' b)
    | RApp op args =>
        HApp op args ((fix go l : Forall Q l :=
          match l with [] => Forall_nil _ | x :: l' => Forall_cons _ (rcore_ind' x) (go l') end) args)
    | RComp it it2 ac r i c s b =>
        HComp it it2 ac r i c s b (rcore_ind' r) (rcore_ind' i) (rcore_ind' c) (rcore_ind' s) (rcore_ind' b)
    | RBind n i e b => HBind n i e b (rcore_ind' e) (rcore_ind' b)
    end.
End RcoreInd.

Section CoreInd.
  Variable Q : core -> Prop.
  Hypothesis HConst : forall v, Q (KConst v).
  Hypothesis HVar : forall n, Q (KVar n).
  Hypothesis HGlobal : forall n, Q (KGlobal n).
  Hypothesis HLogic : forall op a b, Q a -> Q b -> Q (KLogic op a b).
  Hypothesis HCond : forall c a b, Q c -> Q a -> Q b -> Q (KCond c a b).
  Hypothesis HOr : forall k a b, Q a -> Q b -> Q (KOr k a b).
  Hypothesis HApp : forall op args, Forall Q args -> Q (KApp op args).
  Hypothesis HComp : forall x x2 y r i c s b,
    Q r -> Q i -> Q c -> Q s -> Q b -> Q (KComp x x2 y r i c s b).
  Hypothesis HBind : forall y e b, Q e -> Q b -> Q (KBind y e b).
  Fixpoint core_ind' (r : core) : Q r :=
    match r with
    | KConst v => HConst v
    | KVar n => HVar n
    | KGlobal n => HGlobal n
    | KLogic op a b => HLogic op a b (core_ind' a) (core_ind' b)
    | KCond c a b => HCond c a b (core_ind' c) (core_ind' a) (core_ind' b)
    | KOr k a b => HOr k a b (core_ind' a) (core_ind' b)
    | KApp op args =>
        HApp op args ((fix go l : Forall Q l :=
          match l with [] => Forall_nil _ | x :: l' => Forall_cons _ (core_ind' x) (go l') end) args)
    | KComp x x2 y r i c s b =>
        HComp x x2 y r i c s b (core_ind' r) (core_ind' i) (core_ind' c) (core_ind' s) (core_ind' b)
    | KBind y e b => HBind y e b (core_ind' e) (core_ind' b)
    end.
End CoreInd.

(* ---- the structural semantics ---- *)

Definition comp := est -> res vt.

Definition seval_list (f : rcore -> comp) :=
  fix go (l : list rcore) (s : est) : res (list vt) :=
    match l with
    | [] => RVal [] s
    | x :: l' => rbind (f x s) (fun v s1 => rbind (go l' s1) (fun vs s2 => RVal (v :: vs) s2))
    end.

Section Loop.
  Variables (C : config) (it it2 ac : nat) (is_map : bool) (t : trail) (fc fs : comp).
  Fixpoint sloop (items : list (value * value)) (accu : vt) (s : est) : res (option vt) :=
    let s1 := set_slot ac accu s in
    match items with
    | [] => RVal None (clear_iter it it2 s1)
    | kv :: items' =>
        rbind (IncrementIterations C s1) (fun _ s2 =>
        rbind (fc (set_iter C it it2 is_map t kv (count_loop s2))) (fun c s3 =>
        match loop_condition c with
        | inl r => RVal (Some r) (clear_slot ac (clear_iter it it2 s3))
        | inr b =>
            if negb b && sc C then RVal None s3
            else rbind (fs s3) (fun a s4 => sloop items' a s4)
        end))
    end.
End Loop.

Definition set_lz (i : nat) (f : comp) (lz : nat -> comp) : nat -> comp :=
  fun j => if Nat.eqb j i then f else lz j.

Fixpoint seval (C : config) (r : rcore) (lz : nat -> comp) (s : est) {struct r} : res vt :=
  match r with
  | RConst v => RVal (v, None) s
  | RVar name => rlift (LookupIdent C name) s
  | RSlot name n => read_slot name n s
  | RLazy n idx =>
      match e_slots s n with
      | Some x => RVal x s
      | None => rbind (lz idx (count_init idx s)) (fun x s1 => RVal x (set_slot n x s1))
      end
  | RLogic op a b =>
      rbind (seval C a lz s) (fun x s1 =>
      if sc C && decides op (fst x) then RVal x s1
      else rbind (seval C b lz s1) (fun y s2 =>
           RVal (Calculate (unk C) op (fst x) (fst y), None) s2))
  | RCond c a b =>
      rbind (seval C c lz s) (fun x s1 =>
      if sc C then
        match BoolCheck x with
        | Some r => RVal r s1
        | None => if is_true (fst x) then seval C a lz s1 else seval C b lz s1
        end
      else
        rbind (seval C a lz s1) (fun y s2 =>
        rbind (seval C b lz s2) (fun z s3 => RVal (TernaryStep C x y z) s3)))
  | ROr k a b =>
      rbind (seval C a lz s) (fun x s1 =>
      match (if sc C then OptionalJump k x else None) with
      | Some r => RVal r s1
      | None => rbind (seval C b lz s1) (fun y s2 => RVal (EvalOptionalOr k x y) s2)
      end)
  | RApp op args =>
      rbind (seval_list (fun x => seval C x lz) args s) (fun vs s1 => do_op C op vs s1)
  | RComp it it2 ac range init cond step res =>
      rbind (seval C range lz s) (fun rv s1 =>
      match comp_init C rv with
      | inl r => RVal r s1
      | inr (b, items) =>
          rbind (seval C init lz s1) (fun iv s2 =>
          rbind (sloop C it it2 ac b (snd rv) (seval C cond lz) (seval C step lz) items iv s2)
            (fun o s3 =>
             match o with
             | Some r => RVal r s3
             | None => rbind (seval C res lz s3) (fun x s4 => RVal x (clear_slot ac s4))
             end))
      end)
  | RBind n idx init res =>
      rbind (seval C res (set_lz idx (seval C init lz) lz) s)
        (fun x s1 => RVal x (clear_slot n s1))
  end.

(* ---- what the allocator guarantees ---- *)

(* every slot is below n, every bind's initialiser is the extracted
   subexpression of its index, and lazy reads refer to an enclosing bind (L) *)
Fixpoint wf (n : nat) (subs : list rcore) (L : list nat) (r : rcore) : Prop :=
  match r with
  | RConst _ | RVar _ => True
  | RSlot _ k => (k < n)%nat
  | RLazy k i => (k < n)%nat /\ In i L
  | RLogic _ a b | ROr _ a b => wf n subs L a /\ wf n subs L b
  | RCond c a b => wf n subs L c /\ wf n subs L a /\ wf n subs L b
  | RApp _ args => (fix go l := match l with [] => True | x :: l' => wf n subs L x /\ go l' end) args
  | RComp it it2 ac r i c s b =>
      (it < n /\ it2 < n /\ ac < n)%nat /\ wf n subs L r /\ wf n subs L i /\ wf n subs L c
      /\ wf n subs L s /\ wf n subs L b
  | RBind k i e b =>
      (k < n)%nat /\ nth_error subs i = Some e /\ wf n subs L e /\ wf n subs (i :: L) b
  end.
Lemma wf_app n subs L op args : wf n subs L (RApp op args) <-> Forall (wf n subs L) args.
Proof.
  cbn [wf]. induction args as [|x l IH].
  - split; intros _; auto.
  - rewrite Forall_cons_iff, <- IH. reflexivity.
Qed.

(* ---- the machine ---- *)

Definition Run (C : config) (P : program) (m : mstate) (t : turn) : Prop :=
  exists n, run C P n m = Some t.

Lemma Run_next C P m m' t : turn_of C P m = TNext m' -> Run C P m' t -> Run C P m t.
Proof. intros H [n Hn]. exists (S n). cbn [run]. now rewrite H. Qed.
Lemma Run_stop C P m t :
  turn_of C P m = t -> (forall m', t <> TNext m') -> Run C P m t.
Proof.
  intros H Hn. exists 1%nat. cbn [run]. rewrite H. destruct t; auto.
  exfalso; eapply Hn; eauto.
Qed.
Lemma run_det C P m n1 n2 t1 t2 :
  run C P n1 m = Some t1 -> run C P n2 m = Some t2 -> t1 = t2.
Proof.
  revert n2 m. induction n1 as [|n1 IH]; intros n2 m H1 H2; [discriminate|].
  destruct n2 as [|n2]; [discriminate|]. cbn [run] in *.
  destruct (turn_of C P m); try congruence. eauto.
Qed.

(* A segment of code at a position of a path. *)
Definition at_pos (P : program) (path pc : nat) (c : list step) : Prop :=
  exists p pre post, path_of P path = Some p /\ p = pre ++ c ++ post /\ List.length pre = pc.
Lemma at_pos_app P path pc c1 c2 :
  at_pos P path pc (c1 ++ c2) ->
  at_pos P path pc c1 /\ at_pos P path (pc + List.length c1) c2.
Proof.
  intros (p & pre & post & H1 & H2 & H3). split.
  - exists p, pre, (c2 ++ post). rewrite <- app_assoc in H2. auto.
  - exists p, (pre ++ c1), post. rewrite app_length, <- !app_assoc, H3.
    rewrite <- app_assoc in H2. auto.
Qed.
Lemma at_pos_size P path pc c :
  at_pos P path pc c ->
  exists p, path_of P path = Some p /\ (pc + List.length c <= List.length p)%nat.
Proof.
  intros (p & pre & post & H1 & H2 & H3). exists p. split; auto.
  subst p. rewrite !app_length. lia.
Qed.
Lemma at_pos_step P path pc i c :
  at_pos P path pc (i :: c) ->
  exists p, path_of P path = Some p /\ nth_error p pc = Some i
    /\ (S pc <= List.length p)%nat.
Proof.
  intros (p & pre & post & H1 & H2 & H3). exists p. split; auto. subst p. split.
  - rewrite nth_error_app2 by lia. rewrite H3, Nat.sub_diag. reflexivity.
  - rewrite !app_length. cbn [List.length]. lia.
Qed.

Definition adv (pc path : nat) (st : list vt) (its : list iterator) (cs : list frame) (s : est) :=
  mkM pc path st its cs s.

(* the turn of a given step *)
Lemma turn_step C P path pc i c st its cs s :
  at_pos P path pc (i :: c) ->
  exists p, path_of P path = Some p /\ (pc < List.length p)%nat /\
    turn_of C P (mkM pc path st its cs s) =
    exec C P (List.length p) i (mkM (S pc) path st its cs s).
Proof.
  intros H. destruct (at_pos_step _ _ _ _ _ H) as (p & H1 & H2 & H3).
  exists p. split; auto. split; [lia|]. unfold turn_of.
  cbn [m_path m_pc m_stack m_iters m_calls m_est]. now rewrite H1, H2.
Qed.

Lemma JumpTo_ok size pc path st its cs s off q :
  Z.of_nat q = Z.of_nat pc + off -> (q <= size)%nat ->
  JumpTo size (mkM pc path st its cs s) off = TNext (mkM q path st its cs s).
Proof.
  intros Hq Hs. unfold JumpTo. cbn [m_pc m_path m_stack m_iters m_calls m_est].
  rewrite <- Hq.
  destruct (Z.ltb_spec (Z.of_nat q) 0); [lia|].
  destruct (Z.ltb_spec (Z.of_nat size) (Z.of_nat q)); [lia|].
  cbn [orb]. now rewrite Nat2Z.id.
Qed.

(* What a computation does to the machine that runs its code: the machine run
   from here gives t when it gives t from where the computation leaves it. *)
Definition cont {A} (C : config) (P : program) (r : res A) (k : A -> est -> mstate) (t : turn)
    : Prop :=
  match r with
  | RVal a s => Run C P (k a s) t
  | RErr e s => t = TErr e s
  | RFault w => t = TFault w
  | RUB => t = TUB
  end.
Lemma cont_bind {A B} C P (r : res A) (f : A -> est -> res B) k t :
  cont C P (rbind r f) k t <->
  match r with
  | RVal a s => cont C P (f a s) k t
  | RErr e s => t = TErr e s
  | RFault w => t = TFault w
  | RUB => t = TUB
  end.
Proof. destruct r; cbn [rbind cont]; tauto. Qed.

(* code: simulation of a computation by a segment *)
Definition sim (C : config) (P : program) (f : comp) (c : list step) : Prop :=
  forall path pc st its cs s t,
    at_pos P path pc c ->
    cont C P (f s) (fun x s' => mkM (pc + List.length c) path (x :: st) its cs s') t ->
    Run C P (mkM pc path st its cs s) t.

(* an extracted subexpression in scope: its computation is that of its path *)
Definition lz_ok (C : config) (P : program) (subs : list rcore) (L : list nat) (lz : nat -> comp)
    : Prop :=
  forall i, In i L ->
    exists r, nth_error subs i = Some r /\ sim C P (lz i) (code (sc C) r).

Lemma cont_mono {A} C P (r : res A) (k k' : A -> est -> mstate) t :
  (forall a s, Run C P (k a s) t -> Run C P (k' a s) t) -> cont C P r k t -> cont C P r k' t.
Proof. destruct r; cbn [cont]; auto. Qed.

Fixpoint codes (b : bool) (l : list rcore) : list step :=
  match l with [] => [] | x :: l' => code b x ++ codes b l' end.
Lemma code_app b op args : code b (RApp op args) = codes b args ++ [SApp op (List.length args)].
Proof.
  cbn [code]. f_equal. induction args as [|x l IH]; [reflexivity|]. cbn [codes].
  now rewrite <- IH.
Qed.

Section Simulation.
  Variables (C : config) (P : program) (subs : list rcore) (n : nat).
  Hypothesis Hsubs : p_subs P = map (code (sc C)) subs.
  Hypothesis Hslots : p_slots P = n.

  Lemma sub_path i r : nth_error subs i = Some r -> path_of P (S i) = Some (code (sc C) r).
  Proof. intros H. cbn [path_of]. rewrite Hsubs. now apply map_nth_error. Qed.

  Lemma slot_ok_lt k : (k < n)%nat -> slot_ok P k = true.
  Proof. intros H. unfold slot_ok. rewrite Hslots. now apply Nat.ltb_lt. Qed.

  (* one plain step *)
  Lemma step_next path pc i c st its cs s m' t :
    at_pos P path pc (i :: c) ->
    (forall size, (pc < size)%nat ->
       (exists p, path_of P path = Some p /\ List.length p = size) ->
       exec C P size i (mkM (S pc) path st its cs s) = TNext m') ->
    Run C P m' t -> Run C P (mkM pc path st its cs s) t.
  Proof.
    intros Ha He Hr. destruct (turn_step C P path pc i c st its cs s Ha) as (p & H1 & H2 & H3).
    eapply Run_next; [|exact Hr]. rewrite H3. eapply He; eauto.
  Qed.
  Lemma step_lift {A} path pc i c st its cs s (r : res A) k t :
    at_pos P path pc (i :: c) ->
    (forall size, exec C P size i (mkM (S pc) path st its cs s)
                  = lift_turn r (fun a s' => TNext (k a s'))) ->
    cont C P r k t -> Run C P (mkM pc path st its cs s) t.
  Proof.
    intros Ha He Hr. destruct (turn_step C P path pc i c st its cs s Ha) as (p & H1 & H2 & H3).
    rewrite He in H3. destruct r; cbn [lift_turn cont] in *; subst.
    - eapply Run_next; eauto.
    - apply Run_stop; [auto|discriminate].
    - apply Run_stop; [auto|discriminate].
    - apply Run_stop; [auto|discriminate].
  Qed.

  Lemma Run_pc q q' path st its cs s t :
    q = q' -> Run C P (mkM q path st its cs s) t -> Run C P (mkM q' path st its cs s) t.
  Proof. now intros ->. Qed.

  Lemma sim_use f c path pc q st its cs s t :
    sim C P f c -> at_pos P path pc c -> q = (pc + List.length c)%nat ->
    cont C P (f s) (fun x s' => mkM q path (x :: st) its cs s') t ->
    Run C P (mkM pc path st its cs s) t.
  Proof. intros Hs Ha -> Hc. eapply Hs; eauto. Qed.

  Lemma cont_use f c path pc q st its cs s t (g : vt -> est -> mstate) :
    sim C P f c -> at_pos P path pc c -> q = (pc + List.length c)%nat ->
    (forall x s', Run C P (g x s') t -> Run C P (mkM q path (x :: st) its cs s') t) ->
    cont C P (f s) g t ->
    Run C P (mkM pc path st its cs s) t.
  Proof.
    intros Hs Ha Hq Hm Hc. eapply sim_use; eauto. eapply cont_mono; [|exact Hc]. auto.
  Qed.

  (* sequencing after a sub-computation *)
  Lemma seq_use {A} (f : comp) c path pc q st its cs s t (h : vt -> est -> res A) k :
    sim C P f c -> at_pos P path pc c -> q = (pc + List.length c)%nat ->
    (forall x s', cont C P (h x s') k t -> Run C P (mkM q path (x :: st) its cs s') t) ->
    cont C P (rbind (f s) h) k t ->
    Run C P (mkM pc path st its cs s) t.
  Proof.
    intros Hs Ha Hq Hm Hc. eapply sim_use; eauto.
    apply cont_bind in Hc. destruct (f s); cbn [cont] in *; auto.
  Qed.

  Lemma jump_to path pc c i st its cs s off q p t m :
    at_pos P path pc (i :: c) -> path_of P path = Some p -> (q <= List.length p)%nat ->
    exec C P (List.length p) i (mkM (S pc) path st its cs s) = JumpTo (List.length p) m off ->
    m_path m = path ->
    Z.of_nat q = Z.of_nat (m_pc m) + off ->
    Run C P (mkM q path (m_stack m) (m_iters m) (m_calls m) (m_est m)) t ->
    Run C P (mkM pc path st its cs s) t.
  Proof.
    intros Ha Hp Hq He Hm Hz Hr.
    destruct (turn_step C P path pc i c st its cs s Ha) as (p' & H1 & H2 & H3).
    assert (p' = p) by congruence. subst p'.
    eapply Run_next; [|exact Hr]. rewrite H3, He. destruct m as [mp mpath mst mit mcs me].
    cbn [m_path m_pc m_stack m_iters m_calls m_est] in *. subst mpath.
    now apply JumpTo_ok.
  Qed.

  Ltac mred := cbv beta iota delta [with_iters with_est with_stack push m_pc m_path m_stack m_iters m_calls m_est].
  Ltac pc_by H :=
    eapply Run_pc; [|exact H]; rewrite ?app_length; unfold len;
    cbn [m_pc with_est with_stack with_iters List.length]; lia.

  Lemma sim_const v lz : sim C P (seval C (RConst v) lz) (code (sc C) (RConst v)).
  Proof.
    intros path pc st its cs s t Ha Hc. cbn [seval code cont] in *.
    eapply step_next; [exact Ha|reflexivity|].
    cbn [List.length] in Hc. rewrite Nat.add_1_r in Hc. exact Hc.
  Qed.

  Lemma sim_var v lz : sim C P (seval C (RVar v) lz) (code (sc C) (RVar v)).
  Proof.
    intros path pc st its cs s t Ha Hc. cbn [seval code] in *.
    eapply step_lift with (r := rlift (LookupIdent C v) s); [exact Ha|reflexivity|].
    cbn [List.length] in Hc. rewrite Nat.add_1_r in Hc.
    destruct (LookupIdent C v); cbn [rlift cont] in *; exact Hc.
  Qed.

  Lemma sim_slot x k lz :
    (k < n)%nat -> sim C P (seval C (RSlot x k) lz) (code (sc C) (RSlot x k)).
  Proof.
    intros Hk path pc st its cs s t Ha Hc. cbn [seval code] in *.
    eapply step_lift with (r := read_slot x k s).
    - exact Ha.
    - intros size. cbn [exec]. rewrite slot_ok_lt by assumption. reflexivity.
    - cbn [List.length] in Hc. rewrite Nat.add_1_r in Hc. unfold read_slot in *.
      destruct (e_slots s k); cbn [cont] in *; exact Hc.
  Qed.

  Lemma sim_lazy k i L lz :
    (k < n)%nat -> In i L -> lz_ok C P subs L lz ->
    sim C P (seval C (RLazy k i) lz) (code (sc C) (RLazy k i)).
  Proof.
    intros Hk Hi Hlz path pc st its cs s t Ha Hc. cbn [seval code] in *.
    cbn [List.length] in Hc. rewrite Nat.add_1_r in Hc.
    destruct (e_slots s k) as [x|] eqn:Es.
    - eapply step_next; [exact Ha| |exact Hc].
      intros size _ _. cbn [exec m_est]. rewrite slot_ok_lt, Es by assumption. reflexivity.
    - destruct (Hlz i Hi) as (r & Hr & Hs).
      eapply step_next; [exact Ha| |].
      + intros size _ _. cbn [exec m_est m_stack m_iters m_calls m_pc m_path].
        rewrite slot_ok_lt, Es by assumption.
        rewrite Hsubs, (map_nth_error _ _ _ Hr). reflexivity.
      + pose proof (sub_path i r Hr) as Hp.
        eapply sim_use with (q := List.length (code (sc C) r)); [exact Hs| |reflexivity|].
        * exists (code (sc C) r), [], []. rewrite app_nil_r. auto.
        * apply cont_bind in Hc. destruct (lz i (count_init i s)) as [x s1|e s1|w|]; cbn [cont] in *; auto.
          eapply Run_next; [|exact Hc]. unfold turn_of.
          cbn [m_path m_pc m_stack m_iters m_calls m_est]. rewrite Hp.
          replace (nth_error (code (sc C) r) (List.length (code (sc C) r))) with (@None step)
            by (symmetry; apply nth_error_None; lia).
          rewrite Nat.eqb_refl. cbn [List.length fr_size fr_slot fr_pc fr_path].
          rewrite Nat.eqb_refl, slot_ok_lt by assumption. reflexivity.
  Qed.

  Lemma decides_jump op x :
    (match fst x with VBool b => Bool.eqb (shortcircuit op) b | _ => false end)
    = decides op (fst (x : vt)).
  Proof.
    destruct x as [v t]; cbn [fst]. destruct v; try reflexivity.
    destruct op, b; reflexivity.
  Qed.

  Lemma sim_logic op a b lz :
    sim C P (seval C a lz) (code (sc C) a) -> sim C P (seval C b lz) (code (sc C) b) ->
    sim C P (seval C (RLogic op a b) lz) (code (sc C) (RLogic op a b)).
  Proof.
    intros Sa Sb path pc st its cs s t Ha Hc. cbn [seval code] in *.
    destruct (at_pos_size _ _ _ _ Ha) as (p & Hp & Hsz).
    set (ca := code (sc C) a) in *. set (cb := code (sc C) b) in *.
    pose proof Ha as Ha'.
    apply at_pos_app in Ha as [A1 Ha]. apply at_pos_app in Ha as [A2 Ha].
    apply at_pos_app in Ha as [A3 A4].
    set (cj := if sc C then _ else _) in *.
    eapply seq_use; [exact Sa|exact A1|reflexivity| |exact Hc].
    clear Hc. intros x s1 Hc. cbv beta in Hc. fold ca.
    assert (Hrest : cont C P (rbind (seval C b lz s1) (fun y s2 =>
             RVal (Calculate (unk C) op (fst x) (fst y), None) s2))
             (fun x s' => mkM (pc + List.length (ca ++ cj ++ cb ++ [SLogic op])) path
                (x :: st) its cs s') t ->
            Run C P (mkM (pc + List.length ca + List.length cj) path (x :: st) its cs s1) t).
    { intros Hc'. eapply seq_use; [exact Sb|exact A3|reflexivity| |exact Hc'].
      clear Hc'. intros y s2 Hc'. fold cb. cbn [cont] in Hc'.
      eapply step_next; [exact A4|reflexivity|].
      rewrite !app_length in Hc'. cbn [List.length] in Hc'.
      cbn [with_stack m_stack m_pc m_path m_iters m_calls m_est].
      pc_by Hc'. }
    destruct (sc C) eqn:Esc; cbn [andb] in Hc; subst cj.
    - rewrite <- decides_jump in Hc.
      destruct x as [v tx]. cbn [fst] in Hc.
      assert (Hcase : (exists b, v = VBool b /\ Bool.eqb (shortcircuit op) b = true)
                      \/ (match v with VBool b => Bool.eqb (shortcircuit op) b | _ => false end)
                         = false).
      { destruct v; auto. destruct (Bool.eqb (shortcircuit op) b0) eqn:E; eauto. }
      destruct Hcase as [(b0 & -> & E) | E].
      + rewrite E in Hc. cbn [cont] in Hc.
        eapply jump_to with (q := (pc + List.length (ca ++ [SCondJump (shortcircuit op) true
           (len cb + 1)] ++ cb ++ [SLogic op]))%nat); [exact A2|exact Hp|exact Hsz| | | |].
        * cbn [exec m_stack fst]. rewrite E. reflexivity.
        * reflexivity.
        * cbn [m_pc]. rewrite !app_length. unfold len. cbn [List.length]. lia.
        * exact Hc.
      + rewrite E in Hc.
        eapply step_next; [exact A2| |].
        * intros size _ _. cbn [exec m_stack fst].
          destruct v; try reflexivity. rewrite E. reflexivity.
        * cbn [List.length] in Hrest. rewrite Nat.add_1_r in Hrest. apply Hrest. exact Hc.
    - cbn [List.length] in Hrest. rewrite Nat.add_0_r in Hrest. apply Hrest. exact Hc.
  Qed.

  Lemma sim_cond c a b lz :
    sim C P (seval C c lz) (code (sc C) c) ->
    sim C P (seval C a lz) (code (sc C) a) -> sim C P (seval C b lz) (code (sc C) b) ->
    sim C P (seval C (RCond c a b) lz) (code (sc C) (RCond c a b)).
  Proof.
    intros Sc Sa Sb path pc st its cs s t Ha Hc. cbn [seval code] in *.
    destruct (at_pos_size _ _ _ _ Ha) as (p & Hp & Hsz).
    set (cc := code (sc C) c) in *.
    set (ca := code (sc C) a) in *. set (cb := code (sc C) b) in *.
    destruct (sc C) eqn:Esc.
    - apply at_pos_app in Ha as [A1 Ha].
      change ([SBoolCheckJump (len ca + len cb + 2); SCondJump false false (len ca + 1)]
              ++ ca ++ [SJump (len cb)] ++ cb)
        with ([SBoolCheckJump (len ca + len cb + 2)] ++ [SCondJump false false (len ca + 1)]
              ++ ca ++ [SJump (len cb)] ++ cb) in *.
      apply at_pos_app in Ha as [A2 Ha]. apply at_pos_app in Ha as [A3 Ha].
      apply at_pos_app in Ha as [A4 Ha]. apply at_pos_app in Ha as [A5 A6].
      eapply seq_use; [exact Sc|exact A1|reflexivity| |exact Hc].
      clear Hc. intros x s1 Hc. cbv beta in Hc. fold cc.
      destruct (BoolCheck x) as [r|] eqn:Eb.
      + cbn [cont] in Hc.
        eapply jump_to; [exact A2|exact Hp|exact Hsz| | | |].
        * cbn [exec m_stack]. rewrite Eb. reflexivity.
        * reflexivity.
        * cbn [m_pc with_stack]. rewrite !app_length. unfold len. cbn [List.length]. lia.
        * exact Hc.
      + eapply step_next; [exact A2| |].
        { intros size _ _. cbn [exec m_stack]. rewrite Eb. reflexivity. }
        destruct x as [v tx]. cbn [fst] in Hc. unfold BoolCheck in Eb. cbn [fst] in Eb.
        destruct v; try discriminate. cbn [is_true] in Hc.
        cbn [List.length] in A3, A4, A5, A6.
        rewrite Nat.add_1_r in A3.
        destruct b0.
        * eapply step_next; [exact A3|reflexivity|].
          rewrite Nat.add_1_r in A4.
          assert (A4' : at_pos P path (S (S (pc + List.length cc))) ca).
          { eapply eq_ind with (P := fun k => at_pos P path k ca); [exact A4|lia]. }
          eapply cont_use with (q := (S (S (pc + List.length cc)) + List.length ca)%nat);
            [exact Sa|exact A4'|reflexivity| |exact Hc].
          clear Hc. cbv beta. intros y s2 Hr.
          eapply jump_to; [|exact Hp|exact Hsz| | | |].
          -- eapply eq_ind with (P := fun k => at_pos P path k [SJump (len cb)]); [exact A5|].
             cbn [List.length]. lia.
          -- reflexivity.
          -- reflexivity.
          -- cbn [m_pc]. rewrite !app_length. unfold len. cbn [List.length]. lia.
          -- exact Hr.
        * eapply jump_to with (q := (pc + List.length cc + 1 + 1 + List.length ca + 1)%nat);
            [exact A3|exact Hp| | | | |].
          -- rewrite !app_length in Hsz. cbn [List.length] in Hsz. lia.
          -- reflexivity.
          -- reflexivity.
          -- cbn [m_pc with_stack]. unfold len. lia.
          -- eapply cont_use; [exact Sb|exact A6|reflexivity| |exact Hc].
             clear Hc. cbv beta. intros y s2 Hr. fold cb. pc_by Hr.
    - apply at_pos_app in Ha as [A1 Ha]. apply at_pos_app in Ha as [A2 Ha].
      apply at_pos_app in Ha as [A3 A4].
      eapply seq_use; [exact Sc|exact A1|reflexivity| |exact Hc].
      clear Hc. intros x s1 Hc. cbv beta in Hc. fold cc.
      eapply seq_use; [exact Sa|exact A2|reflexivity| |exact Hc].
      clear Hc. intros y s2 Hc. cbv beta in Hc. fold ca.
      eapply seq_use; [exact Sb|exact A3|reflexivity| |exact Hc].
      clear Hc. intros z s3 Hc. cbv beta in Hc. fold cb. cbn [cont] in Hc.
      eapply step_next; [exact A4|reflexivity|]. pc_by Hc.
  Qed.

  Lemma sim_or k a b lz :
    sim C P (seval C a lz) (code (sc C) a) -> sim C P (seval C b lz) (code (sc C) b) ->
    sim C P (seval C (ROr k a b) lz) (code (sc C) (ROr k a b)).
  Proof.
    intros Sa Sb path pc st its cs s t Ha Hc. cbn [seval code] in *.
    destruct (at_pos_size _ _ _ _ Ha) as (p & Hp & Hsz).
    set (ca := code (sc C) a) in *. set (cb := code (sc C) b) in *.
    apply at_pos_app in Ha as [A1 Ha]. apply at_pos_app in Ha as [A2 Ha].
    apply at_pos_app in Ha as [A3 A4].
    set (cj := if sc C then _ else _) in *.
    eapply seq_use; [exact Sa|exact A1|reflexivity| |exact Hc].
    clear Hc. intros x s1 Hc. cbv beta in Hc. fold ca.
    assert (Hrest : cont C P (rbind (seval C b lz s1) (fun y s2 => RVal (EvalOptionalOr k x y) s2))
             (fun x s' => mkM (pc + List.length (ca ++ cj ++ cb ++ [SOptOr k])) path
                (x :: st) its cs s') t ->
            Run C P (mkM (pc + List.length ca + List.length cj) path (x :: st) its cs s1) t).
    { intros Hc'. eapply seq_use; [exact Sb|exact A3|reflexivity| |exact Hc'].
      clear Hc'. intros y s2 Hc'. fold cb. cbn [cont] in Hc'.
      eapply step_next; [exact A4|reflexivity|]. pc_by Hc'. }
    destruct (sc C) eqn:Esc; subst cj.
    - destruct (OptionalJump k x) as [r|] eqn:Eo.
      + cbn [cont] in Hc.
        eapply jump_to; [exact A2|exact Hp|exact Hsz| | | |].
        * cbn [exec m_stack]. rewrite Eo. reflexivity.
        * reflexivity.
        * cbn [m_pc with_stack]. rewrite !app_length. unfold len. cbn [List.length]. lia.
        * exact Hc.
      + eapply step_next; [exact A2| |].
        * intros size _ _. cbn [exec m_stack]. rewrite Eo. reflexivity.
        * cbn [List.length] in Hrest. rewrite Nat.add_1_r in Hrest. apply Hrest. exact Hc.
    - cbn [List.length] in Hrest. rewrite Nat.add_0_r in Hrest. apply Hrest. exact Hc.
  Qed.

  (* operands *)
  Lemma sim_list lz args :
    Forall (fun x => sim C P (seval C x lz) (code (sc C) x)) args ->
    forall path pc st its cs s t,
    at_pos P path pc (codes (sc C) args) ->
    cont C P (seval_list (fun x => seval C x lz) args s)
      (fun vs s' => mkM (pc + List.length (codes (sc C) args)) path (rev vs ++ st) its cs s') t ->
    Run C P (mkM pc path st its cs s) t.
  Proof.
    induction args as [|x l IH]; intros Hf path pc st its cs s t Ha Hc.
    - cbn [seval_list codes cont List.length rev app] in Hc. pc_by Hc.
    - apply Forall_cons_iff in Hf as [Hx Hl]. cbn [codes] in *.
      apply at_pos_app in Ha as [A1 A2].
      eapply seq_use; [exact Hx|exact A1|reflexivity| |exact Hc].
      clear Hc. intros v s1 Hc. cbv beta in Hc.
      eapply IH; [exact Hl|exact A2|].
      apply cont_bind in Hc. fold (seval_list (fun x => seval C x lz)) in Hc.
      destruct (seval_list (fun x => seval C x lz) l s1); cbv beta in Hc; cbn [cont] in *; auto.
      cbn [rev] in Hc. rewrite <- app_assoc in Hc. cbn [app] in Hc. pc_by Hc.
  Qed.
  Lemma seval_list_length f l s vs s' :
    seval_list f l s = RVal vs s' -> List.length vs = List.length l.
  Proof.
    revert s vs s'. induction l as [|x l IH]; intros s vs s'; cbn [seval_list].
    - intros [= <- <-]. reflexivity.
    - destruct (f x s); cbn [rbind]; try discriminate.
      destruct (seval_list f l s0) eqn:E; cbn [rbind]; try discriminate.
      intros [= <- <-]. cbn [List.length]. f_equal. eauto.
  Qed.

  Lemma sim_app op args lz :
    Forall (fun x => sim C P (seval C x lz) (code (sc C) x)) args ->
    sim C P (seval C (RApp op args) lz) (code (sc C) (RApp op args)).
  Proof.
    intros Hf path pc st its cs s t Ha Hc. rewrite code_app in *. cbn [seval] in Hc.
    apply at_pos_app in Ha as [A1 A2].
    eapply sim_list; [exact Hf|exact A1|].
    apply cont_bind in Hc.
    destruct (seval_list (fun x => seval C x lz) args s) as [vs s1|e s1|w|] eqn:E;
      cbn [cont] in *; auto.
    pose proof (seval_list_length _ _ _ _ _ E) as Hlen.
    eapply step_lift with (r := do_op C op vs s1); [exact A2| |].
    - intros size. cbn [exec m_stack m_est].
      destruct (Nat.ltb_spec (List.length (rev vs ++ st)) (List.length args)) as [Hlt|_].
      { rewrite app_length, rev_length in Hlt. lia. }
      rewrite <- Hlen, <- (rev_length vs).
      rewrite firstn_app, Nat.sub_diag, firstn_all, firstn_O, app_nil_r, rev_involutive.
      rewrite skipn_app, Nat.sub_diag, skipn_all, skipn_O. reflexivity.
    - eapply cont_mono; [|exact Hc]. cbv beta. intros x s2 Hr.
      cbn [with_est with_stack m_pc m_path m_stack m_iters m_calls m_est app]. pc_by Hr.
  Qed.

  Lemma sim_bind k i e b L lz :
    (k < n)%nat -> nth_error subs i = Some e ->
    lz_ok C P subs L lz ->
    (forall lz, lz_ok C P subs L lz -> sim C P (seval C e lz) (code (sc C) e)) ->
    (forall lz, lz_ok C P subs (i :: L) lz -> sim C P (seval C b lz) (code (sc C) b)) ->
    sim C P (seval C (RBind k i e b) lz) (code (sc C) (RBind k i e b)).
  Proof.
    intros Hk Hi Hlz He Hb path pc st its cs s t Ha Hc. cbn [seval code] in *.
    apply at_pos_app in Ha as [A1 A2].
    assert (Hlz' : lz_ok C P subs (i :: L) (set_lz i (seval C e lz) lz)).
    { intros j Hj. unfold set_lz. destruct (Nat.eqb_spec j i) as [->|Hne].
      - exists e. split; auto.
      - destruct Hj as [Hj|Hj]; [congruence|]. auto. }
    eapply seq_use; [apply Hb; exact Hlz'|exact A1|reflexivity| |exact Hc].
    clear Hc. intros x s1 Hc. cbv beta in Hc. cbn [cont] in Hc.
    eapply step_next; [exact A2| |].
    - intros size _ _. cbn [exec]. rewrite slot_ok_lt by assumption. reflexivity.
    - pc_by Hc.
  Qed.

  Lemma sim_loop it it2 ac isb fc fs cc cs_ cb path pn st its cs range p t :
    (it < n)%nat -> (it2 < n)%nat -> (ac < n)%nat ->
    sim C P fc cc -> sim C P fs cs_ ->
    path_of P path = Some p ->
    at_pos P path pn
      ([SCompNext it it2 ac (len cc + len cs_ + 2)]
       ++ cc ++ [SCompCond it it2 ac (sc C) (len cs_ + 1) (len cs_ + len cb + 2)]
       ++ cs_ ++ [SJump (- (len cc + len cs_ + 3))] ++ cb ++ [SCompFinish ac]) ->
    forall items accu s,
    match sloop C it it2 ac isb (snd range) fc fs items accu s with
    | RVal None s' =>
        forall items', Run C P (mkM (pn + 1 + List.length cc + 1 + List.length cs_ + 1) path
                                  (range :: st) (mkIter isb items' :: its) cs s') t
    | RVal (Some r) s' =>
        Run C P (mkM (pn + 1 + List.length cc + 1 + List.length cs_ + 1 + List.length cb + 1) path
                   (r :: st) its cs s') t
    | RErr e s' => t = TErr e s'
    | RFault w => t = TFault w
    | RUB => t = TUB
    end ->
    Run C P (mkM pn path (accu :: range :: st) (mkIter isb items :: its) cs s) t.
  Proof.
    intros H1 H2 H3 Sc Ss Hp Ha.
    destruct (at_pos_size _ _ _ _ Ha) as (p' & Hp' & Hsz).
    assert (p' = p) by congruence. subst p'. clear Hp'.
    rewrite !app_length in Hsz. cbn [List.length] in Hsz.
    apply at_pos_app in Ha as [A1 Ha]. apply at_pos_app in Ha as [A2 Ha].
    apply at_pos_app in Ha as [A3 Ha]. apply at_pos_app in Ha as [A4 Ha].
    apply at_pos_app in Ha as [A5 Ha]. cbn [List.length] in A2, A3, A4, A5.
    induction items as [|kv items IH]; intros accu s Hc; cbn [sloop] in Hc; cbv zeta in Hc.
    - eapply jump_to with (q := (pn + 1 + List.length cc + 1 + List.length cs_ + 1)%nat);
        [exact A1|exact Hp|lia| | | |].
      + cbn [exec m_stack m_iters m_est]. rewrite !slot_ok_lt by assumption. cbn [andb].
        reflexivity.
      + reflexivity.
      + cbn [m_pc with_est with_stack]. unfold len. lia.
      + mred. apply Hc.
    - eapply step_lift with (r := IncrementIterations C (set_slot ac accu s));
        [exact A1| |].
      { intros size. cbn [exec m_stack m_iters m_est]. rewrite !slot_ok_lt by assumption.
        cbn [andb]. reflexivity. }
      destruct (IncrementIterations C (set_slot ac accu s)) as [u s1|e s1|w|];
        cbn [rbind cont] in *; auto.
      mred.
      rewrite <- (Nat.add_1_r pn).
      eapply sim_use; [exact Sc|exact A2|reflexivity|].
      destruct (fc (set_iter C it it2 isb (snd range) kv (count_loop s1))) as [c s2|e s2|w|];
        cbn [rbind cont] in *; auto.
      destruct (loop_condition c) as [r|b] eqn:Ec.
      + eapply jump_to with
          (q := (pn + 1 + List.length cc + 1 + List.length cs_ + 1 + List.length cb + 1)%nat);
          [exact A3|exact Hp|lia| | | |].
        * cbn [exec m_stack m_iters m_est]. rewrite !slot_ok_lt by assumption. cbn [andb].
          rewrite Ec. reflexivity.
        * reflexivity.
        * cbn [m_pc with_est with_stack with_iters]. unfold len. lia.
        * exact Hc.
      + destruct (negb b && sc C) eqn:Eb.
        * eapply jump_to with (q := (pn + 1 + List.length cc + 1 + List.length cs_ + 1)%nat);
            [exact A3|exact Hp|lia| | | |].
          -- cbn [exec m_stack m_iters m_est]. rewrite !slot_ok_lt by assumption. cbn [andb].
             rewrite Ec, Eb. reflexivity.
          -- reflexivity.
          -- cbn [m_pc with_est with_stack with_iters]. unfold len. lia.
          -- apply Hc.
        * eapply step_next; [exact A3| |].
          { intros size _ _. cbn [exec m_stack m_iters m_est]. rewrite !slot_ok_lt by assumption.
            cbn [andb]. rewrite Ec, Eb. reflexivity. }
          mred.
          rewrite <- (Nat.add_1_r (pn + 1 + List.length cc)).
          eapply sim_use; [exact Ss|exact A4|reflexivity|].
          destruct (fs s2) as [a s3|e s3|w|]; cbn [rbind cont] in *; auto.
          eapply jump_to with (q := pn); [exact A5|exact Hp|lia|reflexivity|reflexivity| |].
          -- cbn [m_pc]. unfold len. lia.
          -- apply IH. exact Hc.
  Qed.

  Lemma sim_comp it it2 ac r i c st_ b lz :
    (it < n)%nat -> (it2 < n)%nat -> (ac < n)%nat ->
    sim C P (seval C r lz) (code (sc C) r) -> sim C P (seval C i lz) (code (sc C) i) ->
    sim C P (seval C c lz) (code (sc C) c) -> sim C P (seval C st_ lz) (code (sc C) st_) ->
    sim C P (seval C b lz) (code (sc C) b) ->
    sim C P (seval C (RComp it it2 ac r i c st_ b) lz) (code (sc C) (RComp it it2 ac r i c st_ b)).
  Proof.
    intros H1 H2 H3 Sr Si Sc Ss Sb path pc st its cs s t Ha Hc. cbn [seval code] in *.
    destruct (at_pos_size _ _ _ _ Ha) as (p & Hp & Hsz).
    set (cr := code (sc C) r) in *. set (ci := code (sc C) i) in *.
    set (cc := code (sc C) c) in *. set (cs_ := code (sc C) st_) in *.
    set (cb := code (sc C) b) in *.
    apply at_pos_app in Ha as [A1 Ha]. apply at_pos_app in Ha as [A2 Ha].
    apply at_pos_app in Ha as [A3 A4].
    pose proof A4 as A5. do 5 (apply at_pos_app in A5 as [_ A5]).
    apply at_pos_app in A5 as [A5 A6]. cbn [List.length] in A3, A4, A5, A6.
    eapply seq_use; [exact Sr|exact A1|reflexivity| |exact Hc].
    clear Hc. intros rv s1 Hc. cbv beta in Hc. fold cr.
    destruct (comp_init C rv) as [x|[isb items]] eqn:Ei.
    - cbn [cont] in Hc. eapply jump_to; [exact A2|exact Hp|exact Hsz| | | |].
      + cbn [exec m_stack]. rewrite Ei. reflexivity.
      + reflexivity.
      + cbn [m_pc with_stack]. rewrite !app_length. unfold len. cbn [List.length]. lia.
      + exact Hc.
    - eapply step_next; [exact A2| |].
      { intros size _ _. cbn [exec m_stack]. rewrite Ei. reflexivity. }
      mred.
      rewrite <- (Nat.add_1_r (pc + List.length cr)).
      eapply seq_use; [exact Si|exact A3|reflexivity| |exact Hc].
      clear Hc. intros iv s2 Hc. cbv beta in Hc. fold ci.
      apply cont_bind in Hc.
      eapply sim_loop with (cb := cb); [exact H1|exact H2|exact H3|exact Sc|exact Ss|exact Hp|exact A4|].
      fold cc cs_.
      destruct (sloop C it it2 ac isb (snd rv) (seval C c lz) (seval C st_ lz) items iv s2)
        as [[x|] s3|e s3|w|]; auto.
      + cbn [cont] in Hc. pc_by Hc.
      + intros items'.
        eapply seq_use; [exact Sb|exact A5|reflexivity| |exact Hc].
        clear Hc. intros x s4 Hc. cbn [cont] in Hc. fold cb.
        eapply step_next; [exact A6| |].
        { intros size _ _. cbn [exec m_stack m_iters]. rewrite slot_ok_lt by assumption.
          reflexivity. }
        pc_by Hc.
  Qed.

  Theorem sim_seval r : forall L lz, wf n subs L r -> lz_ok C P subs L lz ->
    sim C P (seval C r lz) (code (sc C) r).
  Proof.
    induction r using rcore_ind'; intros L lz Hwf Hlz.
    - apply sim_const.
    - apply sim_var.
    - apply sim_slot. exact Hwf.
    - destruct Hwf. eapply sim_lazy; eauto.
    - destruct Hwf. apply sim_logic; eauto.
    - destruct Hwf as (? & ? & ?). apply sim_cond; eauto.
    - destruct Hwf. apply sim_or; eauto.
    - apply wf_app in Hwf. apply sim_app.
      rewrite Forall_forall in *. eauto.
    - destruct Hwf as ((? & ? & ?) & ? & ? & ? & ? & ?). apply sim_comp; eauto.
    - destruct Hwf as (? & ? & ? & ?). eapply sim_bind; eauto.
  Qed.
End Simulation.
