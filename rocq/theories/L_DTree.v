(* The recursive evaluator without aliasing computes a reference semantics. *)
From Coq Require Import ZArith List Bool String Lia.
From Verif Require Import Base M_Overflow M_Number M_Attr M_Value M_Logic M_Expr M_Plan M_Machine M_Direct
  S_Direct S_Eval L_Seval L_Alloc L_Safe L_Tree L_Direct.
Import ListNotations.
Open Scope list_scope.
Open Scope Z_scope.
Local Open Scope out_scope.

(* ---- the reference semantics: S_Eval.eval with the recursive steps ---- *)

Section DirLiterals.
  Variables (C : config) (f : core -> out vt).
  Fixpoint dir_list (els : list core) (opts : list bool) (l : list value) : out vt :=
    match els with
    | [] => Val (VList l, None)
    | e :: els' =>
        x <- f e ;;
        o <- list_one (hd_opt opts) (fst x) l ;;
        match o with
        | inl v => Val (v, None)
        | inr l' => dir_list els' (tl_opt opts) l'
        end
    end.
  Fixpoint dir_map (els : list core) (opts : list bool) (m : entries) : out vt :=
    match els with
    | ke :: ve :: els' =>
        k <- f ke ;;
        o <- key_one (fst k) ;;
        match o with
        | Some v => Val (v, None)
        | None =>
            v <- f ve ;;
            o <- entry_one (hd_opt opts) (fst k) (fst v) m ;;
            match o with
            | inl v => Val (v, None)
            | inr m' => dir_map els' (tl_opt opts) m'
            end
        end
    | _ => Val (VMap (cf_reorder C m), None)
    end.
End DirLiterals.
Definition strip (o : out vt) : out vt := x <- o ;; Val (fst x, None).

Fixpoint dir (C : config) (e : core) (rho : env) {struct e} : out vt :=
  match e with
  | KConst v => Val (v, None)
  | KVar x => match rho x with Some o => o | None => LookupIdent C x end
  | KGlobal x => LookupIdent C x
  | KLogic op a b =>
      x <- dir C a rho ;;
      if sc C && decides op (fst x) then Val x
      else y <- dir C b rho ;; Val (DirectLogic (unk C) op (fst x) (fst y), None)
  | KCond c a b =>
      x <- dir C c rho ;;
      if sc C then
        match ternary_stop None x with
        | Some r => Val r
        | None => if is_true (fst x) then dir C a rho else dir C b rho
        end
      else y <- dir C a rho ;; z <- dir C b rho ;;
           Val (match ternary_stop None x with Some r => r | None => if is_true (fst x) then y else z end)
  | KOr k a b =>
      x <- dir C a rho ;;
      match (if sc C then direct_or_first k x else None) with
      | Some r => Val r
      | None => y <- dir C b rho ;; Val (if sc C then direct_or_second k y else EvalOptionalOr k x y)
      end
  | KApp (OList opts) args => dir_list (fun x => dir C x rho) args opts []
  | KApp (OMap opts) args => dir_map C (fun x => dir C x rho) args opts []
  | KApp op args =>
      if direct_arity op (List.length args)
      then vs <- eval_list (fun x => dir C x rho) args ;; direct_op C op vs
      else UB
  | KComp x x2 y range init cond step res =>
      r <- dir C range rho ;;
      match comp_init C r with
      | inl v => Val (fst v, None)
      | inr (is_map, items) =>
          i <- dir C init rho ;;
          eval_loop (sc C)
            (fun kv accu => strip (dir C cond (loop_env C x x2 y is_map (snd r) kv accu rho)))
            (fun kv accu => dir C step (loop_env C x x2 y is_map (snd r) kv accu rho))
            (fun accu => dir C res (bind_local y (Val accu) rho))
            items i
      end
  | KBind y init res => dir C res (bind_local y (dir C init rho) rho)
  end.

Definition all (_ : nat) : Prop := True.
Lemma all_I n : all n. Proof. exact I. Qed.
Local Hint Resolve all_I : core.

Section DTree.
  Variable C : config.
  Notation comp_ok := (comp_ok all).
  Notation gives := (gives all).
  Notation Inv := (Inv all).
  Lemma comp_direct w V O op args : comp_ok w V O (fun s => do_direct C op args s) (direct_op C op args).
  Proof.
    intros s HI. unfold do_direct. destruct (direct_op C op args); cbn [rlift L_Tree.gives]; eauto.
    exists (add_log (op_invokes C op args) s). split; auto. split; [exact HI|].
    intros k _. reflexivity.
  Qed.
  Hypothesis Hmax : o_max_iterations (cf_opts C) = 0.

  Section DTreeLoop.
    Variables (w : list lrec) (V : nat -> vt -> Prop) (O1 : nat -> Prop).
    Variables (it it2 ac : nat) (is_map : bool) (t : trail) (fc fs fr : comp).
    Variables (ec es : value * value -> vt -> out vt) (er : vt -> out vt).
    Notation VL := (VL C V it it2 ac is_map t).
    Notation VR := (VR V ac).
    Hypothesis Hfc : forall kv accu, comp_ok w (VL kv accu) O1 fc (ec kv accu).
    Hypothesis Hfs : forall kv accu, comp_ok w (VL kv accu) O1 fs (es kv accu).
    Hypothesis Hfr : forall accu, comp_ok w (VR accu) O1 fr (er accu).
    Hypothesis Hne : it <> ac. Hypothesis Hne2 : it2 <> ac.
    Notation T := (fun k => k = it \/ k = it2 \/ k = ac).
    Hypothesis HTW : forall k, T k -> ~ Wof w k.
    Hypothesis HTO : forall k, T k -> ~ O1 k.
    Hypothesis HTV : forall k v, T k -> ~ V k v.
    Hypothesis HVO : forall k v, V k v -> ~ WO w O1 k.
    Notation O2 := (fun k => O1 k \/ T k).
    Lemma dget_clear_iter s :
      e_slots (clear_iter it it2 s) it = None /\ e_slots (clear_iter it it2 s) it2 = None /\
      e_slots (clear_iter it it2 s) ac = e_slots s ac.
    Proof.
      unfold clear_iter. destruct (Nat.eqb_spec it it2) as [<-|E].
      - rewrite get_clear, get_clear_ne by auto. auto.
      - rewrite get_clear. rewrite (get_clear_ne it2 it) by auto. rewrite get_clear.
        rewrite !get_clear_ne by auto. auto.
    Qed.
    Lemma dget_set_iter kv s :
      e_slots (set_iter C it it2 is_map t kv s) it = Some (first_it C it it2 is_map t kv) /\
      e_slots (set_iter C it it2 is_map t kv s) it2 = Some (second_it C it it2 is_map t kv) /\
      e_slots (set_iter C it it2 is_map t kv s) ac = e_slots s ac.
    Proof.
      unfold set_iter, first_it, second_it. destruct (Nat.eqb_spec it it2) as [<-|E].
      - rewrite get_set, get_set_ne by auto. auto.
      - destruct (iter_two C t kv) as [x1 x2]. cbn [fst snd]. rewrite get_set.
        rewrite (get_set_ne it2 it) by auto. rewrite get_set.
        rewrite !get_set_ne by auto. auto.
    Qed.
    Definition dloop_then (items : list (value * value)) (s : est) : res vt :=
      rbind (dloop C it it2 ac is_map t fc fs items s)
        (fun o s3 => rbind (match o with
                     | Some v => RVal (v, None) (clear_iter it it2 s3)
                     | None => fr (clear_iter it it2 s3)
                     end) (fun x s4 => RVal x (clear_slot ac s4))).
    Lemma dloop_result accu s : Inv w (VR accu) O1 s ->
      gives w V O2 s (rbind (fr (clear_iter it it2 s)) (fun x s4 => RVal x (clear_slot ac s4))) (er accu).
    Proof.
      intros HI.
      assert (F1 : frame_on T s (clear_iter it it2 s)) by (apply frame_clear_iter; auto).
      destruct (dget_clear_iter s) as (G1 & G2 & G3).
      apply (gives_frame all w V O1 it it2 ac s (clear_iter it it2 s)); [apply frame_T; exact F1|].
      apply tree_result; auto.
      eapply Inv_change; [exact Hne|exact Hne2|exact HTW|exact HTO|exact HI|exact F1|].
      intros k v [Hv|[-> ->]].
      - rewrite F1; [|intros Ht; exact (HTV k v Ht Hv)]. apply HI. left. exact Hv.
      - rewrite G3. apply HI. right. auto.
    Qed.
    Lemma dtree_loop items : forall accu s,
      Inv w (VR accu) O1 s ->
      gives w V O2 s (dloop_then items s)
        (eval_loop (sc C) (fun kv accu => strip (ec kv accu)) es er items accu).
    Proof.
      induction items as [|kv items IH]; intros accu s HI; unfold dloop_then; cbn [dloop eval_loop].
      - cbn [rbind]. apply dloop_result. exact HI.
      - unfold IncrementIterations. rewrite Hmax. cbn [Z.eqb rbind].
        set (s1 := set_iter C it it2 is_map t kv (count_loop s)).
        assert (F1 : frame_on T s s1).
        { eapply frame_trans; [|apply frame_set_iter; auto]. intros k _. reflexivity. }
        destruct (dget_set_iter kv (count_loop s)) as (G1 & G2 & G3). fold s1 in G1, G2, G3.
        assert (HI1 : Inv w (VL kv accu) O1 s1).
        { eapply Inv_change; [exact Hne|exact Hne2|exact HTW|exact HTO|exact HI|exact F1|].
          intros k v [Hv|[[-> ->]|[[-> ->]|[-> ->]]]]; auto.
          - rewrite F1; [|intros Ht; exact (HTV k v Ht Hv)]. apply HI. left. exact Hv.
          - rewrite G3. apply HI. right. auto. }
        clearbody s1. pose proof (Hfc kv accu s1 HI1) as Hc. unfold L_Tree.gives in Hc.
        unfold strip. destruct (ec kv accu) as [c|e|] eqn:Ec; cbn [obind].
        2: { destruct Hc as (s2 & ->). cbn [rbind L_Tree.gives]. eauto. }
        2: { rewrite Hc. reflexivity. }
        destruct Hc as (s2 & -> & HI2 & F2). cbn [rbind].
        assert (F2' : frame_on (WO w O2) s s2).
        { eapply frame_trans; [apply frame_T; exact F1|]. eapply frame_mono; [|exact F2].
          intros k [Hk|Hk]; [now left|right; now left]. }
        apply (gives_frame all w V O1 it it2 ac s s2); [exact F2'|].
        assert (HR : Inv w (VR accu) O1 s2).
        { destruct HI2 as (J1 & J2 & J3). split; auto. split; auto.
          intros k v [Hv|Hv]; apply J2; unfold L_Tree.VL; tauto. }
        assert (Elc : loop_condition (fst c, None) =
                      match loop_condition c with inl r => inl (fst r, None) | inr b => inr b end).
        { unfold loop_condition. cbn [fst]. destruct (fst c) eqn:E9; rewrite ?E9; reflexivity. }
        rewrite Elc. destruct (loop_condition c) as [r|go_on]; cbn [rbind].
        + cbn [L_Tree.gives]. eexists. split; [reflexivity|].
          assert (F3 : frame_on T s2 (clear_slot ac (clear_iter it it2 s2))).
          { eapply frame_trans; [apply frame_clear_iter|apply frame_clear]; auto. }
          split; [|apply frame_T; exact F3].
          eapply Inv_final with (V1 := V); auto.
          * eapply Inv_change; [exact Hne|exact Hne2|exact HTW|exact HTO|exact HI2|exact F3|]. intros k v Hv.
            rewrite F3; [|intros Ht; exact (HTV k v Ht Hv)]. apply HI2. now left.
          * destruct (dget_clear_iter s2) as (K1 & K2 & K3).
            intros k Hk _. destruct (Nat.eq_dec k ac) as [->|Hka]; [apply get_clear|].
            rewrite get_clear_ne by auto. destruct Hk as [->|[->| ->]]; auto. congruence.
        + destruct (negb go_on && sc C) eqn:Es; cbn [rbind].
          * apply dloop_result. exact HR.
          * pose proof (Hfs kv accu s2 HI2) as Hs. unfold L_Tree.gives in Hs.
            destruct (es kv accu) as [a|e|]; cbn [obind].
            2: { destruct Hs as (s3 & ->). cbn [rbind L_Tree.gives]. eauto. }
            2: { rewrite Hs. reflexivity. }
            destruct Hs as (s3 & -> & HI3 & F3). cbn [rbind].
            assert (F4 : frame_on T s3 (set_slot ac a s3)) by (apply frame_set; auto).
            apply (gives_frame all w V O1 it it2 ac s2 (set_slot ac a s3)).
            { eapply frame_trans; [|apply frame_T; exact F4]. eapply frame_mono; [|exact F3].
              intros k [Hk|Hk]; [now left|right; now left]. }
            apply IH. eapply Inv_change; [exact Hne|exact Hne2|exact HTW|exact HTO|exact HI3|exact F4|].
            intros k v [Hv|[-> ->]].
            -- rewrite F4; [|intros Ht; exact (HTV k v Ht Hv)]. apply HI3. now left.
            -- apply get_set.
    Qed.
  End DTreeLoop.

  Notation side := (side all).
  Definition dtree_ok (e : core) : Prop := forall ii scp s r s' w V lz rho,
    alloc ii scp e s = (r, s') -> sane s -> agree scp w V rho -> side s w V lz ->
    comp_ok w V (owns ii s s') (dsev C r lz) (dir C e rho).
  Lemma dtree e : dtree_ok e.
  Proof.
    induction e using core_ind'; intros ii scp s r s' w V lz rho H0 Hs Hag Hsd.
    - injection H0 as <- <-. apply comp_val.
    - cbn [alloc] in H0. specialize (Hag n). cbn [dir].
      destruct (lookup_slot scp n) as [[k|k i]|]; injection H0 as <- <-; cbn [dsev].
      + destruct Hag as (v & -> & Hv). intros st HI. unfold read_slot.
        assert (E : e_slots st k = Some v) by (now apply HI). rewrite E.
        cbn [gives]. exists st. split; auto. split; auto. apply frame_refl.
      + destruct Hag as (l & Hl & <- & <- & ->). destruct Hsd as (H1 & H2 & H3 & H4).
        apply lazy_use; auto.
        * intros k v Hk. now apply H2 in Hk.
        * intros k [Ho _] Hw. specialize (H1 k Hw). lia.
      + rewrite Hag. apply comp_lift.
    - injection H0 as <- <-. apply comp_lift.
    - cbn [alloc] in H0. pair_destruct. injection H0 as <- <-.
      edestruct (alloc_grows e1) as (G1 & S1 & N1); eauto.
      edestruct (alloc_grows e2) as (G2 & S2 & N2); eauto.
      cbn [dsev dir]. apply comp_bind.
      + eapply (own_weaken all s s s0 s1); eauto using grows_refl.
      + intros x _. destruct (sc C && decides op (fst x)); [apply comp_val|].
        apply comp_bind; [|intros; apply comp_val].
        eapply (own_weaken all s s0 s1 s1); eauto using grows_refl.
        eapply IHe2; eauto using side_grows.
    - cbn [alloc] in H0. pair_destruct. injection H0 as <- <-.
      edestruct (alloc_grows e1) as (G1 & S1 & N1); eauto.
      edestruct (alloc_grows e2) as (G2 & S2 & N2); eauto.
      edestruct (alloc_grows e3) as (G3 & S3 & N3); eauto.
      assert (K2 : comp_ok w V (owns ii s s2) (dsev C r1 lz) (dir C e2 rho)).
      { eapply (own_weaken all s s0 s1 s2); eauto. eapply IHe2; eauto using side_grows. }
      assert (K3 : comp_ok w V (owns ii s s2) (dsev C r2 lz) (dir C e3 rho)).
      { eapply (own_weaken all s s1 s2 s2); eauto using grows_refl, grows_trans.
        eapply IHe3; eauto using side_grows, grows_trans. }
      cbn [dsev dir]. apply comp_bind.
      + eapply (own_weaken all s s s0 s2); eauto using grows_refl, grows_trans.
      + intros x _. destruct (sc C).
        * destruct (ternary_stop None x); [apply comp_val|]. destruct (is_true (fst x)); auto.
        * apply comp_bind; [exact K2|]. intros y _. apply comp_bind; [exact K3|].
          intros z _. apply comp_val.
    - cbn [alloc] in H0. pair_destruct. injection H0 as <- <-.
      edestruct (alloc_grows e1) as (G1 & S1 & N1); eauto.
      edestruct (alloc_grows e2) as (G2 & S2 & N2); eauto.
      cbn [dsev dir]. apply comp_bind.
      + eapply (own_weaken all s s s0 s1); eauto using grows_refl.
      + intros x _. destruct (if sc C then direct_or_first k x else None); [apply comp_val|].
        apply comp_bind; [|intros; apply comp_val].
        eapply (own_weaken all s s0 s1 s1); eauto using grows_refl.
        eapply IHe2; eauto using side_grows.
    - rewrite alloc_app in H0. pair_destruct. injection H0 as <- <-.
      assert (Hargs : forall l0, (forall x, In x l0 -> dtree_ok x) -> forall s r0 s0,
        alloc_list ii scp l0 s = (r0, s0) -> sane s -> grows s s0 /\ sane s0 /\ List.length r0 = List.length l0).
      { intros l0 _. induction l0 as [|x l0 IHl]; intros s1 r1 s2 E1 Hs1; cbn [alloc_list] in E1.
        - injection E1 as <- <-. split; [apply grows_refl|]. auto.
        - fold (alloc_list ii scp) in E1. pair_destruct. injection E1 as <- <-.
          destruct (alloc_grows _ _ _ _ _ _ E0 Hs1) as (G1 & S1 & N1).
          destruct (IHl _ _ _ E2 S1) as (G2 & S2 & L2). split; [eapply grows_trans; eassumption|].
          split; [exact S2|]. cbn [List.length]. congruence. }
      assert (Hin : forall x, In x args -> dtree_ok x) by (apply Forall_forall; exact H).
      clear H. destruct (Hargs args Hin _ _ _ E Hs) as (_ & _ & Hlen).
      assert (Hplain : forall g, comp_ok w V (owns ii s s0)
        (fun st => rbind (seval_list (fun x => dsev C x lz) r0 st) (fun vs s1 => do_direct C g vs s1))
        (vs <- eval_list (fun x => dir C x rho) args ;; direct_op C g vs)).
      { intros g. apply comp_bind; [|intros vs _; apply comp_direct]. clear Hlen.
        revert s r0 s0 E Hs Hsd Hin.
        induction args as [|x l IH]; intros s r0 s0 E Hs Hsd Hin; cbn [alloc_list] in E.
        - injection E as <- <-. apply comp_val.
        - fold (alloc_list ii scp) in E. pair_destruct. injection E as <- <-.
          destruct (alloc_grows _ _ _ _ _ _ E0 Hs) as (G1 & S1 & N1).
          destruct (Hargs l (fun z Hz => Hin z (or_intror Hz)) _ _ _ E1 S1) as (G2 & _).
          cbn [seval_list eval_list]. fold (seval_list (fun x => dsev C x lz)).
          fold (eval_list (fun x => dir C x rho)).
          apply comp_bind.
          + eapply (own_weaken all s s s1 s2); eauto using grows_refl. eapply Hin; eauto. now left.
          + intros v _. apply comp_bind; [|intros; apply comp_val].
            eapply (own_weaken all s s1 s2 s2); eauto using grows_refl.
            eapply IH; eauto using side_grows. intros z Hz. apply Hin. now right. }
      destruct op as [fd tst| | | |ng| |fn rc ovs|opts|opts]; cbn [dsev dir];
        try (rewrite Hlen; match goal with |- context [direct_arity ?o ?n] => destruct (direct_arity o n) end;
             [apply Hplain | intros st _; reflexivity]).
      + clear Hplain Hlen. generalize (@nil value) as acc. revert s r0 s0 E Hs Hsd Hin opts.
        induction args as [|x l IH]; intros s r0 s0 E Hs Hsd Hin opts acc; cbn [alloc_list] in E.
        * injection E as <- <-. apply comp_val.
        * fold (alloc_list ii scp) in E. pair_destruct. injection E as <- <-.
          destruct (alloc_grows _ _ _ _ _ _ E0 Hs) as (G1 & S1 & N1).
          destruct (Hargs l (fun z Hz => Hin z (or_intror Hz)) _ _ _ E1 S1) as (G2 & _).
          cbn [d_list dir_list]. apply comp_bind.
          -- eapply (own_weaken all s s s1 s2); eauto using grows_refl. eapply Hin; eauto. now left.
          -- intros v _. apply comp_bind; [apply comp_lift|]. intros [u|acc'] _; [apply comp_val|].
             eapply (own_weaken all s s1 s2 s2); eauto using grows_refl.
             apply IH; eauto using side_grows. intros z Hz. apply Hin. now right.
      + clear Hplain Hlen. generalize (@nil (mkey * value)) as acc.
        assert (Hn : (List.length args <= List.length args)%nat) by lia. revert Hn.
        generalize (List.length args) at 2 as n. intros n. revert args s r0 s0 E Hs Hsd Hin opts.
        induction n as [|n IH]; intros args s r0 s0 E Hs Hsd Hin opts Hn acc.
        * destruct args; [|cbn in Hn; lia]. injection E as <- <-. apply comp_val.
        * destruct args as [|ke [|ve l]]; cbn [alloc_list] in E.
          -- injection E as <- <-. apply comp_val.
          -- destruct (alloc ii scp ke s) as [rk sk]. injection E as <- <-. apply comp_val.
          -- fold (alloc_list ii scp) in E. destruct (alloc ii scp ke s) as [rk s1] eqn:E0.
             destruct (alloc ii scp ve s1) as [rv s2] eqn:E2.
             destruct (alloc_list ii scp l s2) as [rl s3] eqn:E3. injection E as <- <-.
             destruct (alloc_grows _ _ _ _ _ _ E0 Hs) as (G1 & S1 & N1).
             destruct (alloc_grows _ _ _ _ _ _ E2 S1) as (G2 & S2 & N2).
             destruct (Hargs l (fun z Hz => Hin z (or_intror (or_intror Hz))) _ _ _ E3 S2) as (G3 & _).
             cbn [d_map dir_map]. apply comp_bind.
             { eapply (own_weaken all s s s1 s3); eauto using grows_refl, grows_trans. eapply Hin; eauto. now left. }
             intros kx _. apply comp_bind; [apply comp_lift|]. intros [u|] _; [apply comp_val|].
             apply comp_bind.
             { eapply (own_weaken all s s1 s2 s3); eauto using grows_refl.
               eapply Hin; eauto using side_grows. right. now left. }
             intros vx _. apply comp_bind; [apply comp_lift|]. intros [u|acc'] _; [apply comp_val|].
             eapply (own_weaken all s s2 s3 s3); eauto using grows_refl, grows_trans.
             apply IH; [exact E3 | exact S2 | eauto using side_grows, grows_trans | | cbn in Hn; lia].
             intros z Hz. apply Hin. right. now right.
    - cbn [alloc] in H0. cbv zeta in H0.
      set (two := negb (String.eqb x2 "")) in *.
      set (k := if two then 3%nat else 2%nat) in *.
      set (j := if two then S (al_next s) else al_next s) in *.
      assert (Hk : (2 <= k)%nat) by (unfold k; destruct two; lia).
      assert (Hj : (al_next s <= j)%nat /\ (S j < al_next s + k)%nat)
        by (unfold j, k; destruct two; lia).
      assert (Htwo : Nat.eqb (al_next s) j = negb two).
      { unfold j. destruct two; cbn [negb]; [apply Nat.eqb_neq; lia|apply Nat.eqb_refl]. }
      clearbody k j.
      pair_destruct. injection H0 as <- <-.
      assert (Hs0 : sane (ReserveSlots k s)).
      { unfold sane, ReserveSlots; cbn [al_next al_max]. lia. }
      assert (G0 : grows s (ReserveSlots k s)) by apply grows_reserve.
      edestruct (alloc_grows e1) as (G1 & S1 & N1); eauto.
      edestruct (alloc_grows e2) as (G2 & S2 & N2); eauto.
      edestruct (alloc_grows e3) as (G3 & S3 & N3); eauto.
      edestruct (alloc_grows e4) as (G4 & S4 & N4); eauto.
      edestruct (alloc_grows e5) as (G5 & S5 & N5); eauto.
      set (fin := if ii then s4 else release_to (al_next s) s4) in *.
      assert (Hown : forall q, owns ii s fin q <-> owns ii s s4 q).
      { intros q. unfold owns, fin. destruct ii; [tauto|]. split; intros [? ?]; split; auto; discriminate. }
      clearbody fin.
      assert (Hfin : forall A (f : est -> res A) o,
                comp_ok w V (owns ii s s4) f o -> comp_ok w V (owns ii s fin) f o).
      { intros A f o Hc. eapply comp_weaken; [| | | |exact Hc]; auto.
        - intros q. apply Hown.
        - destruct Hsd as (_ & H2 & _). intros q v Hq [Hw|[Hw _]]; destruct (H2 q v Hq); [auto|lia].
        - destruct Hsd as (H1 & _). intros q [Hq _] Hw. specialize (H1 q Hw). lia. }
      assert (X0 : al_next (ReserveSlots k s) = (al_next s + k)%nat) by reflexivity.
      pose proof (grows_next _ _ G1) as X1. pose proof (grows_next _ _ G2) as X2.
      pose proof (grows_next _ _ G3) as X3. pose proof (grows_next _ _ G4) as X4.
      pose proof (grows_next _ _ G5) as X5. rewrite X0 in X1.
      cbn [dsev dir]. apply Hfin. apply comp_bind.
      + eapply (own_weaken all s (ReserveSlots k s) s0 s4); eauto 6 using grows_trans.
        eapply IHe1; eauto using side_grows.
      + intros rv _. destruct (comp_init C rv) as [r'|[b items]]; [apply comp_val|].
        apply comp_bind.
        * eapply (own_weaken all s s0 s1 s4); eauto 6 using grows_trans.
          eapply IHe2; eauto 6 using side_grows, grows_trans.
        * intros iv _ st Hst.
          set (O1 := owns ii s1 s4).
          set (EL := fun kv accu => loop_env C x x2 y b (snd rv) kv accu rho).
          set (VLk := fun kv accu => L_Tree.VL C V (al_next s) j (S j) b (snd rv) kv accu).
          assert (HsdL : forall kv accu, side s1 w (VLk kv accu) lz).
          { intros kv accu. destruct Hsd as (H1 & H2 & H3 & H4). split; [|split; [|split]].
            - intros q Hq. specialize (H1 q Hq). lia.
            - intros q v [Hq|[[-> _]|[[-> _]|[-> _]]]].
              + destruct (H2 q v Hq). split; [lia|auto].
              + split; [lia|]. intros Hw. specialize (H1 _ Hw). lia.
              + split; [lia|]. intros Hw. specialize (H1 _ Hw). lia.
              + split; [lia|]. intros Hw. specialize (H1 _ Hw). lia.
            - eapply lazies_mono; [|exact H3]. intros q v Hq. now left.
            - intros l Hl. specialize (H4 l Hl).
              assert (Gx : grows s s1) by eauto using grows_trans.
              destruct Gx as (_ & _ & z & ->). rewrite app_length. lia. }
          assert (HagL : forall kv accu,
                    agree ((x, LSlot (al_next s)) :: (if two then [(x2, LSlot j)] else [])
                           ++ (y, LSlot (S j)) :: scp) w (VLk kv accu) (EL kv accu)).
          { intros kv accu. unfold EL, loop_env.
            assert (A1 : agree ((y, LSlot (S j)) :: scp) w (VLk kv accu) (bind_local y (Val accu) rho)).
            { eapply agree_bind; [exact Hag| |]; unfold VLk, L_Tree.VL; tauto. }
            unfold two in *. destruct (String.eqb x2 ""); cbn [negb app] in *.
            - eapply agree_bind; [exact A1|auto|]. unfold VLk, L_Tree.VL, first_it. rewrite Htwo. tauto.
            - apply (agree_bind _ _ (VLk kv accu) (VLk kv accu)); auto.
              + apply (agree_bind _ _ (VLk kv accu) (VLk kv accu)); auto.
                unfold VLk, L_Tree.VL, second_it. rewrite Htwo. right; right; left. auto.
              + unfold VLk, L_Tree.VL, first_it. rewrite Htwo. right; left. auto. }
          set (VRk := fun accu => VR V (S j) accu).
          assert (HsdR : forall accu, side s3 w (VRk accu) lz).
          { intros accu. destruct Hsd as (H1 & H2 & H3 & H4). split; [|split; [|split]].
            - intros q Hq. specialize (H1 q Hq). lia.
            - intros q v [Hq|[-> _]].
              + destruct (H2 q v Hq). split; [lia|auto].
              + split; [lia|]. intros Hw. specialize (H1 _ Hw). lia.
            - eapply lazies_mono; [|exact H3]. intros q v Hq. now left.
            - intros l Hl. specialize (H4 l Hl).
              assert (Gx : grows s s3) by eauto 6 using grows_trans.
              destruct Gx as (_ & _ & z & ->). rewrite app_length. lia. }
          assert (HVO : forall q v kv accu, VLk kv accu q v -> ~ WO w O1 q).
          { intros q v kv accu Hq [Hw|[Ho _]]; destruct (HsdL kv accu) as (_ & H2 & _);
              destruct (H2 q v Hq); [auto|lia]. }
          assert (HO1 : forall q, O1 q -> ~ Wof w q).
          { intros q [Ho _] Hw. destruct Hsd as (H1 & _). specialize (H1 q Hw). lia. }
          assert (Kc : forall kv accu, comp_ok w (VLk kv accu) O1 (dsev C r2 lz) (dir C e3 (EL kv accu))).
          { intros kv accu. eapply (own_weaken all s1 s1 s2 s4); eauto using grows_refl, grows_trans. }
          assert (Ks : forall kv accu, comp_ok w (VLk kv accu) O1 (dsev C r3 lz) (dir C e4 (EL kv accu))).
          { intros kv accu. eapply (own_weaken all s1 s2 s3 s4); eauto.
            eapply IHe4; eauto using side_grows. }
          assert (Kr : forall accu, comp_ok w (VRk accu) O1 (dsev C r4 lz)
                         (dir C e5 (bind_local y (Val accu) rho))).
          { intros accu. eapply (own_weaken all s1 s3 s4 s4); eauto using grows_refl, grows_trans.
            - destruct (HsdL (VNull, VNull) accu) as (H1 & H2 & H3 & H4). split; [auto|].
              split; [|split].
              + intros q v [Hq|[-> ->]]; (eapply H2; unfold VLk, L_Tree.VL); [left; eauto|tauto].
              + destruct Hsd as (_ & _ & H5 & _). eapply lazies_mono; [|exact H5].
                intros q v Hq. now left.
              + auto.
            - eapply IHe5; eauto. eapply agree_bind; [exact Hag| |]; unfold VRk, VR; tauto. }
          set (st0 := open_iter (al_next s) j (set_slot (S j) iv st)).
          assert (F0 : frame_on (fun q => q = al_next s \/ q = j \/ q = S j) st st0).
          { unfold st0, open_iter. intros q Hq. destruct (Nat.eqb (al_next s) j);
              rewrite !get_set_ne by (intros Hx; apply Hq; subst q; auto); reflexivity. }
          assert (Hac : e_slots st0 (S j) = Some iv).
          { unfold st0, open_iter. destruct (Nat.eqb (al_next s) j); rewrite !get_set_ne by lia; apply get_set. }
          clearbody st0.
          assert (HI1 : Inv w (VRk iv) O1 st0).
          { destruct Hst as (I1 & I2 & I3). destruct Hsd as (H1 & H2 & H3 & H4).
            split; [|split].
            - intros l Hl. destruct (I1 l Hl) as [M1 M2].
              assert (Hlt : forall q, (l_lo l <= q < l_hi l)%nat -> (q < al_next s)%nat).
              { intros q Hq. apply H1. exists l. auto. }
              split.
              + rewrite F0; [exact M1|]. specialize (Hlt (l_lo l)). pose proof (lo_hi l). lia.
              + intros q Hq Hb. rewrite F0; [auto|]. specialize (Hlt q). lia.
            - intros q v [Hv|[-> ->]]; [|exact Hac]. rewrite F0; [auto|]. destruct (H2 q v Hv). lia.
            - intros q [Hq1 Hq2] Hb. rewrite F0 by lia. apply I3; auto. split; [lia|auto]. }
          pose proof (dtree_loop w V O1 (al_next s) j (S j) b (snd rv) (dsev C r2 lz)
            (dsev C r3 lz) (dsev C r4 lz)
            (fun kv accu => dir C e3 (EL kv accu)) (fun kv accu => dir C e4 (EL kv accu))
            (fun accu => dir C e5 (bind_local y (Val accu) rho)) Kc Ks Kr) as HT.
          assert (HT' : gives w V (fun q => O1 q \/ (q = al_next s \/ q = j \/ q = S j)) st0
            (dloop_then (al_next s) j (S j) b (snd rv) (dsev C r2 lz) (dsev C r3 lz)
               (dsev C r4 lz) items st0)
            (eval_loop (sc C) (fun kv accu => strip (dir C e3 (EL kv accu)))
               (fun kv accu => dir C e4 (EL kv accu))
               (fun accu => dir C e5 (bind_local y (Val accu) rho)) items iv)).
          { destruct Hsd as (H1 & H2 & H3 & H4).
            apply HT; auto; try lia.
            - intros q Hq Hw. specialize (H1 q Hw). lia.
            - intros q Hq [Ho _]. lia.
            - intros q v Hq Hv. destruct (H2 q v Hv). lia. }
          clear HT. apply (gives_frame all w V O1 (al_next s) j (S j) st st0) in HT';
            [|apply frame_T; exact F0].
          change (gives w V (owns ii s s4) st
            (dloop_then (al_next s) j (S j) b (snd rv) (dsev C r2 lz) (dsev C r3 lz)
               (dsev C r4 lz) items st0)
            (eval_loop (sc C) (fun kv accu => strip (dir C e3 (EL kv accu)))
               (fun kv accu => dir C e4 (EL kv accu))
               (fun accu => dir C e5 (bind_local y (Val accu) rho)) items iv)).
          revert HT'. generalize (dloop_then (al_next s) j (S j) b (snd rv) (dsev C r2 lz) (dsev C r3 lz)
               (dsev C r4 lz) items st0) as res0.
          generalize (eval_loop (sc C) (fun kv accu => strip (dir C e3 (EL kv accu)))
               (fun kv accu => dir C e4 (EL kv accu))
               (fun accu => dir C e5 (bind_local y (Val accu) rho)) items iv) as out0.
          intros out0 res0. unfold L_Tree.gives. destruct out0; auto.
          intros (st' & -> & (J1 & J2 & J3) & F). exists st'. split; auto.
          assert (Hoo : forall q, (O1 q \/ (q = al_next s \/ q = j \/ q = S j)) -> owns ii s s4 q).
          { intros q [[Hq1 Hq2]|Hq]; (split; [lia|]); intros E9; [specialize (Hq2 E9)|]; lia. }
          split.
          -- split; auto. split; auto. intros q Hq Hb.
             destruct (Nat.eq_dec q (al_next s)) as [->|n1]; [apply J3; tauto|].
             destruct (Nat.eq_dec q j) as [->|n2]; [apply J3; tauto|].
             destruct (Nat.eq_dec q (S j)) as [->|n3]; [apply J3; tauto|].
             destruct Hst as (I1 & I2 & I3).
             destruct (Nat.le_gt_cases (al_next s1) q) as [Hge|Hlt].
             ++ apply J3; auto. left. split; auto. apply Hq.
             ++ rewrite (F q); [apply I3; auto|].
                intros [Hw|[[Ho _]|Ho]]; [|lia|lia].
                destruct Hsd as (H1 & _). specialize (H1 q Hw). destruct Hq. lia.
          -- eapply frame_mono; [|exact F]. intros q [Hq|Hq]; [now left|right; auto].
    - cbn [alloc] in H0. cbv zeta in H0. pair_destruct. injection H0 as <- <-.
      assert (Hs0 : sane (ReserveSlots 1 s)).
      { unfold sane, ReserveSlots; cbn [al_next al_max]. lia. }
      assert (G0 : grows s (ReserveSlots 1 s)) by apply grows_reserve.
      edestruct (alloc_grows e1) as (G1 & S1 & N1); eauto.
      assert (Hs1 : sane (extract r0 s0)) by exact S1.
      edestruct (alloc_grows e2) as (G2 & S2 & N2); eauto.
      assert (X0 : al_next (ReserveSlots 1 s) = (al_next s + 1)%nat) by reflexivity.
      assert (X0' : al_next (extract r0 s0) = al_next s0) by reflexivity.
      pose proof (grows_next _ _ G1) as X1. pose proof (grows_next _ _ G2) as X2.
      set (fin := if ii then s1 else release_to (al_next s) s1) in *.
      assert (Hown : forall q, owns ii s fin q <-> owns ii s s1 q).
      { intros q. unfold owns, fin. destruct ii; [tauto|]. split; intros [? ?]; split; auto; discriminate. }
      clearbody fin.
      set (l := mkRec (al_next s) (al_next s0 - al_next s - 1) (List.length (al_subs s0)) (dir C e1 rho)).
      assert (Hhi : l_hi l = al_next s0) by (unfold l_hi, l; cbn [l_lo l_size]; lia).
      pose proof Hsd as (H1 & H2 & H3 & H4).
      assert (Ki : comp_ok w V (fun q => (al_next s < q < al_next s0)%nat) (dsev C r0 lz) (dir C e1 rho)).
      { pose proof (IHe1 true scp _ _ _ w V lz rho E Hs0 Hag (side_grows all _ _ _ _ _ G0 Hsd)) as K.
        eapply comp_weaken; [| | | |exact K]; auto.
        - intros q [Hq1 Hq2]. specialize (Hq2 eq_refl). lia.
        - intros q v Hq [Hw|[Ho _]]; destruct (H2 q v Hq); [auto|lia].
        - intros q Hq Hw. specialize (H1 q Hw). lia. }
      assert (HW' : forall q, Wof (l :: w) q <-> (al_next s <= q < al_next s0)%nat \/ Wof w q).
      { intros q. split.
        - intros (m & [<-|Hm] & Hq).
          + left. rewrite Hhi in Hq. exact Hq.
          + right. exists m. auto.
        - intros [Hq|(m & Hm & Hq)].
          + exists l. split; [now left|]. rewrite Hhi. exact Hq.
          + exists m. split; [now right|auto]. }
      assert (Kb : comp_ok (l :: w) V (owns ii (extract r0 s0) s1)
                (dsev C r1 (set_lz (List.length (al_subs s0)) (dsev C r0 lz) lz))
                (dir C e2 (bind_local y (dir C e1 rho) rho))).
      { eapply IHe2; eauto.
        - intros z. unfold bind_local. cbn [lookup_slot]. destruct (String.eqb y z).
          + exists l. split; [now left|]. auto.
          + specialize (Hag z). destruct (lookup_slot scp z) as [[q|q i]|]; auto.
            destruct Hag as (m & Hm & Hm'). exists m. split; [now right|auto].
        - split; [|split; [|split]].
          + intros q Hq. apply HW' in Hq. destruct Hq as [Hq|Hq]; [|specialize (H1 q Hq)]; lia.
          + intros q v Hq. destruct (H2 q v Hq). split; [lia|]. rewrite HW'. intros [?|?]; [lia|auto].
          + cbn [lazies]. split; [|split].
            * exact H1.
            * exists V. split; auto. rewrite Hhi. cbn [l_lo l_idx l_out l]. unfold set_lz.
              rewrite Nat.eqb_refl. exact Ki.
            * eapply lazies_lz; [|exact H3]. intros m Hm. unfold set_lz.
              specialize (H4 m Hm). destruct G1 as (_ & _ & z & G1). 
              rewrite G1, app_length. cbn [ReserveSlots al_subs].
              destruct (Nat.eqb_spec (l_idx m) (List.length (al_subs s) + List.length z)); [lia|reflexivity].
          + intros m [<-|Hm]; cbn [extract al_subs]; rewrite app_length; cbn [List.length l_idx l].
            * lia.
            * specialize (H4 m Hm). destruct G1 as (_ & _ & z & ->). rewrite app_length.
              cbn [ReserveSlots al_subs]. lia. }
      intros st Hst. destruct Hst as (I1 & I2 & I3).
      assert (Hst' : Inv (l :: w) V (owns ii (extract r0 s0) s1) st).
      { split; [|split]; auto.
        - intros m [<-|Hm]; [|auto]. split.
          + left. apply I3; auto. apply Hown. split; [cbn [l_lo l]; lia|]. cbn [l_lo l]. lia.
          + rewrite Hhi. cbn [l_lo l]. intros q Hq Hbq. apply I3; auto. apply Hown.
            split; [lia|]. lia.
        - intros q [Hq1 Hq2] Hbq. apply I3; auto. apply Hown. split; [lia|auto]. }
      specialize (Kb st Hst'). cbn [dsev dir]. unfold L_Tree.gives in *.
      destruct (dir C e2 (bind_local y (dir C e1 rho) rho)) as [v|er|].
      2: { destruct Kb as (st1 & ->). cbn [rbind]. eauto. }
      2: { now rewrite Kb. }
      destruct Kb as (st1 & -> & (J1 & J2 & J3) & F). cbn [rbind].
      exists (clear_slot (al_next s) st1). split; [reflexivity|].
      assert (Hnw : forall q, V q v \/ True -> True) by auto. clear Hnw.
      split.
      + split; [|split].
        * intros m Hm. assert (Hlt : forall q, (l_lo m <= q < l_hi m)%nat -> (q < al_next s)%nat).
          { intros q Hq. apply H1. exists m. auto. }
          destruct (J1 m (or_intror Hm)) as [M1 M2]. split.
          -- rewrite get_clear_ne; [exact M1|]. specialize (Hlt (l_lo m)). pose proof (lo_hi m). lia.
          -- intros q Hq Hbq. rewrite get_clear_ne; auto. specialize (Hlt q). lia.
        * intros q u Hq. destruct (H2 q u Hq). rewrite get_clear_ne by lia. auto.
        * intros q Hq Hbq. apply Hown in Hq. destruct (Nat.eq_dec q (al_next s)) as [->|Hne];
            [apply get_clear|]. rewrite get_clear_ne by auto.
          destruct (Nat.le_gt_cases (al_next s0) q) as [Hge|Hlt].
          -- apply J3; auto. split; [lia|apply Hq].
          -- destruct (J1 l (or_introl eq_refl)) as [M1 M2]. apply M2; auto. rewrite Hhi.
             cbn [l_lo l]. destruct Hq. lia.
      + intros q Hq. rewrite get_clear_ne.
        * apply F. intros [Hw|[Ho1 Ho2]].
          -- apply HW' in Hw. destruct Hw as [Hw|Hw]; apply Hq; [right|now left].
             apply Hown. split; lia.
          -- apply Hq. right. apply Hown. split; [lia|auto].
        * intros ->. apply Hq. right. apply Hown. split; [lia|]. lia.
  Qed.
End DTree.
