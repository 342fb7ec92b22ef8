(* Accumulators of loops; which expressions the check accepts. *)
From Coq Require Import ZArith String Ascii List Bool Arith Lia Permutation.
From Verif Require Import Base M_Overflow M_Number M_Attr M_Value M_Logic M_Expr M_Plan M_Machine
  S_Eval S_Macro L_Seval L_Core L_Meaning L_Macro.
From Verif Require Import M_Vulnerable S_Growth L_Growth L_Growth2.
Import ListNotations.
Open Scope list_scope.
Local Open Scope nat_scope.
Local Open Scope out_scope.

Definition local_name (y : string) : Prop := forall s, y <> String "."%char s.

Lemma meaning_local C R y rho o : local_name y -> rho y = Some o -> meaning C R (EIdent y) rho = o.
Proof.
  intros Hy H. cbn [meaning]. destruct y as [|c s]; [now rewrite H|].
  assert (Hc : c <> "."%char) by (intros ->; now apply (Hy s)).
  destruct c as [[] [] [] [] [] [] [] []]; cbn beta iota; rewrite ?H; try reflexivity. now elim Hc.
Qed.

Section Loop.
  Variables (C : config) (R : registry) (rho : env) (i y : string) (step : expr).
  Hypothesis Hc : concatenating R.
  Hypothesis Hf : forall m, Permutation (cf_reorder C m) m.
  Hypothesis Hu : unk C = false.
  Hypothesis Hi : i <> y.
  Hypothesis Hs : plain_use R y step.
  Hypothesis Hv : ComprehensionHasMemoryExhaustionVulnerability y step = false.

  Lemma refs_le : refs step y <= 1.
  Proof. unfold ComprehensionHasMemoryExhaustionVulnerability in Hv. apply Nat.leb_gt in Hv. lia. Qed.

  Lemma step_constant elems : exists c, forall e v t w b tr k, In e elems ->
    meaning C R step (loop_env C i "" y b tr (k, e) (v, t) rho) = Val w -> b = false ->
    size (fst w) <= size v + c.
  Proof.
    induction elems as [|e elems (c & IH)]; [exists 0; intros ? ? ? ? ? ? ? []|].
    destruct (use_bounded C R y Hc Hf step Hs (bind_local i (Val (e, None)) rho)) as (c' & H).
    exists (c + c'). intros e' v t w b tr k [<-|Hin] Hm Hb.
    - subst b. unfold loop_env in Hm. cbn [String.eqb] in Hm. unfold iter_one in Hm. rewrite Hu in Hm. cbn [snd] in Hm.
      enough (size (fst w) <= refs step y * size v + c').
      { pose proof refs_le. destruct (refs step y) as [|[|]]; lia. }
      eapply H; [|exact Hm]. split.
      + unfold bind_local. assert (E : String.eqb i y = false) by now apply String.eqb_neq.
        now rewrite E, String.eqb_refl.
      + intros z Hz. unfold bind_local. destruct (String.eqb i z); [reflexivity|].
        assert (E : String.eqb y z = false) by (apply String.eqb_neq; congruence). now rewrite E.
    - specialize (IH e' v t w b tr k Hin Hm Hb). lia.
  Qed.

  Lemma loop_size cond tr elems c : (forall e v t w k, In e elems ->
      meaning C R step (loop_env C i "" y false tr (k, e) (v, t) rho) = Val w -> size (fst w) <= size v + c) ->
    forall items, incl (map snd items) elems -> forall a w,
    eval_loop (sc C) cond (fun kv a => meaning C R step (loop_env C i "" y false tr kv a rho))
      (fun a => Val a) items a = Val w -> size (fst w) <= size (fst a) + List.length items * c.
  Proof.
    intros Hst items. induction items as [|[k e] items IH]; intros Hin a w H; cbn [eval_loop] in H.
    - injection H as <-. lia.
    - outs H. destruct (loop_condition r) as [u|g] eqn:El.
      + injection H as <-. pose proof (size_pos (fst a)). unfold loop_condition in El.
        enough (size (fst u) = 1) by lia.
        destruct (fst r) eqn:Er; try discriminate El; injection El as <-; cbn [fst]; rewrite ?Er; reflexivity.
      + destruct (negb g && sc C); [injection H as <-; lia|]. outs H.
        assert (Hin' : incl (map snd items) elems) by (intros z Hz; apply Hin; now right).
        specialize (IH Hin' _ _ H). destruct a as [v t].
        specialize (Hst e v t r0 k (Hin e (or_introl eq_refl)) E0). cbn [List.length fst] in *. lia.
  Qed.
  Lemma list_items_snd l : forall n, map snd (list_items n l) = l.
  Proof. induction l as [|a l IH]; intros n; [reflexivity|]. cbn [list_items map snd]. now rewrite IH. Qed.
  Lemma list_items_length l n : List.length (list_items n l) = List.length l.
  Proof. rewrite <- (list_items_snd l n) at 2. now rewrite map_length. Qed.

  Theorem comprehension_size elems : local_name y -> exists c, forall cond range init l t i0 t0 w,
    meaning C R range rho = Val (VList l, t) -> incl l elems -> meaning C R init rho = Val (i0, t0) ->
    meaning C R (EComp i "" y range init cond step (EIdent y)) rho = Val w ->
    size (fst w) <= size i0 + List.length l * c.
  Proof.
    intros Hy. destruct (step_constant elems) as (c & Hst). exists c.
    intros cond range init l t i0 t0 w Hr Hl Hin H. cbn [meaning] in H.
    change (match y with
            | String "."%char global => LookupIdent C global
            | _ => match bind_local y (meaning C R init rho) rho y with Some o => o | None => LookupIdent C y end end)
      with (meaning C R (EIdent y) (bind_local y (meaning C R init rho) rho)) in H.
    assert (Hb : forall o, bind_local y o rho y = Some o) by (intros o; unfold bind_local; now rewrite String.eqb_refl).
    destruct (IsBind i "" range cond).
    - rewrite (meaning_local C R y _ _ Hy (Hb _)), Hin in H. injection H as <-. cbn [fst]. lia.
    - rewrite Hr in H. cbn [obind comp_init fst snd] in H. rewrite Hin in H. cbn [obind] in H.
      rewrite (eval_loop_ext _ _ (fun kv a => meaning C R cond (loop_env C i "" y false t kv a rho)) _
        (fun kv a => meaning C R step (loop_env C i "" y false t kv a rho)) _ (fun a => Val a)) in H; auto.
      + apply (loop_size _ t elems c) in H; [|eauto|rewrite list_items_snd; exact Hl].
        rewrite list_items_length in H. exact H.
      + intros a. exact (meaning_local C R y _ _ Hy (Hb _)).
  Qed.
End Loop.

(* ---- which expressions pass ---- *)
Lemma go_checks l : (fix go l := match l with [] => true | a :: l' => CheckPasses a && go l' end) l = forallb CheckPasses l.
Proof. induction l as [|a l IH]; [reflexivity|]. cbn [forallb]. now rewrite IH. Qed.
Lemma go_checks_elems (l : list (bool * expr)) :
  (fix go l := match l with [] => true | (_, a) :: l' => CheckPasses a && go l' end) l = forallb (fun p => CheckPasses (snd p)) l.
Proof. induction l as [|[o a] l IH]; [reflexivity|]. cbn [forallb snd]. now rewrite IH. Qed.
Lemma go_checks_entries (l : list (bool * (expr * expr))) :
  (fix go l := match l with [] => true | (_, (k, v)) :: l' => CheckPasses k && CheckPasses v && go l' end) l =
  forallb (fun p => CheckPasses (fst (snd p)) && CheckPasses (snd (snd p))) l.
Proof. induction l as [|[o [k v]] l IH]; [reflexivity|]. cbn [forallb fst snd]. now rewrite IH. Qed.
Definition node_passes (e : expr) : Prop :=
  match e with EComp _ _ y _ _ _ s _ => refs s y < 2 | _ => True end.
Lemma check_parts e : CheckPasses e = true <-> node_passes e /\ forall a, part a e -> CheckPasses a = true.
Proof.
  destruct e; cbn [CheckPasses node_passes]; rewrite ?go_checks, ?go_checks_elems, ?go_checks_entries.
  - split; [|auto]. intros _. split; [exact I|]. intros a H. inversion H.
  - split; [|auto]. intros _. split; [exact I|]. intros a H. inversion H.
  - split; [intros H; split; [exact I|]; intros a Ha; inversion Ha; now subst|]. intros [_ H]. apply H. constructor.
  - rewrite andb_true_iff, forallb_forall. split.
    + intros [Ht Ha]. split; [exact I|]. intros a H. inversion H; subst; auto.
    + intros [_ H]. split; [destruct target; [apply H; constructor|reflexivity]|]. intros a Ha. apply H. now constructor.
  - rewrite forallb_forall. split.
    + intros Ha. split; [exact I|]. intros a H. inversion H; subst. now apply (Ha (o, a)).
    + intros [_ H] [o a] Ha. apply H. now apply part_elem with o.
  - rewrite forallb_forall. split.
    + intros Ha. split; [exact I|]. intros a H. inversion H; subst;
        match goal with Hin : In _ ents |- _ => specialize (Ha _ Hin) end; cbn [fst snd] in Ha;
        apply andb_prop in Ha; tauto.
    + intros [_ H] [o [k v]] Ha. cbn [fst snd]. apply andb_true_intro. split; apply H; [apply (part_key ents o k v Ha)|apply (part_value ents o k v Ha)].
  - unfold ComprehensionHasMemoryExhaustionVulnerability.
    rewrite !andb_true_iff, negb_true_iff, Nat.leb_gt. split.
    + intros [[[[[H1 H2] H3] H4] H5] H6]. split; [exact H1|]. intros a H. inversion H; now subst.
    + intros [H1 H]. repeat split; try (apply H; constructor). exact H1.
Qed.
Lemma check_within e : CheckPasses e = true <-> forall c, within c e -> node_passes c.
Proof.
  split.
  - intros H c Hw. revert H. induction Hw as [e|a b e Hw IH Hp]; intros H; apply check_parts in H; destruct H as [Hn H]; auto.
  - induction e using expr_ind'; intros Hw; apply check_parts; (split; [apply Hw; constructor|]); intros b Hp;
      assert (Hb : forall c, within c b -> node_passes c) by (intros c Hcb; apply Hw; econstructor; eauto);
      inversion Hp; subst; auto; repeat match goal with H : Forall _ _ |- _ => rewrite Forall_forall in H end; auto.
    + match goal with H : forall q, In q l -> _, Hin : In _ l |- _ => apply (H _ Hin); exact Hb end.
    + match goal with H : forall q, In q l -> _, Hin : In _ l |- _ => apply (H _ Hin); exact Hb end.
    + match goal with H : forall q, In q l -> _, Hin : In _ l |- _ => apply (H _ Hin); exact Hb end.
Qed.

(* the count never exceeds the free occurrences *)
Lemma second_part x a e : part a e -> ~ second_variable x e -> ~ second_variable x a.
Proof.
  intros Hp Hn (i & y & r & n & c & s & b & H). apply Hn. exists i, y, r, n, c, s, b. econstructor; eauto.
Qed.
Lemma refs_occurrences x e : ~ second_variable x e -> refs e x <= occurrences x e.
Proof.
  induction e using expr_ind'; intros Hs.
  - cbn. lia.
  - cbn [refs occurrences]. destruct (String.eqb x0 x); lia.
  - cbn [refs occurrences]. destruct t; [lia|]. apply IHe. eapply second_part; [|exact Hs]. constructor.
  - assert (Hargs : (fix go (l : list expr) : nat := match l with [] => 0 | a :: l' => refs a x + go l' end) args <=
             (fix go l := match l with [] => 0 | a :: l' => occurrences x a + go l' end) args).
    { assert (Ha : Forall (fun a => ~ second_variable x a) args).
      { apply Forall_forall. intros a Ha. eapply second_part; [|exact Hs]. now constructor. }
      clear H Hs. induction H0 as [|a l Ha' _ IH]; [lia|]. inversion Ha as [|? ? Hx Hl]; subst.
      specialize (IH Hl). specialize (Ha' Hx). lia. }
    cbn [refs occurrences]. 
    destruct (String.eqb fn "_?_:_" && Nat.eqb (List.length args) 3).
    { destruct args as [|c0 [|a [|b [|]]]]; lia. }
    destruct (String.eqb fn "_+_"); [lia|].
    destruct (_ || _); [|lia]. destruct args as [|a args]; lia.
  - cbn [refs occurrences].
    assert (Ha : Forall (fun p => ~ second_variable x (snd p)) l).
    { apply Forall_forall. intros [o a] Ha. eapply second_part; [|exact Hs]. econstructor; eauto. }
    clear Hs. induction H as [|[o a] l Ha' _ IH]; [lia|]. inversion Ha as [|? ? Hx Hl]; subst.
    specialize (IH Hl). specialize (Ha' Hx). cbn [snd] in Ha'. lia.
  - cbn [refs occurrences].
    assert (Ha : Forall (fun p => ~ second_variable x (snd (snd p))) l).
    { apply Forall_forall. intros [o [k a]] Ha. eapply second_part; [|exact Hs]. eapply part_value; eauto. }
    clear Hs. induction H as [|[o [k a]] l [_ Ha'] _ IH]; [lia|]. inversion Ha as [|? ? Hx Hl]; subst.
    specialize (IH Hl). specialize (Ha' Hx). cbn [snd] in Ha'. lia.
  - cbn [refs occurrences].
    assert (E2 : String.eqb x2 x = false).
    { apply String.eqb_neq. intros ->. apply Hs. repeat eexists. constructor. }
    rewrite E2, orb_false_r.
    assert (P : forall a, part a (EComp x0 x2 y e1 e2 e3 e4 e5) -> ~ second_variable x a) by (intros; eapply second_part; eauto).
    specialize (IHe1 (P _ ltac:(constructor))). specialize (IHe2 (P _ (part_init _ _ _ _ _ _ _ _))).
    specialize (IHe4 (P _ (part_step _ _ _ _ _ _ _ _))). specialize (IHe5 (P _ (part_result _ _ _ _ _ _ _ _))).
    destruct (String.eqb y x), (String.eqb x0 x); cbn [negb andb orb]; lia.
Qed.
