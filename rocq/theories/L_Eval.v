(* From the machine to the structural and the reference semantics. *)
From Coq Require Import ZArith List Bool String Lia.
From Verif Require Import Base M_Overflow M_Number M_Attr M_Value M_Logic M_Expr M_Plan M_Machine
  S_Eval L_Seval L_Alloc L_Safe L_Budget L_Tree L_Core L_Stale L_Once.
Import ListNotations.
Open Scope list_scope.
Open Scope Z_scope.

Lemma plan_core_of O R e P : plan O R e = Val P ->
  exists k, elaborate O R e = Val k /\ P = plan_core (o_short_circuiting O) k.
Proof.
  unfold plan. destruct (elaborate O R e) as [k|er|]; cbn [obind]; intros H; inversion H. eauto.
Qed.

Definition final (r : res vt) : res value :=
  match r with
  | RVal x s => RVal (fst x) s
  | RErr e s => RErr e s
  | RFault w => RFault w
  | RUB => RUB
  end.
Lemma evaluates_seval C e r :
  evaluates C (plan_core (sc C) e) r <-> r = final (seval C (resolved e) no_lazy est_init).
Proof.
  destruct (machine_seval C e) as (t & (n & Hr) & Ht). split.
  - intros (n' & t' & Hr' & <-). rewrite (run_det _ _ _ _ _ _ _ Hr' Hr), Ht.
    destruct (seval C (resolved e) no_lazy est_init) as [[]| | |]; reflexivity.
  - intros ->. exists n, t. split; auto. rewrite Ht.
    destruct (seval C (resolved e) no_lazy est_init) as [[]| | |]; reflexivity.
Qed.
Lemma evaluates_det C P r r' : evaluates C P r -> evaluates C P r' -> r = r'.
Proof. intros (n & t & H & <-) (n' & t' & H' & <-). now rewrite (run_det _ _ _ _ _ _ _ H H'). Qed.

Lemma seval_eval C k : stale_free C k -> o_max_iterations (cf_opts C) = 0 ->
  agrees (eval C k no_locals) (final (seval C (resolved k) no_lazy est_init)).
Proof.
  intros Hst Hm. set (B := fun n => bind_slot n (resolved k)).
  assert (Hcl : clean C B (resolved k)).
  { apply clean_of; [auto|]. intros Hs n He Hb. exact (Hst Hs n Hb He). }
  unfold resolved in *. destruct (alloc false [] k (mkAlloc 0 0 [])) as [r s'] eqn:E. cbn [fst] in *.
  pose proof (tree C B Hm k false [] (mkAlloc 0 0 []) r s' [] (fun _ _ => False) no_lazy no_locals E) as H.
  assert (Hs : sane (mkAlloc 0 0 [])) by (unfold sane; cbn; lia).
  specialize (H Hs Hcl). assert (Ha : agree [] [] (fun _ _ => False) no_locals) by (intros x; reflexivity).
  assert (Hsd : side B (mkAlloc 0 0 []) [] (fun _ _ => False) no_lazy).
  { split; [intros q (l & [] & _)|]. split; [intros q v []|]. split; [exact I|intros l []]. }
  specialize (H Ha Hsd est_init). unfold gives in H.
  assert (HI : Inv B [] (fun _ _ => False) (owns false (mkAlloc 0 0 []) s') est_init).
  { split; [intros l []|]. split; [intros q v []|]. intros q _ _. reflexivity. }
  specialize (H HI). unfold agrees. destruct (eval C k no_locals) as [x|e|].
  - destruct H as (s1 & -> & _). cbn [final]. eauto.
  - destruct H as (s1 & ->). cbn [final]. eauto.
  - rewrite H. reflexivity.
Qed.

(* ---- with any budget ---- *)

Lemma final_rel C (HN : 0 < o_max_iterations (cf_opts C)) k :
  let r0 := final (seval (with_budget 0 C) (resolved k) no_lazy est_init) in
  let rN := final (seval C (resolved k) no_lazy est_init) in
  match r0 with
  | RVal v s0 => (loops s0 < o_max_iterations (cf_opts C) /\
                    exists sN, rN = RVal v sN /\ loops sN = loops s0 /\ e_log sN = e_log s0) \/
                 (o_max_iterations (cf_opts C) <= loops s0 /\ exceeded C rN)
  | RErr e s0 => (loops s0 < o_max_iterations (cf_opts C) /\
                    exists sN, rN = RErr e sN /\ loops sN = loops s0 /\ e_log sN = e_log s0) \/
                 (o_max_iterations (cf_opts C) <= loops s0 /\ exceeded C rN)
  | RFault w => False
  | RUB => rN = RUB \/ exceeded C rN
  end.
Proof.
  cbn zeta. pose proof (budget_rel C HN (resolved k)) as H.
  pose proof (resolved_no_fault (with_budget 0 C) k) as Hf.
  assert (Hex : exceeded C (seval C (resolved k) no_lazy est_init) ->
                exceeded C (final (seval C (resolved k) no_lazy est_init))).
  { intros (s & -> & Hs). exists s. auto. }
  destruct (seval (with_budget 0 C) (resolved k) no_lazy est_init) as [x s|e s|w|]; cbn [final rel] in *.
  - destruct H as [(H1 & sN & -> & He)|[H1 H2]]; [left|right; auto].
    split; auto. exists sN. cbn [final]. destruct He as (_ & H2 & H3 & _). unfold loops. rewrite H2, H3. auto.
  - destruct H as [(H1 & sN & -> & He)|[H1 H2]]; [left|right; auto].
    split; auto. exists sN. cbn [final]. destruct He as (_ & H2 & H3 & _). unfold loops. rewrite H2, H3. auto.
  - exact (Hf w eq_refl).
  - destruct H as [->|H]; auto.
Qed.

Lemma agrees_budget C k : 0 <= o_max_iterations (cf_opts C) -> stale_free C k ->
  agrees (eval C k no_locals) (final (seval C (resolved k) no_lazy est_init)) \/
  (0 < o_max_iterations (cf_opts C) /\ exceeded C (final (seval C (resolved k) no_lazy est_init))).
Proof.
  intros H0 Hst.
  destruct (Z.eq_dec (o_max_iterations (cf_opts C)) 0) as [Hz|Hz]; [left; now apply seval_eval|].
  assert (HN : 0 < o_max_iterations (cf_opts C)) by lia.
  pose proof (final_rel C HN k) as H. cbn zeta in H.
  assert (Hst0 : stale_free (with_budget 0 C) k) by exact Hst.
  pose proof (seval_eval (with_budget 0 C) k Hst0 eq_refl) as Ha. rewrite eval_budget in Ha.
  destruct (eval C k no_locals) as [x|e|]; cbn [agrees] in Ha.
  - destruct Ha as (s & E). rewrite E in H. destruct H as [(_ & sN & -> & _)|[_ H]]; [left; cbn; eauto|right; auto].
  - destruct Ha as (s & E). rewrite E in H. destruct H as [(_ & sN & -> & _)|[_ H]]; [left; cbn; eauto|right; auto].
  - rewrite Ha in H. destruct H as [->|H]; [left; reflexivity|right; auto].
Qed.
