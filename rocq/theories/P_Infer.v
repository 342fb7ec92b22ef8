(* C35 and C36: the bindings of the type checker's inference context stay
   acyclic, everything terminates, and what an assignability check means. *)
From Coq Require Import String List Bool NArith Relations Wellfounded Lia Arith.
From Verif Require Import M_Infer S_Infer L_Infer L_Infer2 L_Unify L_Unify2.
Import ListNotations.
Local Open Scope string_scope.
Open Scope list_scope.

(* --- C35 ---------------------------------------------------------------- *)

(* Whatever is done with an inference context, no type variable stands for a
   type that contains it. *)
Theorem C35_acyclic : forall legacy ops fuel c,
  run fuel (new_context legacy) ops = Some c -> acyclic (cx_bindings c).
Proof.
  intros legacy ops fuel c H. apply wf_acyclic. exact (run_inv _ _ _ _ (inv_new legacy) H).
Qed.
Print Assumptions C35_acyclic.

(* Every history runs to completion, and its outcome does not depend on the
   amount of fuel that was enough. *)
Theorem C35_terminates : forall legacy ops,
  exists fuel c, forall fuel', fuel <= fuel' -> run fuel' (new_context legacy) ops = Some c.
Proof.
  intros legacy ops. destruct (run_total ops _ (inv_new legacy)) as (k & c & H).
  exists k, c. intros k' Hk. exact (run_mono _ _ _ Hk _ _ H).
Qed.
Print Assumptions C35_terminates.

(* After any history every assignability check and every substitution
   terminates, whatever the types. *)
Theorem C35_check_terminates : forall legacy ops fuel c,
  run fuel (new_context legacy) ops = Some c ->
  forall from to, exists k r, forall k', k <= k' -> is_assignable k' c from to = Some r.
Proof.
  intros legacy ops fuel c H from to. pose proof (run_inv _ _ _ _ (inv_new legacy) H) as W.
  destruct (is_assignable_total c from to W) as (k & r & E). exists k, r. intros k' Hk.
  exact (is_assignable_mono _ _ _ _ _ _ Hk E).
Qed.
Print Assumptions C35_check_terminates.

Theorem C35_substitution_terminates : forall legacy ops fuel c,
  run fuel (new_context legacy) ops = Some c ->
  forall t free_to_dyn, exists k r,
    (forall k', k <= k' -> fully_substitute k' (cx_bindings c) free_to_dyn t = Some r).
Proof.
  intros legacy ops fuel c H t d. pose proof (run_inv _ _ _ _ (inv_new legacy) H) as W.
  destruct (fully_total _ d W t) as (k & r & E). exists k, r. intros k' Hk.
  exact (fully_mono _ _ _ _ _ E _ Hk).
Qed.
Print Assumptions C35_substitution_terminates.

(* A history with bindings between variables, an occurs check that refuses,
   a session and two literals. *)
Definition ex_ops : list op :=
  [ OInstantiate (TMap (TParam "A") (TParam "B"));
    OCheck (TParam "T%1") (TList (TParam "T%2"));
    OCheck (TParam "T%2") (TParam "T%1");
    OCheck (TParam "T%2") (TMap (TPrim PString) (TParam "T%1"));
    OSession [ACheck (TParam "T%2") (TPrim PInt); AUpdate];
    OListLiteral [TParam "T%1"; TList (TPrim PInt)];
    OMapLiteral [TPrim PString; TPrim PInt] [TNull; TStruct "S"] ].

Example ex_ops_run : exists c, run 60 (new_context true) ex_ops = Some c.
Proof. eexists. vm_compute. reflexivity. Qed.

Example ex_ops_bindings :
  option_map (fun c => (bd_find (cx_bindings c) "T%1", bd_find (cx_bindings c) "T%2"))
    (run 60 (new_context true) ex_ops) =
  Some (Some (Some (TList (TParam "T%2"))), Some (Some (TPrim PInt))).
Proof. vm_compute. reflexivity. Qed.

(* The histories above keep sessions apart.  When an assignability context is
   applied after a direct check made on stale knowledge (the header allows it
   and warns that the order matters), a cycle can arise, and then full
   substitution never returns. *)
Definition ex_two : context :=
  match run 20 (new_context true) [OInstantiate (TMap (TParam "A") (TParam "B"))] with
  | Some c => c | None => new_context true end.

Theorem C35_overlapping_contexts_cycle :
  exists p c1 c2,
    ctx_is_assignable 20 ex_two [] (TParam "T%1") (TList (TParam "T%2")) = Some (true, p) /\
    is_assignable 20 ex_two (TParam "T%2") (TList (TParam "T%1")) = Some (true, c1) /\
    c2 = fst (ctx_update c1 p) /\
    ~ acyclic (cx_bindings c2) /\
    forall fuel free_to_dyn,
      fully_substitute fuel (cx_bindings c2) free_to_dyn (TParam "T%1") = None.
Proof.
  eexists _, _, _. split; [vm_compute; reflexivity|]. split; [vm_compute; reflexivity|].
  split; [reflexivity|]. 
  set (b := cx_bindings _).
  assert (B1 : bd_find b "T%1" = Some (Some (TList (TParam "T%2")))) by (vm_compute; reflexivity).
  assert (B2 : bd_find b "T%2" = Some (Some (TList (TParam "T%1")))) by (vm_compute; reflexivity).
  clearbody b. split.
  - intros A. apply (A "T%1"). apply t_trans with "T%2"; apply t_step.
    + exists (TList (TParam "T%2")). split; [exact B1|]. econstructor; [left; reflexivity | constructor].
    + exists (TList (TParam "T%1")). split; [exact B2|]. econstructor; [left; reflexivity | constructor].
  - assert (R1 : resolve b [] "T%1" = Some (TList (TParam "T%2"))) by (unfold resolve; cbn; rewrite B1; reflexivity).
    assert (R2 : resolve b [] "T%2" = Some (TList (TParam "T%1"))) by (unfold resolve; cbn; rewrite B2; reflexivity).
    assert (H : forall k d,
      fully_substitute k b d (TParam "T%1") = None /\ fully_substitute k b d (TParam "T%2") = None /\
      fully_substitute k b d (TList (TParam "T%1")) = None /\
      fully_substitute k b d (TList (TParam "T%2")) = None).
    { intros k d. induction k as [|k (I1 & I2 & I3 & I4)]; [repeat split; reflexivity|].
      rewrite !fully_param. 
      assert (L : forall x, fully_substitute (S k) b d (TList x) = option_map TList (fully_substitute k b d x))
        by reflexivity.
      rewrite !L, I1, I2.
      destruct k as [|k]; [repeat split; reflexivity|].
      cbn [substitute]. rewrite R1, R2.
      destruct k as [|k]; [repeat split; reflexivity|].
      rewrite !substitute_nonparam by reflexivity. auto. }
    intros k d. apply H.
Qed.
Print Assumptions C35_overlapping_contexts_cycle.

(* --- C36 ---------------------------------------------------------------- *)

(* Every type is assignable to itself, and the check binds nothing. *)
Theorem C36_reflexive : forall legacy ops fuel c,
  run fuel (new_context legacy) ops = Some c ->
  forall t, exists k, is_assignable k c t t = Some (true, c).
Proof.
  intros legacy ops fuel c H t. pose proof (run_inv _ _ _ _ (inv_new legacy) H) as W.
  destruct (substitute_total _ [] W t) as (k & u & E). exists (S k). unfold is_assignable.
  rewrite (assignable_refl _ _ _ _ _ _ E). destruct c; reflexivity.
Qed.
Print Assumptions C36_reflexive.

(* dyn, any and error are assignable to and from every type. *)
Theorem C36_dyn_any : forall legacy ops fuel c,
  run fuel (new_context legacy) ops = Some c ->
  forall w t, wildcard w ->
    (exists k c', is_assignable k c w t = Some (true, c')) /\
    (exists k c', is_assignable k c t w = Some (true, c')).
Proof.
  intros legacy ops fuel c H w t Hw. pose proof (run_inv _ _ _ _ (inv_new legacy) H) as W.
  assert (A : forall f u, (is_wildcard f || is_wildcard u)%bool = true ->
     exists k c', is_assignable k c f u = Some (true, c')).
  { intros f u Hf. destruct (assignable_total (cx_legacy c) (cx_bindings c) [] f u W) as (k & [r p] & E).
    pose proof (wild_assignable _ _ _ _ _ _ _ Hf E) as Hr. cbn in Hr. subst r.
    exists k. unfold is_assignable. rewrite E. eauto. }
  split; apply A; destruct Hw; cbn; auto using orb_true_r.
Qed.
Print Assumptions C36_dyn_any.

(* A refused check changes nothing. *)
Theorem C36_refused_unchanged : forall fuel c from to c',
  is_assignable fuel c from to = Some (false, c') -> c' = c.
Proof.
  intros fuel c from to c'. unfold is_assignable.
  destruct (assignable_internal fuel _ _ _ from to) as [[[] p]|]; congruence.
Qed.
Print Assumptions C36_refused_unchanged.

(* A check never changes a binding that was already made. *)
Theorem C36_bindings_stay : forall fuel c from to r c' n t,
  is_assignable fuel c from to = Some (r, c') ->
  bd_find (cx_bindings c) n = Some (Some t) ->
  bd_find (cx_bindings c') n = Some (Some t).
Proof. intros fuel c from to r c' n t H. exact (is_assignable_keeps _ _ _ _ _ _ _ _ H). Qed.
Print Assumptions C36_bindings_stay.

(* On types without type variables the check decides [conforms], and binds
   nothing. *)
Theorem C36_ground : forall c from to, ground from -> ground to ->
  exists k r, is_assignable k c from to = Some (r, c) /\
              (r = true <-> conforms (cx_legacy c) from to).
Proof.
  intros c from to Gf Gt.
  destruct (assignable_ground (cx_legacy c) (cx_bindings c) [] from to Gf Gt) as (k & r & E & I).
  exists k, r. split; auto. unfold is_assignable. rewrite E. destruct r; auto.
  destruct c; reflexivity.
Qed.
Print Assumptions C36_ground.

(* On plain types (no dyn, any, null, wrapper, enum or type(...)), with type
   variables made by the context, an accepted check makes the two types equal
   after full substitution.  Partial: the full claim also covers types with
   the special cases inside, where it is false, see [C36_success_refuted]. *)
Theorem C36_plain_equal_partial : forall legacy ops fuel c k from to c',
  run fuel (new_context legacy) ops = Some c ->
  plain_context c -> plain from -> plain to -> registered c from -> registered c to ->
  is_assignable k c from to = Some (true, c') ->
  plain_context c' /\
  exists j t, fully_substitute j (cx_bindings c') false from = Some t /\
              fully_substitute j (cx_bindings c') false to = Some t.
Proof.
  intros legacy ops fuel c k from to c' H PC Pf Pt Rf Rt E.
  pose proof (run_inv _ _ _ _ (inv_new legacy) H) as W.
  split. { apply (is_assignable_plain _ _ _ _ _ _ W PC Pf Pt Rf Rt E). reflexivity. }
  pose proof (is_assignable_inv _ _ _ _ _ _ W E) as W'.
  destruct (fully_total _ false W' from) as (k1 & a1 & E1).
  destruct (fully_total _ false W' to) as (k2 & a2 & E2).
  pose proof (is_assignable_equal _ _ _ _ _ W PC Pf Pt Rf Rt E _ _ _ _ E1 E2) as <-.
  exists (Nat.max k1 k2), a1. split.
  - apply (fully_mono _ _ _ _ _ E1). lia.
  - apply (fully_mono _ _ _ _ _ E2). lia.
Qed.
Print Assumptions C36_plain_equal_partial.

(* And the bindings are the most general that do so: a choice of types for the
   variables respects the new bindings exactly if it respected the old ones
   and makes the two types equal. *)
Theorem C36_plain_most_general_partial : forall legacy ops fuel c k from to c',
  run fuel (new_context legacy) ops = Some c ->
  plain_context c -> plain from -> plain to -> registered c from -> registered c to ->
  is_assignable k c from to = Some (true, c') ->
  forall s, respects s (cx_bindings c') <->
            respects s (cx_bindings c) /\ tsub s from = tsub s to.
Proof.
  intros legacy ops fuel c k from to c' H PC Pf Pt Rf Rt E s.
  pose proof (run_inv _ _ _ _ (inv_new legacy) H) as W.
  destruct (is_assignable_plain _ _ _ _ _ _ W PC Pf Pt Rf Rt E) as [S C].
  destruct (S eq_refl) as [_ S']. split; [apply S'|]. intros [H1 H2].
  apply (C s H1 H2).
Qed.
Print Assumptions C36_plain_most_general_partial.

(* A refused check on plain types is refused for a reason: no choice of types
   for the variables that respects the bindings makes them equal. *)
Theorem C36_plain_refused_partial : forall legacy ops fuel c k from to c',
  run fuel (new_context legacy) ops = Some c ->
  plain_context c -> plain from -> plain to -> registered c from -> registered c to ->
  is_assignable k c from to = Some (false, c') ->
  ~ exists s, respects s (cx_bindings c) /\ tsub s from = tsub s to.
Proof.
  intros legacy ops fuel c k from to c' H PC Pf Pt Rf Rt E (s & H1 & H2).
  pose proof (run_inv _ _ _ _ (inv_new legacy) H) as W.
  destruct (is_assignable_plain _ _ _ _ _ _ W PC Pf Pt Rf Rt E) as [_ C].
  destruct (C s H1 H2). discriminate.
Qed.
Print Assumptions C36_plain_refused_partial.

(* The hypotheses are met by a context with two variables, one bound. *)
Definition ex_bound : context :=
  match run 20 (new_context true)
    [OInstantiate (TMap (TParam "A") (TParam "B")); OCheck (TParam "T%1") (TList (TParam "T%2"))]
  with Some c => c | None => new_context true end.

Example ex_bound_plain :
  plain_context ex_bound /\
  registered ex_bound (TMap (TParam "T%1") (TParam "T%2")) /\
  is_assignable 20 ex_bound (TMap (TParam "T%1") (TParam "T%2"))
                            (TMap (TList (TPrim PInt)) (TPrim PInt)) =
  Some (true, mkContext [("T%2", Some (TPrim PInt)); ("T%1", Some (TList (TParam "T%2")))] 2 true) /\
  is_assignable 20 ex_bound (TParam "T%1") (TMap (TPrim PInt) (TPrim PInt)) = Some (false, ex_bound).
Proof.
  assert (N : forall n u, params u = [] -> mentions n u -> u = TParam n).
  { intros n u Hu M. inversion M; subst; auto. rewrite Hu in H. contradiction. }
  split; [|split; [|split; vm_compute; reflexivity]].
  - intros n t. unfold ex_bound.
    change (bd_find (cx_bindings _) n) with
      (bd_find [("T%2", None); ("T%1", Some (TList (TParam "T%2")))] n).
    cbn [bd_find]. destruct (String.eqb n "T%2"); [discriminate|].
    destruct (String.eqb n "T%1"); [|discriminate]. intros [= <-]. split; [exact I|].
    intros m M. inversion M; subst. destruct H as [<-|[]].
    apply N in H0; [|reflexivity]. inversion H0. vm_compute. discriminate.
  - intros m M. inversion M; subst. destruct H as [<-|[<-|[]]];
      apply N in H0; try reflexivity; inversion H0; vm_compute; discriminate.
Qed.

(* The full claim about success is false: with historical null assignment on,
   a variable bound to null early in a check can be widened to a struct later
   in the same check, and what was compared with it in between is not
   compared again. *)
Theorem C36_success_refuted :
  exists ops c from to c' a a',
    run 20 (new_context true) ops = Some c /\
    is_assignable 20 c from to = Some (true, c') /\
    fully_substitute 20 (cx_bindings c') false from = Some a /\
    fully_substitute 20 (cx_bindings c') false to = Some a' /\
    ~ conforms true a a'.
Proof.
  exists [OInstantiate (TParam "A")]. eexists.
  exists (TOpaque "p" [TNull; TParam "T%1"; TStruct "S3"]),
         (TOpaque "p" [TParam "T%1"; TStruct "S2"; TParam "T%1"]).
  do 3 eexists. do 4 (split; [vm_compute; reflexivity|]).
  intros H. inversion H; subst; try discriminate; try (inversion H0; fail).
  repeat match goal with F : Forall2 _ (_ :: _) _ |- _ => inversion F; subst; clear F end.
  match goal with W : conforms _ (TStruct "S3") (TStruct "S2") |- _ => inversion W; subst end;
  match goal with W : wildcard _ |- _ => inversion W | _ => idtac end.
Qed.
Print Assumptions C36_success_refuted.

(* The same weakness seen from a list literal: the elements map(int, A),
   map(dyn, null), map(dyn, B) get the type list(map(dyn, B)) although A and B
   are different structs. *)
Theorem C36_list_literal_refuted :
  exists c, list_literal_type 30 (new_context true)
      [TMap (TPrim PInt) (TStruct "A"); TMap TDyn TNull; TMap TDyn (TStruct "B")] =
    Some (TList (TMap TDyn (TStruct "B")), c) /\
  ~ conforms true (TMap (TPrim PInt) (TStruct "A")) (TMap TDyn (TStruct "B")).
Proof.
  eexists. split; [vm_compute; reflexivity|]. intros H.
  inversion H; subst; try discriminate; try (inversion H0; fail).
  match goal with W : conforms _ (TStruct _) (TStruct _) |- _ => inversion W; subst end;
  match goal with W : wildcard _ |- _ => inversion W | _ => idtac end.
Qed.
Print Assumptions C36_list_literal_refuted.

(* The header says that a refused check of an assignability context leaves
   the substitutions it has collected alone.  It does not. *)
Theorem C36_collected_refuted :
  exists c p', run 20 (new_context true) [OInstantiate (TParam "A")] = Some c /\
    ctx_is_assignable 20 c [] (TMap (TParam "T%1") (TPrim PInt))
                              (TMap (TPrim PString) (TPrim PString)) = Some (false, p') /\
    p' <> [].
Proof. do 2 eexists. do 2 (split; [vm_compute; reflexivity|]). discriminate. Qed.
Print Assumptions C36_collected_refuted.
