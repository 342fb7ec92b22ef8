(* C87, C88: rewriting abstract syntax trees in place. *)
From Coq Require Import ZArith String List Bool Lia.
From Verif Require Import Base M_Ast S_Ast L_Ast P_Ast.
From Verif Require Import M_Rewrite S_Rewrite L_Rewrite.
Import ListNotations.
Open Scope list_scope.
Open Scope Z_scope.

(* The loop over the stack of pointers into the changing tree does what the
   recursion does: the same callbacks with the same expressions in the same order,
   the same tree and the same answer; and one ends when the other does. *)
Theorem C87_rewrite : forall S (v : AstRewriter S) special s e s' e' b,
  rewrites v special (fun _ => []) s e s' e' b <-> exists n, AstRewrite v special n s e = Some (Val (s', e', b)).
Proof.
  intros S v special s e s' e' b. unfold AstRewrite. split.
  - intros W. destruct (proj1 (forward v special) _ _ _ _ _ _ W e [] [] [] false e' eq_refl) with (n := O) (r := Val (mkMachine e' [] [] b s'))
      as (n & R).
    + intros x t' _. reflexivity.
    + reflexivity.
    + reflexivity.
    + exists n. now rewrite R.
  - intros (n & R). destruct (rloop v special n _) as [r|] eqn:L; [|easy].
    destruct (backward v special n (fun _ => []) e [] [] [] false s e r eq_refl ltac:(intros x t' _; reflexivity) L)
      as (s2 & e2 & f & t' & j & W & P & _ & R2).
    injection P as <-. destruct j; injection R2 as <-; cbn in R; injection R as <- <- <-; exact W.
Qed.
Print Assumptions C87_rewrite.

(* Whatever the callbacks make of their expressions, no pointer that is followed
   dangles. *)
Theorem C87_defined : forall S (v : AstRewriter S) special n s e o,
  AstRewrite v special n s e = Some o -> exists s' e' b, o = Val (s', e', b).
Proof.
  intros S v special n s e o R. unfold AstRewrite in R. destruct (rloop v special n _) as [r|] eqn:L; [|easy].
  destruct (backward v special n (fun _ => []) e [] [] [] false s e r eq_refl ltac:(intros x t' _; reflexivity) L)
      as (s2 & e2 & f & t' & j & W & P & _ & R2).
  injection P as <-. destruct j; injection R2 as <-; cbn in R; injection R as <-; eauto.
Qed.
Print Assumptions C87_defined.

(* Rewriting ends when what PreVisitRewrite makes of an expression is never
   larger; what PostVisitRewrite makes of it does not matter. *)
Theorem C87_terminates : forall S (v : AstRewriter S) special,
  (forall s e, (size (snd (fst (PreVisitRewrite v s e))) <= size e)%nat) ->
  forall s e, exists n s' e' b, AstRewrite v special n s e = Some (Val (s', e', b)).
Proof.
  intros S v special H s e. destruct (total v special H e (fun _ => []) s) as (s' & e' & b & W).
  apply C87_rewrite in W as (n & R). eauto.
Qed.
Print Assumptions C87_terminates.
(* That is needed: rewriting x to f(x) before visiting it goes on for ever. *)
Theorem C87_forever : forall n,
  AstRewrite (mkRewriter unit (fun s e => (s, Call 0 "f" None [e], true)%string) (fun s e => (s, e, false)) (fun s _ => s) (fun s _ => s))
    false n tt (Ident 1 "x") = None.
Proof.
  intros n. destruct (AstRewrite _ false n tt (Ident 1 "x")) as [o|] eqn:R; [|reflexivity].
  destruct (C87_defined _ _ _ _ _ _ _ R) as (s' & e' & b & ->).
  assert (W := proj2 (C87_rewrite _ _ _ _ _ _ _ _) (ex_intro _ n R)). clear R. exfalso.
  refine (rewrites_mut _ _ _ (fun _ _ _ _ _ _ => False) (fun _ ks _ _ _ _ _ => ks <> [] -> False) _ _ _ _ _ _ _ _ _ W).
  - intros above s e s1 e1 b1 s2 e2 b2 s3 e3 b3 PRE _ IH _. cbn in PRE. injection PRE as <- <- <-. now apply IH.
  - easy.
  - easy.
Qed.
Print Assumptions C87_forever.

(* x + y, with x renamed before the visit and calls renamed after it *)
Definition rename : AstRewriter (list (list Z)) :=
  mkRewriter _ (fun s e => match e with Ident i "x" => (s, Ident i "z", true) | _ => (s, e, false) end)%string
    (fun s e => match e with Call i "+" t a => (s, Call i "add" t a, true) | _ => (s, e, false) end)%string
    (fun s path => s ++ [map expr_id path]) (fun s _ => s).
Example C87_case :
  AstRewrite rename false 20 [] (Call 1 "+" None [Ident 2 "x"; Ident 3 "y"])%string =
  Some (Val ([[1]; [1; 2]; [1]; [1; 3]; [1]; []], Call 1 "add" None [Ident 2 "z"; Ident 3 "y"], true)%string) /\
  (forall s e, (size (snd (fst (PreVisitRewrite rename s e))) <= size e)%nat).
Proof.
  split; [reflexivity|]. intros s e. destruct e; cbn; try lia.
  repeat match goal with |- context [match ?x with _ => _ end] => is_var x; destruct x; cbn; try lia end.
Qed.

(** ** Rewriting from the leaves up *)
Lemma combine_fold {S} (v : AstRewriter S) special (f : Expr -> Expr * bool) :
  (forall s e, exists s', PreVisitRewrite v s e = (s', e, false)) ->
  (forall s e, exists s', PostVisitRewrite v s e = (s', fst (f e), snd (f e))) ->
  (forall above s e s' e' b, rewrites v special above s e s' e' b -> bottom_up f e e' b) /\
  (forall above ks s x s' x' b, rewrites_parts v special above ks s x s' x' b -> NoDup ks -> forall cs0,
     map (fun k => child k x) ks = map Some cs0 ->
     exists cs bs, bottom_ups f cs0 cs bs /\ x' = fold_left (fun e kc => with_child (fst kc) e (snd kc)) (combine ks cs) x /\
       b = fold_right orb false bs).
Proof.
  intros PRE POST. apply rewrites_both.
  - intros above s e s1 e1 b1 s2 e2 b2 s3 e3 b3 E _ IH E'.
    destruct (PRE (TraversalStackUpdate v s (above e ++ [e])) e) as (? & Q). rewrite Q in E. injection E as <- <- <-.
    destruct (POST (told v s2 (after e2 ++ [PostVisitExpr e2])) e2) as (? & Q'). rewrite Q' in E'. injection E' as <- <- <-.
    destruct (IH (members_nodup _) (children e)) as (cs & bs & B & -> & ->).
    + pose proof (f_equal (map snd) (members_parts e)) as M. rewrite !map_map in M. cbn in M. unfold children. now rewrite map_map.
    + cbn [orb]. now constructor.
  - intros above s e _ cs0 E. destruct cs0; [|easy]. exists [], []. repeat split. constructor.
  - intros above k ks s e c s1 c' b1 s2 e' b2 K _ IHe _ IHp N cs0 E. destruct cs0 as [|c0 cs0]; [easy|]. cbn in E. injection E as E0 E.
    rewrite K in E0. injection E0 as <-. inversion N as [|? ? Nk N']; subst.
    destruct (IHp N' cs0) as (cs & bs & B & -> & ->).
    + rewrite <- E. apply map_ext_in. intros k' I. apply with_other. intros ->. easy.
    + exists (c' :: cs), (b1 :: bs). repeat split. now constructor.
Qed.

(* With only PostVisitRewrite, and one that looks at nothing but its expression,
   the result is that of rewriting every expression once, from the leaves up, and
   the answer is whether some rewrite was reported. *)
Theorem C88_bottom_up : forall S (v : AstRewriter S) special (f : Expr -> Expr * bool) s e,
  (forall s e, exists s', PreVisitRewrite v s e = (s', e, false)) ->
  (forall s e, exists s', PostVisitRewrite v s e = (s', fst (f e), snd (f e))) ->
  exists n s' e' b, AstRewrite v special n s e = Some (Val (s', e', b)) /\ bottom_up f e e' b.
Proof.
  intros S v special f s e PRE POST. destruct (C87_terminates S v special) with (s := s) (e := e) as (n & s' & e' & b & R).
  - intros s0 e0. destruct (PRE s0 e0) as (s1 & ->). cbn. lia.
  - exists n, s', e', b. split; [exact R|]. eapply (proj1 (combine_fold v special f PRE POST)). apply C87_rewrite. eauto.
Qed.
Print Assumptions C88_bottom_up.

Lemma honest {S} (v : AstRewriter S) special :
  (forall s e s' e', PreVisitRewrite v s e = (s', e', false) -> e' = e) ->
  (forall s e s' e', PostVisitRewrite v s e = (s', e', false) -> e' = e) ->
  (forall above s e s' e' b, rewrites v special above s e s' e' b -> b = false -> filled e -> e' = e) /\
  (forall above ks s x s' x' b, rewrites_parts v special above ks s x s' x' b -> b = false -> NoDup ks ->
     (forall k c, In k ks -> child k x = Some c -> filled c) -> x' = x).
Proof.
  intros PRE POST. apply rewrites_both.
  - intros above s e s1 e1 b1 s2 e2 b2 s3 e3 b3 E _ IH E' B F.
    apply orb_false_iff in B as [B ->]. apply orb_false_iff in B as [-> ->]. apply PRE in E as ->. inversion F as [? Q C]; subst.
    apply POST in E' as ->. rewrite Q in IH. apply IH; [reflexivity|apply members_nodup|]. rewrite <- Q. intros k c I K.
    destruct (member_part e k I) as (c' & K' & P). rewrite K in K'. injection K' as <-.
    rewrite Forall_forall in C. apply C. now apply (in_map snd) in P.
  - reflexivity.
  - intros above k ks s e c s1 c' b1 s2 e' b2 K _ IHe _ IHp B N A. apply orb_false_iff in B as [-> ->].
    rewrite IHe in * by eauto using in_eq. rewrite (with_same _ _ _ K) in IHp. inversion N; subst. apply IHp; auto. intros k0 c0 I. apply A. now right.
Qed.

(* If the answer is that nothing was rewritten, nothing was, provided that the
   callbacks tell the truth and that every list element and every piece of a
   comprehension was set. *)
Theorem C88_unchanged_partial : forall S (v : AstRewriter S) special n s e s' e',
  (forall s e s' e', PreVisitRewrite v s e = (s', e', false) -> e' = e) ->
  (forall s e s' e', PostVisitRewrite v s e = (s', e', false) -> e' = e) ->
  filled e -> AstRewrite v special n s e = Some (Val (s', e', false)) -> e' = e.
Proof.
  intros S v special n s e s' e' PRE POST F R.
  eapply (proj1 (honest v special PRE POST)); [|reflexivity|exact F]. apply C87_rewrite. eauto.
Qed.
Print Assumptions C88_unchanged_partial.

(* AstRewriterBase, which rewrites nothing *)
Definition base : AstRewriter (list event) :=
  mkRewriter _ (fun s e => (s, e, false)) (fun s e => (s, e, false)) (fun s _ => s) (fun s ev => s ++ [ev]).
(* An element that was not set is, after a traversal that rewrote nothing. *)
Theorem C88_unchanged_refuted : exists n s',
  AstRewrite base false n [] (ListE 1 [(None, false)]) = Some (Val (s', ListE 1 [(Some (Unspecified 0), false)], false)).
Proof. exists 10%nat. eexists. reflexivity. Qed.
Print Assumptions C88_unchanged_refuted.

Lemma quiet {S} (v : AstRewriter S) special :
  (forall s e, PreVisitRewrite v s e = (s, e, false)) -> (forall s e, PostVisitRewrite v s e = (s, e, false)) ->
  (forall s path, TraversalStackUpdate v s path = s) ->
  (forall above s e s' e' b, rewrites v special above s e s' e' b -> filled e ->
     e' = e /\ exists w, walk special e w /\ s' = fold_left (Visit v) w s) /\
  (forall above ks s x s' x' b, rewrites_parts v special above ks s x s' x' b -> forall ps,
     map (fun k => (role_of k, child k x)) ks = map (fun rc => (fst rc, Some (snd rc))) ps ->
     Forall filled (map snd ps) ->
     x' = x /\ exists w, walk_parts special x ps w /\ s' = fold_left (Visit v) w s).
Proof.
  intros PRE POST TSU. apply rewrites_both.
  - intros above s e s1 e1 b1 s2 e2 b2 s3 e3 b3 E _ IH E' F.
    rewrite TSU, PRE in E. injection E as <- <- <-. rewrite POST in E'. injection E' as <- <- <-. rewrite TSU.
    inversion F as [? Q C]; subst. rewrite Q in IH.
    destruct (IH (parts e)) as (-> & w & W & ->).
    + pose proof (members_parts e) as M. rewrite Q in M. exact M.
    + exact C.
    + split; [reflexivity|]. eexists. split; [constructor; exact W|]. unfold told. rewrite !fold_left_app. reflexivity.
  - intros above s e [|] E _; [|easy]. split; [reflexivity|]. exists []. split; [constructor|reflexivity].
  - intros above k ks s e c s1 c' b1 s2 e' b2 K _ IHe _ IHp [|[r c0] ps] E F; [easy|]. cbn in E, F. injection E as <- E0 E.
    rewrite K in E0. injection E0 as <-. inversion F as [|? ? Fc Fs]; subst.
    destruct (IHe Fc) as (-> & w & W & ->). rewrite (with_same _ _ _ K) in IHp.
    destruct (IHp ps E Fs) as (-> & w2 & W2 & ->). split; [reflexivity|]. eexists. split; [constructor; eauto|].
    unfold told. rewrite !fold_left_app. reflexivity.
Qed.

Lemma never {S} (v : AstRewriter S) special above s e s' e' b :
  (forall s1 e1 s2 e2 b2, PreVisitRewrite v s1 e1 = (s2, e2, b2) -> b2 = false) ->
  (forall s1 e1 s2 e2 b2, PostVisitRewrite v s1 e1 = (s2, e2, b2) -> b2 = false) ->
  rewrites v special above s e s' e' b -> b = false.
Proof.
  intros N1 N2. revert above s e s' e' b.
  apply (rewrites_mut _ v special (fun _ _ _ _ _ b => b = false) (fun _ _ _ _ _ _ b => b = false)).
  - intros above s2 e2 s3 e3 b1 s4 e4 b2 s5 e5 b3 E _ -> E'. now rewrite (N1 _ _ _ _ _ E), (N2 _ _ _ _ _ E').
  - reflexivity.
  - intros above k ks s2 e2 c s3 c' b1 s4 e' b2 _ _ -> _ ->. reflexivity.
Qed.
(* A rewriter that rewrites nothing gets the callbacks of a traversal. *)
Theorem C88_callbacks : forall S (v : AstRewriter S) special s e w,
  (forall s e, PreVisitRewrite v s e = (s, e, false)) -> (forall s e, PostVisitRewrite v s e = (s, e, false)) ->
  (forall s path, TraversalStackUpdate v s path = s) ->
  filled e -> walk special e w ->
  exists n, AstRewrite v special n s e = Some (Val (fold_left (Visit v) w s, e, false)).
Proof.
  intros S v special s e w PRE POST TSU F W.
  destruct (C87_terminates S v special) with (s := s) (e := e) as (n & s' & e' & b & R).
  - intros s0 e0. rewrite PRE. cbn. lia.
  - exists n. assert (Q : rewrites v special (fun _ => []) s e s' e' b) by (apply C87_rewrite; eauto).
    destruct (proj1 (quiet v special PRE POST TSU) _ _ _ _ _ _ Q F) as (-> & w' & W' & ->). rewrite (walk_fun _ _ _ _ W' W) in R.
    assert (b = false) as ->; [|exact R].
    apply (never v special _ _ _ _ _ _) with (3 := Q); intros *; rewrite ?PRE, ?POST; congruence.
Qed.
Print Assumptions C88_callbacks.
Example C88_case : exists w, filled (Call 1 "f" None [Ident 2 "x"])%string /\ walk false (Call 1 "f" None [Ident 2 "x"])%string w /\
  AstRewrite base false 20 [] (Call 1 "f" None [Ident 2 "x"])%string = Some (Val (w, Call 1 "f" None [Ident 2 "x"], false))%string.
Proof.
  assert (F : filled (Call 1 "f" None [Ident 2 "x"])%string).
  { constructor; [reflexivity|]. apply Forall_cons; [|apply Forall_nil]. constructor; [reflexivity|]. apply Forall_nil. }
  destruct (AstTraverse 20 false (Call 1 "f" None [Ident 2 "x"])%string) as [w|] eqn:T; [|discriminate T].
  exists w. split; [exact F|]. split; [apply C84_traverse; eauto|]. vm_compute in T. injection T as <-. vm_compute. reflexivity.
Qed.
