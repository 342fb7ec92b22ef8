(* The recursive evaluator, run on a planned expression, computes the recursive
   reference semantics. *)
From Coq Require Import ZArith List Bool String Lia.
From Verif Require Import Base M_Overflow M_Number M_Attr M_Value M_Logic M_Expr M_Plan M_Machine M_Direct
  S_Direct S_Eval L_Seval L_Alloc L_Safe L_Tree L_Direct L_Alias L_DTree L_Eval.
Import ListNotations.
Open Scope list_scope.
Open Scope Z_scope.

Lemma dsev_dir C k : o_max_iterations (cf_opts C) = 0 ->
  agrees (dir C k no_locals) (final (dsev C (resolved k) (fun _ _ => RUB) est_init)).
Proof.
  intros Hm. unfold resolved. destruct (alloc false [] k (mkAlloc 0 0 [])) as [r s'] eqn:E. cbn [fst] in *.
  pose proof (dtree C Hm k false [] (mkAlloc 0 0 []) r s' [] (fun _ _ => False) (fun _ _ => RUB)
                no_locals E) as H.
  assert (Hs : sane (mkAlloc 0 0 [])) by (unfold sane; cbn; lia).
  specialize (H Hs). assert (Ha : agree [] [] (fun _ _ => False) no_locals) by (intros x; reflexivity).
  assert (Hsd : side (fun _ => True) (mkAlloc 0 0 []) [] (fun _ _ => False) (fun _ _ => RUB)).
  { split; [intros q (l & [] & _)|]. split; [intros q v []|]. split; [exact I|intros l []]. }
  specialize (H Ha Hsd est_init).
  assert (HI : Inv (fun _ => True) [] (fun _ _ => False) (owns false (mkAlloc 0 0 []) s') est_init).
  { split; [intros l []|]. split; [intros q v []|]. intros q _ _. reflexivity. }
  specialize (H HI). unfold gives in H. unfold agrees. destruct (dir C k no_locals) as [x|e|].
  - destruct H as (s1 & -> & _). cbn [final]. eauto.
  - destruct H as (s1 & ->). cbn [final]. eauto.
  - rewrite H. reflexivity.
Qed.

Lemma direct_dir C mv k : unk C = false -> o_max_iterations (cf_opts C) = 0 ->
  alias_free no_inits (resolved k) = true ->
  agrees (dir C k no_locals) (direct_run C mv None (resolved k)).
Proof.
  intros Hu Hm Ha. pose proof (direct_run_dsev C Hu mv (resolved k) Ha) as H.
  pose proof (dsev_dir C k Hm) as H1. unfold agrees in *.
  destruct (dsev C (resolved k) (fun _ _ => RUB) est_init) as [x s|e s|w|]; cbn [final] in H1;
    destruct (dir C k no_locals) as [y|e'|]; try (destruct H1 as (s1 & H1)); try discriminate H1.
  - destruct H as (s' & -> & _). injection H1 as -> _. eauto.
  - destruct H as (s' & -> & _). injection H1 as -> _. eauto.
  - exact H.
Qed.
