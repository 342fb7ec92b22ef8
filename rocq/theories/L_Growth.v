(* Lemmas on the sizes of values and of what steps make of them. *)
From Coq Require Import ZArith String Ascii List Bool Arith Lia Permutation.
From Verif Require Import Base M_Overflow M_Number M_Attr M_Value M_Logic M_Expr M_Plan M_Machine
  S_Eval S_Macro L_Seval L_Meaning L_Macro.
From Verif Require Import M_Vulnerable S_Growth.
Import ListNotations.
Open Scope list_scope.
Local Open Scope nat_scope.
Local Open Scope out_scope.

Notation refs := ComprehensionAccumulationReferences.

(* ---- sizes ---- *)
Definition entries_size (m : entries) : nat := list_sum (map (fun p => key_size (fst p) + size (snd p)) m).
Lemma size_list l : size (VList l) = S (total l).
Proof. cbn [size]. f_equal. induction l as [|a l IH]; [reflexivity|]. cbn [total map list_sum fold_right] in *. unfold total in IH. cbn [map list_sum fold_right]. now rewrite IH. Qed.
Lemma size_map m : size (VMap m) = S (entries_size m).
Proof.
  cbn [size]. f_equal. unfold entries_size.
  induction m as [|[k a] m IH]; [reflexivity|]. cbn [map list_sum fold_right fst snd]. now rewrite IH.
Qed.
Lemma size_pos v : 1 <= size v.
Proof. destruct v as [| | | | | | | | | | | |[]| |]; cbn [size]; lia. Qed.
Lemma key_size_pos k : 1 <= key_size k.
Proof. destruct k; cbn [key_size]; lia. Qed.
Lemma total_app a b : total (a ++ b) = total a + total b.
Proof. unfold total. now rewrite map_app, list_sum_app. Qed.
Lemma total_cons a b : total (a :: b) = size a + total b.
Proof. reflexivity. Qed.
Lemma entries_app a b : entries_size (a ++ b) = entries_size a + entries_size b.
Proof. unfold entries_size. now rewrite map_app, list_sum_app. Qed.
Lemma total_in v l : In v l -> size v <= total l.
Proof.
  induction l as [|a l IH]; [easy|]. rewrite total_cons. intros [->|Hin]; [lia|]. specialize (IH Hin). lia.
Qed.
Lemma entries_perm a b : Permutation a b -> entries_size a = entries_size b.
Proof.
  unfold entries_size. induction 1; cbn [map list_sum fold_right] in *; unfold list_sum in *; lia.
Qed.
Lemma find_key_size k m v : find_key k m = Some v -> size v <= entries_size m.
Proof.
  induction m as [|[k' a] m IH]; [easy|]. cbn [find_key]. unfold entries_size. cbn [map list_sum fold_right fst snd].
  destruct (key_eqb k' k); [intros [= ->]; lia|]. intros H. apply IH in H. unfold entries_size, list_sum in H. lia.
Qed.
Lemma key_of_value_size v k : key_of_value v = Some k -> key_size k <= size v.
Proof. destruct v; cbn [key_of_value]; try discriminate; intros [= <-]; cbn [key_size size]; lia. Qed.

Definition unit_like (v : value) : Prop := size v = 1.
Lemma error_size v : is_error v = true -> size v = 1.
Proof. now destruct v. Qed.

(* ---- container access ---- *)
Lemma MapGet_size m k : size (MapGet m k) <= size (VMap m).
Proof.
  rewrite size_map. unfold MapGet.
  destruct k; cbn [key_of_value]; try (cbn [size]; lia);
    match goal with |- context [find_key ?k m] => destruct (find_key k m) eqn:E end;
    try (cbn [size]; lia); apply find_key_size in E; lia.
Qed.
Lemma MapFind_size m k v : MapFind m k = Some v -> size v <= entries_size m.
Proof. unfold MapFind. destruct (key_of_value k); [|discriminate]. apply find_key_size. Qed.
Lemma MapHas_size m k : size (MapHas m k) = 1.
Proof. unfold MapHas. destruct k; cbn [key_of_value]; reflexivity. Qed.
Ltac outs H := repeat match type of H with
  | (_ <- ?o ;; _) = Val _ => let E := fresh "E" in let r := fresh "r" in destruct o as [r|?|] eqn:E; cbn [obind] in H; try discriminate H
  end.
Lemma find_num_size (f : entries -> number -> out (option value)) m n r v :
  f = find_int \/ f = find_uint -> f m n = Val r -> r = Some v -> size v <= entries_size m.
Proof.
  intros [-> | ->] H ->; unfold find_int, find_uint in H; outs H;
    repeat match type of H with context [if ?b then _ else _] => destruct b end;
    outs H; try discriminate H;
    injection H as H; try discriminate H; eauto using MapFind_size.
Qed.
Lemma LookupInMap_size h m k w : LookupInMap h m k = Val w -> size w <= size (VMap m).
Proof.
  rewrite size_map. unfold LookupInMap. intros H.
  destruct (if h then NumberFromValue k else None) as [n|].
  - cbv zeta in H. set (r0 := match k with VUint _ => MapFind m k | _ => None end) in H.
    assert (Hr0 : forall v, r0 = Some v -> size v <= entries_size m).
    { unfold r0. destruct k; try discriminate. intros v. apply MapFind_size. }
    destruct r0 as [v|]; [injection H as <-; specialize (Hr0 v eq_refl); lia|].
    outs H. destruct r as [v|].
    + injection H as <-. enough (size v <= entries_size m) by lia.
      eapply (find_num_size find_int); eauto.
    + outs H. destruct r as [v|]; injection H as <-; [|cbn [size]; lia].
      enough (size v <= entries_size m) by lia. eapply (find_num_size find_uint); eauto.
  - destruct (key_of_value k); injection H as <-; [|cbn [size]; lia].
    pose proof (MapGet_size m k). rewrite size_map in H. lia.
Qed.

Lemma LookupInList_size h l k w : LookupInList h l k = Val w -> size w <= size (VList l).
Proof.
  rewrite size_list. unfold LookupInList. intros H. outs H. destruct r as [i|]; [|injection H as <-; cbn [size]; lia].
  destruct (_ || _); [injection H as <-; cbn [size]; lia|].
  destruct (nth_error l (Z.to_nat i)) eqn:En; [|discriminate H]. injection H as <-.
  apply nth_error_In, total_in in En. lia.
Qed.
Lemma LookupInContainer_size h c k w : LookupInContainer h c k = Val w -> size w <= size c.
Proof.
  destruct c; cbn [LookupInContainer]; try (intros [= <-]; cbn [size]; lia);
    eauto using LookupInMap_size, LookupInList_size.
  intros [= <-]. cbn [size]. destruct o; lia.
Qed.
Lemma PerformLookup_size h opt c k w : PerformLookup h opt c k = Val w -> size w <= size c.
Proof.
  intros H. assert (Hd : LookupInContainer h c k = Val w -> size w <= size c) by apply LookupInContainer_size.
  pose proof (size_pos c).
  destruct c; try (destruct k; cbn [PerformLookup] in H; auto; injection H as <-; cbn [size]; lia).
  cbn [PerformLookup] in H.
  destruct k; try (injection H as <-; cbn [size] in *; lia);
   (destruct opt; [|now auto];
    destruct o as [c|]; [|injection H as <-; cbn [size]; lia];
    clear Hd; outs H; pose proof (size_pos c); apply LookupInContainer_size in E;
    destruct r; try (injection H as <-; cbn [size] in *; lia);
    destruct (IsNoSuchKey _); injection H as <-; cbn [size] in *; lia).
Qed.
Lemma unknown_exact_size C t u : unknown_exact C t = Some u -> size u = 1.
Proof. unfold unknown_exact. destruct (_ && _); [|discriminate]. destruct t; [|discriminate]. now intros [= <-]. Qed.
Lemma acc_Build_size acc : size (acc_Build acc) = 1.
Proof. reflexivity. Qed.
Lemma IndexStep_size C a b w : IndexStep C a b = Val w -> size (fst w) <= size (fst a).
Proof.
  unfold IndexStep. pose proof (size_pos (fst a)). intros H'.
  destruct (_ && _); [injection H' as <-; cbn [fst]; rewrite acc_Build_size; lia|].
  destruct (unknown_exact C _) eqn:E; [injection H' as <-; cbn [fst]; apply unknown_exact_size in E; lia|].
  outs H'. injection H' as <-. cbn [fst]. eauto using PerformLookup_size.
Qed.
Lemma SelectStep_size C f t a w : SelectStep C f t a = Val w -> size (fst w) <= size (fst a).
Proof.
  destruct a as [v tr]. unfold SelectStep. pose proof (size_pos v) as Hp.
  destruct v as [| | | | | | | | | | |m|o| |]; cbv zeta; try (intros [= <-]; cbn [fst size] in *; lia).
  - cbn match. destruct (unknown_exact C _) eqn:E; [intros [= <-]; cbn [fst]; apply unknown_exact_size in E; lia|].
    pose proof (MapHas_size m (VString (bytes_of_string f))) as Hh.
    pose proof (MapGet_size m (VString (bytes_of_string f))) as Hg.
    destruct (MapHas m _), (MapGet m _); destruct t; intros [= <-]; cbn [fst]; assumption || lia.
  - destruct (o_optional_types (cf_opts C)); [|intros [= <-]; cbn [fst size] in *; lia].
    destruct (unknown_exact C _) eqn:E; [intros [= <-]; cbn [fst]; apply unknown_exact_size in E; lia|].
    destruct o as [v|]; [|destruct t; intros [= <-]; cbn [fst size] in *; lia].
    destruct v; try discriminate.
    pose proof (MapHas_size m (VString (bytes_of_string f))) as Hh.
    destruct t; [generalize dependent (MapHas m (VString (bytes_of_string f))); intros h Hh [= <-]; cbn [fst]; lia|].
    destruct (MapFind m _) as [v|] eqn:E'; intros [= <-]; cbn [fst]; [|cbn [size] in *; lia].
    apply MapFind_size in E'. change (S (size v) <= S (size (VMap m))). rewrite size_map. lia.
Qed.

(* ---- literals ---- *)
Lemma find_error_size l e : find is_error l = Some e -> size e = 1.
Proof. intros H. apply find_some in H. destruct H as [_ H]. now apply error_size. Qed.
Lemma ListAdd_total l v l' : ListAdd l v = Val l' -> total l' = total l + size v.
Proof.
  unfold ListAdd. intros H. outs H. injection H as <-. rewrite total_app. unfold total. cbn [map list_sum fold_right]. lia.
Qed.
Lemma list_loop_size args : forall opts l w, list_loop opts args l = Val w -> size w <= S (total l + total args).
Proof.
  induction args as [|a args IH]; intros opts l w.
  - cbn [list_loop]. intros [= <-]. rewrite size_list. lia.
  - cbn [list_loop]. rewrite total_cons. cbv zeta. pose proof (size_pos a) as Hp.
    set (o' := match opts with [] => [] | _ :: o => o end).
    destruct (match opts with o :: _ => o | [] => false end).
    + destruct a; try (intros [= <-]; cbn [size] in *; lia).
      destruct o as [a|].
      * assert (G : forall w, (l' <- ListAdd l a ;; list_loop o' args l') = Val w ->
                   size w <= S (total l + (size (VOptional (Some a)) + total args))).
        { intros w' H. outs H. apply ListAdd_total in E. apply IH in H. cbn [size]. lia. }
        destruct a; try (apply G). intros [= <-]. cbn [size]. lia.
      * intros H. apply IH in H. lia.
    + intros H. outs H. apply ListAdd_total in E. apply IH in H. lia.
Qed.
Lemma ListStep_size C opts args w : ListStep C opts args = Val w -> size (fst w) <= S (total (map fst args)).
Proof.
  unfold ListStep. destruct (find is_error _) eqn:E; [intros [= <-]; cbn [fst]; apply find_error_size in E; lia|].
  destruct (literal_unknowns C args); [intros [= <-]; cbn [fst size]; lia|].
  intros H. outs H. injection H as <-. cbn [fst]. apply list_loop_size in E0. unfold total at 1 in E0. cbn in E0. lia.
Qed.
Lemma CheckMapKey_size k key : CheckMapKey k = Val key -> key_size key <= size k.
Proof.
  unfold CheckMapKey. intros H. assert (H' : key_of_value k = Some key).
  { destruct k; cbn [key_of_value] in *; try discriminate; injection H as <-; reflexivity. }
  now apply key_of_value_size.
Qed.
Lemma MapPut_total m k v m' : MapPut m k v = Val m' -> entries_size m' <= entries_size m + size k + size v.
Proof.
  unfold MapPut. intros H. outs H. destruct (find_key _ _); [discriminate|]. injection H as <-.
  apply CheckMapKey_size in E. rewrite entries_app. unfold entries_size at 2. cbn [map list_sum fold_right fst snd]. lia.
Qed.
Lemma map_loop_size (f : entries -> entries) (Hf : forall m, Permutation (f m) m) n : forall args opts m w,
  List.length args <= n -> map_loop f opts args m = Val w -> size w <= S (entries_size m + total args).
Proof.
  induction n as [|n IH]; intros args opts m w Hn.
  - destruct args; [|cbn in Hn; lia]. cbn [map_loop]. intros [= <-]. rewrite size_map, (entries_perm _ _ (Hf m)). lia.
  - destruct args as [|k [|v args]]; cbn [map_loop].
    + intros [= <-]. rewrite size_map, (entries_perm _ _ (Hf m)). lia.
    + intros [= <-]. rewrite size_map, (entries_perm _ _ (Hf m)). lia.
    + cbv zeta. rewrite !total_cons. pose proof (size_pos k). pose proof (size_pos v).
      assert (Hl : List.length args <= n) by (cbn in Hn; lia).
      set (o' := match opts with [] => [] | _ :: o => o end).
      destruct (CheckMapKey k) as [ky|?|] eqn:Ek; try (intros [= <-]; cbn [size]; lia).
      destruct (match opts with o :: _ => o | [] => false end).
      * destruct v; try (intros [= <-]; cbn [size] in *; lia).
        destruct o as [a|].
        -- assert (G : forall w, (m' <- MapPut m k a ;; map_loop f o' args m') = Val w ->
                   size w <= S (entries_size m + (size k + (size (VOptional (Some a)) + total args)))).
           { intros w' H'. outs H'. apply MapPut_total in E. apply IH in H'; auto. cbn [size]. lia. }
           destruct a; try (apply G). intros [= <-]. cbn [size]. lia.
        -- intros H'. apply IH in H'; auto. lia.
      * intros H'. outs H'. apply MapPut_total in E. apply IH in H'; auto. lia.
Qed.
Lemma MapStep_size C (Hf : forall m, Permutation (cf_reorder C m) m) opts args w :
  MapStep C opts args = Val w -> size (fst w) <= S (total (map fst args)).
Proof.
  unfold MapStep. destruct (find is_error _) eqn:E; [intros [= <-]; cbn [fst]; apply find_error_size in E; lia|].
  destruct (literal_unknowns C args); [intros [= <-]; cbn [fst size]; lia|].
  intros H. outs H. injection H as <-. cbn [fst]. apply (map_loop_size _ Hf _ _ _ _ _ (le_n _)) in E0. cbn in E0. lia.
Qed.

(* ---- calls ---- *)
Lemma call_args_total u pats args : total (call_args u pats args) <= total (map fst args).
Proof.
  unfold call_args. destruct u; [|lia]. unfold CheckForPartialUnknowns.
  induction args as [|a args IH]; [unfold total; cbn; lia|]. cbn [map]. rewrite !total_cons.
  enough (size match (if CheckForUnknown pats (snd a) true then snd a else None) with
          | Some at_ => VUnknown [at_] | None => fst a end <= size (fst a)) by lia.
  pose proof (size_pos (fst a)). destruct (if CheckForUnknown pats (snd a) true then snd a else None); cbn [size]; lia.
Qed.
Lemma NoOverload_size u fn r args : size (NoOverloadResult u fn r args) = 1.
Proof.
  unfold NoOverloadResult. destruct (find is_error args) eqn:E; [now apply find_error_size in E|].
  destruct (if u then MergeUnknowns args else None); reflexivity.
Qed.
Lemma call_size C R fn r n f vs (w : vt) : at_most R fn f ->
  (v <- CallFunction (unk C) (cf_pats C) fn r (FindStaticOverloadsByArity R fn r n) vs ;; Val (v, None)) = Val w ->
  size (fst w) = 1 \/ size (fst w) <= f (call_args (unk C) (cf_pats C) vs).
Proof.
  intros Hm H. outs H. injection H as <-. cbn [fst]. unfold CallFunction in E. cbv zeta in E.
  destruct (accepted _ _) as [o|] eqn:Ea; [|injection E as <-; left; apply NoOverload_size].
  right. unfold accepted in Ea. destruct (ResolveStatic _ _) eqn:Er; [|discriminate].
  destruct (ShouldAcceptOverload _ _); [|discriminate]. injection Ea as ->.
  unfold ResolveStatic in Er. apply find_some in Er. destruct Er as [Hin _].
  unfold FindStaticOverloadsByArity in Hin. apply filter_In in Hin. destruct Hin as [Hin _].
  unfold named in Hin. apply filter_In in Hin. destruct Hin as [Hin Hn]. apply String.eqb_eq in Hn.
  eapply Hm; eauto.
Qed.
Lemma EqualityStep_size C n a b w : EqualityStep C n a b = Val w -> size (fst w) = 1.
Proof.
  unfold EqualityStep. destruct (is_error (fst a)) eqn:Ea; [intros [= <-]; now apply error_size|].
  destruct (is_error (fst b)) eqn:Eb; [intros [= <-]; now apply error_size|].
  unfold pair_unknowns. destruct (unk C); cbv zeta.
  - destruct (acc_IsEmpty _); [|intros [= <-]; reflexivity]. intros H. outs H. injection H as <-. cbn [fst].
    unfold EvaluateEquality in E. rewrite Ea, Eb in E. outs E. injection E as <-. unfold equality_result.
    destruct r0 as [|]; reflexivity.
  - intros H. outs H. injection H as <-. cbn [fst].
    unfold EvaluateEquality in E. rewrite Ea, Eb in E. outs E. injection E as <-. unfold equality_result.
    destruct r0 as [|]; reflexivity.
Qed.
Lemma EvaluateIn_size a b w : EvaluateIn a b = Val w -> size w = 1.
Proof.
  unfold EvaluateIn. destruct (is_error a) eqn:Ea; [intros [= <-]; now apply error_size|].
  destruct (is_error b) eqn:Eb; [intros [= <-]; now apply error_size|].
  destruct b; try (intros [= <-]; reflexivity). unfold EvaluateInMap.
  destruct a; try (intros [= <-]; reflexivity);
    (destruct (is_true _); [intros [= <-]; reflexivity|]); intros H; outs H;
    repeat match type of H with context [if ?b then _ else _] => destruct b end;
    outs H; injection H as <-; reflexivity.
Qed.
Lemma InStep_size C a b w : InStep C a b = Val w -> size (fst w) = 1.
Proof.
  unfold InStep. destruct (is_error (fst a)) eqn:Ea; [intros [= <-]; now apply error_size|].
  destruct (is_error (fst b)) eqn:Eb; [intros [= <-]; now apply error_size|].
  destruct (pair_unknowns C a b) eqn:E.
  - unfold pair_unknowns in E. destruct (unk C); [|discriminate]. cbv zeta in E.
    destruct (acc_IsEmpty _); [discriminate|]. injection E as <-. intros [= <-]. reflexivity.
  - intros H. outs H. injection H as <-. cbn [fst]. now apply EvaluateIn_size in E0.
Qed.
Lemma Calculate_size u op a b : size (Calculate u op a b) = 1.
Proof.
  unfold Calculate. cbv zeta.
  assert (G : size match (if u then MergeUnknowns [a; b] else None) with
        | Some s => VUnknown s
        | None => if is_error a then a else if is_error b then b else VError (no_matching_overload (op_name op))
        end = 1).
  { destruct (if u then _ else _); [reflexivity|]. destruct (is_error a) eqn:Ea; [now apply error_size|].
    destruct (is_error b) eqn:Eb; [now apply error_size|reflexivity]. }
  destruct a, b; try exact G; repeat match goal with |- context [if ?b then _ else _] => destruct b end;
    try reflexivity; exact G.
Qed.
Lemma logic_size C op a b w : logic_outcome C op a b = Val w -> size (fst w) = 1.
Proof.
  unfold logic_outcome. intros H. outs H. destruct (sc C && decides op (fst r)) eqn:Ed.
  - injection H as <-. apply andb_prop in Ed. destruct Ed as [_ Ed]. unfold decides in Ed. now destruct (fst r).
  - outs H. injection H as <-. apply Calculate_size.
Qed.
Lemma fold_logic_size C op l : forall a b w, fold_left (logic_outcome C op) (b :: l) a = Val w -> size (fst w) = 1.
Proof.
  induction l as [|c l IH]; intros a b w; [apply logic_size|].
  intros H. exact (IH (logic_outcome C op a b) c w H).
Qed.
