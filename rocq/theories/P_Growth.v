(* C93, C94: the check for comprehensions that could exhaust memory. *)
From Coq Require Import ZArith String Ascii List Bool Arith Lia Permutation.
From Verif Require Import Base M_Overflow M_Number M_Attr M_Value M_Logic M_Expr M_Plan M_Machine M_Macro
  S_Eval S_Macro L_Seval L_Core L_Meaning L_Macro.
From Verif Require Import M_Vulnerable S_Growth L_Growth L_Growth2 L_Growth3 L_Growth4.
Import ListNotations.
Open Scope list_scope.
Local Open Scope nat_scope.
Local Open Scope out_scope.

(* C93.  One run of an accepted loop step makes the accumulator larger by at
   most a constant that does not depend on the accumulator. *)
Theorem C93_step_partial : forall C R rho y step,
  concatenating R -> (forall m, Permutation (cf_reorder C m) m) -> plain_use R y step ->
  ComprehensionHasMemoryExhaustionVulnerability y step = false ->
  exists c, forall v t w tw,
  meaning C R step (bind_local y (Val (v, t)) rho) = Val (w, tw) -> size w <= size v + c.
Proof.
  intros C R rho y step Hc Hf Hs Hv. destruct (use_bounded C R y Hc Hf step Hs rho) as (c & H).
  exists c. intros v t w tw Hm. unfold ComprehensionHasMemoryExhaustionVulnerability in Hv. apply Nat.leb_gt in Hv.
  enough (size w <= refs step y * size v + c).
  { destruct (refs step y) as [|[|]]; lia. }
  apply (H (bind_local y (Val (v, t)) rho) v t (w, tw)); [|exact Hm]. split.
  - unfold bind_local. now rewrite String.eqb_refl.
  - intros z Hz. unfold bind_local. assert (E : String.eqb y z = false) by (apply String.eqb_neq; congruence). now rewrite E.
Qed.
Print Assumptions C93_step_partial.

(* So an accepted comprehension over a list makes its accumulator larger by at
   most a constant for each element.  The constant depends on the set of
   elements, not on how many there are, in what order, or on the initial
   accumulator. *)
Theorem C93_linear_partial : forall C R rho i y step,
  unk C = false -> (forall m, Permutation (cf_reorder C m) m) -> concatenating R ->
  i <> y -> (forall s, y <> String "."%char s) -> plain_use R y step ->
  forall elems, exists c, forall range init cond l t i0 t0 w tw,
  CheckPasses (EComp i "" y range init cond step (EIdent y)) = true ->
  meaning C R range rho = Val (VList l, t) -> incl l elems ->
  meaning C R init rho = Val (i0, t0) ->
  meaning C R (EComp i "" y range init cond step (EIdent y)) rho = Val (w, tw) ->
  size w <= size i0 + List.length l * c.
Proof.
  intros C R rho i y step Hu Hf Hc Hi Hy Hs elems.
  destruct (ComprehensionHasMemoryExhaustionVulnerability y step) eqn:Hv.
  - exists 0. intros range init cond l t i0 t0 w tw Hp. cbn [CheckPasses] in Hp. rewrite Hv in Hp. discriminate Hp.
  - destruct (comprehension_size C R rho i y step Hc Hf Hu Hi Hs Hv elems Hy) as (c & H). exists c.
    intros range init cond l t i0 t0 w tw _ Hr Hl Hin Hm. exact (H cond range init l t i0 t0 (w, tw) Hr Hl Hin Hm).
Qed.
Print Assumptions C93_linear_partial.

(* The unbounded growth the check looks for: y + y doubles the accumulator and
   is refused. *)
Definition C0 : config := mkConfig default_options (fun _ => Val None) [] (fun m => m).
Definition twice (e : expr) : expr := ECall "_+_" None [e; e].
Definition loop (n : nat) (init step : expr) : expr :=
  EComp "i" "" "y" (EConst (VList (repeat (VInt 0) n))) init (EConst (VBool true)) step (EIdent "y").
Definition R0 : registry := [concat_list; concat_string; string_string; dyn_any].

Lemma ConcatList_total a b w : ConcatList [VList a; VList b] = Val w -> size w <= total [VList a; VList b].
Proof.
  assert (L : forall b a l, list_add_all a b = Val l -> l = a ++ b).
  { intros b'. induction b' as [|v b' IH]; intros a' l'; cbn [list_add_all]; [intros [= <-]; now rewrite app_nil_r|].
    unfold ListAdd. intros H. outs H. outs E. injection E as <-. apply IH in H. now rewrite H, <- app_assoc. }
  unfold total. cbn [ConcatList map list_sum fold_right]. rewrite !size_list.
  destruct (Nat.eqb (List.length a) 0); [intros [= <-]; rewrite size_list; lia|].
  destruct (Nat.eqb (List.length b) 0); [intros [= <-]; rewrite size_list; lia|].
  intros H. outs H. apply L in E, E0. injection H as <-. subst. rewrite size_list, !total_app. unfold total. cbn. lia.
Qed.
Lemma R0_concatenating : concatenating R0.
Proof.
  split; intros o args w Hin Hn H; cbn [R0 In] in Hin;
    repeat destruct Hin as [<-|Hin]; try discriminate Hn; try contradiction; cbn [concat_list concat_string dyn_any ov_impl] in H.
  - destruct args as [|[] [|[] []]]; try discriminate H. now apply ConcatList_total.
  - destruct args as [|[] [|[] []]]; try discriminate H. injection H as <-.
    unfold total. cbn [map list_sum fold_right size]. rewrite app_length. lia.
  - destruct args as [|a []]; try discriminate H. injection H as <-. unfold total. cbn. lia.
Qed.

Example C93_example : forall n,
  CheckPasses (loop n (EConst (VList [])) (ECall "_+_" None [EIdent "y"; EList [(false, EIdent "i")]])) = true /\
  plain_use R0 "y" (ECall "_+_" None [EIdent "y"; EList [(false, EIdent "i")]]) /\
  meaning C0 R0 (loop 3 (EConst (VList [])) (ECall "_+_" None [EIdent "y"; EList [(false, EIdent "i")]])) no_locals
  = Val (VList [VInt 0; VInt 0; VInt 0], None) /\
  CheckPasses (loop n (EConst (VList [])) (twice (EIdent "y"))) = false.
Proof.
  intros n. repeat split; try reflexivity.
  apply use_add. constructor; [apply use_var|]. constructor; [|constructor]. now apply use_none.
Qed.

(* a loop whose step maps every state to the next runs through the states *)
Lemma loop_states f : forall n k (st : nat -> vt) items,
  List.length items = n ->
  (forall kv j, f kv (st j) = Val (st (S j))) ->
  eval_loop true (fun _ _ => Val (VBool true, None)) f (fun a => Val a) items (st k) = Val (st (k + n)).
Proof.
  induction n as [|n IH]; intros k st items Hl Hf.
  - destruct items; [|discriminate Hl]. cbn [eval_loop]. now rewrite Nat.add_0_r.
  - destruct items as [|kv items]; [discriminate Hl|]. cbn [eval_loop obind loop_condition fst negb andb].
    rewrite Hf. cbn [obind]. rewrite (IH (S k) st items); auto. f_equal. f_equal. lia.
Qed.
Lemma loop_runs init step n (st : nat -> vt) : meaning C0 R0 init no_locals = Val (st 0) ->
  (forall kv j, meaning C0 R0 step (loop_env C0 "i" "" "y" false None kv (st j) no_locals) = Val (st (S j))) ->
  meaning C0 R0 (loop n init step) no_locals = Val (st n).
Proof.
  intros Hi Hs. unfold loop. cbn [meaning]. cbn [IsBind obind comp_init fst snd]. rewrite Hi. cbn [obind].
  rewrite (eval_loop_ext _ _ (fun _ _ => Val (VBool true, None)) _
        (fun kv a => meaning C0 R0 step (loop_env C0 "i" "" "y" false None kv a no_locals)) _ (fun a => Val a)); auto.
  apply (loop_states _ n 0 st); auto. rewrite list_items_length. apply repeat_length.
Qed.

(* Three steps the check accepts although they double the accumulator.
   cel.bind(z, y, z + z): the outer accumulator is bound to a variable that is
   used twice. *)
Definition bind_step : expr :=
  EComp "#unused" "" "z" (EList []) (EIdent "y") (EConst (VBool false)) (EIdent "z") (twice (EIdent "z")).
(* [0, 0].map(j, y): each element of the inner list adds the outer accumulator *)
Definition map_step : expr :=
  EComp "j" "" "@result" (EList [(false, EConst (VInt 0)); (false, EConst (VInt 0))]) (EList []) (EConst (VBool true))
    (ECall "_+_" None [EIdent "@result"; EList [(false, EIdent "y")]]) (EIdent "@result").
(* string(y) + string(y): calls of other functions count as no reference *)
Definition call_step : expr := twice (ECall "string" None [EIdent "y"]).

Lemma bind_step_runs kv m : 0 < m ->
  meaning C0 R0 bind_step (loop_env C0 "i" "" "y" false None kv (VList (repeat (VInt 1) m), None) no_locals)
  = Val (VList (repeat (VInt 1) (m + m)), None).
Proof.
  intros Hm.
  assert (L : forall m a, list_add_all a (repeat (VInt 1) m) = Val (a ++ repeat (VInt 1) m)).
  { intros m'. induction m' as [|m' IH]; intros a; cbn [repeat list_add_all]; [now rewrite app_nil_r|].
    cbn [ListAdd CheckListElement obind]. rewrite IH. now rewrite <- app_assoc. }
  assert (E : ConcatList [VList (repeat (VInt 1) m); VList (repeat (VInt 1) m)] = Val (VList (repeat (VInt 1) (m + m)))).
  { cbn [ConcatList]. rewrite repeat_length. destruct m as [|m]; [lia|]. cbn [Nat.eqb].
    rewrite L. cbn [obind app]. rewrite L. cbn [obind]. now rewrite repeat_app. }
  change (meaning C0 R0 bind_step (loop_env C0 "i" "" "y" false None kv (VList (repeat (VInt 1) m), None) no_locals))
    with (v <- ConcatList [VList (repeat (VInt 1) m); VList (repeat (VInt 1) m)] ;; Val (v, @None attribute)).
  now rewrite E.
Qed.
Fixpoint tree (n : nat) : value := match n with 0 => VInt 0 | S n' => VList [tree n'; tree n'] end.
Lemma tree_size n : 2 ^ n <= size (tree n).
Proof. induction n as [|n IH]; [cbn; lia|]. cbn [Nat.pow tree size]. lia. Qed.
Lemma map_step_runs kv n :
  meaning C0 R0 map_step (loop_env C0 "i" "" "y" false None kv (tree n, None) no_locals) = Val (tree (S n), None).
Proof. destruct n; vm_compute; reflexivity. Qed.
Lemma call_step_runs kv s :
  meaning C0 R0 call_step (loop_env C0 "i" "" "y" false None kv (VString s, None) no_locals) = Val (VString (s ++ s), None).
Proof. reflexivity. Qed.

Theorem C93_linear_refuted : forall n,
  (let e := loop n (EConst (VList [VInt 1])) bind_step in
   CheckPasses e = true /\ exists w, meaning C0 R0 e no_locals = Val (w, None) /\ 2 ^ n <= size w) /\
  (let e := loop n (EConst (VInt 0)) map_step in
   CheckPasses e = true /\ exists w, meaning C0 R0 e no_locals = Val (w, None) /\ 2 ^ n <= size w) /\
  (let e := loop n (EConst (VString [97%Z])) call_step in
   CheckPasses e = true /\ exists w, meaning C0 R0 e no_locals = Val (w, None) /\ 2 ^ n <= size w).
Proof.
  intros n. cbv zeta. split; [|split]; (split; [reflexivity|]).
  - exists (VList (repeat (VInt 1) (2 ^ n))). split.
    + apply (loop_runs _ _ n (fun j => (VList (repeat (VInt 1) (2 ^ j)), None))); [reflexivity|].
      intros kv j. rewrite bind_step_runs; [|apply Nat.neq_0_lt_0, Nat.pow_nonzero; lia].
      do 4 f_equal. cbn [Nat.pow]. lia.
    + rewrite size_list. generalize (2 ^ n). intros m. induction m as [|m IH]; [lia|].
      cbn [repeat]. rewrite total_cons. cbn [size]. lia.
  - exists (tree n). split; [|apply tree_size].
    apply (loop_runs _ _ n (fun j => (tree j, None))); [reflexivity|]. intros kv j. apply map_step_runs.
  - exists (VString (repeat 97%Z (2 ^ n))). split.
    + apply (loop_runs _ _ n (fun j => (VString (repeat 97%Z (2 ^ j)), None))); [reflexivity|].
      intros kv j. rewrite call_step_runs. rewrite <- repeat_app. do 4 f_equal. cbn [Nat.pow]. lia.
    + cbn [size]. rewrite repeat_length. lia.
Qed.
Print Assumptions C93_linear_refuted.

(* C94.  The check looks at every comprehension of the expression, and only at
   comprehensions. *)
Theorem C94_every_node : forall e, CheckPasses e = true <->
  forall i i2 y range init cond step res, within (EComp i i2 y range init cond step res) e ->
  ComprehensionHasMemoryExhaustionVulnerability y step = false.
Proof.
  intros e. rewrite check_within. split.
  - intros H i i2 y range init cond step res Hw. apply H in Hw. cbn [node_passes] in Hw.
    unfold ComprehensionHasMemoryExhaustionVulnerability. now apply Nat.leb_gt.
  - intros H c Hw. destruct c; cbn [node_passes]; try exact I. apply H in Hw.
    unfold ComprehensionHasMemoryExhaustionVulnerability in Hw. now apply Nat.leb_gt in Hw.
Qed.
Print Assumptions C94_every_node.

(* A step is refused exactly if one way of building its value puts two or more
   copies of the accumulator into it. *)
Theorem C94_counted : forall y step, ComprehensionHasMemoryExhaustionVulnerability y step = true <->
  exists n, copies y step n /\ 2 <= n.
Proof.
  intros y step. unfold ComprehensionHasMemoryExhaustionVulnerability. rewrite Nat.leb_le. split.
  - intros H. exists (refs step y). split; [apply copies_exact|exact H].
  - intros (n & Hn & L). apply copies_le in Hn. lia.
Qed.
Print Assumptions C94_counted.
Example C94_counted_example :
  copies "y" (EComp "j" "" "r" (EIdent "y") (EIdent "y") (EConst (VBool true)) (EIdent "r") (EIdent "r")) 2 /\
  ComprehensionHasMemoryExhaustionVulnerability "y"
    (EComp "j" "" "r" (EIdent "y") (EList []) (EConst (VBool true)) (EIdent "y") (EIdent "y")) = false.
Proof. split; [|reflexivity]. apply (copies_start "y" _ _ _ _ _ _ _ _ 1 1); apply copies_var. Qed.

(* A step in which the accumulator occurs at most once is not refused, unless
   an inner comprehension reuses its name for a second variable ... *)
Theorem C94_once_partial : forall y step, ~ second_variable y step -> occurrences y step <= 1 ->
  ComprehensionHasMemoryExhaustionVulnerability y step = false.
Proof.
  intros y step Hs Ho. apply refs_occurrences in Hs. unfold ComprehensionHasMemoryExhaustionVulnerability.
  apply Nat.leb_gt. lia.
Qed.
Print Assumptions C94_once_partial.
(* ... then it is refused although the accumulator does not occur at all. *)
Definition shadowing : expr :=
  EComp "k" "y" "r" (EList []) (EList []) (EConst (VBool true)) (twice (EIdent "y")) (EIdent "r").
Theorem C94_once_refuted :
  occurrences "y" shadowing = 0 /\ free "y" shadowing = false /\
  ComprehensionHasMemoryExhaustionVulnerability "y" shadowing = true.
Proof. repeat split. Qed.
Print Assumptions C94_once_refuted.

(* The macros make only comprehensions that pass, of operands that pass and do
   not mention the macro's own accumulator. *)
Definition operand (accu : string) (e : expr) : Prop :=
  CheckPasses e = true /\ occurrences accu e = 0 /\ ~ second_variable accu e.
Lemma operand_refs accu e : operand accu e -> refs e accu = 0.
Proof. intros (_ & H & Hs). apply refs_occurrences in Hs. lia. Qed.
Theorem C94_macros : forall accu target v p f e,
  operand accu target -> operand accu p -> operand accu f -> v <> EIdent accu ->
  In (inl e) [ExpandAllMacro accu target [v; p]; ExpandExistsMacro accu target [v; p];
              ExpandExistsOneMacro accu target [v; p]; ExpandMap2Macro accu target [v; f];
              ExpandMap3Macro accu target [v; p; f]; ExpandFilterMacro accu target [v; p]] ->
  CheckPasses e = true.
Proof.
  intros accu target v p f e Ht Hp Hf Hv Hin.
  assert (S : forall name k, simple_var name v k = inl e -> exists x, v = EIdent x /\ k x = inl e).
  { intros name k H. unfold simple_var, IsSimpleIdentifier in H. destruct v as [|s| | | | |]; try discriminate.
    destruct s as [|c s]; [discriminate|]. destruct (Ascii.eqb c "."); [discriminate|].
    destruct (String.eqb _ _); [discriminate|]. eauto. }
  pose proof (operand_refs _ _ Hp) as Rp. pose proof (operand_refs _ _ Hf) as Rf.
  destruct Ht as (Ht & _), Hp as (Hp & _), Hf as (Hf & _).
  cbn [In ExpandAllMacro ExpandExistsMacro ExpandExistsOneMacro ExpandMap2Macro ExpandMap3Macro ExpandFilterMacro] in Hin.
  repeat destruct Hin as [Hin|Hin]; try contradiction; apply S in Hin; destruct Hin as (x & -> & [= <-]);
    unfold all_comp, exists_comp, exists_one_comp, map_comp, map_filter_comp, NewCall, NewList, NewAccuIdent, NewBoolConst,
      NewIntConst;
    cbn [CheckPasses map]; unfold ComprehensionHasMemoryExhaustionVulnerability;
    cbn [refs String.eqb Ascii.eqb Bool.eqb andb orb List.length Nat.eqb map]; rewrite ?String.eqb_refl, ?Rp, ?Rf, ?Ht, ?Hp, ?Hf;
    cbn; try reflexivity.
  destruct (String.eqb x accu) eqn:E; [apply String.eqb_eq in E; subst; now elim Hv|]. reflexivity.
Qed.
Print Assumptions C94_macros.
Ltac none := repeat match goal with
  | H : part _ _ |- _ => inversion H; clear H; subst
  | H : In _ _ |- _ => cbn [In map] in H
  | H : _ \/ _ |- _ => destruct H as [H|H]
  | H : (_, _) = (_, _) |- _ => injection H as ? ?; subst
  | H : _ = ?v |- _ => is_var v; subst v
  | H : False |- _ => destruct H
  | H : within (EComp _ "@result" _ _ _ _ _ _) _ |- _ => inversion H; clear H; subst
  end.
Example C94_example :
  exists inner e, ExpandMap2Macro "@result" (EIdent "ys") [EIdent "b"; EIdent "a"] = inl inner /\
  ExpandFilterMacro "@result" (EIdent "xs") [EIdent "a"; inner] = inl e /\
  operand "@result" (EIdent "xs") /\ operand "@result" inner /\ CheckPasses e = true.
Proof.
  eexists _, _. split; [reflexivity|]. split; [reflexivity|].
  assert (N : forall e, (forall i y r n c s b, within (EComp i "@result" y r n c s b) e -> False) -> ~ second_variable "@result" e).
  { intros e H (i & y & r & n & c & s & b & Hw). eapply H; eauto. }
  split; [|split; [|reflexivity]]; (split; [reflexivity|]); (split; [reflexivity|]); apply N; intros i y r n c s b Hw.
  - none.
  - none.
Qed.
