(* Lemmas on the traversal of abstract syntax trees. *)
From Coq Require Import ZArith String List Bool Lia.
From Verif Require Import Base.
From Verif Require Import M_Ast S_Ast.
Import ListNotations.
Open Scope list_scope.
Open Scope Z_scope.

(** ** Induction over the parts *)
Fixpoint size (e : Expr) : nat :=
  let opt (o : option Expr) := match o with Some e => size e | None => 1%nat end in
  S (match e with
     | Unspecified _ | Const _ _ | Ident _ _ => O
     | Select _ o _ _ => opt o
     | Call _ _ t args => opt t + list_sum (map size args)
     | ListE _ es => list_sum (map (fun x => match x with (o, _) => opt o end) es)
     | StructE _ _ fs => list_sum (map (fun x => match x with (_, _, v, _) => opt v end) fs)
     | MapE _ es => list_sum (map (fun x => match x with (_, k, v, _) => opt k + opt v end) es)
     | Comprehension _ _ _ _ a b c d r => opt a + opt b + opt c + opt d + opt r
     end)%nat.
Lemma size_pos e : (0 < size e)%nat. Proof. destruct e; cbn; lia. Qed.
Lemma sum_in {A} (f : A -> nat) x l : In x l -> (f x <= list_sum (map f l))%nat.
Proof. induction l as [|y l IH]; cbn; [easy|]. intros [->|H]; [lia|]. specialize (IH H). unfold list_sum in *. lia. Qed.
Lemma in_arguments i args r c : In (r, c) (arguments i args) -> In c args.
Proof. revert i. induction args as [|a args IH]; cbn; [easy|]. intros i [[= _ ->]|H]; [now left|right; eauto]. Qed.
Lemma in_present r o r' c : In (r', c) (present r o) -> o = Some c.
Proof. destruct o; cbn; [|easy]. now intros [[= _ ->]|[]]. Qed.
Lemma part_smaller e r c : In (r, c) (parts e) -> (size c < size e)%nat.
Proof.
  destruct e; cbn [parts]; try easy; intros H.
  - apply in_present in H as ->. cbn. lia.
  - apply in_app_or in H as [H|H].
    + apply in_present in H as ->. cbn. lia.
    + apply in_arguments in H. pose proof (sum_in size c args H). cbn. lia.
  - apply in_map_iff in H as ([o b] & [= _ <-] & H). cbn.
    pose proof (sum_in (fun x => match x with (o, _) => match o with Some e => size e | None => 1%nat end end) _ _ H) as Q.
    cbn in Q. destruct o; cbn in *; lia.
  - apply in_concat in H as (l & H & Hc). apply in_map_iff in H as ([[[fid nm] v] b] & <- & H).
    apply in_present in Hc as ->. cbn.
    pose proof (sum_in (fun x : Z * string * option Expr * bool => match x with (_, _, v, _) => match v with Some e => size e | None => 1%nat end end) _ _ H) as Q.
    cbn in Q. lia.
  - apply in_concat in H as (l & H & Hc). apply in_map_iff in H as ([[[fid k] v] b] & <- & H).
    pose proof (sum_in (fun x : Z * option Expr * option Expr * bool => match x with (_, k, v, _) =>
      ((match k with Some e => size e | None => 1 end) + (match v with Some e => size e | None => 1 end))%nat end) _ _ H) as Q.
    cbn in Q. apply in_app_or in Hc as [Hc|Hc]; apply in_present in Hc as ->; cbn; lia.
  - assert (forall o, size (or_empty o) = match o with Some e => size e | None => 1%nat end) as O by now destruct o.
    cbn in H. repeat (destruct H as [[= _ <-]|H]); try easy; rewrite O; cbn;
      destruct iter_range, accu_init, loop_condition, loop_step, result; lia.
Qed.
Lemma child_smaller e c : In c (children e) -> (size c < size e)%nat.
Proof. intros H. apply in_map_iff in H as ([r c'] & <- & H). now apply part_smaller in H. Qed.
Lemma parts_ind (P : Expr -> Prop) : (forall e, (forall r c, In (r, c) (parts e) -> P c) -> P e) -> forall e, P e.
Proof.
  intros H e. remember (size e) as n eqn:E. assert (size e <= n)%nat as L by lia. clear E. revert e L.
  induction n as [|n IH]; intros e L; [pose proof (size_pos e); lia|].
  apply H. intros r c I. apply IH. apply part_smaller in I. lia.
Qed.
Lemma children_ind (P : Expr -> Prop) : (forall e, (forall c, In c (children e) -> P c) -> P e) -> forall e, P e.
Proof. intros H. apply parts_ind. intros e IH. apply H. intros c I. apply in_map_iff in I as ([r c'] & <- & I). eauto. Qed.

(** ** The relations are functions *)
Scheme walk_mut := Induction for walk Sort Prop with walk_parts_mut := Induction for walk_parts Sort Prop.
Lemma walk_total s e : exists w, walk s e w.
Proof.
  induction e as [e IH] using parts_ind.
  assert (exists inner, walk_parts s e (parts e) inner) as (inner & H).
  { induction (parts e) as [|[r c] ps IHp]; [eexists; constructor|].
    destruct (IH r c (or_introl eq_refl)) as (w & Hw).
    destruct IHp as (rest & Hr); [intros; eapply IH; right; eauto|]. eexists. econstructor; eauto. }
  eexists. constructor. exact H.
Qed.
Lemma walk_fun s e w w' : walk s e w -> walk s e w' -> w = w'.
Proof.
  revert w w'. induction e as [e IH] using parts_ind. intros w w' H H'.
  inversion H as [e1 i1 P1]; subst. inversion H' as [e2 i2 P2]; subst. repeat f_equal.
  clear H H'. revert i1 i2 P1 P2. induction (parts e) as [|[r c] ps IHp]; intros.
  - inversion P1; inversion P2; now subst.
  - inversion P1; inversion P2; subst. repeat f_equal; [eapply IH; eauto; now left|]. apply IHp; auto. intros r' c' I; apply (IH r' c'); now right.
Qed.
Lemma Forall2_total {A B} (R : A -> B -> Prop) l : (forall a, In a l -> exists b, R a b) -> exists l', Forall2 R l l'.
Proof.
  induction l as [|a l IH]; intros H; [eexists; constructor|].
  destruct (H a (or_introl eq_refl)) as (b & Hb). destruct IH as (l' & Hl); [intros; apply H; now right|].
  eexists; constructor; eauto.
Qed.
Lemma Forall2_fun {A B} (R : A -> B -> Prop) l l1 l2 :
  (forall a b b', In a l -> R a b -> R a b' -> b = b') -> Forall2 R l l1 -> Forall2 R l l2 -> l1 = l2.
Proof.
  intros H F. revert l2. induction F; intros l2 F2; inversion F2; subst; [easy|]. f_equal; [eapply H; eauto; now left|].
  apply IHF; auto. intros; eapply H; eauto; now right.
Qed.
Lemma preorder_total e : exists l, preorder e l.
Proof. induction e as [e IH] using children_ind. destruct (Forall2_total preorder (children e) IH) as (ls & H). eexists; constructor; eauto. Qed.
Lemma postorder_total e : exists l, postorder e l.
Proof. induction e as [e IH] using children_ind. destruct (Forall2_total postorder (children e) IH) as (ls & H). eexists; constructor; eauto. Qed.
Lemma tall_total e : exists h, tall e h.
Proof. induction e as [e IH] using children_ind. destruct (Forall2_total tall (children e) IH) as (ls & H). eexists; constructor; eauto. Qed.
Lemma preorder_fun e l l' : preorder e l -> preorder e l' -> l = l'.
Proof.
  revert l l'. induction e as [e IH] using children_ind. intros l l' A B. inversion A; inversion B; subst.
  do 2 f_equal. eapply Forall2_fun; eauto.
Qed.
Lemma tall_fun e l l' : tall e l -> tall e l' -> l = l'.
Proof.
  revert l l'. induction e as [e IH] using children_ind. intros l l' A B. inversion A; inversion B; subst.
  do 2 f_equal. eapply Forall2_fun; eauto.
Qed.

(** ** The order of visits *)
Lemma entered_app a b : entered (a ++ b) = entered a ++ entered b.
Proof. unfold entered. now rewrite map_app, concat_app. Qed.
Lemma left_app a b : left (a ++ b) = left a ++ left b.
Proof. unfold left. now rewrite map_app, concat_app. Qed.
Lemma quiet_entered s e r : entered (before e) = [] /\ entered (after e) = [] /\ entered (enter s e r) = [] /\ entered (leave s e r) = [].
Proof. repeat split; [now destruct e|now destruct e|destruct r, s; reflexivity|destruct r as [| | | | | | |a], s; reflexivity]. Qed.
Lemma quiet_left s e r : left (before e) = [] /\ left (after e) = [] /\ left (enter s e r) = [] /\ left (leave s e r) = [].
Proof. repeat split; [now destruct e|now destruct e|destruct r, s; reflexivity|destruct r as [| | | | | | |a], s; reflexivity]. Qed.
Lemma walk_entered s e w l : walk s e w -> preorder e l -> entered w = l.
Proof.
  revert w l. induction e as [e IH] using parts_ind. intros w l W L. inversion W as [e1 inner P]; subst. inversion L as [e2 ls F]; subst.
  assert (forall ps inner ls, (forall r c, In (r, c) ps -> forall w l, walk s c w -> preorder c l -> entered w = l) ->
     walk_parts s e ps inner -> Forall2 preorder (map snd ps) ls -> entered inner = concat ls) as K.
  { clear. induction ps as [|[r c] ps IHp]; intros inner ls IH P F; inversion P; subst; inversion F; subst; [reflexivity|].
    rewrite !entered_app. destruct (quiet_entered s e r) as (_ & _ & -> & ->). cbn [app concat]. f_equal.
    - eapply IH; eauto; now left.
    - eapply IHp; eauto. intros r' c' I; apply (IH r' c'); now right. }
  rewrite !entered_app. destruct (quiet_entered s e Operand) as (-> & -> & _). cbn [app entered map concat]. f_equal.
  rewrite app_nil_r. eapply K; eauto.
Qed.
Lemma walk_left s e w l : walk s e w -> postorder e l -> left w = l.
Proof.
  revert w l. induction e as [e IH] using parts_ind. intros w l W L. inversion W as [e1 inner P]; subst. inversion L as [e2 ls F]; subst.
  assert (forall ps inner ls, (forall r c, In (r, c) ps -> forall w l, walk s c w -> postorder c l -> left w = l) ->
     walk_parts s e ps inner -> Forall2 postorder (map snd ps) ls -> left inner = concat ls) as K.
  { clear. induction ps as [|[r c] ps IHp]; intros inner ls IH P F; inversion P; subst; inversion F; subst; [reflexivity|].
    rewrite !left_app. destruct (quiet_left s e r) as (_ & _ & -> & ->). cbn [app concat]. f_equal.
    - eapply IH; eauto; now left.
    - eapply IHp; eauto. intros r' c' I; apply (IH r' c'); now right. }
  rewrite !left_app. destruct (quiet_left s e Operand) as (-> & -> & _). cbn [app left map concat]. f_equal.
  eapply K; eauto.
Qed.

(** ** The stack *)
Definition record_of (s : bool) (e : Expr) (p : role * Expr) : record :=
  let '(r, c) := p in
  match r with
  | Receiver => ArgRecord c e kTarget
  | Argument i => ArgRecord c e (Z.of_nat i)
  | Piece a => comprehension_record s c e a
  | _ => ExprRecord c
  end.
Definition fresh (r : record) : record * bool := (r, false).
Lemma fold_push {A} (f : A -> list record) l st :
  fold_left (fun st x => map fresh (f x) ++ st) (rev l) st = map fresh (concat (map f l)) ++ st.
Proof.
  revert st. induction l as [|x l IH]; intros st; [reflexivity|]. cbn [rev map concat].
  rewrite fold_left_app. cbn [fold_left]. rewrite IH, map_app, <- app_assoc. reflexivity.
Qed.
Lemma fold_left_ext' {A B} (f g : B -> A -> B) l b : (forall b a, In a l -> f b a = g b a) -> fold_left f l b = fold_left g l b.
Proof. revert b. induction l as [|a l IH]; intros b H; cbn; [easy|]. rewrite H by now left. apply IH. intros; apply H; now right. Qed.
Lemma arguments_nth args k i : nth_error (arguments k args) i = option_map (fun a => (Argument (k + i), a)) (nth_error args i).
Proof.
  revert k i. induction args as [|a args IH]; intros k [|i]; cbn; try reflexivity; [now rewrite Nat.add_0_r|].
  rewrite IH. now replace (S k + i)%nat with (k + S i)%nat by lia.
Qed.
Lemma call_records e args k :
  concat (map (fun i => match nth_error args i with Some c => [ArgRecord c e (Z.of_nat (k + i))] | None => [] end) (seq 0 (length args)))
  = map (record_of false e) (arguments k args).
Proof.
  revert k. induction args as [|a args IH]; intros k; [reflexivity|]. cbn [length seq map concat nth_error arguments].
  rewrite <- seq_shift, map_map. cbn [nth_error app]. rewrite <- (IH (S k)). cbn [record_of].
  rewrite Nat.add_0_r. f_equal. f_equal. apply map_ext. intros i. now replace (k + S i)%nat with (S k + i)%nat by lia.
Qed.
Lemma record_of_args s e k args : map (record_of s e) (arguments k args) = map (record_of false e) (arguments k args).
Proof. revert k. induction args; intros; cbn; [easy|]. now rewrite IHargs. Qed.
Lemma PushDependencies_expr s e st : PushDependencies s (ExprRecord e) st = map fresh (map (record_of s e) (parts e)) ++ st.
Proof.
  destruct e; cbn [PushDependencies parts]; try reflexivity.
  - now destruct operand.
  - unfold PushCallDeps. rewrite map_app, record_of_args, <- call_records.
    assert (fold_left (fun st i => match nth_error args i with
             | Some c => push st (ArgRecord c (Call id function target args) (Z.of_nat i)) | None => st end) (rev (seq 0 (length args))) st
           = map fresh (concat (map (fun i => match nth_error args i with
               Some c => [ArgRecord c (Call id function target args) (Z.of_nat (0 + i))] | None => [] end) (seq 0 (length args)))) ++ st) as ->.
    { rewrite <- fold_push. apply fold_left_ext'. intros b a _. now destruct (nth_error args a). }
    now destruct target.
  - unfold PushListDeps.
    transitivity (map fresh (concat (map (fun x : option Expr * bool => [ExprRecord (or_empty (fst x))]) elements)) ++ st).
    + rewrite <- fold_push. apply fold_left_ext'. intros b a _. reflexivity.
    + f_equal. f_equal. rewrite map_map. cbn [record_of]. clear. induction elements; cbn; [easy|]. now rewrite IHelements.
  - unfold PushStructDeps.
    transitivity (map fresh (concat (map (fun x : Z * string * option Expr * bool => match x with (_, _, v, _) => match v with Some e => [ExprRecord e] | None => [] end end) fields)) ++ st).
    + rewrite <- fold_push. apply fold_left_ext'. intros b [[[? ?] v] ?] _. now destruct v.
    + f_equal. f_equal. rewrite concat_map, map_map. f_equal. apply map_ext. intros [[[? ?] v] ?]. now destruct v.
  - unfold PushMapDeps.
    transitivity (map fresh (concat (map (fun x : Z * option Expr * option Expr * bool => match x with (_, k, v, _) =>
       match k with Some e => [ExprRecord e] | None => [] end ++ match v with Some e => [ExprRecord e] | None => [] end end) entries)) ++ st).
    + rewrite <- fold_push. apply fold_left_ext'. intros b [[[? k] v] ?] _. now destruct k, v.
    + f_equal. f_equal. rewrite concat_map, map_map. f_equal. apply map_ext. intros [[[? k] v] ?]. now destruct k, v.
Qed.

(* n steps *)
Fixpoint steps (s : bool) (n : nat) (st : stack) : list event * stack :=
  match n with
  | O => ([], st)
  | S n' => let '(evs, st') := Step s st in let '(evs', st'') := steps s n' st' in (evs ++ evs', st'')
  end.
Lemma steps_app s n m st : steps s (n + m) st =
  let '(a, st') := steps s n st in let '(b, st'') := steps s m st' in (a ++ b, st'').
Proof.
  revert st. induction n as [|n IH]; intros st; cbn [steps Nat.add].
  - now destruct (steps s m st).
  - destruct (Step s st) as [ev st1]. rewrite IH. destruct (steps s n st1) as [a st2], (steps s m st2) as [b st3].
    now rewrite app_assoc.
Qed.
Lemma steps_done s n : steps s n [] = ([], []).
Proof. induction n as [|n IH]; [reflexivity|]. cbn [steps Step]. now rewrite IH. Qed.
(* steps that end with the given stack and not before *)
Definition runs (s : bool) (st : stack) (w : list event) (st' : stack) : Prop :=
  exists n, steps s n st = (w, st') /\ forall k, (k < n)%nat -> (length st' < length (snd (steps s k st)))%nat.
Lemma runs_trans s a w b w' c : runs s a w b -> runs s b w' c -> (length c <= length b)%nat -> runs s a (w ++ w') c.
Proof.
  intros (n & E & H) (m & E' & H') L. exists (n + m)%nat. rewrite steps_app, E, E'. split; [reflexivity|].
  intros k K. destruct (Nat.lt_ge_cases k n) as [K'|K']; [specialize (H k K'); lia|].
  replace k with (n + (k - n))%nat by lia. rewrite steps_app, E. specialize (H' (k - n)%nat ltac:(lia)).
  now destruct (steps s (k - n) b).
Qed.
Lemma runs_step s st evs st' w st'' : (length st'' < length st)%nat -> Step s st = (evs, st') -> runs s st' w st'' -> runs s st (evs ++ w) st''.
Proof.
  intros L E (n & E' & H). exists (S n). cbn [steps]. rewrite E, E'. split; [reflexivity|].
  intros [|k] K; cbn [steps snd]; [easy|]. rewrite E. specialize (H k ltac:(lia)). now destruct (steps s k st').
Qed.
Lemma runs_refl s st : runs s st [] st.
Proof. exists O. split; [reflexivity|]. lia. Qed.

Lemma PreVisit_expr e : PreVisit (ExprRecord e) = PreVisitExpr e :: before e.
Proof. now destruct e. Qed.
Lemma PostVisit_expr e : PostVisit (ExprRecord e) = after e ++ [PostVisitExpr e].
Proof. now destruct e. Qed.
Lemma runs_record s e r c w st :
  runs s (fresh (ExprRecord c) :: st) w st ->
  (forall st, runs s (fresh (ExprRecord c) :: st) w st) ->
  runs s (fresh (record_of s e (r, c)) :: st) (enter s e r ++ w ++ leave s e r) st.
Proof.
  intros R Ra.
  assert (A : forall n, runs s (fresh (ArgRecord c e n) :: st) ([] ++ w ++ (if n =? kTarget then [PostVisitTarget e] else [PostVisitArg e n])) st).
  { intros n. eapply runs_step; [cbn; lia|reflexivity|].
    eapply runs_trans; [apply Ra| |cbn; lia].
    replace (if n =? kTarget then _ else _) with ((if n =? kTarget then [PostVisitTarget e] else [PostVisitArg e n]) ++ []) by apply app_nil_r.
    eapply runs_step; [cbn; lia|reflexivity|apply runs_refl]. }
  assert (C : forall a, runs s (fresh (ComprehensionRecord c e a) :: st)
            ([PreVisitComprehensionSubexpression e a] ++ w ++ [PostVisitComprehensionSubexpression e a]) st).
  { intros a. eapply runs_step; [cbn; lia|reflexivity|].
    eapply runs_trans; [apply Ra| |cbn; lia].
    change [PostVisitComprehensionSubexpression e a] with ([PostVisitComprehensionSubexpression e a] ++ []).
    eapply runs_step; [cbn; lia|reflexivity|apply runs_refl]. }
  destruct r as [| |i| | | | |a]; cbn [record_of enter leave]; try (rewrite app_nil_r; exact R).
  - exact (A kTarget).
  - specialize (A (Z.of_nat i)). replace (Z.of_nat i =? kTarget) with false in A; [exact A|].
    symmetry. apply Z.eqb_neq. unfold kTarget. lia.
  - unfold comprehension_record. destruct s; [apply C|]. specialize (A (arg_number a)). now destruct a.
Qed.
Lemma runs_parts s e ps inner st :
  (forall r c, In (r, c) ps -> forall w, walk s c w -> forall st, runs s (fresh (ExprRecord c) :: st) w st) ->
  walk_parts s e ps inner -> runs s (map fresh (map (record_of s e) ps) ++ st) inner st.
Proof.
  revert inner. induction ps as [|[r c] ps IH]; intros inner R P; inversion P; subst; [apply runs_refl|].
  cbn [map app].
  match goal with |- runs _ _ (?a ++ ?b ++ ?c ++ ?d) _ => replace (a ++ b ++ c ++ d) with ((a ++ b ++ c) ++ d) by now rewrite <- !app_assoc end.
  eapply runs_trans.
  - apply runs_record; [eapply R; eauto; now left|eapply R; eauto; now left].
  - apply IH; eauto. intros r' c' I; apply (R r' c'); now right.
  - rewrite app_length. lia.
Qed.
Lemma runs_expr s e w : walk s e w -> forall st, runs s (fresh (ExprRecord e) :: st) w st.
Proof.
  revert w. induction e as [e IH] using parts_ind. intros w W st. inversion W as [e1 inner P]; subst.
  rewrite app_assoc. change ([PreVisitExpr e] ++ before e) with (PreVisitExpr e :: before e). rewrite <- PreVisit_expr.
  eapply runs_step; [cbn; lia|cbn [Step fresh negb]; rewrite PushDependencies_expr; reflexivity|].
  eapply runs_trans; [eapply runs_parts; eauto| |cbn; lia].
  rewrite <- PostVisit_expr. replace (PostVisit (ExprRecord e)) with (PostVisit (ExprRecord e) ++ []) by apply app_nil_r.
  eapply runs_step; [cbn; lia|reflexivity|apply runs_refl].
Qed.

Lemma loop_steps s n st seen w : steps s n st = (w, []) -> traverse_loop n s st seen = Some (seen ++ w).
Proof.
  revert st seen w. induction n as [|n IH]; intros st seen w E.
  - injection E as <- ->. cbn. now rewrite app_nil_r.
  - cbn [steps] in E. cbn [traverse_loop]. destruct (IsDone st) eqn:D.
    + destruct st; [|easy]. cbn [Step] in E. rewrite steps_done in E. injection E as <-. now rewrite app_nil_r.
    + destruct (Step s st) as [evs st']. destruct (steps s n st') as [w' st''] eqn:E'. injection E as <- ->.
      rewrite (IH st' (seen ++ evs) w') by exact E'. now rewrite app_assoc.
Qed.
Lemma loop_more s n m st seen w : traverse_loop n s st seen = Some w -> (n <= m)%nat -> traverse_loop m s st seen = Some w.
Proof.
  revert m st seen. induction n as [|n IH]; intros m st seen E L.
  - cbn in E. destruct (IsDone st) eqn:D; [|easy]. destruct m; cbn; now rewrite D.
  - destruct m as [|m]; [lia|]. cbn [traverse_loop] in *. destruct (IsDone st); [easy|].
    destruct (Step s st) as [evs st']. apply IH; [easy|lia].
Qed.
Lemma traverse_walk s e w : walk s e w -> exists n, forall m, (n <= m)%nat -> AstTraverse m s e = Some w.
Proof.
  intros W. destruct (runs_expr s e w W []) as (n & E & _). exists n. intros m L. unfold AstTraverse.
  eapply loop_more; [|exact L]. now apply (loop_steps s n (Create e) [] w).
Qed.
