(* Lemmas on the navigable tree. *)
From Coq Require Import ZArith String List Bool Lia.
From Verif Require Import Base.
From Verif Require Import M_Ast S_Ast L_Ast.
Import ListNotations.
Open Scope list_scope.
Open Scope Z_scope.

(** ** Updating *)
Lemma update_app {A} (f : A -> A) a x b : update (length a) f (a ++ x :: b) = Val (a ++ f x :: b).
Proof. induction a as [|y a IH]; cbn; [reflexivity|]. now rewrite IH. Qed.
Lemma at_app {A} (a : list A) x b : at_index (a ++ x :: b) (length a) = Val x.
Proof. unfold at_index. rewrite nth_error_app2 by lia. now rewrite Nat.sub_diag. Qed.
Lemma visit_all_app a b s : visit_all (a ++ b) s = obind (visit_all a s) (visit_all b).
Proof. revert s. induction a as [|x a IH]; intros s; cbn; [reflexivity|]. destruct (builder_visit s x); cbn; [apply IH|reflexivity|reflexivity]. Qed.
Lemma visit_quiet s e r b : visit_all (before e) b = Val b /\ visit_all (after e) b = Val b /\ visit_all (leave s e r) b = Val b.
Proof. repeat split; [now destruct e|now destruct e|destruct r as [| | | | | | |a], s; reflexivity]. Qed.

(* the relation the code gives to part number k *)
Definition given (e : Expr) (k : nat) (r : role) : ChildKind :=
  match e with
  | MapE _ _ => if Nat.eqb (Nat.modulo k 2) 0 then kMapKey else kMapValue
  | _ => kind_of_part r
  end.
Definition arg_known (r : role) (ca : option ComprehensionArg) : Prop := match r with Piece a => ca = Some a | _ => True end.
Lemma in_arguments_role i args r c : In (r, c) (arguments i args) -> exists j, r = Argument j /\ (i <= j)%nat.
Proof. revert i. induction args as [|a args IH]; cbn; [easy|]. intros i [[= <- _]|H]; [eauto|]. destruct (IH _ H) as (j & -> & L). exists j. split; [easy|lia]. Qed.
Lemma in_present_role r o r' c : In (r', c) (present r o) -> r' = r.
Proof. destruct o; cbn; [|easy]. now intros [[= -> _]|[]]. Qed.
Lemma GetChildKind_given e d k r c ca :
  n_node_kind d = GetNodeKind e -> n_expr d = e -> nth_error (parts e) k = Some (r, c) -> arg_known r ca ->
  GetChildKind d k ca = given e k r.
Proof.
  intros K E N A. unfold GetChildKind. rewrite K, E. clear K E.
  destruct e; cbn [GetNodeKind given parts] in *; try (destruct k; discriminate N).
  - apply nth_error_In, in_present_role in N as ->. reflexivity.
  - destruct target as [t|]; cbn [present app] in N.
    + destruct k as [|k]; cbn in N; [now injection N as <- _|].
      apply nth_error_In, in_arguments_role in N as (j & -> & _). reflexivity.
    + apply nth_error_In, in_arguments_role in N as (j & -> & _). reflexivity.
  - rewrite nth_error_map in N. destruct (nth_error elements k); cbn in N; [|easy]. now injection N as <- _.
  - apply nth_error_In in N. apply in_concat in N as (l & H & Hc). apply in_map_iff in H as ([[[? ?] v] ?] & <- & _).
    apply in_present_role in Hc as ->. reflexivity.
  - reflexivity.
  - assert (exists a, r = Piece a) as (a & ->).
    { apply nth_error_In in N. cbn in N. repeat (destruct N as [[= <- _]|N]; [eauto|]). easy. }
    cbn in A. subst ca. now destruct a.
Qed.
Lemma complete_given e k r c :
  (match e with MapE _ entries => Forall (fun '(_, key, value, _) => key <> None /\ value <> None) entries | _ => True end) ->
  nth_error (parts e) k = Some (r, c) -> given e k r = kind_of_part r.
Proof.
  destruct e; try reflexivity. cbn [parts given]. intros F. revert k. induction F as [|[[[i key] v] o] l [K V] F IH]; intros k N.
  - now destruct k.
  - destruct key as [key|]; [|easy]. destruct v as [v|]; [|easy]. cbn in N.
    destruct k as [|[|k]]; cbn in N; try (injection N as <- _; reflexivity).
    rewrite <- (IH k N). replace (S (S k)) with (k + 1 * 2)%nat by lia. now rewrite Nat.mod_add.
Qed.

(** ** What a subtree of the navigable tree is *)
Section Fits.
  Variable ns : list node.
  Variable po : list nat.
  (* parent, child index, relation, depth, index, expression, nodes below in both orders *)
  Inductive fits : option nat -> Z -> ChildKind -> nat -> nat -> Expr -> list nat -> list nat -> Prop :=
  | fits_expr par ci rel depth i e js l h pres posts :
      nth_error ns i = Some (mkNode par e rel (GetNodeKind e) i (length l) h ci js) ->
      preorder e l -> tall e h ->
      fits_kids e i depth O (parts e) js pres posts ->
      i :: concat pres = seq i (length l) ->
      (depth <= i)%nat -> firstn (length l) (skipn (i - depth) po) = concat posts ++ [i] ->
      fits par ci rel depth i e (i :: concat pres) (concat posts ++ [i])
  with fits_kids : Expr -> nat -> nat -> nat -> list (role * Expr) -> list nat -> list (list nat) -> list (list nat) -> Prop :=
  | fits_nil e i depth k : fits_kids e i depth k [] [] [] []
  | fits_cons e i depth k r c ps j js pre pres post posts :
      fits (Some i) (Z.of_nat k) (given e k r) (S depth) j c pre post ->
      fits_kids e i depth (S k) ps js pres posts ->
      fits_kids e i depth k ((r, c) :: ps) (j :: js) (pre :: pres) (post :: posts).
End Fits.

Fixpoint ins_all (base : nat) (l : list Expr) (m : list (Z * nat)) : list (Z * nat) :=
  match l with [] => m | e :: l' => ins_all (S base) l' (insert (expr_id e) base m) end.
Lemma ins_all_app base a b m : ins_all base (a ++ b) m = ins_all (base + length a) b (ins_all base a m).
Proof.
  revert base m. induction a as [|e a IH]; intros base m; cbn [app ins_all length]; [now rewrite Nat.add_0_r|].
  rewrite IH. now replace (S base + length a)%nat with (base + S (length a))%nat by lia.
Qed.

(* the nodes when a child with index j, of the given size and height, has been added to the last on the stack *)
Definition adopt (j sz h : nat) (d : node) : node :=
  mkNode (n_parent d) (n_expr d) (n_parent_relation d) (n_node_kind d) (n_index d)
    (n_tree_size d + sz) (Nat.max (n_height d) (h + 1)) (n_child_index d) (n_children d ++ [j]).

Definition ext_fits new post base depth par ci rel e pre plen :=
  forall N' P' tn tp, length N' = base -> length P' = plen ->
    fits (N' ++ new ++ tn) (P' ++ post ++ tp) par ci rel depth base e pre post.
Definition ext_kids news post base0 plen e i depth k ps js pres posts :=
  forall N' P' tn tp, length N' = base0 -> length P' = plen ->
    fits_kids (N' ++ news ++ tn) (P' ++ post ++ tp) e i depth k ps js pres posts.

Lemma max_heights hs a : fold_left (fun h x => Nat.max h (x + 1)) hs a = Nat.max a (match hs with [] => O | _ => S (fold_right Nat.max O hs) end).
Proof.
  revert a. induction hs as [|x hs IH]; intros a; cbn; [lia|]. rewrite IH. destruct hs; cbn; lia.
Qed.

(* adding a subtree under a node in the middle, or as the root *)
Definition good (e : Expr) : Prop := forall w, walk true e w -> forall l h, preorder e l -> tall e h ->
  (forall M d D P ids p ps ca,
    p = length M -> (length P + S (length ps) = length M + S (length D))%nat ->
    exists new post pre ca',
      visit_all w (mkBuilder (mkMetadata (M ++ d :: D) P ids) (p :: ps) ca) =
      Val (mkBuilder (mkMetadata (M ++ adopt (length M + S (length D)) (length l) h d :: D ++ new) (P ++ post)
                        (ins_all (length M + S (length D)) l ids)) (p :: ps) ca') /\
      length new = length l /\ length post = length l /\ map n_expr new = l /\
      ext_fits new post (length M + S (length D)) (S (length ps)) (Some p) (Z.of_nat (length (n_children d)))
        (GetChildKind d (length (n_children d)) ca) e pre (length P)) /\
  (forall ca,
    exists new post pre ca',
      visit_all w (mkBuilder (mkMetadata [] [] []) [] ca) =
      Val (mkBuilder (mkMetadata new post (ins_all O l [])) [] ca') /\
      length new = length l /\ length post = length l /\ map n_expr new = l /\
      ext_fits new post O O None (-1) kUnspecifiedChild e pre O).

Lemma kids_good e : (forall r c, In (r, c) (parts e) -> good c) ->
  forall ps done inner, parts e = done ++ ps -> walk_parts true e ps inner ->
  forall ls hs, Forall2 preorder (map snd ps) ls -> Forall2 tall (map snd ps) hs ->
  forall M d D P ids p stk ca, p = length M -> (length P + S (length stk) = length M + S (length D))%nat ->
  n_node_kind d = GetNodeKind e -> n_expr d = e -> length (n_children d) = length done ->
  exists news post js pres posts ca',
    visit_all inner (mkBuilder (mkMetadata (M ++ d :: D) P ids) (p :: stk) ca) =
    Val (mkBuilder (mkMetadata (M ++
           mkNode (n_parent d) (n_expr d) (n_parent_relation d) (n_node_kind d) (n_index d)
             (n_tree_size d + length (concat ls)) (fold_left (fun h x => Nat.max h (x + 1)) hs (n_height d))
             (n_child_index d) (n_children d ++ js) :: D ++ news) (P ++ post)
           (ins_all (length M + S (length D)) (concat ls) ids)) (p :: stk) ca') /\
    length news = length (concat ls) /\ length post = length (concat ls) /\ map n_expr news = concat ls /\
    post = concat posts /\ concat pres = seq (length M + S (length D)) (length (concat ls)) /\
    ext_kids news post (length M + S (length D)) (length P) e p (length stk) (length done) ps js pres posts.
Proof.
  intros G. induction ps as [|[r c] ps IH]; intros done inner Ep W ls hs Fl Fh M d D P ids p stk ca Hp Hlen Hk He Hc.
  - inversion W; subst. inversion Fl; subst. inversion Fh; subst. exists [], [], [], [], [], ca. cbn.
    rewrite !app_nil_r, Nat.add_0_r. repeat split; try reflexivity. 1: now destruct d. intros ? ? ? ? ? ?. constructor.
  - inversion W as [|e0 r0 c0 ps0 w rest Wc Wr]; subst. inversion Fl as [|? l ? ls' Pl Fl']; subst. inversion Fh as [|? h ? hs' Th Fh']; subst.
    set (base := (length M + S (length D))%nat) in *.
    set (ca1 := match r with Piece a => Some a | _ => ca end).
    assert (En : visit_all (enter true (n_expr d) r) (mkBuilder (mkMetadata (M ++ d :: D) P ids) (length M :: stk) ca)
               = Val (mkBuilder (mkMetadata (M ++ d :: D) P ids) (length M :: stk) ca1)) by (destruct r; reflexivity).
    assert (I : In (r, c) (parts (n_expr d))) by (rewrite Ep; apply in_or_app; right; now left).
    destruct (G r c I w Wc l h Pl Th) as [Gc _].
    destruct (Gc M d D P ids (length M) stk ca1 eq_refl Hlen) as (new & post & pre & ca2 & V & L1 & L2 & L3 & F).
    fold base in V, F. rewrite visit_all_app, En. cbn [obind]. rewrite visit_all_app, V. cbn [obind].
    destruct (visit_quiet true (n_expr d) r
      (mkBuilder (mkMetadata (M ++ adopt base (length l) h d :: D ++ new) (P ++ post) (ins_all base l ids)) (length M :: stk) ca2)) as (_ & _ & Q).
    rewrite visit_all_app, Q. cbn [obind].
    edestruct (IH (done ++ [(r, c)]) rest) with (M := M) (d := adopt base (length l) h d) (D := D ++ new) (P := P ++ post) (ids := ins_all base l ids)
      (p := length M) (stk := stk) (ca := ca2) as (news & post' & js & pres & posts & ca3 & V' & L1' & L2' & L3' & E1 & E2 & K).
    + now rewrite <- app_assoc.
    + exact Wr.
    + exact Fl'.
    + exact Fh'.
    + reflexivity.
    + rewrite !app_length. unfold base in *. lia.
    + exact Hk.
    + reflexivity.
    + cbn. rewrite !app_length. cbn. lia.
    + exists (new ++ news), (post ++ post'), (base :: js), (pre :: pres), (post :: posts), ca3.
      rewrite V'. clear V'. cbn [adopt n_parent n_expr n_parent_relation n_node_kind n_index n_tree_size n_height n_child_index n_children concat fold_left] in *.
      assert (B : (length M + S (length (D ++ new)) = base + length l)%nat) by (rewrite app_length; unfold base; lia).
      rewrite B in *. rewrite !app_length, L1, L2, L1', L2', map_app, L3, L3', ins_all_app.
      repeat split; try lia.
      * rewrite <- !app_assoc. cbn [app]. now rewrite Nat.add_assoc.
      * now rewrite E1.
      * rewrite E2, seq_app. f_equal.
        specialize (F (M ++ d :: D) P [] [] ltac:(rewrite app_length; reflexivity) eq_refl).
        inversion F as [? ? ? ? ? ? ? l0 ? ? ? ? Pl0 ? ? Eseq]; subst. rewrite Eseq. f_equal. f_equal. now apply (preorder_fun c).
      * intros N' P' tn tp HN HP. cbn [app].
        econstructor.
        -- specialize (F N' P' (news ++ tn) (post' ++ tp) HN HP). rewrite !app_assoc in *.
           rewrite Hc in F. erewrite (GetChildKind_given (n_expr d) d (length done) r c) in F; [exact F|assumption|reflexivity| |].
           ++ rewrite Ep. rewrite nth_error_app2 by lia. now rewrite Nat.sub_diag.
           ++ now destruct r.
        -- specialize (K (N' ++ new) (P' ++ post) tn tp ltac:(rewrite app_length; lia) ltac:(rewrite !app_length; lia)).
           rewrite <- !app_assoc in *. rewrite app_length in K. cbn in K. rewrite Nat.add_1_r in K. exact K.
Qed.

Lemma walk_inv s e w : walk s e w -> exists inner, walk_parts s e (parts e) inner /\
  w = [PreVisitExpr e] ++ before e ++ inner ++ after e ++ [PostVisitExpr e].
Proof. intros W. inversion W; subst. eauto. Qed.

Lemma root_fits e new1 news post base plen depth par ci rel ls h js pres posts :
  preorder e (e :: concat ls) -> tall e h ->
  new1 = mkNode par e rel (GetNodeKind e) base (length (e :: concat ls)) h ci js ->
  length news = length (concat ls) -> post = concat posts -> length post = length (concat ls) ->
  concat pres = seq (S base) (length (concat ls)) ->
  (plen + depth = base)%nat ->
  ext_kids news post (S base) plen e base depth O (parts e) js pres posts ->
  ext_fits (new1 :: news) (post ++ [base]) base depth par ci rel e (base :: concat pres) plen.
Proof.
  intros Pl Th -> Ln -> Lp Ep Lb K N' P' tn tp HN HP. cbn [app].
  assert (length (concat posts ++ [base]) = length (e :: concat ls)) as LL by (rewrite app_length; cbn; lia).
  econstructor.
  - rewrite nth_error_app2 by lia. rewrite HN, Nat.sub_diag. reflexivity.
  - exact Pl.
  - exact Th.
  - specialize (K (N' ++ [mkNode par e rel (GetNodeKind e) base (length (e :: concat ls)) h ci js]) P' tn ([base] ++ tp)
      ltac:(rewrite app_length; cbn; lia) HP).
    rewrite <- !app_assoc in *. exact K.
  - cbn [length seq]. now rewrite Ep.
  - lia.
  - replace (base - depth)%nat with (length P') by lia. rewrite skipn_app, skipn_all, Nat.sub_diag. cbn [app skipn].
    rewrite <- LL, firstn_app, firstn_all, Nat.sub_diag. cbn. now rewrite app_nil_r.
Qed.

Lemma fold_height hs : fold_left (fun h x => Nat.max h (x + 1)) hs 1%nat = S (fold_right Nat.max O hs).
Proof. rewrite max_heights. destruct hs; cbn; lia. Qed.

Lemma expr_good e : good e.
Proof.
  induction e as [e IH] using parts_ind. intros w W l h Pl Th.
  apply walk_inv in W as (inner & W & ->). inversion Pl as [? ls Fl]; subst. inversion Th as [? hs Fh]; subst.
  assert (LEN : length (e :: concat ls) = S (length (concat ls))) by reflexivity.
  split.
  - intros M d D P ids p ps ca -> Hlen.
    set (base := (length M + S (length D))%nat).
    set (d1 := mkNode (n_parent d) (n_expr d) (n_parent_relation d) (n_node_kind d) (n_index d)
                 (n_tree_size d) (n_height d) (n_child_index d) (n_children d ++ [base])).
    set (rel := GetChildKind d (length (n_children d)) ca).
    set (root := mkNode (Some (length M)) e rel (GetNodeKind e) base 1 1 (Z.of_nat (length (n_children d))) []).
    assert (LB : length (M ++ d1 :: D) = base) by (rewrite app_length; reflexivity).
    assert (V1 : visit_all [PreVisitExpr e] (mkBuilder (mkMetadata (M ++ d :: D) P ids) (length M :: ps) ca)
      = Val (mkBuilder (mkMetadata ((M ++ d1 :: D) ++ root :: []) P (insert (expr_id e) base ids)) (base :: length M :: ps) ca)).
    { cbn [visit_all builder_visit]. unfold builder_PreVisitExpr.
      cbn [b_metadata b_parent_stack b_comprehension_arg m_nodes m_postorder m_id_to_node].
      rewrite at_app. cbn [obind]. rewrite update_app. cbn [obind].
      replace (length (M ++ d :: D)) with base by (rewrite app_length; reflexivity). reflexivity. }
    destruct (kids_good e IH (parts e) [] inner eq_refl W ls hs Fl Fh (M ++ d1 :: D) root [] P (insert (expr_id e) base ids)
      base (length M :: ps) ca) as (news & post & js & pres & posts & ca' & V & L1 & L2 & L3 & E1 & E2 & K);
      [lia|rewrite LB; cbn [length]; unfold base; lia|reflexivity|reflexivity|reflexivity|].
    set (root1 := mkNode (Some (length M)) e rel (GetNodeKind e) base (length (e :: concat ls)) (S (fold_right Nat.max O hs))
                    (Z.of_nat (length (n_children d))) js).
    exists (root1 :: news), (post ++ [base]), (base :: concat pres), ca'.
    rewrite visit_all_app, V1. cbn [obind]. rewrite visit_all_app.
    match goal with |- context[visit_all (before e) ?b] => destruct (visit_quiet true e Operand b) as (-> & _ & _) end.
    cbn [obind]. rewrite visit_all_app, V. cbn [obind]. rewrite visit_all_app.
    match goal with |- context[visit_all (after e) ?b] => destruct (visit_quiet true e Operand b) as (_ & -> & _) end.
    cbn [obind visit_all builder_visit]. unfold builder_PostVisitExpr.
    cbn [b_metadata b_parent_stack b_comprehension_arg m_nodes m_postorder m_id_to_node].
    cbn [root n_parent n_expr n_parent_relation n_node_kind n_index n_tree_size n_height n_child_index n_children app].
    rewrite fold_height. change (1 + length (concat ls))%nat with (length (e :: concat ls)). fold root1.
    rewrite <- LB at 1. rewrite at_app. cbn [obind]. rewrite <- app_assoc. cbn [app]. rewrite update_app. cbn [obind].
    rewrite LB in *. cbn [length] in E2, K. rewrite Nat.add_1_r in E2, K, V.
    split; [|split; [|split; [|split]]].
    + cbn [ins_all]. unfold d1, adopt, root1. cbn [n_parent n_expr n_parent_relation n_node_kind n_index n_tree_size n_height n_child_index n_children length].
      rewrite <- app_assoc. do 6 f_equal. cbn [length]. now rewrite Nat.add_1_r.
    + cbn. now rewrite L1.
    + rewrite app_length. cbn. lia.
    + cbn. now rewrite L3.
    + eapply root_fits; eauto; reflexivity.
  - intros ca.
    set (root := mkNode None e kUnspecifiedChild (GetNodeKind e) 0 1 1 (-1) []).
    assert (V1 : visit_all [PreVisitExpr e] (mkBuilder (mkMetadata [] [] []) [] ca)
      = Val (mkBuilder (mkMetadata ([] ++ root :: []) [] (insert (expr_id e) 0 [])) [0%nat] ca)) by reflexivity.
    destruct (kids_good e IH (parts e) [] inner eq_refl W ls hs Fl Fh [] root [] [] (insert (expr_id e) 0 [])
      0 [] ca) as (news & post & js & pres & posts & ca' & V & L1 & L2 & L3 & E1 & E2 & K);
      [reflexivity..|].
    set (root1 := mkNode None e kUnspecifiedChild (GetNodeKind e) 0 (length (e :: concat ls)) (S (fold_right Nat.max O hs)) (-1) js).
    exists (root1 :: news), (post ++ [0%nat]), (0%nat :: concat pres), ca'.
    rewrite visit_all_app, V1. cbn [obind]. rewrite visit_all_app.
    match goal with |- context[visit_all (before e) ?b] => destruct (visit_quiet true e Operand b) as (-> & _ & _) end.
    cbn [obind]. rewrite visit_all_app, V. cbn [obind]. rewrite visit_all_app.
    match goal with |- context[visit_all (after e) ?b] => destruct (visit_quiet true e Operand b) as (_ & -> & _) end.
    cbn [obind visit_all builder_visit]. unfold builder_PostVisitExpr.
    cbn [b_metadata b_parent_stack b_comprehension_arg m_nodes m_postorder m_id_to_node].
    cbn [root n_parent n_expr n_parent_relation n_node_kind n_index n_tree_size n_height n_child_index n_children app].
    rewrite fold_height. change (1 + length (concat ls))%nat with (length (e :: concat ls)). fold root1.
    split; [|split; [|split; [|split]]].
    + reflexivity.
    + cbn. now rewrite L1.
    + rewrite app_length. cbn. lia.
    + cbn. now rewrite L3.
    + eapply root_fits; eauto; reflexivity.
Qed.
