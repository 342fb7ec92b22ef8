(* C84-C86: traversing and navigating abstract syntax trees. *)
From Coq Require Import ZArith String List Bool Lia Permutation.
From Verif Require Import Base.
From Verif Require Import M_Ast S_Ast L_Ast L_Ast2 L_Ast3.
Import ListNotations.
Open Scope list_scope.
Open Scope Z_scope.

(* The loop over the stack ends, and makes exactly the callbacks of the visit by
   recursion, in the same order. *)
Theorem C84_traverse : forall special e w,
  walk special e w <-> exists n, AstTraverse n special e = Some w.
Proof.
  intros s e w. split.
  - intros W. destruct (traverse_walk s e w W) as (n & H). exists n. apply H. lia.
  - intros (n & H). destruct (walk_total s e) as (w' & W). destruct (traverse_walk s e w' W) as (m & H').
    specialize (H' (Nat.max n m) ltac:(lia)). unfold AstTraverse in *.
    pose proof (loop_more s n (Nat.max n m) _ _ _ H ltac:(lia)) as H2. congruence.
Qed.
Print Assumptions C84_traverse.
Theorem C84_terminates : forall special e, exists n w, forall m, (n <= m)%nat -> AstTraverse m special e = Some w.
Proof.
  intros s e. destruct (walk_total s e) as (w & W). destruct (traverse_walk s e w W) as (n & H). exists n, w. exact H.
Qed.
Print Assumptions C84_terminates.

(* Stepping by hand makes the same callbacks; the traversal is done exactly when
   all of them have been made, and a step then does nothing. *)
Theorem C84_step : forall special e w, walk special e w ->
  exists n, forall k,
    let '(made, st) := steps special k (Create e) in
    (exists later, w = made ++ later) /\ (IsDone st = true <-> (n <= k)%nat) /\ (IsDone st = true -> made = w).
Proof.
  intros s e w W. destruct (runs_expr s e w W []) as (n & E & H). exists n. intros k.
  change (fresh (ExprRecord e) :: []) with (Create e) in *.
  destruct (Nat.lt_ge_cases k n) as [L|L].
  - specialize (H k L). replace n with (k + (n - k))%nat in E by lia. rewrite steps_app in E.
    destruct (steps s k (Create e)) as [a st]. cbn in H. destruct (steps s (n - k) st) as [b st']. injection E as <- ->.
    destruct st; [cbn in H; lia|]. cbn. split; [eauto|]. split; [split; [easy|lia]|easy].
  - replace k with (n + (k - n))%nat by lia. rewrite steps_app, E, steps_done, app_nil_r.
    split; [exists []; now rewrite app_nil_r|]. cbn. split; [split; [lia|easy]|easy].
Qed.
Print Assumptions C84_step.

(* PreVisitExpr sees every expression of the tree once, each before those below
   it; PostVisitExpr sees them once, each after those below it. *)
Theorem C84_order : forall special e w before_list after_list,
  walk special e w -> preorder e before_list -> postorder e after_list ->
  entered w = before_list /\ left w = after_list.
Proof. intros s e w l l' W A B. split; [now apply (walk_entered s e)|now apply (walk_left s e)]. Qed.
Print Assumptions C84_order.

(* x.f(1, [y]) *)
Definition small : Expr :=
  Call 1 "f" (Some (Ident 2 "x")) [Const 3 (CInt 1); ListE 4 [(Some (Ident 5 "y"), false); (None, false)]]%string.
Example C84_case : exists w,
  walk true small w /\ AstTraverse 40 true small = Some w /\ length w = 21%nat /\
  entered w = [small; Ident 2 "x"; Const 3 (CInt 1); ListE 4 [(Some (Ident 5 "y"), false); (None, false)]; Ident 5 "y"; Unspecified 0]%string.
Proof.
  eexists. split; [|split; [reflexivity|split; reflexivity]]. apply C84_traverse. exists 40%nat. reflexivity.
Qed.

(* Building the navigable tree succeeds on every tree, and its nodes are those of
   the tree, with the parent, the place among the children, the children, the
   size and the height; the nodes are in preorder. *)
Theorem C85_build : forall e, exists md n,
  (forall m, (n <= m)%nat -> Build m e = Some (Val md)) /\
  mirrors md None (-1) 0 e /\ preorder e (map n_expr (m_nodes md)).
Proof.
  intros e. destruct (Build_total e) as (md & n & H). exists md, n. split; [exact H|].
  destruct (Build_fits n e md (H n ltac:(lia))) as (l & pre & post & Pl & En & _ & _ & _ & _ & F).
  split; [now apply fits_mirrors in F|]. now rewrite En.
Qed.
Print Assumptions C85_build.

(* The descendants in preorder of every node are the node followed by those of
   its children in order. *)
Theorem C85_preorder : forall fuel e md i n,
  Build fuel e = Some (Val md) -> nth_error (m_nodes md) i = Some n ->
  exists l, node_preorder md i l /\ DescendantsPreorder md n = Val l.
Proof.
  intros fuel e md i n B N. destruct (Build_fits fuel e md B) as (l & pre & post & Pl & En & _ & _ & Ep & Ln & F).
  assert (I : (i < length l)%nat) by (rewrite <- Ln; apply nth_error_Some; congruence).
  destruct (proj1 (fits_everywhere md) _ _ _ _ _ _ _ _ F i) as (a & b & c & d & e' & pre' & post' & F' & _).
  { rewrite Ep. apply in_seq. lia. }
  exists pre'. split; [now apply (proj1 (fits_orders md)) in F' as (? & _)|].
  destruct (fits_node md _ _ _ _ _ _ _ _ F') as (n' & l' & N' & Ni & Ns & _ & E & _). rewrite N in N'. injection N' as <-.
  unfold DescendantsPreorder, subspan. rewrite seq_length, Ni, Ns, E.
  destruct (Nat.leb_spec i (length (m_nodes md))); [|lia]. f_equal.
  assert (i + length l' <= length (m_nodes md))%nat as Bd.
  { destruct (fits_node md _ _ _ _ _ _ _ _ F') as (_ & l2 & _ & _ & _ & _ & _ & _ & _ & P).
    destruct (length l') as [|m] eqn:Lm; [lia|].
    destruct (proj1 (fits_everywhere md) _ _ _ _ _ _ _ _ F' (i + m)%nat) as (? & ? & ? & ? & ? & ? & ? & F2 & _).
    { rewrite E. apply in_seq. lia. }
    destruct (fits_node md _ _ _ _ _ _ _ _ F2) as (n2 & _ & N2 & _).
    assert (i + m < length (m_nodes md))%nat by (apply nth_error_Some; congruence). lia. }
  now apply span_seq.
Qed.
Print Assumptions C85_preorder.

(* FindId gives the first node in preorder with the id, and nothing when there is
   none; the ids are unique when the tree says so. *)
Theorem C85_find : forall fuel e md id i,
  Build fuel e = Some (Val md) -> FindId md id = Some i <-> first_with_id md id i.
Proof.
  intros fuel e md id i B. destruct (Build_fits fuel e md B) as (l & pre & post & Pl & En & Ei & _ & _ & Ln & _).
  unfold FindId. rewrite Ei, lookup_ins_all. cbn [lookup]. rewrite (find_first (fun e => expr_id e =? id) l 0 i), Nat.sub_0_r.
  unfold first_with_id. rewrite <- En. split.
  - intros (_ & (x & Nx & Hx) & M). rewrite nth_error_map in Nx. destruct (nth_error (m_nodes md) i) as [n|] eqn:N; [|easy]. injection Nx as <-.
    split; [exists n; split; [easy|now apply Z.eqb_eq]|]. intros j n' J N'. apply Z.eqb_neq. apply (M j); [exact J|]. rewrite nth_error_map, N'. reflexivity.
  - intros ((n & N & Hn) & M). split; [lia|]. split; [exists (n_expr n); split; [now rewrite nth_error_map, N|now apply Z.eqb_eq]|].
    intros j x J Nx. rewrite nth_error_map in Nx. destruct (nth_error (m_nodes md) j) as [n'|] eqn:N'; [|easy]. injection Nx as <-.
    apply Z.eqb_neq. now apply (M j).
Qed.
Print Assumptions C85_find.
Theorem C85_unique : forall fuel e md,
  Build fuel e = Some (Val md) -> IdsAreUnique md = true <-> NoDup (map (fun n => expr_id (n_expr n)) (m_nodes md)).
Proof.
  intros fuel e md B. destruct (Build_fits fuel e md B) as (l & pre & post & Pl & En & Ei & _ & _ & Ln & _).
  unfold IdsAreUnique. rewrite Nat.eqb_eq, Ei, Ln. rewrite <- (map_map n_expr expr_id), En.
  exact (ins_all_unique 0 l [] (NoDup_nil _)).
Qed.
Print Assumptions C85_unique.
Example C85_case : exists md n,
  Build 40 small = Some (Val md) /\ nth_error (m_nodes md) 3 = Some n /\
  n_parent n = Some 0%nat /\ n_child_index n = 2 /\ n_children n = [4; 5]%nat /\ n_tree_size n = 3%nat /\ n_height n = 2%nat /\
  DescendantsPreorder md n = Val [3; 4; 5]%nat /\ FindId md 5 = Some 4%nat /\ IdsAreUnique md = true.
Proof. do 2 eexists. split; [vm_compute; reflexivity|]. repeat split. Qed.

(* The descendants in postorder should be those of the children in order followed
   by the node; but the range starts at the preorder index of the node in the
   postorder list, and for every node of every tree but the root it is a wrong one. *)
Theorem C86_postorder_refuted : forall fuel e md i n l,
  Build fuel e = Some (Val md) -> nth_error (m_nodes md) i = Some n -> node_postorder md i l ->
  i <> 0%nat -> DescendantsPostorder md n <> Val l.
Proof.
  intros fuel e md i n l0 B N Po I0. destruct (Build_fits fuel e md B) as (l & pre & post & Pl & En & _ & Eo & Ep & Ln & F).
  assert (I : (i < length l)%nat) by (rewrite <- Ln; apply nth_error_Some; congruence).
  destruct (proj1 (fits_everywhere md) _ _ _ _ _ _ _ _ F i) as (a & b & c & d & e' & pre' & post' & F' & _ & D).
  { rewrite Ep. apply in_seq. lia. }
  specialize (D I0).
  destruct (proj1 (fits_orders md) _ _ _ _ _ _ _ _ F) as (_ & _ & Perm).
  destruct (proj1 (fits_orders md) _ _ _ _ _ _ _ _ F') as (_ & Po' & _).
  destruct (fits_node md _ _ _ _ _ _ _ _ F') as (n' & l' & N' & Ni & Ns & _ & E & Ld & Es & Pos). rewrite N in N'. injection N' as <-.
  rewrite (node_postorder_fun md i l0 post' Po Po').
  assert (ND : NoDup (m_postorder md)).
  { rewrite Eo. eapply Permutation_NoDup; [exact Perm|]. rewrite Ep. apply seq_NoDup. }
  assert (LP : length (m_postorder md) = length l).
  { rewrite Eo, <- (Permutation_length Perm), Ep. apply seq_length. }
  unfold DescendantsPostorder, subspan. rewrite Ni, Ns. destruct (Nat.leb_spec i (length (m_postorder md))); [|lia].
  intros Q. injection Q as Q. rewrite <- Es in Q.
  destruct (nth_error (m_postorder md) i) as [x|] eqn:X; [|apply nth_error_None in X; lia].
  assert (X' : nth_error (m_postorder md) (i - d) = Some x).
  { rewrite <- (head_span (m_postorder md) (i - d) (length l') Pos), <- Q, (head_span (m_postorder md) i (length l') Pos). exact X. }
  rewrite NoDup_nth_error in ND. specialize (ND i (i - d)%nat ltac:(lia) ltac:(congruence)). lia.
Qed.
Print Assumptions C86_postorder_refuted.
(* f(x): of the node of x it gives the node of the call *)
Example C86_wrong : exists md n,
  Build 20 (Call 1 "f" None [Ident 2 "x"])%string = Some (Val md) /\
  nth_error (m_nodes md) 1 = Some n /\ node_postorder md 1 [1]%nat /\ DescendantsPostorder md n = Val [0]%nat.
Proof.
  do 2 eexists. split; [vm_compute; reflexivity|]. split; [reflexivity|]. split; [|reflexivity].
  eapply (node_postorder_at _ 1 _ []); [reflexivity|constructor].
Qed.

(* Of the root it is right. *)
Theorem C86_postorder_partial : forall fuel e md n,
  Build fuel e = Some (Val md) -> Root md = Val n ->
  exists l, node_postorder md 0 l /\ DescendantsPostorder md n = Val l.
Proof.
  intros fuel e md n B R. destruct (Build_fits fuel e md B) as (l & pre & post & Pl & En & _ & Eo & Ep & Ln & F).
  exists post. split; [now apply (proj1 (fits_orders md)) in F as (_ & ? & _)|].
  destruct (fits_node md _ _ _ _ _ _ _ _ F) as (n' & l' & N' & Ni & Ns & _ & E & Ld & Es & Pos).
  unfold Root, at_index in R. rewrite N' in R. injection R as <-.
  unfold DescendantsPostorder, subspan. rewrite Ni, Ns. cbn [Nat.leb]. change (0 - 0)%nat with 0%nat in Es. cbn [skipn] in *. now rewrite Es.
Qed.
Print Assumptions C86_postorder_partial.

(* What a node is to its parent is right when every entry of every map has its
   key and its value. *)
Theorem C86_relation_partial : forall fuel e md,
  Build fuel e = Some (Val md) -> complete e -> labelled md kUnspecifiedChild 0 e.
Proof.
  intros fuel e md B C. destruct (Build_fits fuel e md B) as (l & pre & post & _ & _ & _ & _ & _ & _ & F).
  eapply fits_labelled; eauto.
Qed.
Print Assumptions C86_relation_partial.
(* A value whose entry has no key is taken for a key. *)
Theorem C86_relation_refuted : exists md n,
  Build 20 (MapE 1 [(2, None, Some (Ident 3 "v"), false)])%string = Some (Val md) /\
  nth_error (m_nodes md) 1 = Some n /\ n_expr n = Ident 3 "v" /\ n_parent n = Some 0%nat /\ n_parent_relation n = kMapKey /\
  ~ labelled md kUnspecifiedChild 0 (MapE 1 [(2, None, Some (Ident 3 "v"), false)])%string.
Proof.
  do 2 eexists. split; [vm_compute; reflexivity|]. repeat split. intros L.
  inversion L as [rel i e n N R H E1 E2 E3]; subst. injection N as <-.
  specialize (H 0%nat _ _ 1%nat eq_refl eq_refl).
  inversion H as [rel i e n N R2 H2 E1 E2 E3]; subst. injection N as <-. discriminate R2.
Qed.
Print Assumptions C86_relation_refuted.
Example C86_case : exists md, Build 40 small = Some (Val md) /\ complete small /\ labelled md kUnspecifiedChild 0 small.
Proof.
  assert (C : complete small).
  { repeat first [apply complete_expr; [exact I|] | apply Forall_cons | apply Forall_nil]. }
  destruct (Build 40 small) as [[md| |]|] eqn:B; [|vm_compute in B; discriminate B..].
  exists md. split; [reflexivity|]. split; [exact C|]. eapply C86_relation_partial; eauto.
Qed.
