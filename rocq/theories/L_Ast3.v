(* Lemmas on the navigable tree: what its nodes give. *)
From Coq Require Import ZArith String List Bool Lia Permutation.
From Verif Require Import Base.
From Verif Require Import M_Ast S_Ast L_Ast L_Ast2.
Import ListNotations.
Open Scope list_scope.
Open Scope Z_scope.

Scheme fits_mut := Induction for fits Sort Prop with fits_kids_mut := Induction for fits_kids Sort Prop.
Combined Scheme fits_both from fits_mut, fits_kids_mut.

Section Md.
  Variable md : metadata.
  Notation F := (fits (m_nodes md) (m_postorder md)).
  Notation FK := (fits_kids (m_nodes md) (m_postorder md)).

  Lemma kids_nth e i depth k ps js pres posts : FK e i depth k ps js pres posts ->
    length js = length ps /\
    forall m r c j, nth_error ps m = Some (r, c) -> nth_error js m = Some j ->
      exists pre post, F (Some i) (Z.of_nat (k + m)) (given e (k + m) r) (S depth) j c pre post.
  Proof.
    induction 1 as [|e i depth k r c ps j js pre pres post posts Hf Hk [IHl IH]]; [split; [easy|]; intros [|m]; easy|].
    split; [cbn; now rewrite IHl|]. intros [|m] r' c' j'; cbn; intros A B.
    - injection A as <- <-. injection B as <-. rewrite Nat.add_0_r. eauto.
    - destruct (IH m r' c' j' A B) as (p & q & H). replace (k + S m)%nat with (S k + m)%nat by lia. eauto.
  Qed.

  Lemma fits_mirrors par ci rel depth i e pre post : F par ci rel depth i e pre post -> mirrors md par ci i e.
  Proof.
    revert par ci rel depth i pre post. induction e as [e IH] using parts_ind. intros par ci rel depth i pre post H.
    inversion H as [? ? ? ? ? ? js l h pres posts N Pl Th K E1 E2 E3]; subst.
    destruct (kids_nth _ _ _ _ _ _ _ _ K) as [L Kn].
    eapply mirrors_expr; [exact N|reflexivity|reflexivity|reflexivity|reflexivity|reflexivity|exact Pl|reflexivity|exact Th|reflexivity| |].
    - cbn. unfold children. now rewrite map_length.
    - cbn [n_children]. intros k c j C J. unfold children in C. rewrite nth_error_map in C.
      destruct (nth_error (parts e) k) as [[r c']|] eqn:Q; [|easy]. injection C as <-.
      destruct (Kn k r c' j Q J) as (p & q & Hf). eapply IH; [eapply nth_error_In, Q|exact Hf].
  Qed.

  Lemma fits_labelled par ci rel depth i e pre post : complete e -> F par ci rel depth i e pre post -> labelled md rel i e.
  Proof.
    revert par ci rel depth i pre post. induction e as [e IH] using parts_ind. intros par ci rel depth i pre post C H.
    inversion H as [? ? ? ? ? ? js l h pres posts N Pl Th K E1 E2 E3]; subst. inversion C as [? Hm Fc]; subst.
    destruct (kids_nth _ _ _ _ _ _ _ _ K) as [L Kn].
    eapply labelled_expr; [exact N|reflexivity|]. cbn [n_children]. intros k r c j Q J.
    destruct (Kn k r c j Q J) as (p & q & Hf). cbn [Nat.add] in Hf. rewrite (complete_given e k r c Hm Q) in Hf.
    eapply IH; [eapply nth_error_In, Q| |exact Hf].
    rewrite Forall_forall in Fc. apply Fc. unfold children. apply in_map_iff. exists (r, c). split; [easy|]. eapply nth_error_In, Q.
  Qed.

  Lemma fits_orders : (forall par ci rel depth i e pre post, F par ci rel depth i e pre post ->
      node_preorder md i pre /\ node_postorder md i post /\ Permutation pre post) /\
    (forall e i depth k ps js pres posts, FK e i depth k ps js pres posts ->
      Forall2 (node_preorder md) js pres /\ Forall2 (node_postorder md) js posts /\ Permutation (concat pres) (concat posts)).
  Proof.
    apply (fits_both (m_nodes md) (m_postorder md)
      (fun par ci rel depth i e pre post _ => node_preorder md i pre /\ node_postorder md i post /\ Permutation pre post)
      (fun e i depth k ps js pres posts _ => Forall2 (node_preorder md) js pres /\ Forall2 (node_postorder md) js posts /\ Permutation (concat pres) (concat posts))).
    - intros. destruct H as (A & B & C). split; [|split].
      + econstructor; eauto.
      + econstructor; eauto.
      + rewrite C. apply Permutation_cons_append.
    - intros. repeat split; constructor.
    - intros. destruct H as (A & B & C), H0 as (A' & B' & C'). repeat split; try (constructor; assumption).
      cbn. now apply Permutation_app.
  Qed.

  Lemma fits_everywhere : (forall par ci rel depth i e pre post, F par ci rel depth i e pre post ->
      forall j, In j pre -> exists par' ci' rel' depth' e' pre' post', F par' ci' rel' depth' j e' pre' post' /\ (depth <= depth')%nat /\ (j <> i -> depth < depth')%nat) /\
    (forall e i depth k ps js pres posts, FK e i depth k ps js pres posts ->
      forall j, In j (concat pres) -> exists par' ci' rel' depth' e' pre' post', F par' ci' rel' depth' j e' pre' post' /\ (depth < depth')%nat).
  Proof.
    apply (fits_both (m_nodes md) (m_postorder md)
      (fun par ci rel depth i e pre post _ => forall j, In j pre -> exists par' ci' rel' depth' e' pre' post', F par' ci' rel' depth' j e' pre' post' /\ (depth <= depth')%nat /\ (j <> i -> depth < depth')%nat)
      (fun e i depth k ps js pres posts _ => forall j, In j (concat pres) -> exists par' ci' rel' depth' e' pre' post', F par' ci' rel' depth' j e' pre' post' /\ (depth < depth')%nat)).
    - intros. cbn in H0. destruct H0 as [<-|H0].
      + do 7 eexists. split; [econstructor; eauto|]. split; [lia|easy].
      + destruct (H j H0) as (a & b & c & d & e' & g & h' & Hf & Hl). exists a, b, c, d, e', g, h'. split; [easy|]. split; [lia|]. intros _; lia.
    - intros. easy.
    - intros. cbn in H1. apply in_app_or in H1 as [H1|H1].
      + destruct (H j0 H1) as (a & b & c' & d & e' & g & h' & Hf & Hl & _). exists a, b, c', d, e', g, h'. split; [easy|lia].
      + exact (H0 j0 H1).
  Qed.

  Lemma fits_node par ci rel depth i e pre post : F par ci rel depth i e pre post ->
    exists n l, nth_error (m_nodes md) i = Some n /\ n_index n = i /\ n_tree_size n = length l /\ preorder e l /\
      pre = seq i (length l) /\ (depth <= i)%nat /\ firstn (length l) (skipn (i - depth) (m_postorder md)) = post /\ (0 < length l)%nat.
  Proof.
    intros H. inversion H as [? ? ? ? ? ? js l h pres posts N Pl Th K E1 E2 E3]; subst.
    do 2 eexists. split; [exact N|]. cbn. split; [easy|]. split; [reflexivity|]. split; [exact Pl|]. split; [exact E1|].
    split; [easy|]. split; [exact E3|]. inversion Pl; subst. cbn; lia.
  Qed.
End Md.

Lemma Build_fits fuel e md : Build fuel e = Some (Val md) ->
  exists l pre post, preorder e l /\ map n_expr (m_nodes md) = l /\ m_id_to_node md = ins_all O l [] /\
    m_postorder md = post /\ pre = seq 0 (length l) /\ length (m_nodes md) = length l /\
    fits (m_nodes md) (m_postorder md) None (-1) kUnspecifiedChild O O e pre post.
Proof.
  unfold Build. destruct (AstTraverse fuel true e) as [w|] eqn:T; [|easy]. intros E.
  destruct (walk_total true e) as (w' & W). destruct (traverse_walk true e w' W) as (n & H).
  assert (w = w') as ->.
  { pose proof (H (Nat.max n fuel) ltac:(lia)) as H1. unfold AstTraverse in *.
    pose proof (loop_more true fuel (Nat.max n fuel) _ _ _ T ltac:(lia)) as H2. congruence. }
  destruct (preorder_total e) as (l & Pl). destruct (tall_total e) as (h & Th).
  destruct (expr_good e w' W l h Pl Th) as [_ G].
  destruct (G None) as (new & post & pre & ca & V & L1 & L2 & L3 & X). rewrite V in E. cbn in E. injection E as <-. cbn.
  specialize (X [] [] [] [] eq_refl eq_refl). cbn [app] in X. rewrite !app_nil_r in X.
  exists l, pre, post. repeat split; auto.
  inversion X as [? ? ? ? ? ? js l0 h0 pres posts N0 Pl0 Th0 K0 E1 E2 E3]. rewrite E1. now rewrite (preorder_fun e l l0 Pl Pl0).
Qed.
Lemma Build_total e : exists md n, forall m, (n <= m)%nat -> Build m e = Some (Val md).
Proof.
  destruct (walk_total true e) as (w & W). destruct (traverse_walk true e w W) as (n & H).
  destruct (preorder_total e) as (l & Pl). destruct (tall_total e) as (h & Th).
  destruct (expr_good e w W l h Pl Th) as [_ G]. destruct (G None) as (new & post & pre & ca & V & _).
  do 2 eexists. intros m L. unfold Build. rewrite (H m L), V. reflexivity.
Qed.

(** ** Looking up *)
Lemma lookup_insert id i m id' : lookup id (insert id' i m) =
  match lookup id m with Some x => Some x | None => if id =? id' then Some i else None end.
Proof.
  induction m as [|[a b] m IH]; cbn; [reflexivity|]. destruct (id' =? a) eqn:A; cbn.
  - destruct (id =? a) eqn:B; [reflexivity|]. destruct (lookup id m); [reflexivity|]. replace (id =? id') with false; [easy|].
    symmetry. apply Z.eqb_neq in B. apply Z.eqb_eq in A. apply Z.eqb_neq. congruence.
  - destruct (id =? a) eqn:B; [reflexivity|]. exact IH.
Qed.
Lemma lookup_ins_all id base l m : lookup id (ins_all base l m) =
  match lookup id m with
  | Some x => Some x
  | None => match find (fun p => expr_id (snd p) =? id) (combine (seq base (length l)) l) with Some p => Some (fst p) | None => None end
  end.
Proof.
  revert base m. induction l as [|e l IH]; intros base m; cbn [ins_all length seq combine find fst snd]; [now destruct (lookup id m)|].
  rewrite IH, lookup_insert, Z.eqb_sym. destruct (lookup id m); [reflexivity|]. now destruct (expr_id e =? id).
Qed.
Lemma find_first {A} (f : A -> bool) l base i :
  match find (fun p => f (snd p)) (combine (seq base (length l)) l) with Some p => Some (fst p) | None => None end = Some i <->
  (base <= i)%nat /\ (exists x, nth_error l (i - base) = Some x /\ f x = true) /\ (forall j x, (j < i - base)%nat -> nth_error l j = Some x -> f x = false).
Proof.
  revert base. induction l as [|a l IH]; intros base; cbn [length seq combine find snd fst].
  - split; [easy|]. intros (_ & (x & H & _) & _). now destruct (i - base)%nat.
  - destruct (f a) eqn:Fa.
    + cbn. split.
      * intros [= <-]. rewrite Nat.sub_diag. split; [lia|]. split; [eexists; split; [reflexivity|easy]|]. lia.
      * intros (L & _ & H). destruct (i - base)%nat eqn:E; [f_equal; lia|]. specialize (H O a ltac:(lia) eq_refl). congruence.
    + rewrite IH. split.
      * intros (L & (x & H & Hx) & M). split; [lia|]. replace (i - base)%nat with (S (i - S base)) by lia. split; [eexists; split; [exact H|easy]|].
        intros [|j] y J; cbn; [now intros [= <-]|]. apply M. lia.
      * intros (L & (x & H & Hx) & M). assert (i - base <> 0)%nat by (intros E; rewrite E in H; cbn in H; injection H as <-; congruence).
        assert (E : (i - base = S (i - S base))%nat) by lia. rewrite E in H, M. split; [lia|]. split; [eexists; split; [exact H|easy]|].
        intros j y J Hy. apply (M (S j) y); [lia|exact Hy].
Qed.
Lemma insert_length id i m : length (insert id i m) = (match lookup id m with Some _ => length m | None => S (length m) end).
Proof. induction m as [|[a b] m IH]; cbn; [reflexivity|]. destruct (id =? a); [reflexivity|]. cbn. rewrite IH. now destruct (lookup id m). Qed.
Lemma insert_keys id i m : lookup id m = None -> map fst (insert id i m) = map fst m ++ [id].
Proof. induction m as [|[a b] m IH]; cbn; [reflexivity|]. destruct (id =? a); [easy|]. intros H. cbn. now rewrite IH. Qed.
Lemma lookup_none id m : lookup id m = None <-> ~ In id (map fst m).
Proof.
  induction m as [|[a b] m IH]; cbn; [intuition|]. destruct (id =? a) eqn:E.
  - apply Z.eqb_eq in E as ->. split; [easy|]. intros H; exfalso; apply H; now left.
  - apply Z.eqb_neq in E. rewrite IH. intuition.
Qed.
Lemma ins_all_bound base l m : (length (ins_all base l m) <= length m + length l)%nat.
Proof.
  revert base m. induction l as [|e l IH]; intros base m; cbn; [lia|]. specialize (IH (S base) (insert (expr_id e) base m)).
  rewrite insert_length in IH. destruct (lookup (expr_id e) m); lia.
Qed.
Lemma ins_all_unique base l m : NoDup (map fst m) ->
  (length (ins_all base l m) = length m + length l)%nat <-> NoDup (map fst m ++ map expr_id l).
Proof.
  revert base m. induction l as [|e l IH]; intros base m N; cbn [ins_all length map].
  - rewrite app_nil_r. split; [easy|lia].
  - destruct (lookup (expr_id e) m) eqn:L.
    + split.
      * pose proof (ins_all_bound (S base) l (insert (expr_id e) base m)) as B. rewrite insert_length, L in B. lia.
      * intros D. exfalso. apply NoDup_remove_2 in D. apply D. apply in_or_app. left.
        destruct (in_dec Z.eq_dec (expr_id e) (map fst m)) as [I|I]; [exact I|]. apply lookup_none in I. congruence.
    + assert (N' : NoDup (map fst (insert (expr_id e) base m))).
      { rewrite insert_keys by exact L. apply lookup_none in L. apply (Permutation_NoDup (l := expr_id e :: map fst m)).
        - apply Permutation_cons_append.
        - now constructor. }
      specialize (IH (S base) (insert (expr_id e) base m) N'). rewrite insert_length, L, insert_keys, <- app_assoc in IH by exact L. cbn [app] in IH.
      rewrite <- IH. split; lia.
Qed.

Lemma span_seq i k n : (i + k <= n)%nat -> firstn k (skipn i (seq 0 n)) = seq i k.
Proof.
  intros H. replace n with (i + (k + (n - i - k)))%nat by lia. rewrite seq_app, seq_app.
  rewrite skipn_app, seq_length, Nat.sub_diag. rewrite (skipn_all2 (seq 0 i)) by (rewrite seq_length; lia). cbn [app skipn].
  rewrite firstn_app, seq_length, Nat.sub_diag. rewrite firstn_all2 by (rewrite seq_length; lia). cbn. now rewrite app_nil_r.
Qed.
Lemma head_span {A} (l : list A) i k : (0 < k)%nat -> nth_error (firstn k (skipn i l)) 0 = nth_error l i.
Proof.
  intros K. destruct k as [|k]; [lia|]. revert i. induction l as [|x l IH]; intros [|i]; cbn [skipn firstn nth_error]; try reflexivity.
  apply IH.
Qed.
Lemma node_postorder_fun md i l l' : node_postorder md i l -> node_postorder md i l' -> l = l'.
Proof.
  revert i l l'.
  fix go 4. intros i l l' A B. destruct A as [i n ls N F]. inversion B as [i' n' ls' N' F']; subst.
  rewrite N in N'. injection N' as <-. f_equal. f_equal. clear N B. revert ls' F'.
  induction F as [|j a js ls A F IH]; intros ls' F'; inversion F' as [|j' a' js' ls2 A' F2]; subst; [reflexivity|].
  f_equal; [exact (go j a a' A A')|now apply IH].
Qed.
