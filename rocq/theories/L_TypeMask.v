(* Lemmas about type masks. *)
From Coq Require Import String List Bool Permutation.
From Verif Require Import Base.
From Verif Require Import M_TypeMask S_TypeMask.
Import ListNotations.

Definition rep (t : TypeMap) (H : string -> Prop) (L : string -> string -> Prop) : Prop :=
  forall T, match tm_find t T with
            | None => ~ H T /\ forall f, ~ L T f
            | Some [] => H T /\ forall f, ~ L T f
            | Some fs => ~ H T /\ forall f, In f fs <-> L T f
            end.

Lemma find_name p n d : FindMessageTypeByName p n = Some d -> d_name d = n.
Proof. intros h. apply find_some in h as [_ h]. apply String.eqb_eq in h. exact h. Qed.
Lemma find_self p n d : FindMessageTypeByName p n = Some d -> FindMessageTypeByName p (d_name d) = Some d.
Proof. intros h. rewrite (find_name _ _ _ h). exact h. Qed.

Lemma tm_add_find t name field T :
  tm_find (tm_add t name field) T =
  if String.eqb name T then option_map (cons field) (tm_find t T) else tm_find t T.
Proof.
  induction t as [|[n fs] t IH]; cbn; [destruct (String.eqb name T); reflexivity|].
  destruct (String.eqb_spec n name) as [->|e]; cbn.
  - destruct (String.eqb name T); reflexivity.
  - rewrite IH. destruct (String.eqb_spec n T) as [->|e']; [|reflexivity].
    destruct (String.eqb_spec name T) as [->|]; congruence.
Qed.

Lemma rep_ext t H L H' L' : (forall T, H T <-> H' T) -> (forall T f, L T f <-> L' T f) -> rep t H L -> rep t H' L'.
Proof.
  intros eH eL r T. specialize (r T).
  destruct (tm_find t T) as [[|g fs]|].
  - destruct r as [h nl]. split; [apply eH; exact h|]. intros f. rewrite <- eL. apply nl.
  - destruct r as [h nl]. split; [rewrite <- eH; exact h|]. intros f. rewrite <- eL. apply nl.
  - destruct r as [h nl]. split; [rewrite <- eH; exact h|]. intros f. rewrite <- eL. apply nl.
Qed.

Lemma AddVisibleField_spec t H L T f : rep t H L ->
  match AddVisibleField t T f with
  | Val t' => rep t' H (fun T' f' => L T' f' \/ (T' = T /\ f' = f))
  | Err _ => H T
  | UB => False
  end.
Proof.
  intros r. unfold AddVisibleField. destruct (tm_find t T) as [[|g fs]|] eqn:e.
  - cbn. specialize (r T). rewrite e in r. exact (proj1 r).
  - intros T'. rewrite tm_add_find. pose proof (r T') as r'.
    destruct (String.eqb_spec T T') as [->|ne].
    + rewrite e in r' |- *. cbn [option_map]. destruct r' as [h i]. split; [exact h|].
      intros f'. specialize (i f'). cbn in i |- *. intuition.
    + destruct (tm_find t T') as [[|x xs]|]; destruct r' as [h i]; (split; [exact h|]); intros f'; specialize (i f').
      * intros [?|[? ?]]; [tauto|congruence].
      * rewrite i. intuition congruence.
      * intros [?|[? ?]]; [tauto|congruence].
  - intros T'. cbn. pose proof (r T') as r'. destruct (String.eqb_spec T T') as [->|ne].
    + rewrite e in r'. destruct r' as [h i]. split; [exact h|]. intros f'. specialize (i f'). cbn. intuition.
    + destruct (tm_find t T') as [[|x xs]|]; destruct r' as [h i]; (split; [exact h|]); intros f'; specialize (i f').
      * intros [?|[? ?]]; [tauto|congruence].
      * rewrite i. intuition congruence.
      * intros [?|[? ?]]; [tauto|congruence].
Qed.

Lemma AddAllHiddenFields_spec t H L T : rep t H L ->
  match AddAllHiddenFields t T with
  | Val t' => rep t' (fun T' => H T' \/ T' = T) L
  | Err _ => exists f, L T f
  | UB => False
  end.
Proof.
  intros r. unfold AddAllHiddenFields. destruct (tm_find t T) as [[|g fs]|] eqn:e.
  - refine (rep_ext _ _ _ _ _ _ (fun _ _ => iff_refl _) r).
    intros T'. split; [auto|]. intros [h| ->]; [exact h|]. specialize (r T). rewrite e in r. exact (proj1 r).
  - cbn. specialize (r T). rewrite e in r. exists g. apply (proj2 r). left. reflexivity.
  - intros T'. cbn. pose proof (r T') as r'. destruct (String.eqb_spec T T') as [->|ne].
    + rewrite e in r'. destruct r' as [h i]. split; [auto|exact i].
    + destruct (tm_find t T') as [[|x xs]|]; destruct r' as [h i]; (split; [|exact i]); [auto| |];
      intros [?|?]; congruence.
Qed.

Lemma add_path_spec p : pool_ok p -> forall path t H L d,
  FindMessageTypeByName p (d_name d) = Some d -> rep t H L ->
  match add_path p t d path with
  | Val t' => rep t' H (fun T f => L T f \/ selects p (d_name d) path T f) /\ (path <> [] -> selectable p (d_name d) path)
  | Err _ => ~ selectable p (d_name d) path \/ exists T f, selects p (d_name d) path T f /\ H T
  | UB => False
  end.
Proof.
  intros ok. induction path as [|n rest IH]; intros t H L d hd r; cbn [add_path].
  - split; [|congruence]. refine (rep_ext _ _ _ _ _ (fun _ => iff_refl _) _ r).
    intros T f. split; [auto|]. intros [h|h]; [exact h|inversion h].
  - unfold FindField. destruct (FindFieldByName d n) as [f|] eqn:ef; cbn [obind].
    2:{ left. intros s.
        assert (a : exists t, has_field p (d_name d) n t) by (inversion s; subst; eexists; eassumption).
        destruct a as (x & d' & f & h1 & h2 & _). congruence. }
    pose proof (AddVisibleField_spec t H L (d_name d) n r) as a.
    destruct (AddVisibleField t (d_name d) n) as [t'|s|]; cbn [obind]; [| |exact a].
    2:{ right. exists (d_name d), n. split; [constructor|exact a]. }
    destruct rest as [|n2 rest].
    + split.
      * refine (rep_ext _ _ _ _ _ (fun _ => iff_refl _) _ a).
        intros T g. split; [intros [h|[-> ->]]; [auto|right; constructor]|].
        intros [h|h]; [auto|right]. inversion h as [? ? ?|? ? m' ? ? ? h1 h2]; subst; [auto|]. inversion h2.
      * intros _. apply selectable_last with (t := f_message f). exists d, f. auto.
    + unfold GetMessage. destruct (f_message f) as [m|] eqn:em; cbn [obind].
      2:{ left. intros s. inversion s as [|? ? m' ? hf _ _]; subst. destruct hf as (d' & f' & h1 & h2 & h3). congruence. }
      destruct (ok d f m) as [d' hd'];
        [apply find_some in hd; tauto|apply find_some in ef; tauto|exact em|].
      rewrite hd'. cbn [obind].
      specialize (IH t' H _ d' (find_self _ _ _ hd') a).
      assert (dn : d_name d' = m) by exact (find_name _ _ _ hd'). rewrite dn in IH.
      assert (hf : has_field p (d_name d) n (Some m)) by (exists d, f; auto).
      assert (um : forall m', has_field p (d_name d) n (Some m') -> m' = m).
      { intros m' (d1 & f1 & h1 & h2 & h3). congruence. }
      destruct (add_path p t' d' (n2 :: rest)) as [t''|s|]; [| |exact IH].
      * destruct IH as [ir is_]. split.
        -- refine (rep_ext _ _ _ _ _ (fun _ => iff_refl _) _ ir).
           intros T g. split.
           ++ intros [[h|[-> ->]]|h]; [auto|right; constructor|right; eapply selects_there; eassumption].
           ++ intros [h|h]; [auto|]. inversion h as [? ? ?|? ? m' ? ? ? h1 h2]; subst; [auto|].
              right. rewrite (um _ h1) in h2. exact h2.
        -- intros _. apply selectable_more with (m := m); [exact hf|congruence|apply is_; congruence].
      * destruct IH as [ns|(T & g & h1 & h2)].
        -- left. intros s'. inversion s' as [|? ? m' ? h1 _ h2]; subst. apply ns. rewrite (um _ h1) in h2. exact h2.
        -- right. exists T, g. split; [|exact h2]. eapply selects_there; eassumption.
Qed.

Lemma add_paths_spec p d : pool_ok p -> FindMessageTypeByName p (d_name d) = Some d -> forall paths t H L,
  rep t H L ->
  match add_paths p t d paths with
  | Val t' => rep t' H (fun T f => L T f \/ exists path, In path paths /\ selects p (d_name d) path T f)
              /\ (forall path, In path paths -> path <> [] -> selectable p (d_name d) path)
  | Err _ => exists path, In path paths /\
               (~ selectable p (d_name d) path \/ exists T f, selects p (d_name d) path T f /\ H T)
  | UB => False
  end.
Proof.
  intros ok hd. induction paths as [|path paths IH]; intros t H L r; cbn [add_paths].
  - split; [|intros ? []]. refine (rep_ext _ _ _ _ _ (fun _ => iff_refl _) _ r).
    intros T f. split; [auto|]. intros [h|(? & [] & _)]; exact h.
  - pose proof (add_path_spec p ok path t H L d hd r) as a.
    destruct (add_path p t d path) as [t'|s|]; cbn [obind]; [| |exact a].
    2:{ exists path. split; [left; reflexivity|exact a]. }
    destruct a as [ar as_]. specialize (IH t' H _ ar).
    destruct (add_paths p t' d paths) as [t''|s|]; [| |exact IH].
    + destruct IH as [ir is_]. split.
      * refine (rep_ext _ _ _ _ _ (fun _ => iff_refl _) _ ir). intros T f. split.
        -- intros [[h|h]|(q & h1 & h2)]; [auto| |]; right; eexists; (split; [|eassumption]); [left; reflexivity|right; exact h1].
        -- intros [h|(q & [<-|h1] & h2)]; [auto|auto|]. right. exists q. auto.
      * intros q [<-|i] ne; auto.
    + destruct IH as (q & i & h). exists q. split; [right; exact i|exact h].
Qed.

Definition conflict (p : Pool) (H : string -> Prop) (L : string -> string -> Prop) := exists T f, H T /\ L T f.

Lemma compute_spec p : pool_ok p -> forall masks t H L,
  rep t H L ->
  match compute p t masks with
  | Val t' => rep t' (fun T => H T \/ all_hidden masks T) (fun T f => L T f \/ listed p masks T f)
              /\ forall m, In m masks -> (exists d, FindMessageTypeByName p (GetTypeName m) = Some d)
                  /\ forall path, In path (GetFieldPaths m) -> path <> [] -> selectable p (GetTypeName m) path
  | Err _ => (exists m, In m masks /\ (FindMessageTypeByName p (GetTypeName m) = None
                  \/ exists path, In path (GetFieldPaths m) /\ ~ selectable p (GetTypeName m) path))
             \/ exists T f, (H T \/ all_hidden masks T) /\ (L T f \/ listed p masks T f)
  | UB => False
  end.
Proof.
  intros ok. induction masks as [|m masks IH]; intros t H L r; cbn [compute].
  - split; [|intros ? []]. refine (rep_ext _ _ _ _ _ _ _ r).
    + intros T. split; [auto|]. intros [h|(? & [] & _)]; exact h.
    + intros T f. split; [auto|]. intros [h|(? & ? & [] & _)]; exact h.
  - unfold FindMessage. destruct (FindMessageTypeByName p (GetTypeName m)) as [d|] eqn:ed; cbn [obind].
    2:{ left. exists m. split; [left; reflexivity|left; exact ed]. }
    assert (dn := find_name _ _ _ ed). pose proof (find_self _ _ _ ed) as es.
    set (t0 := match GetFieldPaths m with [] => AddAllHiddenFields t (GetTypeName m) | _ :: _ => Val t end).
    assert (h0 : match t0 with
                 | Val t' => rep t' (fun T => H T \/ (T = GetTypeName m /\ GetFieldPaths m = [])) L
                 | Err _ => GetFieldPaths m = [] /\ exists f, L (GetTypeName m) f
                 | UB => False
                 end).
    { unfold t0. destruct (GetFieldPaths m) as [|q qs].
      - pose proof (AddAllHiddenFields_spec t H L (GetTypeName m) r) as a.
        destruct (AddAllHiddenFields t (GetTypeName m)); [|auto|exact a].
        refine (rep_ext _ _ _ _ _ _ (fun _ _ => iff_refl _) a). intuition.
      - refine (rep_ext _ _ _ _ _ _ (fun _ _ => iff_refl _) r). intuition congruence. }
    destruct t0 as [t1|s|]; cbn [obind]; [| |exact h0].
    2:{ right. destruct h0 as [e [f h]]. exists (GetTypeName m), f. split; [|auto].
        right. exists m. split; [left; reflexivity|auto]. }
    pose proof (add_paths_spec p d ok es (GetFieldPaths m) t1 _ _ h0) as a. rewrite dn in a.
    destruct (add_paths p t1 d (GetFieldPaths m)) as [t2|s|]; cbn [obind]; [| |exact a].
    + destruct a as [ar as_]. specialize (IH t2 _ _ ar).
      assert (eH : forall T, (H T \/ T = GetTypeName m /\ GetFieldPaths m = []) \/ all_hidden masks T
                     <-> H T \/ all_hidden (m :: masks) T).
      { intros T. split.
        - intros [[h|[-> e]]|(m' & i & h)]; [auto| |].
          + right. exists m. split; [left; reflexivity|auto].
          + right. exists m'. split; [right; exact i|exact h].
        - intros [h|(m' & [<-|i] & h1 & h2)]; [auto| |].
          + left. right. auto.
          + right. exists m'. auto. }
      assert (eL : forall T f, (L T f \/ exists path, In path (GetFieldPaths m) /\ selects p (GetTypeName m) path T f) \/ listed p masks T f
                     <-> L T f \/ listed p (m :: masks) T f).
      { intros T f. split.
        - intros [[h|(q & h1 & h2)]|(m' & q & i & h)]; [auto| |].
          + right. exists m, q. split; [left; reflexivity|auto].
          + right. exists m', q. split; [right; exact i|exact h].
        - intros [h|(m' & q & [<-|i] & h1 & h2)]; [auto| |].
          + left. right. exists q. auto.
          + right. exists m', q. auto. }
      destruct (compute p t2 masks) as [t3|s|]; [| |exact IH].
      * destruct IH as [ir im]. split; [exact (rep_ext _ _ _ _ _ eH eL ir)|].
        intros m' [<-|i]; [|apply im, i]. split; [eexists; exact ed|exact as_].
      * destruct IH as [(m' & i & h)|(T & f & h1 & h2)].
        -- left. exists m'. split; [right; exact i|exact h].
        -- right. exists T, f. split; [apply eH, h1|apply eL, h2].
    + destruct a as (q & i & [ns|(T & f & h1 & h2)]).
      * left. exists m. split; [left; reflexivity|right]. exists q. auto.
      * right. exists T, f. split.
        -- destruct h2 as [h2|[-> h2]]; [auto|]. rewrite h2 in i. destruct i.
        -- right. exists m, q. split; [left; reflexivity|auto].
Qed.

Lemma rep_nil : rep [] (fun _ => False) (fun _ _ => False).
Proof. intros T. cbn. split; [tauto|]. intros f. tauto. Qed.

Lemma Create_spec p masks : pool_ok p ->
  match Create p masks with
  | Val t => rep t (all_hidden masks) (listed p masks)
             /\ forall m, In m masks -> (exists d, FindMessageTypeByName p (GetTypeName m) = Some d)
                  /\ forall path, In path (GetFieldPaths m) -> path <> [] -> selectable p (GetTypeName m) path
  | Err _ => (exists m, In m masks /\ (FindMessageTypeByName p (GetTypeName m) = None
                  \/ exists path, In path (GetFieldPaths m) /\ ~ selectable p (GetTypeName m) path))
             \/ exists T f, all_hidden masks T /\ listed p masks T f
  | UB => False
  end.
Proof.
  intros ok. pose proof (compute_spec p ok masks [] _ _ rep_nil) as h. unfold Create.
  destruct (compute p [] masks) as [t|s|]; [| |exact h].
  - destruct h as [h1 h2]. split; [|exact h2].
    refine (rep_ext _ _ _ _ _ _ _ h1); intuition.
  - destruct h as [h|(T & f & h1 & h2)]; [auto|]. right. exists T, f. intuition.
Qed.

Lemma visible_spec p masks t T f : pool_ok p -> Create p masks = Val t ->
  FieldIsVisible t T f = true <-> (restricted p masks T -> listed p masks T f).
Proof.
  intros ok e. pose proof (Create_spec p masks ok) as h. rewrite e in h. destruct h as [r _].
  specialize (r T). unfold FieldIsVisible, restricted. destruct (tm_find t T) as [[|g fs]|].
  - destruct r as [h n]. cbn. split; [discriminate|]. intros c. destruct (n f). apply c. auto.
  - destruct r as [h n]. rewrite existsb_exists. split.
    + intros (x & i & ex) _. apply String.eqb_eq in ex. subst x. apply n, i.
    + intros c. exists f. rewrite String.eqb_refl. split; [|reflexivity]. apply n, c. right. exists g. apply n. left. reflexivity.
  - destruct r as [h n]. split; [|reflexivity]. intros _ [a|[g b]]; [tauto|destruct (n _ b)].
Qed.

Lemma accepted_spec p masks : pool_ok p ->
  (forall m path, In m masks -> In path (GetFieldPaths m) -> path <> []) ->
  ((exists t, Create p masks = Val t) <->
   (forall m, In m masks -> (exists d, FindMessageTypeByName p (GetTypeName m) = Some d)
      /\ forall path, In path (GetFieldPaths m) -> selectable p (GetTypeName m) path)
   /\ ~ exists T f, all_hidden masks T /\ listed p masks T f).
Proof.
  intros ok ne. pose proof (Create_spec p masks ok) as h. destruct (Create p masks) as [t|s|]; [| |destruct h].
  - split; [intros _|intros _; exists t; reflexivity]. destruct h as [r s]. split.
    + intros m i. destruct (s m i) as [a b]. split; [exact a|]. intros path ip. apply b; eauto.
    + intros (T & f & a & l). specialize (r T). destruct (tm_find t T) as [[|g fs]|]; [destruct r as [_ n]; exact (n _ l)|tauto|tauto].
  - split; [intros [t e]; discriminate|]. intros [a b]. exfalso.
    destruct h as [(m & i & [n|(q & iq & n)])|c]; [|apply n, (a m i), iq|apply b, c].
    destruct (a m i) as [[d e] _]. congruence.
Qed.

Lemma StrSplit_ne s : StrSplit s <> [].
Proof. induction s as [|c s IH]; cbn; [discriminate|]. destruct (Ascii.eqb c _); [discriminate|]. destruct (StrSplit s); discriminate. Qed.

Lemma path_compare_eq a : forall b, path_compare a b = Eq -> a = b.
Proof.
  induction a as [|x a IH]; intros [|y b]; cbn; try discriminate; [reflexivity|].
  destruct (String.compare x y) eqn:e; try discriminate.
  apply String.compare_eq_iff in e. intros h. rewrite e, (IH _ h). reflexivity.
Qed.

Lemma path_insert_in x y s : In y (path_insert x s) <-> y = x \/ In y s.
Proof.
  induction s as [|z s IH]; cbn; [intuition|].
  destruct (path_compare x z) eqn:e; cbn.
  - apply path_compare_eq in e. subst z. intuition.
  - intuition.
  - rewrite IH. intuition.
Qed.

Lemma newMask_paths type ps path : In path (GetFieldPaths (newMask type ps)) <-> exists s, In s ps /\ path = StrSplit s.
Proof.
  cbn. assert (g : forall acc, In path (fold_left (fun s p => path_insert (StrSplit p) s) ps acc)
                  <-> In path acc \/ exists s, In s ps /\ path = StrSplit s).
  { induction ps as [|q ps IH]; intros acc; cbn.
    - split; [auto|]. intros [h|(? & [] & _)]; exact h.
    - rewrite IH, path_insert_in. split.
      + intros [[h|h]|(s & i & e)]; [right; eauto|auto|right; eauto].
      + intros [h|(s & [<-|i] & e)]; [auto|auto|right; eauto]. }
  rewrite g. cbn. intuition.
Qed.
