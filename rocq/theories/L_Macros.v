(* Lemmas about the registry of macros. *)
From Coq Require Import String Ascii List Bool NArith Decimal DecimalString.
From Verif Require Import Base M_Namespace.
From Verif Require M_Infer L_Fresh.
From Verif Require Import M_Macros S_Macros.
Import ListNotations.
Open Scope list_scope.

(** ** Keys *)
Lemma cut_colon a b x y : has_colon a = false -> has_colon b = false ->
  (a ++ String ":" x = b ++ String ":" y)%string -> a = b /\ x = y.
Proof.
  revert b. induction a as [|c a IH]; intros [|d b] ha hb e; cbn in *.
  - injection e; auto.
  - injection e as <- _. cbn in hb. discriminate.
  - injection e as -> _. cbn in ha. discriminate.
  - apply orb_false_iff in ha as [_ ha], hb as [_ hb]. injection e as -> e. destruct (IH b ha hb e) as [-> ->]. auto.
Qed.

Lemma uint_clean d : has_colon (NilEmpty.string_of_uint d) = false
  /\ forall s, NilEmpty.string_of_uint d <> String "*" s.
Proof. induction d as [|d [IH _]|d [IH _]|d [IH _]|d [IH _]|d [IH _]|d [IH _]|d [IH _]|d [IH _]|d [IH _]|d [IH _]]; cbn; split; auto; discriminate. Qed.
Lemma decimal_clean n : has_colon (M_Infer.decimal n) = false /\ M_Infer.decimal n <> "*"%string.
Proof. unfold M_Infer.decimal. destruct (uint_clean (N.to_uint n)) as [a b]. split; [exact a|apply b]. Qed.

Lemma bool_text_inj a b : bool_text a = bool_text b -> a = b.
Proof. destruct a, b; cbn; congruence. Qed.

Lemma alpha_no_colon c : ascii_isalpha c || Ascii.eqb c "_" = true -> Ascii.eqb c ":" = false.
Proof. intros h. destruct (Ascii.eqb_spec c ":") as [->|]; [vm_compute in h; discriminate|reflexivity]. Qed.
Lemma alnum_no_colon c : ascii_isalnum c || Ascii.eqb c "_" = true -> Ascii.eqb c ":" = false.
Proof. intros h. destruct (Ascii.eqb_spec c ":") as [->|]; [vm_compute in h; discriminate|reflexivity]. Qed.
Lemma identifier_clean s : LexisIsIdentifier s = true -> s <> ""%string /\ has_colon s = false.
Proof.
  destruct s as [|c s]; cbn [LexisIsIdentifier]; [discriminate|].
  destruct (negb (ascii_isalpha c) && negb (Ascii.eqb c "_")) eqn:e1; [discriminate|].
  destruct (all_chars _ s) eqn:e2; cbn [negb]; [|discriminate]. intros _. split; [discriminate|]. cbn [has_colon].
  rewrite alpha_no_colon.
  2:{ rewrite <- negb_orb in e1. apply negb_false_iff in e1. exact e1. }
  cbn [orb]. clear e1 c. induction s as [|c s IH]; [reflexivity|]. cbn [all_chars] in e2. apply andb_true_iff in e2 as [a b].
  cbn [has_colon]. rewrite (alnum_no_colon _ a), (IH b). reflexivity.
Qed.

Definition shape_key (x : string * bool * option N) : string :=
  let '(name, receiver, n) := x in
  match n with None => Key name 0 receiver true | Some n => Key name n receiver false end.
Lemma key_shape m : key m = shape_key (shape m).
Proof. unfold key, shape, shape_key, Key. destruct (is_variadic m); reflexivity. Qed.

Lemma shape_key_inj n1 r1 c1 n2 r2 c2 : has_colon n1 = false -> has_colon n2 = false ->
  shape_key (n1, r1, c1) = shape_key (n2, r2, c2) -> (n1, r1, c1) = (n2, r2, c2).
Proof.
  intros h1 h2 e.
  set (mid := fun c : option N => match c with None => "*"%string | Some n => M_Infer.decimal n end).
  assert (f : forall n r c, shape_key (n, r, c) = (n ++ String ":" (mid c ++ String ":" (bool_text r)))%string).
  { intros n r [c|]; unfold shape_key, Key, mid; reflexivity. }
  assert (mc : forall c, has_colon (mid c) = false) by (intros [c|]; [apply decimal_clean|reflexivity]).
  rewrite !f in e. apply cut_colon in e as [-> e]; [|assumption..]. apply cut_colon in e as [e1 e2]; [|apply mc..].
  apply bool_text_inj in e2. subst r2. f_equal. destruct c1 as [c1|], c2 as [c2|]; cbn in e1; try reflexivity.
  - f_equal. apply L_Fresh.decimal_inj, e1.
  - exfalso. apply (proj2 (decimal_clean c1)), e1.
  - exfalso. apply (proj2 (decimal_clean c2)). symmetry. exact e1.
Qed.

Lemma key_inj m m' : made m -> made m' -> (key m = key m' <-> shape m = shape m').
Proof.
  intros h h'. rewrite !key_shape. split; [|congruence]. unfold shape. apply shape_key_inj; apply identifier_clean; assumption.
Qed.

Lemma keys_shapes l : Forall made l -> (NoDup (map key l) <-> NoDup (map shape l)).
Proof.
  intros h. induction h as [|m l hm hl IH]; cbn; [split; constructor|].
  assert (i : In (key m) (map key l) <-> In (shape m) (map shape l)).
  { rewrite !in_map_iff. split; intros (x & e & ix); exists x; (split; [|exact ix]); rewrite Forall_forall in hl.
    - apply key_inj; auto. - apply key_inj; auto. }
  split; intros n; inversion n; subst; constructor; tauto.
Qed.

(** ** The registry *)
Definition wf (r : Registry) : Prop := NoDup (map fst r) /\ Forall (fun e => fst e = key (snd e)) r.
Definition rep (r : Registry) (l : list Macro) : Prop :=
  NoDup (map key l) /\ (forall k m, find_key r k = Some m <-> In m l /\ key m = k) /\ wf r.

Lemma rep_nil : rep [] [].
Proof. split; [constructor|]. split; [|split; constructor]. intros k m. cbn. split; [discriminate|tauto]. Qed.

Lemma rep_none r l k : rep r l -> (find_key r k = None <-> ~ In k (map key l)).
Proof.
  intros (_ & h & _). destruct (find_key r k) as [m|] eqn:e.
  - apply h in e as [i <-]. split; [discriminate|]. intros n. destruct n. apply in_map. exact i.
  - split; [intros _ i|reflexivity]. apply in_map_iff in i as (m & e' & i).
    assert (x : find_key r k = Some m) by (apply h; auto). congruence.
Qed.

Lemma register_one r l m : rep r l ->
  if snd (RegisterMacroImpl r m) then rep (fst (RegisterMacroImpl r m)) (l ++ [m])
  else fst (RegisterMacroImpl r m) = r /\ ~ NoDup (map key (l ++ [m])).
Proof.
  intros R. unfold RegisterMacroImpl. destruct (find_key r (key m)) as [x|] eqn:e; cbn [fst snd].
  - split; [reflexivity|]. rewrite map_app. cbn. intros n. apply NoDup_remove_2 in n. rewrite app_nil_r in n.
    apply n. apply (proj1 (proj2 R)) in e as [i <-]. apply in_map, i.
  - pose proof (proj1 (rep_none r l (key m) R) e) as ni. destruct R as (nd & h & w1 & w2). split; [|split].
    + rewrite map_app. cbn. apply NoDup_Add with (a := key m) (l := map key l); [|split; assumption].
      rewrite <- (app_nil_r (map key l)) at 1. apply Add_app.
    + intros k x. cbn [find_key]. rewrite in_app_iff. cbn [In]. destruct (String.eqb_spec k (key m)) as [->|ne].
      * split; [intros [= <-]; auto|]. intros [[i|[<-|[]]] ek]; [|reflexivity]. exfalso. apply ni. rewrite <- ek. apply in_map, i.
      * rewrite h. split; [tauto|]. intros [[i|[<-|[]]] ek]; [auto|congruence].
    + split; cbn; [|constructor; [reflexivity|exact w2]]. constructor; [|exact w1]. intros i. apply ni.
      assert (g : In (key m) (map fst r) -> exists x, find_key r (key m) = Some x).
      { clear. induction r as [|[a x] r IH]; [intros []|]. cbn. destruct (String.eqb_spec (key m) a) as [->|n]; [eauto|]. intros [->|i]; [congruence|auto]. }
      destruct (g i) as [x hx]. congruence.
Qed.

Lemma find_erase r k k' : find_key (erase r k) k' = if String.eqb k k' then None else find_key r k'.
Proof.
  unfold erase. induction r as [|[a m] r IH]; cbn; [destruct (String.eqb k k'); reflexivity|].
  destruct (String.eqb_spec k a) as [->|ne]; cbn.
  - rewrite IH. destruct (String.eqb_spec a k') as [->|]; [reflexivity|]. destruct (String.eqb_spec k' a); [congruence|reflexivity].
  - destruct (String.eqb_spec k' a) as [->|]; [|exact IH]. destruct (String.eqb_spec k a); [congruence|reflexivity].
Qed.
Lemma wf_erase r k : wf r -> wf (erase r k).
Proof.
  unfold wf, erase. intros [a b]. rewrite Forall_forall in *. split.
  - induction r as [|[x m] r IH]; [constructor|]. cbn in *. inversion a; subst.
    assert (g : NoDup (map fst (filter (fun e : string * Macro => negb (String.eqb k (fst e))) r))) by (apply IH; [assumption|intros; apply b; auto]).
    destruct (negb (String.eqb k x)); [|exact g]. cbn. constructor; [|exact g].
    intros i. apply in_map_iff in i as (y & e & i). apply filter_In in i as [i _]. apply H1. rewrite <- e. apply in_map, i.
  - intros x i. apply filter_In in i. apply b, i.
Qed.
Lemma wf_erase_all l : forall r, wf r -> wf (fold_left (fun r d => erase r (key d)) l r).
Proof. induction l as [|d l IH]; intros r w; cbn; [exact w|]. apply IH, wf_erase, w. Qed.
Lemma find_erase_all l : forall r k, find_key (fold_left (fun r d => erase r (key d)) l r) k
  = if existsb (fun d => String.eqb (key d) k) l then None else find_key r k.
Proof.
  induction l as [|d l IH]; intros r k; cbn; [reflexivity|]. rewrite IH, find_erase.
  destruct (String.eqb (key d) k); cbn; [destruct (existsb _ _); reflexivity|reflexivity].
Qed.

Lemma register_loop_spec r0 l : rep r0 l -> forall todo done r, rep r (l ++ done) ->
  match register_loop r done todo with
  | (r', Val _) => rep r' (l ++ done ++ todo)
  | (r', Err s) => s = already_exists /\ ~ NoDup (map key (l ++ done ++ todo)) /\ (forall k, find_key r' k = find_key r0 k) /\ rep r' l
  | (_, UB) => False
  end.
Proof.
  intros R0. induction todo as [|m todo IH]; intros done r R; cbn [register_loop].
  - rewrite app_nil_r. exact R.
  - pose proof (register_one r _ m R) as s. destruct (RegisterMacroImpl r m) as [r' ok]. cbn [fst snd] in s.
    destruct ok.
    + rewrite <- app_assoc in s. specialize (IH (done ++ [m]) r' s). rewrite <- app_assoc in IH. exact IH.
    + destruct s as [-> nd]. split; [reflexivity|]. split.
      * intros n. apply nd. replace (l ++ done ++ m :: todo) with (((l ++ done) ++ [m]) ++ todo) in n by (rewrite <- !app_assoc; reflexivity).
        rewrite map_app in n. revert n. generalize (map key ((l ++ done) ++ [m])) (map key todo). intros a b n.
        induction a as [|x a IHa]; [constructor|]. cbn in n. inversion n; subst. constructor; [|auto]. rewrite in_app_iff in *. tauto.
      * assert (same_all : forall k, find_key (fold_left (fun r d => erase r (key d)) done r) k = find_key r0 k).
        2:{ split; [exact same_all|]. split; [apply R0|]. split; [|apply wf_erase_all; apply R]. intros k x. rewrite same_all. apply R0. }
        intros k. rewrite find_erase_all. destruct (existsb _ done) eqn:ex.
        -- apply existsb_exists in ex as (d & i & e). apply String.eqb_eq in e. symmetry. apply (rep_none r0 l k R0).
           intros il. destruct R as [n _]. rewrite map_app in n.
           assert (id : In k (map key done)) by (rewrite <- e; apply in_map, i). clear - n il id.
           induction (map key l) as [|x xs IHl]; [destruct il|]. cbn in n. inversion n; subst.
           destruct il as [->|il]; [|auto]. apply H1. apply in_or_app. auto.
        -- assert (same : forall x, find_key r k = Some x <-> find_key r0 k = Some x).
           { intros x. rewrite (proj1 (proj2 R)), (proj1 (proj2 R0)), in_app_iff. split; [|tauto]. intros [[i|i] e]; [auto|].
             exfalso. assert (y : existsb (fun d => String.eqb (key d) k) done = true)
               by (apply existsb_exists; exists x; split; [exact i|apply String.eqb_eq, e]). congruence. }
           destruct (find_key r k) as [a|]; [symmetry; apply same; reflexivity|].
           destruct (find_key r0 k) as [b|]; [exfalso; pose proof (proj2 (same b) eq_refl); discriminate|reflexivity].
Qed.

Lemma RegisterMacros_spec r l ms : rep r l ->
  match RegisterMacros r ms with
  | (r', Val _) => rep r' (l ++ ms)
  | (r', Err s) => s = already_exists /\ ~ NoDup (map key (l ++ ms)) /\ (forall k, find_key r' k = find_key r k) /\ rep r' l
  | (_, UB) => False
  end.
Proof. intros R. unfold RegisterMacros. apply (register_loop_spec r l R ms [] r). rewrite app_nil_r. exact R. Qed.

Lemma FindMacro_ext r r' : (forall k, find_key r' k = find_key r k) -> forall n c s, FindMacro r' n c s = FindMacro r n c s.
Proof. intros h n c s. unfold FindMacro. rewrite !h. reflexivity. Qed.

Lemma FindMacro_spec r l name n receiver m : Forall made l -> rep r l ->
  (FindMacro r name n receiver = Some m <-> chosen l name n receiver m).
Proof.
  intros mk R. rewrite Forall_forall in mk. unfold FindMacro, chosen.
  assert (fk : forall c x, has_colon name = false ->
             (find_key r (shape_key (name, receiver, c)) = Some x <-> In x l /\ shape x = (name, receiver, c))).
  { intros c x hn. rewrite (proj1 (proj2 R)). split; intros [i e]; (split; [exact i|]).
    - rewrite key_shape in e. unfold shape in *. apply shape_key_inj; [apply identifier_clean, mk, i|exact hn|exact e].
    - rewrite key_shape, e. reflexivity. }
  destruct (match name with ""%string => true | _ => false end || has_colon name) eqn:bad.
  - split; [discriminate|]. intros [i s]. exfalso.
    assert (fn : function m = name) by (unfold shape in s; destruct s as [s|[s _]]; congruence).
    destruct (identifier_clean _ (mk m i)) as [a b]. rewrite fn in a, b. rewrite b in bad. destruct name; [congruence|discriminate].
  - apply orb_false_iff in bad as [_ hn].
    change (name ++ ":" ++ M_Infer.decimal n ++ ":" ++ bool_text receiver)%string with (shape_key (name, receiver, Some n)).
    change (name ++ ":*:" ++ bool_text receiver)%string with (shape_key (name, receiver, None)).
    destruct (find_key r (shape_key (name, receiver, Some n))) as [x|] eqn:e1.
    + pose proof (proj1 (fk _ x hn) e1) as hx. split.
      * intros [= <-]. tauto.
      * intros [i [s|[_ s]]]; [|destruct s; exists x; exact hx].
        assert (y : find_key r (shape_key (name, receiver, Some n)) = Some m) by (apply fk; auto). congruence.
    + rewrite fk by exact hn. split.
      * intros [i s]. split; [exact i|]. right. split; [exact s|]. intros (y & hy). apply fk in hy; [congruence|exact hn].
      * intros [i [s|[s _]]]; [|auto].
        assert (y : find_key r (shape_key (name, receiver, Some n)) = Some m) by (apply fk; auto). congruence.
Qed.

(** ** The builder *)
Lemma register_each_spec ms : forall r l, rep r l ->
  match register_each r ms with
  | Val r' => rep r' (l ++ ms)
  | Err s => s = already_exists /\ ~ NoDup (map key (l ++ ms))
  | UB => False
  end.
Proof.
  induction ms as [|m ms IH]; intros r l R; cbn [register_each]; [rewrite app_nil_r; exact R|].
  unfold RegisterMacro. pose proof (register_one r l m R) as s. destruct (RegisterMacroImpl r m) as [r' ok]. cbn [fst snd] in s.
  replace (l ++ m :: ms) with ((l ++ [m]) ++ ms) by (rewrite <- app_assoc; reflexivity).
  destruct ok; cbn [obind].
  - apply IH, s.
  - destruct s as [_ nd]. split; [reflexivity|]. intros n. apply nd. rewrite map_app in n.
    revert n. generalize (map key (l ++ [m])) (map key ms). intros a b n.
    induction a as [|x a IHa]; [constructor|]. cbn in n. inversion n; subst. constructor; [|auto]. rewrite in_app_iff in *. tauto.
Qed.

Lemma NoDup_prefix {A} (a b : list A) : NoDup (a ++ b) -> NoDup a.
Proof. induction a as [|x a IH]; intros n; [constructor|]. cbn in n. inversion n; subst. constructor; [rewrite in_app_iff in *; tauto|auto]. Qed.

Lemma configure_spec ms : forall acc, NoDup (map key acc) ->
  match configure acc ms with
  | Val l => l = acc ++ ms /\ NoDup (map key l)
  | Err s => s = already_exists /\ ~ NoDup (map key (acc ++ ms))
  | UB => False
  end.
Proof.
  induction ms as [|m ms IH]; intros acc n; cbn [configure]; [rewrite app_nil_r; auto|].
  unfold AddMacro. destruct (existsb _ acc) eqn:e.
  - split; [reflexivity|]. intros n'. rewrite map_app in n'. cbn in n'. apply NoDup_remove_2 in n'. apply n'. apply in_or_app. left.
    apply existsb_exists in e as (x & i & ex). apply String.eqb_eq in ex. rewrite <- ex. apply in_map, i.
  - assert (n1 : NoDup (map key (acc ++ [m]))).
    { rewrite map_app. cbn. apply NoDup_Add with (a := key m) (l := map key acc); [|split; [exact n|]].
      - rewrite <- (app_nil_r (map key acc)) at 1. apply Add_app.
      - intros i. apply in_map_iff in i as (x & ex & i). assert (y : existsb (fun e => String.eqb (key e) (key m)) acc = true)
          by (apply existsb_exists; exists x; split; [exact i|apply String.eqb_eq, ex]). congruence. }
    specialize (IH _ n1). rewrite <- app_assoc in IH. exact IH.
Qed.

Lemma included_eq b x : included b x = match (if String.eqb (library_id x) "" then None else find_subset (subsets b) (library_id x)) with
      | Some p => filter p (library_macros x) | None => library_macros x end.
Proof.
  unfold included, find_subset. induction (subsets b) as [|[i p] l IH]; cbn [find fst].
  - destruct (String.eqb (library_id x) ""); reflexivity.
  - destruct (String.eqb (library_id x) ""); cbn [negb] in *; [rewrite andb_false_r; exact IH|].
    rewrite andb_true_r. destruct (String.eqb i (library_id x)); [reflexivity|exact IH].
Qed.

Lemma build_libraries_spec b libs : forall r l, rep r l ->
  match build_libraries (subsets b) r libs with
  | Val r' => rep r' (l ++ flat_map (included b) libs) /\ Forall (fun x => NoDup (map key (library_macros x))) libs
  | Err s => s = already_exists /\ (~ NoDup (map key (l ++ flat_map (included b) libs))
               \/ ~ Forall (fun x => NoDup (map key (library_macros x))) libs)
  | UB => False
  end.
Proof.
  induction libs as [|x libs IH]; intros r l R; cbn [build_libraries flat_map]; [rewrite app_nil_r; auto|].
  pose proof (configure_spec (library_macros x) [] (NoDup_nil _)) as c. rewrite app_nil_l in c.
  destruct (configure [] (library_macros x)) as [ms|s|]; cbn [obind]; [| |exact c].
  2:{ destruct c as [-> n]. split; [reflexivity|]. right. intros f. inversion f; subst. tauto. }
  destruct c as [-> nx].
  assert (step : forall q, match q with
      | Val r' => rep r' (l ++ included b x)
      | Err s => s = already_exists /\ ~ NoDup (map key (l ++ included b x)) | UB => False end ->
      match obind q (fun r' => build_libraries (subsets b) r' libs) with
      | Val r' => rep r' (l ++ included b x ++ flat_map (included b) libs) /\ Forall (fun x => NoDup (map key (library_macros x))) (x :: libs)
      | Err s => s = already_exists /\ (~ NoDup (map key (l ++ included b x ++ flat_map (included b) libs))
               \/ ~ Forall (fun x => NoDup (map key (library_macros x))) (x :: libs))
      | UB => False end).
  { intros [r'|s|] h; cbn [obind]; [| |exact h].
    - specialize (IH r' _ h). rewrite <- app_assoc in IH. destruct (build_libraries (subsets b) r' libs) as [r''|s|]; [| |exact IH].
      + destruct IH as [a f]. split; [exact a|constructor; assumption].
      + destruct IH as [-> [n|n]]; (split; [reflexivity|]); [auto|]. right. intros f. inversion f; subst. tauto.
    - destruct h as [-> n]. split; [reflexivity|]. left. intros n'. apply n. rewrite app_assoc, map_app in n'. apply NoDup_prefix in n'. exact n'. }
  assert (inc : included b x = match (if String.eqb (library_id x) "" then None else find_subset (subsets b) (library_id x)) with
      | Some p => filter p (library_macros x) | None => library_macros x end) by apply included_eq.
  destruct (if String.eqb (library_id x) "" then None else find_subset (subsets b) (library_id x)) as [p|]; rewrite inc in step; rewrite inc.
  - apply step. apply register_each_spec, R.
  - pose proof (RegisterMacros_spec r l (library_macros x) R) as g. destruct (RegisterMacros r (library_macros x)) as [r' [u|s|]]; cbn [obind]; [| |exact g].
    + apply (step (Val r')). exact g.
    + apply (step (Err s)). tauto.
Qed.

Lemma Build_spec A O b :
  match Build A O b with
  | Val p => rep (macro_registry p) (wanted A O b) /\ Forall (fun x => NoDup (map key (library_macros x))) (libraries b)
  | Err s => s = already_exists /\ (~ NoDup (map key (wanted A O b))
               \/ ~ Forall (fun x => NoDup (map key (library_macros x))) (libraries b))
  | UB => False
  end.
Proof.
  unfold Build. pose proof (build_libraries_spec b (libraries b) [] [] rep_nil) as h. rewrite !app_nil_l in h. unfold wanted.
  set (l1 := flat_map (included b) (libraries b)) in *.
  destruct (build_libraries (subsets b) [] (libraries b)) as [r|s|]; cbn [obind]; [| |exact h].
  2:{ destruct h as [-> [n|n]]; (split; [reflexivity|]); [|auto]. left. intros n'. apply n. rewrite map_app in n'. apply NoDup_prefix in n'. exact n'. }
  destruct h as [R f]. set (l2 := if negb _ && _ then A else []). 
  assert (h2 : match (if negb (disable_standard_macros b) && negb (contains_library b "stdlib")
        then let '(r', s) := RegisterMacros r A in obind s (fun _ => Val r') else Val r) with
      | Val r' => rep r' (l1 ++ l2) | Err s => s = already_exists /\ ~ NoDup (map key (l1 ++ l2)) | UB => False end).
  { unfold l2. destruct (negb _ && negb _); [|rewrite app_nil_r; exact R].
    pose proof (RegisterMacros_spec r l1 A R) as g. destruct (RegisterMacros r A) as [r' [u|s|]]; cbn [obind]; tauto. }
  destruct (if negb (disable_standard_macros b) && _ then _ else Val r) as [r2|s|]; cbn [obind]; [| |exact h2].
  2:{ destruct h2 as [-> n]. split; [reflexivity|]. left. intros n'. apply n. rewrite app_assoc, map_app in n'. apply NoDup_prefix in n'. exact n'. }
  set (l3 := if enable_optional_syntax b && _ then O else []).
  assert (h3 : match (if enable_optional_syntax b && negb (contains_library b "optional") then register_each r2 O else Val r2) with
      | Val r' => rep r' ((l1 ++ l2) ++ l3) | Err s => s = already_exists /\ ~ NoDup (map key ((l1 ++ l2) ++ l3)) | UB => False end).
  { unfold l3. destruct (enable_optional_syntax b && _); [|rewrite app_nil_r; exact h2]. apply register_each_spec, h2. }
  destruct (if enable_optional_syntax b && _ then _ else Val r2) as [r3|s|]; cbn [obind]; [| |exact h3].
  2:{ destruct h3 as [-> n]. split; [reflexivity|]. left. intros n'. apply n. rewrite !app_assoc, (map_app key (_ ++ l3)) in n'. apply NoDup_prefix in n'. exact n'. }
  pose proof (RegisterMacros_spec r3 _ (individual b) h3) as g. rewrite <- !app_assoc in g.
  destruct (RegisterMacros r3 (individual b)) as [r' [u|s|]]; cbn [obind]; [tauto| |exact g].
  destruct g as [-> [n _]]. auto.
Qed.

(** ** Histories *)
Lemma register_all_spec calls : Forall (Forall made) calls -> forall r l, Forall made l -> rep r l ->
  exists l', accepted l calls (map is_ok (snd (register_all r calls))) l' /\ Forall made l' /\ rep (fst (register_all r calls)) l'.
Proof.
  induction 1 as [|ms calls hm hc IH]; intros r l ml R; cbn [register_all].
  - exists l. split; [constructor|auto].
  - pose proof (RegisterMacros_spec r l ms R) as s. destruct (RegisterMacros r ms) as [r' [u|s'|]]; [| |destruct s].
    + assert (ml' : Forall made (l ++ ms)) by (apply Forall_app; auto).
      destruct (IH r' _ ml' s) as (l' & a & m & R'). destruct (register_all r' calls) as [r'' ss]. cbn [fst snd map is_ok] in *.
      exists l'. split; [|auto]. constructor; [|exact a]. apply keys_shapes; [exact ml'|apply s].
    + destruct s as (_ & n & _ & R1). destruct (IH r' _ ml R1) as (l' & a & m & R'). destruct (register_all r' calls) as [r'' ss]. cbn [fst snd map is_ok] in *.
      exists l'. split; [|auto]. constructor; [|exact a]. rewrite <- keys_shapes; [exact n|apply Forall_app; auto].
Qed.

(** ** Operations of a builder *)
Definition named_ok (b : Builder) : Prop :=
  library_ids b = filter (fun i => negb (String.eqb i "")) (map library_id (libraries b)) /\ NoDup (library_ids b)
  /\ NoDup (map key (individual b)) /\ NoDup (map fst (subsets b)) /\ ~ In ""%string (map fst (subsets b)).
Lemma perform_named b o : named_ok b -> named_ok (perform b o).
Proof.
  intros (e & n & k & su). destruct o as [m|l|s]; cbn [perform].
  - unfold AddMacroTo, AddMacro. destruct (existsb _ (individual b)) eqn:ex; cbn [fst]; (split; [exact e|split; [exact n|split; [|exact su]]]); cbn [individual]; [exact k|].
    pose proof (configure_spec [m] (individual b) k) as c. cbn [configure] in c. unfold AddMacro in c. rewrite ex in c. apply c.
  - unfold AddLibrary. destruct (String.eqb_spec (library_id l) "") as [e0|ne]; cbn [fst].
    + split; [|auto]. cbn [library_ids libraries]. rewrite map_app, filter_app, e. cbn [map]. rewrite e0. cbn [filter String.eqb negb]. rewrite app_nil_r. reflexivity.
    + destruct (existsb _ (library_ids b)) eqn:ex; cbn [fst]; [split; auto|]. split; [|split; [|split; [exact k|exact su]]]; cbn [library_ids libraries].
      * rewrite map_app, filter_app, e. cbn [map filter]. rewrite (proj2 (String.eqb_neq _ _) ne). reflexivity.
      * apply NoDup_Add with (a := library_id l) (l := library_ids b).
        -- rewrite <- (app_nil_r (library_ids b)) at 1. apply Add_app.
        -- split; [exact n|]. intros i. assert (y : existsb (String.eqb (library_id l)) (library_ids b) = true)
             by (apply existsb_exists; eexists; split; [exact i|apply String.eqb_refl]). congruence.
  - unfold AddLibrarySubset. destruct (String.eqb_spec (fst s) "") as [e0|ne]; cbn [fst]; [split; auto|].
    destruct (find_subset _ _) eqn:ef; cbn [fst]; [split; auto|]. split; [exact e|split; [exact n|split; [exact k|]]]. cbn [subsets]. rewrite map_app. cbn [map].
    destruct su as [s1 s2]. split.
    + apply NoDup_Add with (a := fst s) (l := map fst (subsets b)).
      * rewrite <- (app_nil_r (map fst (subsets b))) at 1. apply Add_app.
      * split; [exact s1|]. intros i. unfold find_subset, Subset in *. destruct (find _ _) eqn:eg in ef; [discriminate|].
        apply in_map_iff in i as (y & ey & i). pose proof (find_none _ _ eg y i) as z. cbn in z. apply String.eqb_neq in z. congruence.
    + rewrite in_app_iff. cbn. intros [i|[i|[]]]; [auto|congruence].
Qed.
Lemma performed_named ops : forall b, named_ok b -> named_ok (fold_left perform ops b).
Proof. induction ops as [|o ops IH]; intros b h; cbn; [exact h|]. apply IH, perform_named, h. Qed.

(** ** Builders made from parsers *)
From Coq Require Import Permutation.
Lemma rep_listed r : wf r -> rep r (ListMacros r).
Proof.
  intros [n f]. unfold ListMacros. split; [|split; [|split; assumption]].
  - rewrite map_map. replace (map (fun x => key (snd x)) r) with (map fst r); [exact n|].
    apply map_ext_in. rewrite Forall_forall in f. exact f.
  - intros k m. induction r as [|[a x] r IH]; cbn; [split; [discriminate|tauto]|].
    inversion n; subst. inversion f; subst. cbn in H1, H3. specialize (IH H2 H4). subst a.
    destruct (String.eqb_spec k (key x)) as [->|ne].
    + split; [intros [= ->]; auto|]. intros [[->|i] e]; [reflexivity|]. exfalso. apply H1.
      rewrite <- e. apply in_map_iff in i as ([a y] & ey & i). cbn in ey. subst y.
      rewrite Forall_forall in H4. specialize (H4 _ i). cbn in H4. rewrite <- H4. apply (in_map fst) in i. exact i.
    + rewrite IH. split; [tauto|]. intros [[->|i] e]; [congruence|auto].
Qed.

Lemma rep_same r r' l l' : Permutation l l' -> rep r l -> rep r' l' -> forall k, find_key r' k = find_key r k.
Proof.
  intros p R R' k. assert (same : forall x, find_key r k = Some x <-> find_key r' k = Some x).
  { intros x. rewrite (proj1 (proj2 R)), (proj1 (proj2 R')). split; intros [i e]; (split; [|exact e]);
      [eapply Permutation_in; eassumption|eapply Permutation_in; [apply Permutation_sym|]; eassumption]. }
  destruct (find_key r k) as [a|]; [apply same; reflexivity|].
  destruct (find_key r' k) as [c|]; [exfalso; pose proof (proj2 (same c) eq_refl); discriminate|reflexivity].
Qed.

Lemma Build_ids A O b p : Build A O b = Val p ->
  parser_disable_standard p = disable_standard_macros b /\ parser_enable_optional p = enable_optional_syntax b
  /\ parser_library_ids p = library_ids b ++ (if negb (disable_standard_macros b) && negb (contains_library b "stdlib") then ["stdlib"%string] else [])
       ++ (if enable_optional_syntax b && negb (contains_library b "optional") then ["optional"%string] else []).
Proof.
  unfold Build. destruct (build_libraries _ _ _) as [r|s|]; cbn [obind]; try discriminate.
  set (x := if negb (disable_standard_macros b) && _ then (let '(r', s) := RegisterMacros r A in obind s (fun _ => Val r')) else Val r).
  destruct x as [r2|s|]; cbn [obind]; try discriminate.
  set (y := if enable_optional_syntax b && _ then register_each r2 O else Val r2).
  destruct y as [r3|s|]; cbn [obind]; try discriminate.
  destruct (RegisterMacros r3 (individual b)) as [r' [u|s|]]; cbn [obind]; try discriminate. intros [= <-]. auto.
Qed.

Lemma rebuild A O b p listed : Build A O b = Val p -> Permutation (ListMacros (macro_registry p)) listed ->
  exists q, Build A O (ToBuilder p listed) = Val q /\ (forall k, find_key (macro_registry q) k = find_key (macro_registry p) k)
    /\ parser_library_ids q = parser_library_ids p
    /\ parser_disable_standard q = parser_disable_standard p /\ parser_enable_optional q = parser_enable_optional p.
Proof.
  intros h pm. pose proof (Build_spec A O b) as s. rewrite h in s. destruct s as [R _].
  destruct (Build_ids A O b p h) as (e1 & e2 & e3).
  assert (w : wanted A O (ToBuilder p listed) = listed).
  { unfold wanted, ToBuilder, contains_library. cbn [libraries flat_map disable_standard_macros enable_optional_syntax library_ids individual app].
    rewrite e1, e2, e3, !existsb_app. unfold contains_library.
    destruct (disable_standard_macros b); cbn [negb andb]; destruct (existsb (String.eqb "stdlib") (library_ids b)); cbn [negb andb existsb orb];
    destruct (enable_optional_syntax b); cbn [negb andb orb existsb]; destruct (existsb (String.eqb "optional") (library_ids b)); reflexivity. }
  pose proof (rep_listed _ (proj2 (proj2 R))) as Rl.
  pose proof (Build_spec A O (ToBuilder p listed)) as s. rewrite w in s.
  destruct (Build A O (ToBuilder p listed)) as [q|st|] eqn:hq; [| |destruct s].
  - exists q. split; [reflexivity|]. destruct s as [Rq _]. split; [apply (rep_same _ _ _ _ pm Rl Rq)|].
    destruct (Build_ids A O _ q hq) as (e1q & e2q & e3q). split; [|split; [exact e1q|exact e2q]]. rewrite e3q. unfold ToBuilder, contains_library. cbn [disable_standard_macros enable_optional_syntax library_ids].
    rewrite e1, e2, e3, !existsb_app. unfold contains_library.
    destruct (disable_standard_macros b); cbn [negb andb]; destruct (existsb (String.eqb "stdlib") (library_ids b)); cbn [negb andb existsb orb];
    destruct (enable_optional_syntax b); cbn [negb andb orb existsb]; destruct (existsb (String.eqb "optional") (library_ids b)); cbn; rewrite ?app_nil_r; reflexivity.
  - exfalso. destruct s as [_ [n|n]].
    + apply n. eapply Permutation_NoDup; [apply Permutation_map, pm|apply Rl].
    + apply n. constructor.
Qed.
