(* Lemmas about the builder of a checker with type masks. *)
From Coq Require Import String List Bool.
From Verif Require Import Base.
From Verif Require Import M_TypeMask S_TypeMask L_TypeMask.
Import ListNotations.

Lemma add_decl_masks p w c type c' r : AddContextDeclaration p w c type = (c', r) -> c_masks c' = c_masks c /\ c_context_type_fields c' = c_context_type_fields c.
Proof.
  unfold AddContextDeclaration. destruct (FindMessageTypeByName p type) as [d|]; [|intros [= <- _]; auto].
  destruct (_ && _); [intros [= <- _]; auto|]. destruct (existsb _ _); intros [= <- _]; auto.
Qed.

Lemma add_masked p w c type paths c' : AddContextDeclarationWithProtoTypeMask p w c type paths = (c', Val tt) ->
  c_masks c' = c_masks c ++ [newMask type paths] /\ paths <> [].
Proof.
  unfold AddContextDeclarationWithProtoTypeMask. destruct paths as [|q qs]; [discriminate|].
  destruct (AddContextDeclaration p w _ type) as [c2 r] eqn:e. apply add_decl_masks in e as [e _].
  destruct r; try discriminate.
  destruct (GetFieldNames _ _); try discriminate. intros [= <-]. cbn [c_masks]. rewrite e. split; [reflexivity|discriminate].
Qed.

Lemma declared_masks p w calls c : declared p w calls c ->
  c_masks c = map (fun x => newMask (fst x) (snd x)) calls /\ Forall (fun x => snd x <> []) calls.
Proof.
  induction 1 as [|calls c type paths c' _ [IH1 IH2] h]; [split; [reflexivity|constructor]|].
  apply add_masked in h as [h n]. rewrite h, IH1, map_app. split; [reflexivity|].
  apply Forall_app. split; [exact IH2|]. constructor; [exact n|constructor].
Qed.

Lemma listed_calls p calls T f :
  listed p (map (fun x => newMask (fst x) (snd x)) calls) T f <-> goes_through p calls T f.
Proof.
  split.
  - intros (m & path & i & ip & s). apply in_map_iff in i as ([root ps] & <- & i).
    apply newMask_paths in ip as (q & iq & ->). exists root, ps, q. auto.
  - intros (root & ps & q & i & iq & s). exists (newMask root ps), (StrSplit q).
    split; [apply in_map_iff; exists (root, ps); auto|]. split; [apply newMask_paths; eauto|exact s].
Qed.

Lemma no_hidden calls T : Forall (fun x : string * list string => snd x <> []) calls ->
  ~ all_hidden (map (fun x => newMask (fst x) (snd x)) calls) T.
Proof.
  intros a (m & i & _ & e). apply in_map_iff in i as ([root ps] & <- & i).
  rewrite Forall_forall in a. specialize (a _ i). cbn [snd fst] in *. destruct ps as [|q ps]; [congruence|].
  assert (h : In (StrSplit q) (GetFieldPaths (newMask root (q :: ps)))) by (apply newMask_paths; exists q; split; [left|]; reflexivity).
  rewrite e in h. destruct h.
Qed.

Lemma apply_all_app p j l1 l2 e : apply_all p j (l1 ++ l2) e = obind (apply_all p j l1 e) (apply_all p j l2).
Proof.
  revert e. induction l1 as [|c l1 IH]; intros e; cbn; [reflexivity|].
  destruct (ApplyConfig p j c e); cbn; [apply IH|reflexivity|reflexivity].
Qed.

Lemma Build_registry p j libs anon def e : Build p j libs anon def = Val e ->
  exists t, Create p (c_masks def) = Val t /\ e_registry e = Some t.
Proof.
  unfold Build. rewrite apply_all_app. destruct (apply_all p j libs _) as [e0| |]; try discriminate. cbn.
  destruct (ApplyConfig p j anon e0) as [e1| |]; try discriminate. cbn. unfold ApplyConfig.
  destruct (add_contexts _ _ e1 _) as [e2| |]; try discriminate. cbn.
  destruct (Create p (c_masks def)) as [t| |]; try discriminate. cbn. intros [= <-]. exists t. auto.
Qed.

Lemma find_map d n : (exists f, find (fun f => String.eqb (field_key false f) n) (d_fields d) = Some f)
  <-> exists f, FindFieldByName d n = Some f.
Proof. reflexivity. Qed.

Lemma lookup_spec p libs anon calls w c e T n : pool_ok p -> declared p w calls c ->
  Build p false libs anon c = Val e ->
  ((exists f, LookupStructField p false e T n = Some f) <->
   (exists t, has_field p T n t) /\ ((exists n', goes_through p calls T n') -> goes_through p calls T n)).
Proof.
  intros ok dc b. apply Build_registry in b as (t & ct & er). apply declared_masks in dc as [dm dn].
  rewrite dm in ct. pose proof (visible_spec p _ t T n ok ct) as v.
  unfold LookupStructField. rewrite er.
  assert (hf : (exists x, has_field p T n x) <-> exists f, match FindMessageTypeByName p T with
     | Some d => find (fun f => String.eqb (field_key false f) n) (d_fields d) | None => None end = Some f).
  { split.
    - intros (x & d & f & h1 & h2 & _). rewrite h1. exists f. exact h2.
    - intros [f h]. destruct (FindMessageTypeByName p T) as [d|] eqn:ed; [|discriminate].
      exists (f_message f), d, f. auto. }
  assert (v' : FieldIsVisible t T n = true <-> ((exists n', goes_through p calls T n') -> goes_through p calls T n)).
  { rewrite v. unfold restricted. split.
    - intros h [n' g]. apply listed_calls, h. right. exists n'. apply listed_calls, g.
    - intros h [a|[n' g]]; [destruct (no_hidden _ _ dn a)|]. apply listed_calls, h. exists n'. apply listed_calls, g. }
  rewrite hf, <- v'. destruct (FieldIsVisible t T n); cbn [negb].
  - tauto.
  - split; [intros [f h]; discriminate|intros [_ h]; discriminate].
Qed.

(** ** Variables *)
Lemma add_variables_spec j fs d l : forall e e', add_variables j fs d e l = Val e' ->
  (forall n, In n (e_variables e') <-> In n (e_variables e) \/ exists f, In f l /\ shown j fs d f = true /\ n = field_key j f).
Proof.
  induction l as [|f l IH]; intros e e' h n; cbn [add_variables] in h.
  - injection h as <-. split; [auto|]. intros [i|(? & [] & _)]; exact i.
  - destruct (shown j fs d f) eqn:es.
    + destruct (existsb _ _); [discriminate|]. specialize (IH _ _ h n). rewrite IH. cbn [e_variables In]. split.
      * intros [[<-|i]|(g & ig & h')]; [right; exists f; cbn; auto|auto|right; exists g; cbn; auto].
      * intros [i|(g & [<-|ig] & h1 & h2)]; [auto|auto|right; exists g; auto].
    + rewrite (IH _ _ h n). split.
      * intros [i|(g & ig & h')]; [auto|right; exists g; cbn; auto].
      * intros [i|(g & [<-|ig] & h1 & h2)]; [auto|congruence|right; exists g; auto].
Qed.

Lemma no_context_apply p j l e e' : Forall (fun c => c_context_types c = []) l -> apply_all p j l e = Val e' ->
  e_variables e' = e_variables e.
Proof.
  intros a. revert e. induction a as [|c l h _ IH]; intros e; cbn; [intros [= <-]; reflexivity|].
  unfold ApplyConfig at 1. rewrite h. cbn. destruct (Create p (c_masks c)); try discriminate. cbn.
  intros g. apply IH in g. exact g.
Qed.

Lemma names_spec p m names d : FindMessageTypeByName p (GetTypeName m) = Some d -> GetFieldNames p m = Val names ->
  forall n, In n names <-> exists rest, In (n :: rest) (GetFieldPaths m).
Proof.
  intros ed. unfold GetFieldNames, FindMessage. rewrite ed. cbn [obind].
  set (go := fix go (paths : list (list string)) (acc : list string) : out (list string) := _).
  assert (g : forall paths acc ns, go paths acc = Val ns -> forall n, In n ns <-> In n acc \/ exists rest, In (n :: rest) paths).
  { induction paths as [|[|q r] paths IH]; intros acc ns; cbn [go].
    - intros [= <-] n. split; [auto|]. intros [i|[? []]]; exact i.
    - discriminate.
    - unfold FindField. destruct (FindFieldByName d q) as [f|] eqn:ef; [|discriminate]. cbn [obind].
      intros h n. fold go in h. rewrite (IH _ _ h n). cbn [In].
      apply find_some in ef as [_ ef]. apply String.eqb_eq in ef. rewrite ef. split.
      + intros [[<-|i]|[rest i]]; [right; exists r; auto|auto|right; exists rest; auto].
      + intros [i|[rest [e|i]]]; [auto|injection e; auto|right; exists rest; exact i]. }
  intros h n. rewrite (g _ _ _ h n). cbn. intuition.
Qed.

Lemma variables_spec p w l1 l2 type paths c e e0 n :
  AddContextDeclarationWithProtoTypeMask p w empty_config type paths = (c, Val tt) ->
  Forall (fun c => c_context_types c = []) l1 -> Forall (fun c => c_context_types c = []) l2 ->
  e_variables e0 = [] ->
  apply_all p false (l1 ++ c :: l2) e0 = Val e ->
  (In n (e_variables e) <-> (exists t, has_field p type n t) /\ exists path rest, In path paths /\ StrSplit path = n :: rest).
Proof.
  intros a h1 h2 v0 b. rewrite apply_all_app in b.
  destruct (apply_all p false l1 e0) as [e1| |] eqn:b1; try discriminate. cbn [obind apply_all] in b.
  destruct (ApplyConfig p false c e1) as [e2| |] eqn:b2; try discriminate. cbn [obind] in b.
  rewrite (no_context_apply _ _ _ _ _ h2 b). apply no_context_apply in b1; [|exact h1]. rewrite v0 in b1.
  unfold AddContextDeclarationWithProtoTypeMask in a. destruct paths as [|q qs]; [discriminate|].
  set (ps := q :: qs) in *. unfold AddContextDeclaration in a. cbn [c_context_types empty_config] in a.
  destruct (FindMessageTypeByName p type) as [d|] eqn:ed; [|discriminate].
  destruct (d_well_known d && negb w); [discriminate|]. cbn [existsb] in a.
  destruct (GetFieldNames p (newMask type ps)) as [names| |] eqn:en; try discriminate.
  cbn in a. injection a as <-. unfold ApplyConfig in b2. cbn [c_context_types c_context_type_fields c_masks add_contexts] in b2.
  destruct (add_variables false [(type, names)] d e1 (d_fields d)) as [e3| |] eqn:b3; try discriminate. cbn [obind] in b2.
  match type of b2 with obind ?x _ = _ => destruct x; try discriminate end.
  cbn [obind] in b2. injection b2 as <-. cbn [e_variables].
  rewrite (add_variables_spec _ _ _ _ _ _ b3 n), b1.
  assert (nm := names_spec p (newMask type ps) names d ed en).
  assert (sh : forall f, shown false [(type, names)] d f = true <-> In (f_name f) names).
  { intros f. unfold shown. cbn. rewrite (find_name _ _ _ ed), String.eqb_refl.
    assert (dw : (if d_well_known d then f_name f else f_name f) = f_name f) by (destruct (d_well_known d); reflexivity).
    rewrite dw.
    rewrite existsb_exists. split.
    - intros (x & i & ex). apply String.eqb_eq in ex. subst x. exact i.
    - intros i. exists (f_name f). rewrite String.eqb_refl. auto. }
  assert (pt : (exists rest, In (n :: rest) (GetFieldPaths (newMask type ps))) <-> exists path rest, In path ps /\ StrSplit path = n :: rest).
  { split.
    - intros [rest i]. apply newMask_paths in i as (s & i & es). exists s, rest. auto.
    - intros (s & rest & i & es). exists rest. apply newMask_paths. exists s. auto. }
  cbn [In]. rewrite <- pt, <- nm. split.
  - intros [[]|(f & i & s & ->)]. apply sh in s. split; [|exact s].
    destruct (FindFieldByName d (f_name f)) as [g|] eqn:eg; [exists (f_message g), d, g; auto|].
    exfalso. pose proof (find_none _ _ eg f i) as x. cbn in x. rewrite String.eqb_refl in x. discriminate.
  - intros [(t & d' & f & x1 & x2 & _) i]. right. exists f. rewrite ed in x1. injection x1 as <-.
    apply find_some in x2 as [x2 x3]. apply String.eqb_eq in x3. split; [exact x2|]. rewrite sh.
    cbn [field_key]. rewrite x3. auto.
Qed.
