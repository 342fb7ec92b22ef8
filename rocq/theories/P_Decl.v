(* C95-C98: declarations of functions, their overloads, types and signatures. *)
From Coq Require Import String Ascii List Bool Arith Lia Permutation.
From Verif Require Import Base M_Infer S_Infer L_Infer L_Unify.
From Verif Require M_Signature S_Signature L_Signature P_Signature.
From Verif Require Import M_Decl S_Decl L_Decl L_Decl2 L_Decl3 L_Decl4.
Import ListNotations.
Local Open Scope string_scope.
Open Scope list_scope.
Local Open Scope nat_scope.

(* ---- C95: overloads can be told apart ---- *)

(* Whatever was added, renamed or released before, no two overloads of a
   declaration collide, and no two have the same id. *)
Theorem C95_no_collisions : forall is_message f i j a b, reachable is_message f ->
  nth_error (overloads f) i = Some a -> nth_error (overloads f) j = Some b -> i <> j ->
  ~ collide a b /\ od_id a <> od_id b.
Proof.
  intros im f i j a b Hr Ha Hb Hij. apply sound_reachable in Hr. split.
  - eapply sound_pairs; eauto.
  - intros E. apply (sound_id _ _ Hr) in Ha, Hb. congruence.
Qed.
Print Assumptions C95_no_collisions.

(* An overload is refused as a collision only if some call could go to it and to
   an overload that is there. *)
Theorem C95_collision_is_ambiguous : forall is_message f o s, reachable is_message f ->
  MakeOverloadSignature is_message (name f) (od_args o) (od_member o) = Val s ->
  AddOverload is_message f o = (Err (invalid "overload signature collision"), f) ->
  exists a receiver args, In a (overloads f) /\ applicable a receiver args /\ applicable o receiver args.
Proof.
  intros im f o s0 Hr H0 H.
  destruct (add_cases im f o) as [(e & Hs & E)|[(Hs & E)|(s & Hs & [(Hf & E)|[(Hf & HC & E)|(Hf & Hn & E)]])]]; rewrite E in H.
  - congruence.
  - discriminate H.
  - discriminate H.
  - destruct HC as (x & Hx & HC1 & HC2). destruct (lower _ _ HC2) as (args & A1 & A2).
    exists x, (od_member o), args. repeat split; auto.
  - discriminate H.
Qed.
Print Assumptions C95_collision_is_ambiguous.

(* A call with given argument types can go to one overload at most, if the
   parameters are of types without wrappers and have dyn only as a whole or as
   the only parameter of what they are ... *)
Theorem C95_unambiguous_partial : forall is_message f i j a b receiver args, reachable is_message f ->
  nth_error (overloads f) i = Some a -> nth_error (overloads f) j = Some b ->
  Forall single (od_args a) -> Forall single (od_args b) ->
  applicable a receiver args -> applicable b receiver args -> i = j.
Proof.
  intros im f i j a b r args Hr Ha Hb Sa Sb [Ma Aa] [Mb Ab]. destruct (Nat.eq_dec i j) as [|N]; [assumption|exfalso].
  destruct (C95_no_collisions im f i j a b Hr Ha Hb N) as [NC _]. apply NC. split; [congruence|]. clear -Sa Sb Aa Ab.
  revert Sa Sb Ab. generalize (od_args b) as l'. induction Aa as [|x y l m Hx _ IH]; intros l' Sa Sb Ab; inversion Ab; subst; constructor.
  - inversion Sa; inversion Sb; subst. eapply single_comparable; eauto.
  - inversion Sa; inversion Sb; subst. now apply IH.
Qed.
Print Assumptions C95_unambiguous_partial.

Definition every (_ : string) : bool := true.
Definition function (id : string) (args : list ty) : overload_decl := mkOverload id args TDyn false.
Definition declared (l : list overload_decl) : FunctionDecl :=
  fold_left (fun f o => snd (AddOverload every f o)) l (no_overloads "f").
Lemma declared_reachable l : reachable every (declared l).
Proof.
  unfold declared. generalize (reach_new every "f"). generalize (no_overloads "f"). induction l as [|o l IH]; intros f Hf; [exact Hf|].
  cbn [fold_left]. apply IH. exact (reach_step every f (Add o) Hf).
Qed.
Example C95_example :
  let f := declared [function "a" [TPrim PInt; TList TDyn]; function "b" [TDyn; TOpaque "set" [TPrim PInt]]; function "c" [TPrim PString; TList (TPrim PInt)]] in
  List.length (overloads f) = 3 /\ Forall (fun o => Forall single (od_args o)) (overloads f)
  /\ fst (AddOverload every f (function "d" [TDyn; TList (TPrim PInt)])) = Err (invalid "overload signature collision").
Proof.
  cbv zeta. split; [reflexivity|]. split; [|reflexivity]. cbn. repeat (constructor; [|]); cbn; auto.
Qed.

(* ... otherwise it may go to two: null to either of two wrappers, a map to two
   map types with a dyn each, and, by the rules of the type checker, an argument
   to an overload for its type and to one for all types. *)
Theorem C95_unambiguous_refuted :
  (exists f a b, reachable every f /\ overloads f = [a; b] /\
     applicable a false [TNull] /\ applicable b false [TNull])
  /\ (exists f a b t, reachable every f /\ overloads f = [a; b] /\ fixed t /\
     applicable a false [t] /\ applicable b false [t])
  /\ (exists f a b t fuel c, reachable every f /\ overloads f = [a; b] /\ ground t /\
     resolve_overload fuel (new_context false) "f" (overloads f) [t] false = Some (Some (TDyn, [a; b]), c))
  /\ (exists f a b fuel c, reachable every f /\ overloads f = [a; b] /\
     resolve_overload fuel (new_context false) "f" (overloads f) [TEnum "E"] false = Some (Some (TDyn, [a; b]), c)).
Proof.
  split; [|split; [|split]].
  - exists (declared [function "a" [TWrapper PInt]; function "b" [TWrapper PString]]), (function "a" [TWrapper PInt]), (function "b" [TWrapper PString]).
    split; [apply declared_reachable|]. repeat split; constructor; constructor.
  - exists (declared [function "a" [TMap TDyn (TPrim PInt)]; function "b" [TMap (TPrim PInt) TDyn]]),
      (function "a" [TMap TDyn (TPrim PInt)]), (function "b" [TMap (TPrim PInt) TDyn]), (TMap (TPrim PInt) (TPrim PInt)).
    split; [apply declared_reachable|]. repeat split; constructor; try constructor; constructor.
  - exists (declared [function "a" [TList (TParam "T")]; function "b" [TList (TPrim PInt)]]),
      (function "a" [TList (TParam "T")]), (function "b" [TList (TPrim PInt)]), (TList (TPrim PInt)), 20.
    eexists. split; [apply declared_reachable|]. split; [reflexivity|]. split.
    + intros n H. inversion H as [|? u Hu Hm]; subst. destruct Hu as [<-|[]]. inversion Hm as [|? u Hu Hm']; subst. destruct Hu.
    + vm_compute. reflexivity.
  - exists (declared [function "a" [TPrim PInt]; function "b" [TEnum "E"]]), (function "a" [TPrim PInt]), (function "b" [TEnum "E"]), 20.
    eexists. split; [apply declared_reachable|]. split; [reflexivity|]. vm_compute. reflexivity.
Qed.
Print Assumptions C95_unambiguous_refuted.

(* ---- C96: adding and finding overloads ---- *)

(* An overload is added exactly if it has a signature, its id is new and it
   collides with none; it comes last and nothing else changes.  Otherwise
   nothing changes at all. *)
Theorem C96_add : forall is_message f o st g, reachable is_message f -> AddOverload is_message f o = (st, g) ->
  (st = Val tt /\ exists s, MakeOverloadSignature is_message (name f) (od_args o) (od_member o) = Val s
     /\ (forall x, In x (overloads f) -> od_id x <> od_id (stored o s)) /\ (forall x, In x (overloads f) -> ~ collide o x)
     /\ overloads g = overloads f ++ [stored o s] /\ name g = name f)
  \/ (st <> Val tt /\ g = f /\
      (forall s, MakeOverloadSignature is_message (name f) (od_args o) (od_member o) = Val s ->
         (st = Err kAlreadyExists_overload /\ exists x, In x (overloads f) /\ od_id x = od_id (stored o s))
         \/ (st = Err (invalid "overload signature collision") /\ exists x, In x (overloads f) /\ collide o x))
      /\ (forall e, MakeOverloadSignature is_message (name f) (od_args o) (od_member o) = Err e -> st = Err e)).
Proof.
  intros im f o st g Hr H. apply sound_reachable in Hr.
  destruct (add_cases im f o) as [(e & Hs & E)|[(Hs & E)|(s & Hs & [(Hf & E)|[(Hf & HC & E)|(Hf & Hn & E)]])]];
    rewrite E in H; injection H as <- <-.
  - right. split; [discriminate|]. split; [reflexivity|]. split; [congruence|]. intros e' He. congruence.
  - right. split; [discriminate|]. split; [reflexivity|]. split; [congruence|]. intros e' He. congruence.
  - right. split; [discriminate|]. split; [reflexivity|]. split; [|congruence]. intros s' Hs'. left. split; [reflexivity|].
    assert (s' = s) by congruence. subst. destruct (find_index (od_id (stored o s)) (by_id f)) as [i|] eqn:Ei; [|congruence].
    apply (sound_find _ _ Hr) in Ei as (x & Hx & Ex). exists x. split; [eapply nth_error_In; eauto|exact Ex].
  - right. split; [discriminate|]. split; [reflexivity|]. split; [|congruence]. intros s' Hs'. right. split; [reflexivity|exact HC].
  - left. split; [reflexivity|]. exists s. split; [exact Hs|]. split; [|split; [exact Hn|split; reflexivity]].
    apply (proj1 (sound_absent _ _ _ Hr)). exact Hf.
Qed.
Print Assumptions C96_add.

(* Overloads given at once are accepted or refused whatever their order, and
   the declaration holds all of them in the order given. *)
Theorem C96_order : forall is_message n l l' f, Permutation l l' -> MakeFunctionDecl is_message n l = Val f ->
  exists f', MakeFunctionDecl is_message n l' = Val f' /\ Permutation (overloads f) (overloads f')
    /\ map od_args (overloads f') = map od_args l' /\ map od_member (overloads f') = map od_member l'.
Proof.
  intros im n l l' f HP H. unfold MakeFunctionDecl in *.
  pose proof (sound_new im n) as S0.
  assert (exists f', add_all im (no_overloads n) l' = Val f') as [f' Hf'].
  { apply add_all_iff; [exact S0|]. assert (E : exists g, add_all im (no_overloads n) l = Val g) by eauto.
    apply add_all_iff in E; [|exact S0]. destruct E as (m & He & Hn & Hp & _ & _).
    destruct (entries_perm _ _ _ _ HP _ He) as (m' & He' & HP'). exists m'. split; [exact He'|]. split.
    - eapply Permutation_NoDup; [|exact Hn]. now apply Permutation_map.
    - split; [eapply pairwise_perm; eauto|]. split; intros x y []. }
  exists f'. split; [exact Hf'|].
  apply add_all_order in H as (m & He & Ho & _). apply add_all_order in Hf' as (m' & He' & Ho' & _).
  unfold overloads. rewrite Ho, Ho'. cbn [insertion_order no_overloads app].
  destruct (entries_perm _ _ _ _ HP _ He) as (m'' & He'' & HP'). rewrite (entries_det _ _ _ _ He' _ He''). split; [exact HP'|].
  clear -He''. induction He'' as [|o s l m _ _ [IH1 IH2]]; [split; reflexivity|].
  cbn [map]. rewrite IH1, IH2, stored_args, stored_member. split; reflexivity.
Qed.
Print Assumptions C96_order.
Example C96_example : exists f,
  MakeFunctionDecl every "f" [function "" [TPrim PInt]; function "x" [TList (TParam "T")]] = Val f
  /\ map od_id (overloads f) = ["f(int)"; "x"].
Proof. eexists. split; reflexivity. Qed.

(* Every overload is found under its id, what is found under an id that an
   overload has is that overload, and no lookup reads beyond the overloads. *)
Theorem C96_lookup_id : forall is_message f o, reachable is_message f -> In o (overloads f) ->
  FindOverloadById f (od_id o) = Val (Some o).
Proof.
  intros im f o Hr Ho. apply sound_reachable in Hr. apply In_nth_error in Ho as [i Hi].
  unfold overloads in Hi. unfold FindOverloadById, read_overload. now rewrite (sound_id _ _ Hr _ _ Hi), Hi.
Qed.
Print Assumptions C96_lookup_id.
Theorem C96_lookup_total : forall is_message f k, reachable is_message f ->
  FindOverloadById f k = Val None \/
  exists o, FindOverloadById f k = Val (Some o) /\ In o (overloads f)
    /\ (od_id o = k \/ exists n, MakeOverloadSignature is_message n (od_args o) (od_member o) = Val k).
Proof.
  intros im f k Hr. apply sound_reachable in Hr. unfold FindOverloadById, read_overload.
  destruct (find_index k (by_id f)) as [i|] eqn:E.
  - right. apply (sound_find _ _ Hr) in E as (o & Ho & Ek). rewrite Ho. exists o. repeat split; [eapply nth_error_In; eauto|now left].
  - destruct (find_index k (by_signature f)) as [i|] eqn:E'; [|now left].
    right. apply (sound_sig _ _ Hr) in E' as (o & n & Ho & Ek). rewrite Ho. exists o. repeat split; [eapply nth_error_In; eauto|right; eauto].
Qed.
Print Assumptions C96_lookup_total.

(* An overload is found under its signature too, if no overload has that text as
   its id and no other has that signature ... *)
Theorem C96_lookup_signature_partial : forall is_message n l f o s, MakeFunctionDecl is_message n l = Val f ->
  In o (overloads f) -> MakeOverloadSignature is_message n (od_args o) (od_member o) = Val s ->
  (forall x, In x (overloads f) -> od_id x = s -> x = o) ->
  (forall x, In x (overloads f) -> MakeOverloadSignature is_message n (od_args x) (od_member x) = Val s -> x = o) ->
  FindOverloadById f s = Val (Some o).
Proof.
  intros im n l f o s H Ho Hs H1 H2. unfold MakeFunctionDecl in H.
  pose proof (add_all_sound im l _ _ (sound_new im n) H) as S.
  assert (L : listed im f).
  { eapply add_all_listed; [|exact H]. intros i x t Hi. destruct i; discriminate Hi. }
  destruct (add_all_order im l _ _ H) as (_ & _ & _ & Hn). cbn in Hn.
  unfold FindOverloadById, read_overload. destruct (find_index s (by_id f)) as [i|] eqn:E.
  - apply (sound_find _ _ S) in E as (x & Hx & Ex). rewrite Hx. rewrite (H1 x); [reflexivity|eapply nth_error_In; eauto|exact Ex].
  - apply In_nth_error in Ho as [i Hi]. rewrite <- Hn in Hs. destruct (L _ _ _ Hi Hs) as (j & x & Hj & _ & Hx & Hsx).
    rewrite Hj, Hx. rewrite (H2 x); [reflexivity|eapply nth_error_In; eauto|]. now rewrite <- Hn.
Qed.
Print Assumptions C96_lookup_signature_partial.
(* ... but an overload may be given an id that is the signature of another: that
   one is found instead.  And an overload without an id is refused as existing
   although nothing collides with it, if another has taken its signature. *)
Theorem C96_lookup_signature_refuted :
  (exists f a b, MakeFunctionDecl every "f" [a; b] = Val f /\ overloads f = [a; b] /\
     MakeOverloadSignature every "f" (od_args b) (od_member b) = Val "f(string)" /\
     FindOverloadById f "f(string)" = Val (Some a) /\ a <> b)
  /\ (exists f o, reachable every f /\ od_id o = "" /\ (forall x, In x (overloads f) -> ~ collide o x) /\
     fst (AddOverload every f o) = Err kAlreadyExists_overload).
Proof.
  split.
  - eexists _, (function "f(string)" [TPrim PInt]), (function "b" [TPrim PString]). repeat split. discriminate.
  - exists (declared [function "f(string)" [TPrim PInt]]), (function "" [TPrim PString]). split; [apply declared_reachable|].
    repeat split. intros x [<-|[]] [_ H]. cbn in H. inversion H as [|? ? ? ? [A|A] _]; inversion A.
Qed.
Print Assumptions C96_lookup_signature_refuted.

(* Two declarations with the same default id are of the same name, both or
   neither a member, with the same argument types. *)
Theorem C96_default_ids_partial : forall is_message P n n' l l' m m' s, n <> "" -> n' <> "" ->
  Forall (fun t => constructed t /\ known P t /\ named t) l ->
  Forall (fun t => constructed t /\ known P t /\ named t) l' ->
  MakeOverloadSignature is_message n l m = Val s -> MakeOverloadSignature is_message n' l' m' = Val s ->
  n = n' /\ m = m' /\ map filled l = map filled l'.
Proof.
  intros im P n n' l l' m m' s Hn Hn' Hl Hl' H H'.
  assert (G : forall n l m, MakeOverloadSignature im n l m = Val s -> n <> "" ->
     Forall (fun t => constructed t /\ known P t /\ named t) l ->
     exists d q, M_Signature.MakeOverloadSignature (list_ascii_of_string n) d m = Val q /\
       s = string_of_list_ascii q /\ list_ascii_of_string n <> [] /\ Forall S_Signature.well_named d /\
       M_Signature.all_out (map (fun c => ConvertTypeSpecToType P (S_Signature.canonical c)) d) = Val (map filled l)).
  { clear. intros n l m H Hn Hl. unfold MakeOverloadSignature in H.
    destruct (M_Signature.all_out _) as [d| |] eqn:E; cbn [obind] in H; try discriminate H.
    destruct (M_Signature.MakeOverloadSignature _ _ _) as [q| |] eqn:Q; cbn [obind] in H; try discriminate H.
    injection H as <-. exists d, q. split; [exact Q|]. split; [reflexivity|]. split; [destruct n; [congruence|discriminate]|].
    apply all_out_inv in E. clear Q Hn. induction E as [|t c l d Ht _ IH]; cbn [map M_Signature.all_out]; [split; [constructor|reflexivity]|].
    inversion Hl as [|? ? (C & K & N) Hl']; subst. destruct (IH Hl') as [IH1 IH2]. split.
    - constructor; [exact (proj1 (named_ok im t c N Ht))|exact IH1].
    - rewrite (spec_back im P S_Signature.canonical (or_intror (fun s => eq_refl)) t C K c Ht). cbn [obind].
      rewrite IH2. reflexivity. }
  destruct (G n l m H Hn Hl) as (d & q & Q & S1 & N1 & W & F). destruct (G n' l' m' H' Hn' Hl') as (d' & q' & Q' & S2 & N2 & W' & F').
  assert (q = q').
  { rewrite <- (list_ascii_of_string_of_list_ascii q), <- (list_ascii_of_string_of_list_ascii q'). congruence. }
  subst q'. destruct (P_Signature.C56_overload_distinct_partial _ _ _ _ _ _ _ N1 N2 W W' Q Q') as (E1 & E2 & E3).
  split; [rewrite <- (string_of_list_ascii_of_string n), E1; apply string_of_list_ascii_of_string|]. split; [exact E2|].
  rewrite <- (map_map S_Signature.canonical (ConvertTypeSpecToType P)) in F, F'. rewrite E3 in F. congruence.
Qed.
Print Assumptions C96_default_ids_partial.
Example C96_default_ids_example :
  MakeOverloadSignature every "f" [TPrim PInt; TList TDyn] false = Val "f(int,list<dyn>)" /\
  MakeOverloadSignature every "f" [TPrim PInt; TList TDyn] true = Val "int.f(list<dyn>)".
Proof. split; reflexivity. Qed.

(* ---- C97: assignability of declared types ---- *)

(* The check decides [accepts], which is reflexive and transitive. *)
Theorem C97_decides : forall to from, TypeIsAssignable to from = true <-> accepts to from.
Proof. exact assignable_accepts. Qed.
Print Assumptions C97_decides.
Theorem C97_preorder : (forall t, TypeIsAssignable t t = true) /\
  (forall a b c, TypeIsAssignable a b = true -> TypeIsAssignable b c = true -> TypeIsAssignable a c = true).
Proof.
  split; [intros t; apply assignable_accepts, acc_same|]. intros a b c. rewrite !assignable_accepts. intros H1 H2. eapply accepts_trans; eauto.
Qed.
Print Assumptions C97_preorder.
(* Two overloads overlap exactly if they collide, whichever is asked first. *)
Theorem C97_overlap : forall a b, (SignaturesOverlap a b = true <-> collide a b) /\ SignaturesOverlap a b = SignaturesOverlap b a.
Proof.
  intros a b. split; [apply overlap_collide|]. apply eq_true_iff_eq. rewrite !overlap_collide. split; apply collide_sym.
Qed.
Print Assumptions C97_overlap.
(* What a declaration's check lets a parameter take, the type checker lets it
   take. *)
Theorem C97_checker : forall c to from, ground to -> ground from -> TypeIsAssignable to from = true ->
  exists k, is_assignable k c from to = Some (true, c).
Proof.
  intros c to from Gt Gf H. apply assignable_accepts in H.
  destruct (assignable_ground (cx_legacy c) (cx_bindings c) [] from to Gf Gt) as (k & r & E & I).
  exists k. unfold is_assignable. rewrite E. assert (r = true) as -> by (apply I; now apply accepts_conforms).
  cbn [update_bindings]. now destruct c.
Qed.
Print Assumptions C97_checker.
Example C97_example : TypeIsAssignable (TMap TDyn (TWrapper PInt)) (TMap (TPrim PString) TNull) = true
  /\ TypeIsAssignable (TWrapper PInt) (TWrapper PString) = false /\ TypeIsAssignable (TPrim PInt) (TWrapper PInt) = false
  /\ TypeIsAssignable (TType [TPrim PInt]) (TType [TPrim PString; TDyn]) = true.
Proof. repeat split. Qed.

(* The type parameters of an overload are those of its result and arguments,
   those of type(...) left out ... *)
Theorem C97_type_params_partial : forall o n, In n (GetTypeParams o) <->
  has_param n (od_result o) \/ exists t, In t (od_args o) /\ has_param n t.
Proof.
  intros o n. unfold GetTypeParams. rewrite in_app_iff, collect_params, in_flat_map. split.
  - intros [H|(t & Ht & H)]; [now left|]. right. exists t. split; [exact Ht|]. now apply collect_params.
  - intros [H|(t & Ht & H)]; [now left|]. right. exists t. split; [exact Ht|]. now apply collect_params.
Qed.
Print Assumptions C97_type_params_partial.
(* ... so one that occurs only there is not reported. *)
Theorem C97_type_params_refuted : exists o n t, In t (od_args o) /\ mentions n t /\ GetTypeParams o = [].
Proof.
  exists (function "a" [TType [TParam "T"]]), "T", (TType [TParam "T"]). repeat split; [now left|].
  eapply mentions_inside; [now left|]. constructor.
Qed.
Print Assumptions C97_type_params_refuted.

(* ---- C98: types, their specifications and their texts ---- *)

(* A type has a specification exactly if no part of it is unknown or a struct
   that is no message. *)
Theorem C98_specifiable : forall is_message t, constructed t ->
  ((exists s, ConvertTypeToTypeSpec is_message t = Val s) <-> specifiable is_message t)
  /\ ConvertTypeToTypeSpec is_message t <> UB.
Proof.
  intros im t C. split; [|now apply spec_no_ub]. split; [now apply spec_fails|now apply spec_exists].
Qed.
Print Assumptions C98_specifiable.
(* The specification of a type, and the text of the specification, give the type
   back, with type written as type(dyn), if the pool knows its messages and
   enums and none named like one of its abstract types ... *)
Theorem C98_round_trip_partial : forall is_message P t s, constructed t -> known P t ->
  ConvertTypeToTypeSpec is_message t = Val s -> ConvertTypeSpecToType P s = Val (filled t).
Proof. intros im P t s C K H. exact (spec_back im P (fun s => s) (or_introl (fun s => eq_refl)) t C K s H). Qed.
Print Assumptions C98_round_trip_partial.
(* The messages that stand for other types. *)
Theorem C98_well_known : forall P n t, In (n, t) well_known -> FindMessageTypeByName P n = true ->
  ConvertTypeSpecToType P (M_Signature.TMessage (list_ascii_of_string n)) = Val t /\
  ConvertTypeSpecToType P (M_Signature.TAbstract (list_ascii_of_string n) []) = Val t.
Proof.
  intros P n t H K. cbn [ConvertTypeSpecToType]. rewrite string_of_list_ascii_of_string, K.
  assert (E : Message n = t).
  { cbn [well_known In] in H. repeat (destruct H as [H|H]; [injection H as <- <-; reflexivity|]). destruct H. }
  rewrite E. split; reflexivity.
Qed.
Print Assumptions C98_well_known.
Theorem C98_text_round_trip_partial : forall is_message P t s, constructed t -> known P t -> named t ->
  MakeTypeSignature is_message t = Val s -> ParseType P s = Val (filled t).
Proof.
  intros im P t s C K N H. unfold MakeTypeSignature in H. destruct (ConvertTypeToTypeSpec im t) as [d| |] eqn:E; try discriminate H.
  cbn [obind] in H. destruct (named_ok im t d N E) as [N1 N2]. unfold ParseType.
  rewrite (P_Signature.C55_type_round_trip d s N1 N2 H). cbn [obind].
  exact (spec_back im P S_Signature.canonical (or_intror (fun s => eq_refl)) t C K d E).
Qed.
Print Assumptions C98_text_round_trip_partial.
Definition a_pool : pool := mkPool (String.eqb "a.M") (String.eqb "a.E").
Definition a_type : ty :=
  TMap (TPrim PString) (TFunction [TOpaque "pair" [TStruct "a.M"; TEnum "a.E"]; TType []; TParam "T"; TWrapper PInt]).
Example C98_example : constructed a_type /\ specifiable every a_type /\ known a_pool a_type
  /\ MakeTypeSignature every a_type = Val (M_Signature.lit "map<string,function<pair<a.M,a.E>,type<dyn>,~T,int_wrapper>>").
Proof.
  split; [cbn; tauto|]. split; [cbn; tauto|]. split; [|reflexivity].
  unfold known, a_type. cbn [all_parts]. repeat split; cbn; try discriminate.
  intros H. repeat destruct H as [H|H]; try discriminate H; exact H.
Qed.
Example C98_example_named : named a_type.
Proof.
  assert (N : forall n, list_ascii_of_string n <> [] -> M_Signature.contains_dotdot (list_ascii_of_string n) = false ->
    forallb (fun w => negb (M_Signature.text_eqb (list_ascii_of_string n) (M_Signature.lit w))) S_Signature.reserved = true ->
    S_Signature.type_name (list_ascii_of_string n)) by (intros n; apply P_Signature.name_ok).
  unfold named, a_type. cbn [all_parts]. repeat split; try (apply N; [discriminate|reflexivity|reflexivity]); try discriminate;
    unfold S_Signature.spaceless; cbn; repeat (constructor; [repeat split; discriminate|]); constructor.
Qed.
(* ... if it has one, the abstract type comes back as that message, or not at
   all. *)
Theorem C98_round_trip_refuted : exists P n s s',
  ConvertTypeToTypeSpec every (TOpaque n []) = Val s /\ ConvertTypeSpecToType P s = Val (TStruct n) /\
  ConvertTypeToTypeSpec every (TOpaque n [TDyn]) = Val s' /\ exists e, ConvertTypeSpecToType P s' = Err e.
Proof. exists a_pool, "a.M". do 2 eexists. repeat split. eexists. reflexivity. Qed.
Print Assumptions C98_round_trip_refuted.
