(* C123, C124: the registry of macros and the builder of parsers. *)
From Coq Require Import String List Bool NArith Permutation.
From Verif Require Import Base M_Namespace.
From Verif Require Import M_Macros S_Macros L_Macros.
Import ListNotations.
Open Scope string_scope.
Open Scope list_scope.

(* the macros of macro.cc:425-428 and the two for optionals *)
Definition standard : list Macro :=
  [mkMacro "has" 1 false false 0; mkMacro "all" 2 true false 1; mkMacro "exists" 2 true false 2; mkMacro "exists_one" 2 true false 3;
   mkMacro "map" 2 true false 4; mkMacro "map" 3 true false 5; mkMacro "filter" 2 true false 6].
Definition optional : list Macro := [mkMacro "optMap" 2 true false 7; mkMacro "optFlatMap" 2 true false 8].
Definition bind := mkMacro "bind" 3 true false 9.
Definition any_map := mkMacro "map" 0 true true 10.

(** A macro is made just if its name is an identifier; two macros get the same key just if
    they are for the same calls. *)
Theorem C123_key : forall name n e receiver varargs,
  (forall m, Make name n e receiver varargs = Val m ->
     made m /\ (varargs = false -> shape m = (name, receiver, Some n)) /\ (varargs = true -> shape m = (name, receiver, None)))
  /\ ((exists m, Make name n e receiver varargs = Val m) <-> LexisIsIdentifier name = true)
  /\ forall m m', made m -> made m' -> (key m = key m' <-> shape m = shape m').
Proof.
  intros name n e receiver varargs. split; [|split; [|exact key_inj]].
  - unfold Make. destruct (LexisIsIdentifier name) eqn:h; cbn [negb]; intros m [= <-]; split; [exact h| |discriminate..].
    unfold shape; cbn. destruct varargs; split; intros; congruence.
  - unfold Make. destruct (LexisIsIdentifier name); cbn [negb]; split; eauto; intros; [|discriminate]. destruct H; discriminate.
Qed.
Print Assumptions C123_key.
Example C123_key_example : (exists m, Make "map" 2 4 true false = Val m) /\ key any_map = "map:*:true" /\ key bind = "bind:3:true"
  /\ (exists s, Make "a.b" 2 4 true false = Err s).
Proof. vm_compute. repeat split; eexists; reflexivity. Qed.

(** Whatever the history of registrations: a call is accepted just if no two macros are for
    the same calls, a refused call changes nothing, and a macro found for a call is one
    registered for that number of arguments, else one registered for any number. *)
Theorem C123_history : forall calls, Forall (Forall made) calls ->
  exists l, accepted [] calls (map is_ok (snd (register_all [] calls))) l
    /\ forall name n receiver m, FindMacro (fst (register_all [] calls)) name n receiver = Some m <-> chosen l name n receiver m.
Proof.
  intros calls h. destruct (register_all_spec calls h [] [] (Forall_nil _) rep_nil) as (l & a & ml & R).
  exists l. split; [exact a|]. intros. apply FindMacro_spec; assumption.
Qed.
Print Assumptions C123_history.
Example C123_history_example : Forall (Forall made) [standard; [bind; mkMacro "has" 1 false false 11]; [any_map]]
  /\ map is_ok (snd (register_all [] [standard; [bind; mkMacro "has" 1 false false 11]; [any_map]])) = [true; false; true]
  /\ (let r := fst (register_all [] [standard; [bind; mkMacro "has" 1 false false 11]; [any_map]]) in
      FindMacro r "bind" 3 true = None /\ option_map expander (FindMacro r "map" 2 true) = Some 4
      /\ option_map expander (FindMacro r "map" 7 true) = Some 10 /\ FindMacro r "map" 2 false = None).
Proof. split; [repeat constructor|vm_compute; auto]. Qed.

(** A refused call changes no answer. *)
Theorem C123_refused : forall calls ms, Forall (Forall made) calls ->
  let r := fst (register_all [] calls) in
  (forall u, snd (RegisterMacros r ms) <> Val u) ->
  (exists s, snd (RegisterMacros r ms) = Err s /\ st_code s = kAlreadyExists)
  /\ forall name n receiver, FindMacro (fst (RegisterMacros r ms)) name n receiver = FindMacro r name n receiver.
Proof.
  intros calls ms h r ne. destruct (register_all_spec calls h [] [] (Forall_nil _) rep_nil) as (l & _ & _ & R). fold r in R.
  pose proof (RegisterMacros_spec r l ms R) as s. destruct (RegisterMacros r ms) as [r' [u|s'|]]; cbn [fst snd] in *; [destruct (ne u); reflexivity| |destruct s].
  destruct s as (-> & _ & f & _). split; [eexists; split; reflexivity|]. apply FindMacro_ext, f.
Qed.
Print Assumptions C123_refused.
Example C123_refused_example : snd (RegisterMacros (fst (register_all [] [standard])) [bind; mkMacro "has" 1 false false 11]) = Err already_exists.
Proof. vm_compute. reflexivity. Qed.

(** A parser is built just if no two of the wanted macros are for the same calls, nor any two
    macros of one library, and it then has the wanted macros. *)
Theorem C124_build : forall AllMacros optionals b,
  Forall made AllMacros -> Forall made optionals -> Forall made (individual b) ->
  Forall (fun lib => Forall made (library_macros lib)) (libraries b) ->
  ((exists p, Build AllMacros optionals b = Val p)
     <-> NoDup (map shape (wanted AllMacros optionals b))
         /\ Forall (fun lib => NoDup (map shape (library_macros lib))) (libraries b))
  /\ forall p, Build AllMacros optionals b = Val p ->
     forall name n receiver m, FindMacro (macro_registry p) name n receiver = Some m
       <-> chosen (wanted AllMacros optionals b) name n receiver m.
Proof.
  intros A O b hA hO hb hl.
  assert (mw : Forall made (wanted A O b)).
  { unfold wanted. rewrite !Forall_app. repeat split; [|destruct (_ && _); auto..|exact hb].
    rewrite Forall_forall. intros m i. apply in_flat_map in i as (lib & il & i). rewrite Forall_forall in hl.
    specialize (hl lib il). rewrite Forall_forall in hl. apply hl. unfold included, Subset in i. destruct (find _ _) as [[? ?]|] in i; [|exact i].
    apply filter_In in i. tauto. }
  assert (lib_keys : Forall (fun x => NoDup (map key (library_macros x))) (libraries b) <-> Forall (fun lib => NoDup (map shape (library_macros lib))) (libraries b)).
  { rewrite !Forall_forall in *. split; intros h x i; specialize (hl x i); apply keys_shapes; auto. }
  rewrite <- lib_keys, <- keys_shapes by exact mw.
  pose proof (Build_spec A O b) as s. destruct (Build A O b) as [p|st|]; [| |destruct s].
  - destruct s as [R f]. split; [split; [intros _; split; [apply R|exact f]|eauto]|]. intros q [= <-] name n receiver m. apply FindMacro_spec; assumption.
  - split; [|discriminate]. split; [intros [p e]; discriminate|]. tauto.
Qed.
Print Assumptions C124_build.
Definition a_builder := fold_left perform
  [OpSubset ("stdlib", fun m => negb (String.eqb (function m) "exists_one")); OpLibrary (mkLibrary "stdlib" standard);
   OpLibrary (mkLibrary "" [bind]); OpMacro any_map; OpLibrary (mkLibrary "stdlib" [])] (new_builder false true).
Example C124_build_example :
  map library_id (libraries a_builder) = ["stdlib"; ""]
  /\ (exists p, Build standard optional a_builder = Val p
      /\ FindMacro (macro_registry p) "exists_one" 2 true = None
      /\ option_map expander (FindMacro (macro_registry p) "optMap" 2 true) = Some 7
      /\ option_map expander (FindMacro (macro_registry p) "map" 1 true) = Some 10)
  /\ (exists s, Build standard optional (fst (AddMacroTo (new_builder false false) (mkMacro "has" 1 false false 11))) = Err s).
Proof. vm_compute. split; [reflexivity|]. split; eexists; [split; [reflexivity|auto]|reflexivity]. Qed.

(** The libraries of a builder: no two have the same name, nor do two subsets, and the standard macros are left
    out just if they are disabled or a library of that name has been added. *)
Theorem C124_libraries : forall ops disable enable,
  let b := fold_left perform ops (new_builder disable enable) in
  NoDup (filter (fun i => negb (String.eqb i "")) (map library_id (libraries b)))
  /\ NoDup (map key (individual b))
  /\ NoDup (map fst (subsets b)) /\ ~ In "" (map fst (subsets b))
  /\ forall id, id <> "" -> (contains_library b id = true <-> exists lib, In lib (libraries b) /\ library_id lib = id).
Proof.
  intros ops disable enable b.
  assert (h : named_ok b) by (apply performed_named; split; [reflexivity|repeat split; [constructor..|intros []]]).
  destruct h as (e & n & k & s1 & s2). split; [rewrite <- e; exact n|]. split; [exact k|]. split; [exact s1|]. split; [exact s2|].
  intros id ne. unfold contains_library. rewrite e, existsb_exists. split.
  - intros (x & i & ex). apply String.eqb_eq in ex. subst x. apply filter_In in i as [i _]. apply in_map_iff in i as (lib & a & i). eauto.
  - intros (lib & i & <-). exists (library_id lib). split; [|apply String.eqb_refl]. apply filter_In. split; [apply in_map, i|].
    apply String.eqb_neq in ne. rewrite ne. reflexivity.
Qed.
Print Assumptions C124_libraries.
Example C124_libraries_example : contains_library a_builder "stdlib" = true /\ contains_library a_builder "optional" = false
  /\ (exists s, snd (AddLibrary a_builder (mkLibrary "stdlib" [])) = Err s).
Proof. vm_compute. repeat split. eexists. reflexivity. Qed.

(** The builder made from a parser builds a parser with the same macros, in whatever order
    the macros of the parser are listed. *)
Theorem C124_rebuild : forall AllMacros optionals b p listed,
  Build AllMacros optionals b = Val p -> Permutation (ListMacros (macro_registry p)) listed ->
  exists q, Build AllMacros optionals (ToBuilder p listed) = Val q
    /\ (forall name n receiver, FindMacro (macro_registry q) name n receiver = FindMacro (macro_registry p) name n receiver)
    /\ parser_library_ids q = parser_library_ids p
    /\ parser_disable_standard q = parser_disable_standard p /\ parser_enable_optional q = parser_enable_optional p.
Proof.
  intros A O b p listed h pm. destruct (rebuild A O b p listed h pm) as (q & e & f & i).
  exists q. split; [exact e|]. split; [|exact i]. apply FindMacro_ext, f.
Qed.
Print Assumptions C124_rebuild.
Example C124_rebuild_example : exists p q, Build standard optional (new_builder false true) = Val p
  /\ Build standard optional (ToBuilder p (rev (ListMacros (macro_registry p)))) = Val q
  /\ parser_library_ids q = ["stdlib"; "optional"] /\ length (macro_registry q) = 9.
Proof. do 2 eexists. split; [vm_compute; reflexivity|]. split; [vm_compute; reflexivity|]. vm_compute. auto. Qed.
