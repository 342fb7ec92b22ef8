(* C118, C119: which fields of messages a type checker lets expressions select. *)
From Coq Require Import String List Bool Permutation.
From Verif Require Import Base.
From Verif Require Import M_TypeMask S_TypeMask L_TypeMask L_TypeMask2.
Import ListNotations.
Open Scope string_scope.
Open Scope list_scope.

(* C118: a field is visible if the masks do not restrict its type, or if one of their
   paths goes through it *)
Theorem C118_visible : forall p masks t type field,
  pool_ok p -> Create p masks = Val t ->
  (FieldIsVisible t type field = true <-> (restricted p masks type -> listed p masks type field)).
Proof. intros. apply visible_spec; assumption. Qed.
Print Assumptions C118_visible.

(* C118: masks are accepted if their types and paths exist and no type is both hidden and
   given a visible field *)
Theorem C118_accepted : forall p masks,
  pool_ok p -> (forall m path, In m masks -> In path (GetFieldPaths m) -> path <> []) ->
  ((exists t, Create p masks = Val t) <->
   (forall m, In m masks -> (exists d, FindMessageTypeByName p (GetTypeName m) = Some d)
      /\ forall path, In path (GetFieldPaths m) -> selectable p (GetTypeName m) path)
   /\ ~ exists type field, all_hidden masks type /\ listed p masks type field).
Proof. intros. apply accepted_spec; assumption. Qed.
Print Assumptions C118_accepted.

(* C118: the order in which masks are given makes no difference *)
Theorem C118_order : forall p masks masks' t t' type field,
  pool_ok p -> Permutation masks masks' -> Create p masks = Val t -> Create p masks' = Val t' ->
  FieldIsVisible t type field = FieldIsVisible t' type field.
Proof.
  intros p masks masks' t t' type field ok pm e e'.
  assert (i : forall m, In m masks <-> In m masks').
  { intros m. split; apply Permutation_in; [exact pm|apply Permutation_sym, pm]. }
  assert (l : forall f, listed p masks type f <-> listed p masks' type f).
  { intros f. unfold listed. split; intros (m & q & h & r); exists m, q; (split; [apply i, h|exact r]). }
  assert (a : all_hidden masks type <-> all_hidden masks' type).
  { unfold all_hidden. split; intros (m & h & r); exists m; (split; [apply i, h|exact r]). }
  assert (r : restricted p masks type <-> restricted p masks' type).
  { unfold restricted. rewrite a. split; (intros [h|[f h]]; [auto|right; exists f; apply l, h]). }
  pose proof (visible_spec p masks t type field ok e) as v. pose proof (visible_spec p masks' t' type field ok e') as v'.
  rewrite r, l, <- v' in v. destruct (FieldIsVisible t type field), (FieldIsVisible t' type field); intuition congruence.
Qed.
Print Assumptions C118_order.

(* the paths of a mask are the texts it was made of, split at the dots *)
Theorem C118_paths : forall type texts path,
  In path (GetFieldPaths (newMask type texts)) <-> exists text, In text texts /\ path = StrSplit text.
Proof. intros. apply newMask_paths. Qed.
Print Assumptions C118_paths.

Definition pool : Pool :=
  [mkDescriptor "A" false [mkField "inner" "inner" (Some "B"); mkField "id" "id" None];
   mkDescriptor "B" false [mkField "public_name" "publicName" None; mkField "secret" "secret" None]].
Example pool_is_ok : pool_ok pool.
Proof.
  intros d f m [<-|[<-|[]]] i; cbn in i; repeat (destruct i as [<-|i]; [cbn; intros [= <-]; eexists; reflexivity|]);
  destruct i.
Qed.
Example C118_ex : exists t, Create pool [newMask "A" ["inner.public_name"]] = Val t
  /\ FieldIsVisible t "B" "secret" = false /\ FieldIsVisible t "B" "public_name" = true /\ FieldIsVisible t "A" "id" = false.
Proof. eexists. split; [vm_compute; reflexivity|]. repeat split. Qed.

(* C119, for the masks given to the builder itself: expressions can select the fields of a
   message type that the accepted paths go through, all of them if no path enters the type.
   Missing: masks given by libraries, refused calls and JSON names, refuted below. *)
Theorem C119_select_partial : forall p allow_wkt calls c libraries anonymous e type field,
  pool_ok p -> declared p allow_wkt calls c -> Build p false libraries anonymous c = Val e ->
  ((exists f, LookupStructField p false e type field = Some f) <->
   (exists t, has_field p type field t)
   /\ ((exists field', goes_through p calls type field') -> goes_through p calls type field)).
Proof. intros. eapply lookup_spec; eassumption. Qed.
Print Assumptions C119_select_partial.

(* C119: the variables of a declaration, of the builder or of a library, are the fields that
   start a path *)
Theorem C119_variables : forall p allow_wkt type paths c libraries anonymous default before after e n,
  AddContextDeclarationWithProtoTypeMask p allow_wkt empty_config type paths = (c, Val tt) ->
  libraries ++ [anonymous; default] = before ++ c :: after ->
  Forall (fun c' => c_context_types c' = []) before -> Forall (fun c' => c_context_types c' = []) after ->
  Build p false libraries anonymous default = Val e ->
  (In n (e_variables e) <->
   (exists t, has_field p type n t) /\ exists path rest, In path paths /\ StrSplit path = n :: rest).
Proof.
  intros p w type paths c libs anon def l1 l2 e n a eq h1 h2 b. unfold Build in b. rewrite eq in b.
  exact (variables_spec p w l1 l2 type paths c e (mkEnv [] None) n a h1 h2 eq_refl b).
Qed.
Print Assumptions C119_variables.

Definition config := fst (AddContextDeclarationWithProtoTypeMask pool false empty_config "A" ["inner.public_name"]).
Example config_declared : declared pool false [("A", ["inner.public_name"])] config.
Proof. apply (declared_more _ _ [] empty_config); [constructor|]. vm_compute. reflexivity. Qed.
Example C119_ex : exists e, Build pool false [] empty_config config = Val e
  /\ LookupStructField pool false e "B" "secret" = None
  /\ LookupStructField pool false e "B" "public_name" <> None /\ e_variables e = ["inner"].
Proof. eexists. split; [vm_compute; reflexivity|]. repeat split. vm_compute. discriminate. Qed.

(* C119 fails for libraries: every configuration that is applied after that of the library
   replaces the registry, so the masks of a library hide nothing inside the fields *)
Theorem C119_library_refuted : exists p calls c e type field f,
  pool_ok p /\ declared p false calls c /\ Build p false [c] empty_config empty_config = Val e
  /\ (exists field', goes_through p calls type field') /\ ~ goes_through p calls type field
  /\ LookupStructField p false e type field = Some f.
Proof.
  exists pool, [("A", ["inner.public_name"])], config. eexists. exists "B", "secret". eexists.
  split; [exact pool_is_ok|]. split; [exact config_declared|]. split; [vm_compute; reflexivity|].
  assert (hf : has_field pool "A" "inner" (Some "B")) by (eexists; eexists; vm_compute; auto).
  split; [|split].
  - exists "public_name", "A", ["inner.public_name"], "inner.public_name".
    split; [left; reflexivity|]. split; [left; reflexivity|]. apply selects_there with (m := "B"); [exact hf|constructor].
  - intros (root & ps & q & [e|[]] & i & s). injection e as <- <-. destruct i as [<-|[]].
    cbn in s. inversion s as [|? ? m ? ? ? h1 h2]; subst. destruct h1 as (d & f & x1 & x2 & x3).
    vm_compute in x1. injection x1 as <-. vm_compute in x2. injection x2 as <-. cbn in x3. injection x3 as <-.
    inversion h2 as [|? ? m ? ? ? h3 h4]; subst. inversion h4.
  - vm_compute. reflexivity.
Qed.
Print Assumptions C119_library_refuted.

(* C119 fails for calls that are refused: the mask of a call refused because the type is
   already declared still makes its fields visible *)
Theorem C119_refused_refuted : exists p calls c c' s type paths e e' type' field f,
  pool_ok p /\ declared p false calls c
  /\ AddContextDeclarationWithProtoTypeMask p false c type paths = (c', Err s)
  /\ Build p false [] empty_config c = Val e /\ Build p false [] empty_config c' = Val e'
  /\ LookupStructField p false e type' field = None /\ LookupStructField p false e' type' field = Some f.
Proof.
  exists pool, [("A", ["inner.public_name"])], config. do 2 eexists. exists "A", ["inner.secret"].
  do 2 eexists. exists "B", "secret". eexists.
  split; [exact pool_is_ok|]. split; [exact config_declared|].
  split; [vm_compute; reflexivity|]. split; [vm_compute; reflexivity|]. split; [vm_compute; reflexivity|].
  split; vm_compute; reflexivity.
Qed.
Print Assumptions C119_refused_refuted.

(* C119 fails with JSON names of fields: masks are written with the names of the descriptor
   and looked at with the names of expressions, so a field that is listed cannot be selected *)
Theorem C119_json_refuted : exists p calls c e type d f,
  pool_ok p /\ declared p false calls c /\ Build p true [] empty_config c = Val e
  /\ goes_through p calls type (f_name f) /\ FindMessageTypeByName p type = Some d /\ In f (d_fields d)
  /\ LookupStructField p true e type (f_json f) = None.
Proof.
  exists pool, [("A", ["inner.public_name"])], config. eexists. exists "B". do 2 eexists.
  split; [exact pool_is_ok|]. split; [exact config_declared|]. split; [vm_compute; reflexivity|].
  split; [|split; [vm_compute; reflexivity|split; [left; reflexivity|vm_compute; reflexivity]]].
  exists "A", ["inner.public_name"], "inner.public_name".
  split; [left; reflexivity|]. split; [left; reflexivity|]. apply selects_there with (m := "B"); [|constructor].
  do 2 eexists. vm_compute; auto.
Qed.
Print Assumptions C119_json_refuted.
