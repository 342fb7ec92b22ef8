(* C51: the types the checker gives to list and map literals. *)
From Coq Require Import String List Bool NArith Lia Arith.
From Verif Require Import M_Infer S_Infer L_Infer L_Infer2 L_Unify L_Unify2 L_Fresh L_Literal.
Import ListNotations.
Local Open Scope string_scope.
Open Scope list_scope.

(* A list literal of plain element types is a list of their common type when
   the type variables in them can be chosen so that they agree; otherwise it
   is a list of dyn and no variable has been bound.  Partial: element types
   with dyn, any, null, wrappers, enums or type(...) inside are covered only
   by the examples below and by [C36_list_literal_refuted]. *)
Theorem C51_list_partial : forall legacy ops fuel c k elems t c',
  run fuel (new_context legacy) ops = Some c ->
  plain_context c -> (forall x, In x elems -> plain x /\ registered c x) ->
  list_literal_type k c elems = Some (t, c') ->
  plain_context c' /\
  ((exists e, t = TList e /\ plain e /\
      forall x, In x elems -> exists j, fully_substitute j (cx_bindings c') false x = Some e) \/
   (t = TList TDyn /\
    (forall n, bd_find (cx_bindings c) n <> None ->
       bd_find (cx_bindings c') n = bd_find (cx_bindings c) n) /\
    forall s, respects s (cx_bindings c) ->
      ~ exists e, forall x, In x elems -> tsub s x = e)).
Proof.
  intros legacy ops fuel c k elems t c' H PC Hl E.
  exact (list_literal_plain _ _ _ _ _ (run_inv _ _ _ _ (inv_new legacy) H)
           (numbered_run _ _ _ _ H) PC Hl E).
Qed.
Print Assumptions C51_list_partial.

(* The same for maps.  The values are checked one by one against the
   inference context itself, so when they disagree some of their variables
   may have been bound on the way. *)
Theorem C51_map_partial : forall legacy ops fuel c k keys vals t c',
  run fuel (new_context legacy) ops = Some c ->
  plain_context c -> (forall x, In x (keys ++ vals) -> plain x /\ registered c x) ->
  map_literal_type k c keys vals = Some (t, c') ->
  exists a b, t = TMap a b /\
  ((b = TDyn /\
    forall s, respects s (cx_bindings c) ->
      (exists e, forall x, In x keys -> tsub s x = e) \/
      (forall s', respects s' (cx_bindings c) -> ~ exists e, forall x, In x keys -> tsub s' x = e) ->
      ~ exists e, forall x, In x vals -> tsub s x = e) \/
   (plain_context c' /\ plain b /\
    (forall x, In x vals -> exists j, fully_substitute j (cx_bindings c') false x = Some b) /\
    ((a = TDyn /\ forall s, respects s (cx_bindings c) -> ~ exists e, forall x, In x keys -> tsub s x = e) \/
     (plain a /\ forall x, In x keys -> exists j, fully_substitute j (cx_bindings c') false x = Some a)))).
Proof.
  intros legacy ops fuel c k keys vals t c' H PC Hl E.
  exact (map_literal_plain _ _ _ _ _ _ (run_inv _ _ _ _ (inv_new legacy) H)
           (numbered_run _ _ _ _ H) PC Hl E).
Qed.
Print Assumptions C51_map_partial.

(* The empty literals have free element types, which end up as dyn. *)
Theorem C51_empty_list : forall legacy ops fuel c,
  run fuel (new_context legacy) ops = Some c ->
  exists v c', (forall k, list_literal_type (3 + k) c [] = Some (TList (TParam v), c')) /\
    bd_find (cx_bindings c) v = None /\
    forall k, finalize_type (3 + k) c' (TList (TParam v)) = Some (TList TDyn).
Proof.
  intros legacy ops fuel c H. pose proof (numbered_run _ _ _ _ H) as N.
  destruct (instantiate_name c "E" eq_refl) as (v & c1 & Ei & En).
  destruct (new_var_bind _ _ _ N En) as [B _].
  assert (R : resolve (cx_bindings c1) [] v = None) by (unfold resolve; cbn; rewrite B; reflexivity).
  exists v, c1. split; [|split].
  - intros k. unfold list_literal_type. rewrite Ei. cbn [list_elements is_dyn ctx_update fst update_bindings].
    cbn [plus fully_substitute substitute set_bindings cx_bindings]. rewrite R. cbn.
    destruct c1; reflexivity.
  - pose proof (new_var_unknown _ _ _ N En) as U. unfold known in U.
    destruct (bd_find (cx_bindings c) v); [destruct U; congruence | reflexivity].
  - intros k. unfold finalize_type. cbn [plus fully_substitute substitute]. rewrite R. reflexivity.
Qed.
Print Assumptions C51_empty_list.

(* Instances: an empty list takes the element type of its neighbour. *)
Definition lit_type (o : option (ty * context)) : option ty :=
  match o with Some (t, _) => Some t | None => None end.

Example ex_literals :
  lit_type (list_literal_type 30 (new_context true) [TPrim PInt; TPrim PInt]) = Some (TList (TPrim PInt)) /\
  lit_type (list_literal_type 30 (new_context true) [TPrim PInt; TPrim PString]) = Some (TList TDyn) /\
  (exists c, run 30 (new_context true) [OListLiteral []] = Some c /\
     registered c (TList (TParam "T%1")) /\ plain_context c /\
     lit_type (list_literal_type 30 c [TList (TParam "T%1"); TList (TPrim PInt)]) =
       Some (TList (TList (TPrim PInt)))) /\
  lit_type (map_literal_type 30 (new_context true) [TPrim PString; TPrim PString]
              [TList (TPrim PInt); TPrim PInt]) = Some (TMap (TPrim PString) TDyn).
Proof.
  split; [vm_compute; reflexivity|]. split; [vm_compute; reflexivity|].
  split; [|vm_compute; reflexivity]. eexists. split; [vm_compute; reflexivity|].
  split; [|split; [|vm_compute; reflexivity]].
  - intros n M. inversion M; subst. destruct H as [<-|[]].
    inversion H0; subst; [vm_compute; discriminate | contradiction].
  - intros n t. cbn [cx_bindings bd_find]. destruct (String.eqb n "T%1"); discriminate.
Qed.

(* Lists widen, maps do not: with a null first and a struct second, the list
   literal is a list of the struct but the map's value type is null. *)
Theorem C51_map_widening_refuted :
  lit_type (list_literal_type 30 (new_context true) [TNull; TStruct "S"]) = Some (TList (TStruct "S")) /\
  lit_type (map_literal_type 30 (new_context true) [TPrim PInt; TPrim PInt] [TNull; TStruct "S"]) =
    Some (TMap (TPrim PInt) TNull).
Proof. split; vm_compute; reflexivity. Qed.
Print Assumptions C51_map_widening_refuted.

