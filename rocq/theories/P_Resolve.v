(* C125, C126: resolving references before planning. *)
From Coq Require Import ZArith String Ascii List Bool Lia.
From Verif Require Import Base M_Ast S_Ast L_Ast M_Registry M_Namespace M_Rewrite S_Rewrite P_Rewrite P_Names.
From Verif Require M_Expr.
From Verif Require Import M_Resolve S_Resolve L_Resolve L2_Resolve.
Import ListNotations.
Open Scope string_scope.
Open Scope list_scope.

Definition entry (n : string) : reg_entry := mkEntry false (ex_fn n).
Definition method (n : string) : reg_entry := mkEntry false (M_Expr.mkOverload n true [None; None] true (fun _ => Val M_Value.VNull)).

Lemma special_reserved name : ~ In name reserved -> IsSpecialFunction name = false.
Proof.
  intros h. destruct (IsSpecialFunction name) eqn:e; [|reflexivity]. destruct h. unfold IsSpecialFunction in e.
  apply existsb_exists in e as (x & ix & ex). apply String.eqb_eq in ex. subst x. exact ix.
Qed.
(** The operators, cel.@block and the functions of optional values keep their names, whatever
    is registered and whatever the container is. *)
Theorem C125_reserved : forall r cname name arity, In name reserved ->
  planned r cname name arity = name /\ BestOverloadMatch r cname name arity <> None.
Proof.
  intros r cname name arity i. assert (e : BestOverloadMatch r cname name arity = Some name).
  { unfold BestOverloadMatch. cbn in i. repeat (destruct i as [<-|i]; [reflexivity|]). destruct i. }
  unfold planned. rewrite e. split; [reflexivity|discriminate].
Qed.
Print Assumptions C125_reserved.

(** A call finds, after the references are resolved, the overloads of the innermost container
    that has some, and it is reported just if none has; for eager functions, provided that no
    function is called like one of the candidates behind another container. *)
Theorem C125_call_partial : forall r cs cname n0 ns name arity, path cs cname -> path (n0 :: ns) name ->
  ~ In name reserved -> (forall n, FindLazy r n false arity = []) -> unambiguous r cs (n0 :: ns) arity ->
  innermost (declared (fun n => FindStatic r n false arity) (n0 :: ns)) (enclosing cs)
            (ResolveCall r cname (planned r cname name arity) false arity)
  /\ (BestOverloadMatch r cname name arity = None
      <-> forall c, In c (enclosing cs) -> FindStatic r (join (c ++ n0 :: ns)) false arity = []).
Proof.
  intros r cs cname n0 ns name arity hc [hn ->] sp0 hl hu. apply special_reserved in sp0 as sp.
  destruct (planned_total r cs cname n0 ns arity hc hn hu hl sp) as [-> e]. split.
  - apply first_found_inner. reflexivity.
  - rewrite e. clear. induction (enclosing cs) as [|c l IH]; cbn [map first_found]; [split; [intros _ c []|reflexivity]|].
    destruct (FindStatic r (join (c ++ n0 :: ns)) false arity) as [|o os] eqn:ec.
    + rewrite IH. split; [intros h d [->|i]; [exact ec|auto]|]. intros h d i. apply h. right. exact i.
    + split; [discriminate|]. intros h. rewrite h in ec; [discriminate|left; reflexivity].
Qed.
Print Assumptions C125_call_partial.
Example C125_call_example : let r := attempts [entry "f"; entry "a.f"; entry "b.f"] [] in
  path ["a"; "b"] "a.b" /\ path ["f"] "f" /\ unambiguous r ["a"; "b"] ["f"] 1 /\ (forall n, FindLazy r n false 1 = [])
  /\ BestOverloadMatch r "a.b" "f" 1 = Some "a.f" /\ map M_Expr.ov_name (ResolveCall r "a.b" (planned r "a.b" "f" 1) false 1) = ["a.f"].
Proof.
  cbn zeta. split; [split; [repeat constructor; discriminate|reflexivity]|]. split; [split; [repeat constructor; discriminate|reflexivity]|].
  split.
  - intros c c' i i' n n'. cbn in i, i'.
    destruct i as [<-|[<-|[<-|[]]]]; destruct i' as [<-|[<-|[<-|[]]]]; try congruence; vm_compute; reflexivity.
  - split; [|vm_compute; auto]. intros n. unfold FindLazy, by_arity, lazy_overloads, entries_named. vm_compute (attempts _ _).
    cbn [filter re_desc M_Expr.ov_name ex_fn entry]. repeat destruct (String.eqb _ n); reflexivity.
Qed.

(** A name with a leading dot is planned as it is and found in the root only. *)
Theorem C125_root : forall r cs cname n0 ns name arity, path cs cname -> path (n0 :: ns) name -> (forall n, FindLazy r n false arity = []) ->
  planned r cname ("." ++ name) arity = ("." ++ name)%string
  /\ ResolveCall r cname (planned r cname ("." ++ name) arity) false arity = FindStatic r name false arity.
Proof.
  intros r cs cname n0 ns name arity hc hn hl.
  assert (p : planned r cname ("." ++ name) arity = ("." ++ name)%string).
  { unfold planned, BestOverloadMatch. destruct (IsSpecialFunction _); [reflexivity|].
    destruct (C34_runtime cs cname n0 ns name hc hn) as [_ ->]. cbn [best_loop]. destruct (OverloadExists _ _ _ _ _); reflexivity. }
  split; [exact p|]. rewrite p. apply (C49_call_partial r cs cname n0 ns name false arity hc hn (hl name)).
Qed.
Print Assumptions C125_root.
Example C125_root_example : let r := attempts [entry "f"; entry "a.f"] [] in
  map M_Expr.ov_name (ResolveCall r "a" (planned r "a" ".f" 1) false 1) = ["f"].
Proof. vm_compute. reflexivity. Qed.

(** In general a call does not find the innermost function: a resolved name is resolved once
    more in the container.  In the container a the call f(x) finds a.a.f although there is
    a function a.f, and even if there are only f and a.a.f. *)
Theorem C125_twice_refuted : exists l l' cname name, let r := attempts l [] in let r' := attempts l' [] in
  map M_Expr.ov_name (ResolveCall r cname name false 1) = ["a.f"]
  /\ map M_Expr.ov_name (ResolveCall r cname (planned r cname name 1) false 1) = ["a.a.f"]
  /\ map M_Expr.ov_name (ResolveCall r' cname name false 1) = ["f"]
  /\ map M_Expr.ov_name (ResolveCall r' cname (planned r' cname name 1) false 1) = ["a.a.f"].
Proof.
  exists [entry "f"; entry "a.f"; entry "a.a.f"], [entry "f"; entry "a.a.f"], "a", "f". vm_compute. auto.
Qed.
Print Assumptions C125_twice_refuted.

(** ** The tree *)
(** Resolving ends for every expression, and leaves the expression alone if it has not been
    checked and only checked ones are to be resolved. *)
Theorem C126_total : forall r cname fail refs e,
  (exists n e' o, ResolveReferences n r cname fail refs e = Some (e', o) /\ o <> UB)
  /\ forall n, UpdateAst n true r cname fail [] e = Some (e, Val tt).
Proof.
  intros r cname fail refs e. split; [|reflexivity].
  destruct (C87_terminates rstate (resolver r cname refs) false) with (s := no_state) (e := e) as (n & s' & e' & b & h).
  { intros s x. cbn. pose proof (pre_size refs x s) as p. destruct (ResolverPreVisit refs x s) as [[a c] d]. exact p. }
  exists n. unfold ResolveReferences. rewrite h. do 2 eexists. split; [reflexivity|]. destruct (if fail then _ else _); discriminate.
Qed.
Print Assumptions C126_total.

(** A qualified name  x.f1.f2...  becomes the variable that the references give to its longest
    part with a reference, with the other fields selected from it; the theorem is about the
    relation that C87 shows to be what the traversal does, anywhere in a tree. *)
Theorem C126_name : forall r cname refs id name fields above s s' e' b,
  (forall i, In i (id :: map fst fields) -> unnamed refs i \/ exists n, named refs i n) ->
  rewrites (resolver r cname refs) false above s (selects fields (Ident id name)) s' e' b ->
  (forall before i f after n, fields = before ++ (i, f) :: after -> named refs i n ->
     Forall (fun x => unnamed refs (fst x)) after -> e' = selects after (Ident i n))
  /\ (forall n, named refs id n -> Forall (fun x => unnamed refs (fst x)) fields -> e' = selects fields (Ident id n))
  /\ (unnamed refs id -> Forall (fun x => unnamed refs (fst x)) fields -> e' = selects fields (Ident id name)).
Proof.
  intros r cname refs id name fields above s s' e' b pl h. destruct (chain_outcome r cname refs id name fields above s s' e' b pl h) as (m & o & _).
  split; [|split].
  - intros before i f after n -> hn ha. eapply outcome_select in o as [-> _]; [reflexivity|exact hn|exact ha].
  - intros n hn ha. apply outcome_fields in o as (e0 & o & ->); [|exact ha]. f_equal.
    apply outcome_nil in o as [(u & _)|[(hn' & -> & _)|(n' & hn' & _ & -> & _)]].
    + destruct (named_not_unnamed refs id n hn u). + now rewrite (named_fun refs id _ _ hn hn'). + now rewrite (named_fun refs id _ _ hn hn').
  - intros u ha. apply outcome_fields in o as (e0 & o & ->); [|exact ha]. f_equal.
    apply outcome_nil in o as [(_ & -> & _)|[(hn' & -> & _)|(n' & hn' & _)]]; [reflexivity|reflexivity|]. destruct (named_not_unnamed refs id n' hn' u).
Qed.
Print Assumptions C126_name.
Definition two_references : ReferenceMap := [(2%Z, mkReference "a.b" false None); (1%Z, mkReference "a" false None)].
Example C126_name_example :
  named two_references 2 "a.b" /\ unnamed two_references 3
  /\ ResolveReferences 20 [] "" false two_references (selects [(2%Z, "b"); (3%Z, "c")] (Ident 1 "a")) = Some (selects [(3%Z, "c")] (Ident 2 "a.b"), Val true).
Proof.
  split; [split; [discriminate|split; [discriminate|]]; eexists; repeat split|]. split; [right; left; reflexivity|]. vm_compute. reflexivity.
Qed.

(** A receiver that the references resolve to a variable stays a receiver, if its name is
    written in more than one part or differs from the name of the variable; and the function
    keeps its name. *)
Theorem C126_receiver_partial : forall r cname refs cid f id name fields args above s s' e' b,
  (forall ref, find_reference refs cid = Some ref -> ref_value ref = None) ->
  (forall i, In i (id :: map fst fields) -> unnamed refs i \/ exists n, named refs i n) ->
  rewrites (resolver r cname refs) false above s (Call cid f (Some (selects fields (Ident id name))) args) s' e' b ->
  (forall before i g after n, fields = before ++ (i, g) :: after -> named refs i n -> Forall (fun x => unnamed refs (fst x)) after ->
     exists args', e' = Call cid f (Some (selects after (Ident i n))) args' /\ List.length args' = List.length args)
  /\ (forall n, named refs id n -> n <> name -> Forall (fun x => unnamed refs (fst x)) fields ->
     exists args', e' = Call cid f (Some (selects fields (Ident id n))) args' /\ List.length args' = List.length args).
Proof.
  intros r cname refs cid f id name fields args above s s' e' b nv pl h.
  destruct (call_shape r cname refs above s cid f _ args s' e' b nv h) as (above' & s1 & s2 & s3 & t' & b' & args' & m1 & hw & hi & _ & la & ->).
  destruct (chain_outcome r cname refs id name fields _ _ _ _ _ pl hw) as (m & o & em).
  assert (keep : forall i, m = Some i -> called r cname cid f t' args' (ToNamespace s3 t') = Call cid f (Some t') args').
  { intros i ->. rewrite (namespace_marked refs id name fields t' i s3 o); [reflexivity|]. apply hi. rewrite em. left. reflexivity. }
  split.
  - intros before i g after n -> hn ha. exists args'. split; [|exact la].
    eapply outcome_select in o as [et e]; [|exact hn|exact ha]. rewrite (keep i e), et. reflexivity.
  - intros n hn ne ha. exists args'. split; [|exact la].
    apply outcome_fields in o as (e0 & o & et); [|exact ha].
    apply outcome_nil in o as [(u & _)|[(hn' & _)|(n' & hn' & _ & e0e & e)]].
    + destruct (named_not_unnamed refs id n hn u).
    + destruct ne. exact (named_fun refs id _ _ hn hn').
    + rewrite (keep id e), et, e0e, (named_fun refs id _ _ hn hn'). reflexivity.
Qed.
Print Assumptions C126_receiver_partial.
Example C126_receiver_example : let r := attempts [entry "a.b.f"; method "f"] [] in
  ResolveReferences 30 r "" false two_references (Call 4 "f" (Some (selects [(2%Z, "b")] (Ident 1 "a"))) [Const 5 (CInt 1)])
  = Some (Call 4 "f" (Some (Ident 2 "a.b")) [Const 5 (CInt 1)], Val true).
Proof. vm_compute. reflexivity. Qed.

(** A receiver without references is a namespace just if a function is found under the
    qualified name: it then is no receiver any more, else nothing changes. *)
Theorem C126_function : forall r cname refs cid f id name fields args above s s' e' b,
  (forall ref, find_reference refs cid = Some ref -> ref_value ref = None) ->
  (forall i, In i (id :: map fst fields) -> unnamed refs i /\ ~ In i (marked s)
     /\ forall a x, In a args -> inside x a -> expr_id x <> i) ->
  rewrites (resolver r cname refs) false above s (Call cid f (Some (selects fields (Ident id name))) args) s' e' b ->
  exists args', List.length args' = List.length args /\
  match BestOverloadMatch r cname (text name fields ++ "." ++ f)%string (List.length args) with
  | Some g => e' = Call cid g None args'
  | None => e' = Call cid f (Some (selects fields (Ident id name))) args'
  end.
Proof.
  intros r cname refs cid f id name fields args above s s' e' b nv pl h.
  destruct (call_shape r cname refs above s cid f _ args s' e' b nv h) as (above' & s1 & s2 & s3 & t' & b' & args' & m1 & hw & hi & hm & la & ->).
  assert (fu : Forall (fun x => unnamed refs (fst x)) fields).
  { apply Forall_forall. intros x ix. apply pl. right. apply in_map, ix. }
  destruct (chain_outcome r cname refs id name fields _ _ _ _ _ (fun i ii => or_introl (proj1 (pl i ii))) hw) as (m & o & em).
  apply outcome_fields in o as (e0 & o & ->); [|exact fu].
  apply outcome_nil in o as [(_ & -> & ->)|[(hn' & _)|(n' & hn' & _)]].
  2,3: destruct (named_not_unnamed refs id _ hn' (proj1 (pl id (or_introl eq_refl)))).
  exists args'. split; [exact la|]. rewrite namespace_plain.
  - unfold called. rewrite la. destruct (BestOverloadMatch _ _ _ _); reflexivity.
  - intros i ii i3. destruct (pl i ii) as (_ & nm & na). destruct (hm i i3) as [i2|(a & x & ia & hx & ex)]; [|exact (na a x ia hx ex)].
    rewrite em in i2. cbn in i2. rewrite m1 in i2. contradiction.
Qed.
Print Assumptions C126_function.
Example C126_function_example : let r := attempts [entry "a.b.f"; method "f"] [] in
  ResolveReferences 30 r "" false [] (Call 4 "f" (Some (selects [(2%Z, "b")] (Ident 1 "a"))) [Const 5 (CInt 1)])
  = Some (Call 4 "a.b.f" None [Const 5 (CInt 1)], Val true)
  /\ ResolveReferences 30 r "" false [] (Call 4 "f" (Some (Ident 1 "a")) [Const 5 (CInt 1)])
     = Some (Call 4 "f" (Some (Ident 1 "a")) [Const 5 (CInt 1)], Val false).
Proof. vm_compute. auto. Qed.

(** A receiver that the references resolve to a variable of just the name that is written is
    still taken for a namespace: x.f(1) becomes the call of a function x.f. *)
Theorem C126_receiver_refuted : exists l refs cid f id name args, let r := attempts l [] in
  named refs id name /\ FindStatic r f true 2 <> []
  /\ ResolveReferences 30 r "" true refs (Call cid f (Some (Ident id name)) args) = Some (Call cid (name ++ "." ++ f) None args, Val true).
Proof.
  exists [entry "x.f"; method "f"], [(1%Z, mkReference "x" false None); (2%Z, mkReference "" true None)], 2%Z, "f", 1%Z, "x", [Const 3 (CInt 1)].
  split; [split; [discriminate|split; [discriminate|]]; eexists; repeat split|]. vm_compute. split; [discriminate|reflexivity].
Qed.
Print Assumptions C126_receiver_refuted.

(** A part for which the references give an integer becomes that integer, whatever it is; any
    other value replaces just identifiers, and null not the one that is null's own name. *)
Theorem C126_constant : forall r cname refs e above s s' e' b ref w, expr_id e <> 0%Z ->
  find_reference refs (expr_id e) = Some ref -> ref_value ref = Some w ->
  rewrites (resolver r cname refs) false above s e s' e' b ->
  match w, e with
  | CInt n, _ => e' = Const (expr_id e) (CInt n)
  | CNull, Ident id name =>
      if String.eqb name "google.protobuf.NullValue.NULL_VALUE" then e' = e else e' = Const id CNull
  | _, Ident id _ => e' = Const id w
  | _, _ => expr_id e' = expr_id e
  end.
Proof.
  intros r cname refs e above s s' e' b ref w n0 hr hw h.
  pose proof h as hh.
  apply rewrites_inv in h as (s1 & e1 & b1 & s2 & e2 & b2 & b3 & pre & parts & post).
  unfold ResolverPreVisit, GetReferenceForId in pre. rewrite hr in pre. apply Z.eqb_neq in n0. rewrite n0, hw in pre.
  assert (leaf : forall x, members (settled e1) = [] -> settled e1 = x -> (forall i f t a, x <> Call i f t a) -> e' = x).
  { intros x m st nc. rewrite m, st in parts. apply parts_nil in parts as [-> ->]. eapply post_plain in post as [-> _]; [reflexivity|exact nc]. }
  assert (idk : e1 = e -> expr_id e' = expr_id e).
  { intros ->. apply parts_id in parts. apply post_id in post. rewrite post, parts. destruct e; reflexivity. }
  destruct w; destruct e; cbn [expr_id] in *;
    try (injection pre as <- <- <-; first [apply leaf; [reflexivity|reflexivity|discriminate]|apply idk; reflexivity]).
  cbn [andb] in pre. destruct (String.eqb name _); injection pre as <- <- <-; (apply leaf; [reflexivity|reflexivity|discriminate]).
Qed.
Print Assumptions C126_constant.
Example C126_constant_example :
  ResolveReferences 20 [] "" false [(2%Z, mkReference "pkg.Enum.TWO" false (Some (CInt 2)))] (selects [(3%Z, "c"); (2%Z, "TWO")] (Ident 1 "Enum"))
  = Some (Const 2 (CInt 2), Val true).
Proof. vm_compute. reflexivity. Qed.

(** A call without receiver keeps its arguments and gets the name under which it is planned;
    a warning is given for it just if there is no such function. *)
Theorem C126_global : forall r cname refs cid f args above s s' e' b,
  (forall ref, find_reference refs cid = Some ref -> ref_value ref = None /\ ref_has_overloads ref = true /\ cid <> 0%Z) ->
  rewrites (resolver r cname refs) false above s (Call cid f None args) s' e' b ->
  (exists args', List.length args' = List.length args /\ e' = Call cid (planned r cname f (List.length args)) None args')
  /\ (BestOverloadMatch r cname f (List.length args) = None -> issues s' <> [])
  /\ (args = [] -> issues s = [] -> (BestOverloadMatch r cname f 0 = None <-> issues s' <> [])).
Proof.
  intros r cname refs cid f args above s s' e' b nv h.
  assert (gi : forall st, exists o, GetReferenceForId refs cid st = (o, st) /\ match o with Some ref => ref_has_overloads ref = true | None => True end).
  { intros st. unfold GetReferenceForId. destruct (find_reference refs cid) as [ref|] eqn:e; [|exists None; auto].
    destruct (nv ref eq_refl) as (_ & ho & n0). apply Z.eqb_neq in n0. rewrite n0. exists (Some ref). split; [reflexivity|exact ho]. }
  assert (h' := h). apply global_shape in h as (args' & s2 & la & e); [|intros ref e; apply (nv ref e)].
  destruct (gi s2) as (o & g & ho). rewrite g in e. cbn [fst snd] in e. unfold MaybeUpdateCallNode in e. rewrite la in e.
  assert (n : (match o with Some ref => if ref_has_overloads ref then s2 else warn s2 "Reference map doesn't provide overloads for " | None => s2 end) = s2).
  { destruct o as [ref|]; [rewrite ho|]; reflexivity. }
  rewrite n in e. split; [|split].
  - exists args'. split; [exact la|]. unfold planned. destruct (BestOverloadMatch r cname f (List.length args)) as [y|] eqn:ey; [|injection e as <- _; reflexivity].
    destruct (String.eqb_spec y f) as [ef|ne]; cbn [negb] in e; injection e as <- _; [rewrite ef|]; reflexivity.
  - intros z. rewrite z in e. injection e as _ <-. discriminate.
  - intros -> i0. split; [intros z; cbn in e; rewrite z in e; injection e as _ <-; discriminate|]. intros ni.
    destruct (BestOverloadMatch r cname f 0) as [g'|] eqn:z; [|reflexivity]. destruct ni.
    apply rewrites_inv in h' as (t1 & x1 & b1 & t2 & x2 & b2 & b3 & pre & parts & post).
    unfold ResolverPreVisit in pre. cbn [expr_id] in pre. destruct (gi s) as (o' & g1 & _). rewrite g1 in pre.
    assert (x1 = Call cid f None [] /\ t1 = s) as [-> ->].
    { destruct o' as [ref|]; [|injection pre as <- _ <-; auto]. assert (ref_value ref = None) as v0.
      { apply nv. unfold GetReferenceForId in g1. destruct (find_reference refs cid); [destruct (cid =? 0)%Z|]; congruence. }
      rewrite v0 in pre. injection pre as <- _ <-. auto. }
    apply parts_nil in parts as [-> ->]. unfold ResolverPostVisit in post. cbn [expr_id settled] in post. rewrite g1 in post.
    assert (ho' : match o' with Some ref => ref_has_overloads ref = true | None => True end).
    { destruct (gi s) as (o2 & g2 & h2). rewrite g1 in g2. injection g2 as ->. exact h2. }
    unfold MaybeUpdateCallNode in post. cbn [List.length] in post. rewrite z in post.
    assert (n2 : (match o' with Some ref => if ref_has_overloads ref then s else warn s "Reference map doesn't provide overloads for " | None => s end) = s).
    { destruct o' as [ref|]; [rewrite ho'|]; reflexivity. }
    rewrite n2 in post. destruct (negb _); injection post as _ _ <-; exact i0.
Qed.
Print Assumptions C126_global.
Example C126_global_example : let r := attempts [entry "a.f"] [] in
  ResolveReferences 30 r "a.b" true [] (Call 4 "f" None [Const 5 (CInt 1)]) = Some (Call 4 "a.f" None [Const 5 (CInt 1)], Val true)
  /\ ResolveReferences 30 r "c" true [] (Call 4 "f" None [Const 5 (CInt 1)]) = Some (Call 4 "f" None [Const 5 (CInt 1)], Err (mkStatus kInvalidArgument no_overload)).
Proof. vm_compute. auto. Qed.

(** A call that keeps its receiver is warned about if no container has a method of that name
    with one more argument. *)
Theorem C126_method : forall r cname refs cid f t args above s s' t' args' b,
  (forall ref, find_reference refs cid = Some ref -> ref_value ref = None) -> ~ In f reserved ->
  (forall n, In n (FullyQualifiedNames cname f) -> FindStatic r n true (S (List.length args)) = [] /\ FindLazy r n true (S (List.length args)) = []) ->
  rewrites (resolver r cname refs) false above s (Call cid f (Some t) args) s' (Call cid f (Some t') args') b -> In no_overload (issues s').
Proof.
  intros r cname refs cid f t args above s s' t' args' b nv nr no h.
  assert (ox : OverloadExists r cname f (List.length args + 1) true = false).
  { rewrite Nat.add_1_r. unfold OverloadExists, ResolveStaticKinds, ResolveLazyKinds. revert no. induction (FullyQualifiedNames cname f) as [|n l IH]; intros no; [reflexivity|].
    cbn [first_found]. destruct (no n (or_introl eq_refl)) as [-> ->]. apply IH. intros m im. apply no. right. exact im. }
  eapply call_warning; [exact nv|exact (special_reserved f nr)|exact ox|exact h].
Qed.
Print Assumptions C126_method.
(** It is not warned about if one has it; here for a receiver that is a plain identifier, no
    arguments and no references. *)
Theorem C126_method_found : forall r cname cid f id name above s s' t' args' b n,
  In n (FullyQualifiedNames cname f) -> FindStatic r n true 1 <> [] \/ FindLazy r n true 1 <> [] ->
  rewrites (resolver r cname []) false above s (Call cid f (Some (Ident id name)) []) s' (Call cid f (Some t') args') b -> issues s' = issues s.
Proof.
  intros r cname cid f id name above s s' t' args' b n i hn h.
  assert (ox : OverloadExists r cname f 1 true = true).
  { unfold OverloadExists, ResolveStaticKinds, ResolveLazyKinds. apply orb_true_iff.
    assert (g : forall F l, In n l -> F n <> @nil M_Expr.overload -> nonempty (first_found F l) = true).
    { intros F l. induction l as [|m l IH]; intros il ne; [destruct il|]. cbn [first_found]. destruct (F m) eqn:em; [|reflexivity].
      destruct il as [->|il]; [contradiction|auto]. }
    destruct hn as [hn|hn]; [left|right]; apply (g _ _ i hn). }
  apply rewrites_inv in h as (s1 & e1 & b1 & s2 & e2 & b2 & b3 & pre & parts & post). injection pre as <- <- <-.
  cbn [settled members held app numbered] in parts. apply parts_cons in parts as (c & s3 & c' & b4 & b5 & above' & hc & hw & hp).
  injection hc as <-. apply parts_nil in hp as [-> ->]. apply rewrites_inv in hw as (s4 & e4 & b6 & s5 & e5 & b7 & b8 & pre & parts & post').
  injection pre as <- <- <-. apply parts_nil in parts as [-> ->]. injection post' as <- <- <-.
  unfold ResolverPostVisit, MaybeUpdateCallNode in post. cbn [with_child expr_id GetReferenceForId find_reference find option_map List.length settled] in post.
  destruct (match ToNamespace s (Ident id name) with Some m => _ | None => _ end) as [g|]; [injection post as _ p _; discriminate|].
  cbn [Nat.add] in post. rewrite ox, andb_false_r in post. injection post as _ _ _ <-. reflexivity.
Qed.
Print Assumptions C126_method_found.
Example C126_method_example : let r := attempts [method "f"] [] in
  ResolveReferences 30 r "a" true [] (Call 4 "f" (Some (Ident 1 "x")) []) = Some (Call 4 "f" (Some (Ident 1 "x")) [], Err (mkStatus kInvalidArgument no_overload))
  /\ ResolveReferences 30 r "a" true [] (Call 4 "f" (Some (Ident 1 "x")) [Ident 2 "y"]) = Some (Call 4 "f" (Some (Ident 1 "x")) [Ident 2 "y"], Val false).
Proof. vm_compute. auto. Qed.

(** If warnings are to fail, the status is the first of them; else there is no error. *)
Theorem C126_status : forall r cname refs e n e' o fail, ResolveReferences n r cname fail refs e = Some (e', o) ->
  exists s' b, rewrites (resolver r cname refs) false (fun _ => []) no_state e s' e' b
  /\ o = match fail, issues s' with
         | true, _ :: _ => Err (mkStatus kInvalidArgument (last (issues s') ""%string))
         | _, _ => Val b
         end.
Proof.
  intros r cname refs e n e' o fail h. unfold ResolveReferences in h. destruct (AstRewrite _ false n no_state e) as [x|] eqn:ea; [|discriminate].
  destruct (C87_defined _ _ _ _ _ _ _ ea) as (s' & e2 & b & ->). injection h as <- <-. exists s', b.
  split; [apply C87_rewrite; eauto|]. destruct fail; [|reflexivity]. destruct (issues s') as [|m l] eqn:ei; [reflexivity|].
  destruct (@exists_last _ (m :: l) ltac:(discriminate)) as (front & z & ->). rewrite rev_app_distr, last_last. cbn. destruct (front ++ [z]) eqn:ez; [destruct front; discriminate|reflexivity].
Qed.
Print Assumptions C126_status.
