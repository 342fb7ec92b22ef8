(* Lemmas about resolving references. *)
From Coq Require Import ZArith String Ascii List Bool Lia.
From Verif Require Import Base M_Ast S_Ast L_Ast M_Registry M_Namespace P_Names.
From Verif Require M_Expr.
From Verif Require Import M_Resolve S_Resolve.
Import ListNotations.
Open Scope list_scope.

(** ** Names of functions *)
Lemma first_found_map f (g : string -> string) l : first_found f (map g l) = first_found (fun p => f (g p)) l.
Proof. induction l as [|x l IH]; cbn; [reflexivity|]. rewrite IH. reflexivity. Qed.
Lemma ResolveStatic_kinds r c name b n : ResolveStatic r c name b n = ResolveStaticKinds r c name b n.
Proof. unfold ResolveStatic, ResolveStaticKinds, FullyQualifiedNames. destruct (GetPrefixesFor _ _) as [l m]. symmetry. apply first_found_map. Qed.

Lemma first_found_none f l : (forall x, In x l -> f x = []) -> first_found f l = [].
Proof. induction l as [|x l IH]; intros h; cbn; [reflexivity|]. rewrite (h x) by (left; reflexivity). apply IH. intros y i. apply h. right. exact i. Qed.
Lemma first_found_app f l l' : first_found f (l ++ l') = match first_found f l with [] => first_found f l' | fs => fs end.
Proof. induction l as [|x l IH]; cbn; [destruct (first_found f l'); reflexivity|]. destruct (f x); [exact IH|reflexivity]. Qed.

Definition inner (cs : list string) : list (list string) := map (fun k => firstn k cs) (rev (seq 1 (List.length cs))).
Lemma enclosing_inner cs : enclosing cs = inner cs ++ [[]].
Proof. apply enclosing_split. Qed.
Lemma inner_nonempty cs c : In c (inner cs) -> c <> [].
Proof.
  unfold inner. rewrite in_map_iff. intros (k & <- & i). apply in_rev, in_seq in i. destruct cs as [|x cs]; [cbn in i; lia|]. destruct k; [lia|]. discriminate.
Qed.
Lemma enclosing_segments cs c : Forall segment cs -> In c (enclosing cs) -> Forall segment c.
Proof.
  intros h i. unfold enclosing in i. apply in_map_iff in i as (k & <- & _). rewrite Forall_forall in *. intros x ix. apply h. rewrite <- (firstn_skipn k cs). apply in_or_app. left. exact ix.
Qed.

Section Names.
Context (r : full_registry) (cs : list string) (cname n0 : string) (ns : list string) (arity : nat).
Hypothesis Hc : path cs cname.
Hypothesis Hn : Forall segment (n0 :: ns).
Hypothesis Hu : unambiguous r cs (n0 :: ns) arity.
Hypothesis Hl : forall n, FindLazy r n false arity = [].
Local Notation F := (fun n => FindStatic r n false arity).
Local Notation cand := (fun c => join (c ++ n0 :: ns)).
Local Notation total := (first_found F (map cand (enclosing cs))).

Lemma kinds_cons q0 q : Forall segment (q0 :: q) ->
  ResolveStaticKinds r cname (join (q0 :: q)) false arity = first_found F (map (fun c => join (c ++ q0 :: q)) (enclosing cs)).
Proof.
  intros h. unfold ResolveStaticKinds. destruct (C34_runtime cs cname q0 q (join (q0 :: q)) Hc (conj h eq_refl)) as [-> _]. reflexivity.
Qed.
Lemma kinds_candidate c : In c (enclosing cs) -> c <> [] -> ResolveStaticKinds r cname (cand c) false arity = F (cand c).
Proof.
  intros i ne. pose proof (enclosing_segments cs c (proj1 Hc) i) as hc.
  destruct c as [|q0 q]; [congruence|]. cbn [app]. rewrite kinds_cons.
  2:{ change (q0 :: q ++ n0 :: ns) with ((q0 :: q) ++ n0 :: ns). apply Forall_app. auto. }
  rewrite enclosing_inner, map_app, first_found_app, first_found_none.
  - cbn. destruct (FindStatic _ _ _ _); reflexivity.
  - intros x ix. apply in_map_iff in ix as (c & <- & ic). apply (Hu c (q0 :: q)); [| exact i | apply (inner_nonempty cs), ic | exact ne].
    rewrite enclosing_inner. apply in_or_app. auto.
Qed.
Lemma kinds_root : ResolveStaticKinds r cname (join (n0 :: ns)) false arity = total.
Proof. apply kinds_cons, Hn. Qed.

Lemma lazy_none name : ResolveLazyKinds r cname name false arity = [].
Proof. apply first_found_none. intros. apply Hl. Qed.

Lemma exists_static name : OverloadExists r cname name arity false = nonempty (ResolveStaticKinds r cname name false arity).
Proof. unfold OverloadExists. rewrite lazy_none. apply orb_false_r. Qed.

Lemma best_loop_spec base l : starts_dot base = false -> incl l (inner cs) -> total = first_found F (map cand (l ++ [[]])) ->
  match best_loop r cname base arity (map cand (l ++ [[]])) with
  | Some f => ResolveStaticKinds r cname f false arity = total /\ total <> []
  | None => total = []
  end.
Proof.
  intros sd. induction l as [|c l IH]; intros hi ht; cbn [app map best_loop]; rewrite exists_static, sd.
  - rewrite kinds_root. destruct total eqn:e; cbn [nonempty]; [reflexivity|]. rewrite kinds_root, e. split; [reflexivity|discriminate].
  - assert (ic : In c (inner cs)) by (apply hi; left; reflexivity).
    assert (ie : In c (enclosing cs)) by (rewrite enclosing_inner; apply in_or_app; auto).
    rewrite (kinds_candidate c ie (inner_nonempty cs c ic)). cbn [app map first_found] in ht.
    destruct (F (cand c)) as [|o os] eqn:e; cbn [nonempty].
    + apply IH; [|exact ht]. intros x ix. apply hi. right. exact ix.
    + rewrite (kinds_candidate c ie (inner_nonempty cs c ic)), e, ht. split; [reflexivity|discriminate].
Qed.

Lemma best_spec : IsSpecialFunction (join (n0 :: ns)) = false ->
  match BestOverloadMatch r cname (join (n0 :: ns)) arity with
  | Some f => ResolveStaticKinds r cname f false arity = total /\ total <> []
  | None => total = []
  end.
Proof.
  intros sp. unfold BestOverloadMatch. rewrite sp.
  destruct (C34_runtime cs cname n0 ns (join (n0 :: ns)) Hc (conj Hn eq_refl)) as [-> _].
  pose proof (best_loop_spec (join (n0 :: ns)) (inner cs)) as h. rewrite <- enclosing_inner in h.
  apply h; [apply (path_start (n0 :: ns)); split; [exact Hn|reflexivity]|apply incl_refl|reflexivity].
Qed.

Lemma ResolveLazy_none name : ResolveLazy r cname name false arity = [].
Proof. unfold ResolveLazy. destruct (GetPrefixesFor _ _) as [l m]. apply first_found_none. intros. apply Hl. Qed.
Lemma ResolveCall_static name : ResolveCall r cname name false arity = ResolveStaticKinds r cname name false arity.
Proof. unfold ResolveCall. rewrite ResolveLazy_none. apply ResolveStatic_kinds. Qed.

Lemma planned_total : IsSpecialFunction (join (n0 :: ns)) = false ->
  ResolveCall r cname (planned r cname (join (n0 :: ns)) arity) false arity = total
  /\ (BestOverloadMatch r cname (join (n0 :: ns)) arity = None <-> total = []).
Proof.
  intros sp. pose proof (best_spec sp) as h. unfold planned. rewrite ResolveCall_static.
  destruct (BestOverloadMatch r cname (join (n0 :: ns)) arity) as [f|].
  - destruct h as [h n]. split; [exact h|]. split; [discriminate|]. intros e. congruence.
  - split; [apply kinds_root|]. tauto.
Qed.
End Names.
