(* Lemmas about rewriting with the resolver. *)
From Coq Require Import ZArith String Ascii List Bool Lia.
From Verif Require Import Base M_Ast S_Ast L_Ast M_Registry M_Namespace M_Rewrite S_Rewrite L_Rewrite P_Rewrite.
From Verif Require M_Expr.
From Verif Require Import M_Resolve S_Resolve.
Import ListNotations.
Open Scope list_scope.

Section Resolver.
Context (r : full_registry) (cname : string) (refs : ReferenceMap).
Local Notation v := (resolver r cname refs).
Local Notation RW := (rewrites v false).
Local Notation RP := (rewrites_parts v false).

Lemma told_id s evs : told v s evs = s.
Proof. unfold told. induction evs as [|e evs IH]; [reflexivity|exact IH]. Qed.

Lemma rewrites_inv above s e s' e' b : RW above s e s' e' b ->
  exists s1 e1 b1 s2 e2 b2 b3, ResolverPreVisit refs e s = (e1, b1, s1)
    /\ RP above (members (settled e1)) s1 (settled e1) s2 e2 b2
    /\ ResolverPostVisit r cname refs e2 s2 = (e', b3, s').
Proof.
  intros h. inversion h as [? ? ? s1 e1 b1 s2 e2 b2 s3 e3 b3 pre parts post]; subst. cbn in pre, post. rewrite told_id in parts, post.
  destruct (ResolverPreVisit refs e s) as [[x y] z] eqn:ep. injection pre as -> -> ->.
  destruct (ResolverPostVisit r cname refs e2 s2) as [[x y] z] eqn:eq. injection post as -> -> ->.
  exists s1, e1, b1, s2, e2, b2, b3. auto.
Qed.

Lemma parts_nil above s e s' e' b : RP above [] s e s' e' b -> s' = s /\ e' = e.
Proof. intros h. inversion h; subst. auto. Qed.
Lemma parts_cons above k ks s e s' e' b : RP above (k :: ks) s e s' e' b ->
  exists c s1 c' b1 b2 above', child k e = Some c /\ RW above' s c s1 c' b1 /\ RP above ks s1 (with_child k e c') s' e' b2.
Proof.
  intros h. inversion h as [|? ? ? ? ? c s1 c' b1 s2 e2 b2 hc hw hp]; subst. rewrite told_id in hw, hp.
  exists c, s1, c', b1, b2. eexists. split; [exact hc|]. split; [exact hw|exact hp].
Qed.

(** ** References *)
Lemma get_unnamed id st : unnamed refs id -> exists st', marked st' = marked st
  /\ (GetReferenceForId refs id st = (None, st')
      \/ exists ref, GetReferenceForId refs id st = (Some ref, st') /\ ref_value ref = None /\ ref_name ref = ""%string).
Proof.
  intros h. unfold GetReferenceForId. destruct (find_reference refs id) as [ref|] eqn:e; [|eauto].
  destruct (Z.eqb_spec id 0) as [->|n]; [exists (warn st "reference map entries for expression id 0 are not supported"); split; [reflexivity|auto]|].
  exists st. split; [reflexivity|]. destruct h as [h|[h|(ref' & a & b & c)]]; [congruence|congruence|]. rewrite e in a. injection a as <-. right. eauto.
Qed.
Lemma get_marked id st ref st' : GetReferenceForId refs id st = (ref, st') -> marked st' = marked st.
Proof. unfold GetReferenceForId. destruct (find_reference refs id); [destruct (id =? 0)%Z|]; intros [= <- <-]; reflexivity. Qed.

Lemma pre_unnamed e st : unnamed refs (expr_id e) -> exists b st', ResolverPreVisit refs e st = (e, b, st') /\ marked st' = marked st.
Proof.
  intros h. unfold ResolverPreVisit. destruct (get_unnamed _ st h) as (st' & m & [->|(ref & -> & v0 & n0)]); [eauto|].
  rewrite v0. destruct e; try (eexists _, st'; split; [reflexivity|exact m]).
  - cbn. rewrite n0. cbn. eauto.
  - cbn. destruct test_only; [|rewrite n0; cbn; eauto]. do 2 eexists. split; [reflexivity|exact m].
Qed.
Lemma post_plain e st e' b st' : (forall i f t a, e <> Call i f t a) -> ResolverPostVisit r cname refs e st = (e', b, st') ->
  e' = e /\ marked st' = marked st.
Proof.
  intros h. unfold ResolverPostVisit. destruct (GetReferenceForId refs (expr_id e) st) as [ref s1] eqn:g. apply get_marked in g.
  destruct e; try (intros [= <- <- <-]; auto). destruct (h id function target args). reflexivity.
Qed.

(** ** Qualified names *)
(* what becomes of a qualified name, with the id that is marked *)
Inductive outcome (id : Z) (name : string) : list (Z * string) -> Expr -> option Z -> Prop :=
| out_ident : unnamed refs id -> outcome id name [] (Ident id name) None
| out_ident_same : named refs id name -> outcome id name [] (Ident id name) None
| out_ident_other n : named refs id n -> n <> name -> outcome id name [] (Ident id n) (Some id)
| out_select fields i f n : named refs i n -> outcome id name (fields ++ [(i, f)]) (Ident i n) (Some i)
| out_deeper fields i f e m : unnamed refs i -> outcome id name fields e m ->
    outcome id name (fields ++ [(i, f)]) (Select i (Some e) f false) m.

Definition marks (o : option Z) : list Z := match o with Some i => [i] | None => [] end.
Definition plainly (id : Z) (fields : list (Z * string)) : Prop :=
  forall i, In i (id :: map fst fields) -> unnamed refs i \/ exists n, named refs i n.

Lemma selects_snoc fields i f e : selects (fields ++ [(i, f)]) e = Select i (Some (selects fields e)) f false.
Proof. unfold selects. rewrite fold_left_app. reflexivity. Qed.

Lemma get_named id n st : named refs id n -> exists ref, GetReferenceForId refs id st = (Some ref, st) /\ ref_value ref = None /\ ref_name ref = n /\ n <> ""%string.
Proof.
  intros (nz & ne & ref & a & b & c). exists ref. unfold GetReferenceForId. rewrite a. apply Z.eqb_neq in nz. rewrite nz. auto.
Qed.

Lemma chain_outcome id name fields : forall above s s' e' b, plainly id fields ->
  RW above s (selects fields (Ident id name)) s' e' b ->
  exists m, outcome id name fields e' m /\ marked s' = marks m ++ marked s.
Proof.
  induction fields as [|[i f] fields IH] using rev_ind; intros above s s' e' b pl h.
  - cbn in h. apply rewrites_inv in h as (s1 & e1 & b1 & s2 & e2 & b2 & b3 & pre & parts & post).
    destruct (pl id (or_introl eq_refl)) as [u|(n & hn)].
    + destruct (pre_unnamed (Ident id name) s u) as (b0 & st & e0 & m0). rewrite e0 in pre. injection pre as <- <- <-.
      cbn in parts. apply parts_nil in parts as [-> ->]. apply post_plain in post as [-> m1]; [|discriminate].
      exists None. split; [constructor; exact u|]. cbn. congruence.
    + unfold ResolverPreVisit in pre. destruct (get_named id n s hn) as (ref & g & rv & rn & ne). cbn [expr_id] in pre. rewrite g, rv in pre.
      cbn [MaybeUpdateIdentNode] in pre. rewrite rn, (proj2 (String.eqb_neq _ _) ne) in pre. cbn [negb andb] in pre.
      destruct (String.eqb_spec n name) as [en|nn]; cbn [negb] in pre; injection pre as <- <- <-; cbn in parts; apply parts_nil in parts as [-> ->];
        apply post_plain in post as [-> m1]; try discriminate.
      * exists None. split; [apply out_ident_same; rewrite <- en; exact hn|exact m1].
      * exists (Some id). split; [apply out_ident_other; assumption|]. rewrite m1. reflexivity.
  - rewrite selects_snoc in h. apply rewrites_inv in h as (s1 & e1 & b1 & s2 & e2 & b2 & b3 & pre & parts & post).
    assert (pi : unnamed refs i \/ exists n, named refs i n) by (apply pl; right; rewrite map_app; apply in_or_app; right; left; reflexivity).
    destruct pi as [u|(n & hn)].
    + destruct (pre_unnamed (Select i (Some (selects fields (Ident id name))) f false) s u) as (b0 & st & e0 & m0). rewrite e0 in pre. injection pre as <- <- <-.
      cbn [settled members held] in parts. apply parts_cons in parts as (c & s3 & c' & b4 & b5 & above' & hc & hw & hp).
      cbn in hc. injection hc as <-. apply parts_nil in hp as [-> ->]. cbn [with_child] in post.
      apply IH in hw as (m & o & em).
      2:{ intros j ij. apply pl. destruct ij as [->|ij]; [left; reflexivity|]. right. rewrite map_app. apply in_or_app. left. exact ij. }
      apply post_plain in post as [-> m1]; [|discriminate]. exists m. split; [apply out_deeper; assumption|]. congruence.
    + unfold ResolverPreVisit in pre. destruct (get_named i n s hn) as (ref & g & rv & rn & ne). cbn [expr_id] in pre. rewrite g, rv in pre.
      cbn [MaybeUpdateSelectNode] in pre. rewrite rn, (proj2 (String.eqb_neq _ _) ne) in pre. cbn [negb] in pre. injection pre as <- <- <-.
      cbn in parts. apply parts_nil in parts as [-> ->]. apply post_plain in post as [-> m1]; [|discriminate].
      exists (Some i). split; [apply out_select; exact hn|]. rewrite m1. reflexivity.
Qed.

(** ** Marks *)
Lemma pre_marks e st e' b st' : ResolverPreVisit refs e st = (e', b, st') ->
  (e' = e \/ parts e' = []) /\ expr_id e' = expr_id e /\ forall i, In i (marked st') -> In i (marked st) \/ i = expr_id e.
Proof.
  unfold ResolverPreVisit. destruct (GetReferenceForId refs (expr_id e) st) as [ref s1] eqn:g. apply get_marked in g.
  assert (triv : forall x, marked x = marked s1 -> forall i, In i (marked x) -> In i (marked st) \/ i = expr_id e) by (intros x ex i ii; left; congruence).
  destruct ref as [ref|]; [|intros [= <- <- <-]; split; [left; reflexivity|split; [reflexivity|apply triv; reflexivity]]].
  destruct (ref_value ref) as [v0|].
  - destruct v0; try (intros [= <- <- <-]; split; [right; reflexivity|split; [reflexivity|apply triv; reflexivity]]);
    (destruct e; try (intros [= <- <- <-]; split; [left; reflexivity|split; [reflexivity|apply triv; reflexivity]]));
    try (destruct (_ && _)); intros [= <- <- <-]; (split; [try (left; reflexivity); right; reflexivity|split; [reflexivity|apply triv; reflexivity]]).
  - destruct e; try (intros [= <- <- <-]; split; [left; reflexivity|split; [reflexivity|apply triv; reflexivity]]).
    + cbn. destruct (_ && _); intros [= <- <- <-]; (split; [right; reflexivity|split; [reflexivity|]]); [|apply triv; reflexivity].
      cbn. intros i [<-|ii]; [auto|]. left. congruence.
    + cbn. destruct test_only; [intros [= <- <- <-]; split; [left; reflexivity|split; [reflexivity|apply triv; reflexivity]]|].
      destruct (negb _); intros [= <- <- <-]; (split; [try (left; reflexivity); right; reflexivity|split; [reflexivity|]]); [|apply triv; reflexivity].
      cbn. intros i [<-|ii]; [auto|]. left. congruence.
Qed.
Lemma post_marks e st e' b st' : ResolverPostVisit r cname refs e st = (e', b, st') -> marked st' = marked st.
Proof.
  unfold ResolverPostVisit. destruct (GetReferenceForId refs (expr_id e) st) as [ref s1] eqn:g. apply get_marked in g. rewrite <- g. clear g.
  destruct e; try (intros [= <- <- <-]; reflexivity). unfold MaybeUpdateCallNode.
  set (s2 := match ref with Some _ => _ | None => _ end). assert (m2 : marked s2 = marked s1) by (unfold s2; destruct ref as [x|]; [destruct (ref_has_overloads x)|]; reflexivity).
  rewrite <- m2. clearbody s2. destruct target as [t|].
  - destruct (match ToNamespace s2 t with Some _ => _ | None => _ end); [intros [= <- <- <-]; reflexivity|].
    destruct (_ && _); intros [= <- <- <-]; reflexivity.
  - destruct (BestOverloadMatch _ _ _ _); [|intros [= <- <- <-]; reflexivity]. destruct (negb _); intros [= <- <- <-]; reflexivity.
Qed.

Lemma marks_inside :
  (forall above s e s' e' b, RW above s e s' e' b -> forall i, In i (marked s') -> In i (marked s) \/ exists x, inside x e /\ expr_id x = i)
  /\ (forall above ks s e s' e' b, RP above ks s e s' e' b -> NoDup ks -> forall i, In i (marked s') ->
       In i (marked s) \/ exists k c x, In k ks /\ child k e = Some c /\ inside x c /\ expr_id x = i).
Proof.
  apply (rewrites_both rstate v false).
  - intros above s e s1 e1 b1 s2 e2 b2 s3 e3 b3 pre _ IH post i ii. cbn in pre, post, ii. rewrite !told_id in *.
    destruct (ResolverPreVisit refs e s) as [[x y] z] eqn:ep. injection pre as -> -> ->.
    destruct (ResolverPostVisit r cname refs e2 s2) as [[x y] z] eqn:eq. injection post as -> -> ->.
    apply post_marks in eq. rewrite eq in ii. apply pre_marks in ep as (sh & _ & mk).
    destruct (IH (members_nodup _) i ii) as [i1|(k & c & x & ik & hc & hx & ex)].
    + destruct (mk i i1) as [|ei]; [auto|]. right. exists e. subst i. split; [constructor|reflexivity].
    + right. exists x. split; [|exact ex]. apply member_part in ik as (c' & hc' & ip). rewrite hc in hc'. injection hc' as <-.
      destruct sh as [->|no]; [|rewrite no in ip; destruct ip]. apply inside_part with c; [|exact hx].
      unfold children. apply in_map_iff. exists (role_of k, c). auto.
  - auto.
  - intros above k ks s e c s1 c' b1 s2 e' b2 hc _ IH1 _ IH2 nd i ii. rewrite told_id in *. inversion nd as [|? ? nk nks]; subst.
    destruct (IH2 nks i ii) as [i1|(k' & d & x & ik & hd & hx & ex)].
    + destruct (IH1 i i1) as [|(x & hx & ex)]; [auto|]. right. exists k, c, x. split; [left; reflexivity|auto].
    + right. exists k', d, x. split; [right; exact ik|]. split; [|auto]. rewrite <- hd. symmetry. apply with_other. intros ->. contradiction.
Qed.

Lemma pre_grow e st e' b st' : ResolverPreVisit refs e st = (e', b, st') -> incl (marked st) (marked st').
Proof.
  unfold ResolverPreVisit. destruct (GetReferenceForId refs (expr_id e) st) as [ref s1] eqn:g. apply get_marked in g. rewrite <- g. clear g.
  assert (m : forall i, incl (marked s1) (marked (mark s1 i))) by (intros i x ix; right; exact ix).
  destruct ref as [ref|]; [|intros [= <- <- <-]; apply incl_refl].
  destruct (ref_value ref) as [v0|].
  - destruct v0, e; try destruct (_ && _); intros [= <- <- <-]; apply incl_refl.
  - destruct e; try (intros [= <- <- <-]; apply incl_refl).
    + cbn. destruct (_ && _); intros [= <- <- <-]; [apply m|apply incl_refl].
    + cbn. destruct test_only; [intros [= <- <- <-]; apply incl_refl|]. destruct (negb _); intros [= <- <- <-]; [apply m|apply incl_refl].
Qed.
Lemma pre_size e st : (size (fst (fst (ResolverPreVisit refs e st))) <= size e)%nat.
Proof.
  unfold ResolverPreVisit. destruct (GetReferenceForId refs (expr_id e) st) as [ref s1].
  destruct ref as [ref|]; [|apply le_n].
  pose proof (size_pos e) as p. destruct (ref_value ref) as [v0|].
  - destruct v0, e; try destruct (_ && _); cbn [fst]; try apply le_n; cbn [size] in *; lia.
  - destruct e; try apply le_n.
    + cbn [MaybeUpdateIdentNode]. destruct (_ && _); apply le_n.
    + cbn [MaybeUpdateSelectNode]. destruct test_only; [apply le_n|]. destruct (negb _); [|apply le_n]. cbn [fst size] in *. lia.
Qed.

Lemma marks_grow :
  (forall above s e s' e' b, RW above s e s' e' b -> incl (marked s) (marked s'))
  /\ (forall above ks s e s' e' b, RP above ks s e s' e' b -> incl (marked s) (marked s')).
Proof.
  apply (rewrites_both rstate v false).
  - intros above s e s1 e1 b1 s2 e2 b2 s3 e3 b3 pre _ IH post. cbn in pre, post. rewrite !told_id in *. cbn.
    destruct (ResolverPreVisit refs e s) as [[x y] z] eqn:ep. injection pre as -> -> ->.
    destruct (ResolverPostVisit r cname refs e2 s2) as [[x y] z] eqn:eq. injection post as -> -> ->.
    apply post_marks in eq. rewrite eq. apply pre_grow in ep. eapply incl_tran; eassumption.
  - intros. apply incl_refl.
  - intros above k ks s e c s1 c' b1 s2 e' b2 hc _ IH1 _ IH2. rewrite told_id in *. eapply incl_tran; eassumption.
Qed.

(** ** Calls *)
Lemma args_parts ks : forall above s id f t args s' e' b, (forall k, In k ks -> exists i, k = InArg i) ->
  RP above ks s (Call id f t args) s' e' b -> exists args', e' = Call id f t args' /\ List.length args' = List.length args.
Proof.
  induction ks as [|k ks IH]; intros above s id f t args s' e' b hk h.
  - apply parts_nil in h as [_ ->]. eauto.
  - apply parts_cons in h as (c & s1 & c' & b1 & b2 & above' & hc & _ & hp).
    destruct (hk k (or_introl eq_refl)) as [i ->]. cbn [with_child] in hp. apply IH in hp as (args' & -> & l).
    + exists args'. split; [reflexivity|]. rewrite l. clear. revert i. induction args as [|x args IH]; intros [|i]; cbn; auto.
    + intros k ik. apply hk. right. exact ik.
Qed.
Lemma to_namespace_marks st st' e : marked st = marked st' -> ToNamespace st e = ToNamespace st' e.
Proof.
  intros m. revert e. fix IH 1. intros e. destruct e; cbn; rewrite m; try reflexivity. destruct operand as [o|]; [|reflexivity]. rewrite (IH o). reflexivity.
Qed.

Definition called (id : Z) (f : string) (t : Expr) (args' : list Expr) (ns : option string) : Expr :=
  match (match ns with Some n => BestOverloadMatch r cname (n ++ "." ++ f)%string (List.length args') | None => None end) with
  | Some g => Call id g None args'
  | None => Call id f (Some t) args'
  end.
Lemma call_shape above s id f t args s' e' b : (forall ref, find_reference refs id = Some ref -> ref_value ref = None) ->
  RW above s (Call id f (Some t) args) s' e' b ->
  exists above' s1 s2 s3 t' b' args', marked s1 = marked s /\ RW above' s1 t s2 t' b' /\ incl (marked s2) (marked s3)
    /\ (forall i, In i (marked s3) -> In i (marked s2) \/ exists a x, In a args /\ inside x a /\ expr_id x = i)
    /\ List.length args' = List.length args /\ e' = called id f t' args' (ToNamespace s3 t').
Proof.
  intros nv h. apply rewrites_inv in h as (s1 & e1 & b1 & s2 & e2 & b2 & b3 & pre & parts & post).
  assert (p : e1 = Call id f (Some t) args /\ marked s1 = marked s).
  { unfold ResolverPreVisit in pre. cbn [expr_id] in pre. destruct (GetReferenceForId refs id s) as [ref s0] eqn:g.
    assert (gm := get_marked _ _ _ _ g). destruct ref as [ref|]; [|injection pre as <- <- <-; auto].
    assert (v0 : ref_value ref = None).
    { apply nv. unfold GetReferenceForId in g. destruct (find_reference refs id); [destruct (id =? 0)%Z|]; congruence. }
    rewrite v0 in pre. injection pre as <- <- <-. auto. }
  destruct p as [-> m1]. cbn [settled members held app] in parts.
  apply parts_cons in parts as (c & s3 & t' & b4 & b5 & above' & hc & hw & hp). cbn in hc. injection hc as <-. cbn [with_child] in hp.
  assert (ka : forall k, In k (numbered (fun i _ => [InArg i]) 0 args) -> exists i, k = InArg i).
  { intros k ik. apply in_numbered in ik as (j & x & _ & [<-|[]]). eauto. }
  pose proof (args_parts _ _ _ _ _ _ _ _ _ _ ka hp) as (args' & -> & la).
  exists above', s1, s3, s2, t', b4, args'. split; [exact m1|]. split; [exact hw|].
  split; [exact (proj2 marks_grow _ _ _ _ _ _ _ hp)|]. split; [|split; [exact la|]].
  - intros i ii. assert (nd : NoDup (numbered (fun i (_ : Expr) => [InArg i]) 0 args)).
    { pose proof (members_nodup (Call id f None args)) as n. exact n. }
    destruct (proj2 marks_inside _ _ _ _ _ _ _ hp nd i ii) as [|(k & c & x & ik & hk & hx & ex)]; [auto|]. right.
    destruct (ka k ik) as [j ->]. cbn in hk. apply nth_error_In in hk. eauto.
  - unfold ResolverPostVisit in post. cbn [expr_id] in post. destruct (GetReferenceForId refs id s2) as [ref s0] eqn:g. apply get_marked in g.
    unfold MaybeUpdateCallNode in post. set (s4 := match ref with Some _ => _ | None => _ end) in post.
    assert (m4 : marked s4 = marked s2) by (unfold s4; destruct ref as [x|]; [destruct (ref_has_overloads x)|]; exact g).
    rewrite (to_namespace_marks s4 s2 t' m4) in post. unfold called.
    destruct (match ToNamespace s2 t' with Some n => _ | None => _ end) as [g'|]; [injection post as <- _ _; reflexivity|].
    destruct (_ && _); injection post as <- _ _; reflexivity.
Qed.

Lemma with_child_id k e c : expr_id (with_child k e c) = expr_id e.
Proof. destruct k, e; try reflexivity; cbn; repeat match goal with |- context [match ?x with _ => _ end] => destruct x end; reflexivity. Qed.
Lemma parts_id above ks s e s' e' b : RP above ks s e s' e' b -> expr_id e' = expr_id e.
Proof.
  revert s e b. induction ks as [|k ks IH]; intros s e b h; [apply parts_nil in h as [_ ->]; reflexivity|].
  apply parts_cons in h as (c & s1 & c' & b1 & b2 & above' & _ & _ & hp). apply IH in hp. rewrite hp. apply with_child_id.
Qed.
Lemma post_id e st e' b st' : ResolverPostVisit r cname refs e st = (e', b, st') -> expr_id e' = expr_id e.
Proof.
  unfold ResolverPostVisit. destruct (GetReferenceForId refs (expr_id e) st) as [ref s1]. destruct e; try (intros [= <- <- <-]; reflexivity).
  unfold MaybeUpdateCallNode. destruct target as [t|].
  - destruct (match ToNamespace _ t with Some n => _ | None => _ end) as [g'|]; [intros [= <- _ _]; reflexivity|].
    destruct (_ && _); intros [= <- _ _]; reflexivity.
  - destruct (BestOverloadMatch _ _ _ _); [destruct (negb _)|]; intros [= <- _ _]; reflexivity.
Qed.

Lemma global_shape above s id f args s' e' b : (forall ref, find_reference refs id = Some ref -> ref_value ref = None) ->
  RW above s (Call id f None args) s' e' b ->
  exists args' s2, List.length args' = List.length args
    /\ MaybeUpdateCallNode r cname (fst (GetReferenceForId refs id s2)) (Call id f None args') (snd (GetReferenceForId refs id s2)) = (e', match BestOverloadMatch r cname f (List.length args) with Some g => negb (String.eqb g f) | None => false end, s').
Proof.
  intros nv h. apply rewrites_inv in h as (s1 & e1 & b1 & s2 & e2 & b2 & b3 & pre & parts & post).
  assert (p : e1 = Call id f None args).
  { unfold ResolverPreVisit in pre. cbn [expr_id] in pre. destruct (GetReferenceForId refs id s) as [ref s0] eqn:g.
    destruct ref as [ref|]; [|injection pre as <- <- <-; auto].
    assert (v0 : ref_value ref = None).
    { apply nv. unfold GetReferenceForId in g. destruct (find_reference refs id); [destruct (id =? 0)%Z|]; congruence. }
    rewrite v0 in pre. injection pre as <- <- <-. auto. }
  subst e1. cbn [settled members held app] in parts.
  assert (ka : forall k, In k (numbered (fun i _ => [InArg i]) 0 args) -> exists i, k = InArg i).
  { intros k ik. apply in_numbered in ik as (j & x & _ & [<-|[]]). eauto. }
  pose proof (args_parts _ _ _ _ _ _ _ _ _ _ ka parts) as (args' & -> & la).
  exists args', s2. split; [exact la|]. unfold ResolverPostVisit in post. cbn [expr_id] in post.
  destruct (GetReferenceForId refs id s2) as [ref s0]. cbn [fst snd]. unfold MaybeUpdateCallNode in post |- *. rewrite la in *.
  destruct (BestOverloadMatch _ _ _ _) as [g|]; [destruct (negb _)|]; injection post as <- <- <-; reflexivity.
Qed.

Lemma call_warning above s id f t args s' t2 args2 b : (forall ref, find_reference refs id = Some ref -> ref_value ref = None) ->
  IsSpecialFunction f = false -> OverloadExists r cname f (List.length args + 1) true = false ->
  RW above s (Call id f (Some t) args) s' (Call id f (Some t2) args2) b -> In no_overload (issues s').
Proof.
  intros nv sp ox h. apply rewrites_inv in h as (s1 & e1 & b1 & s2 & e2 & b2 & b3 & pre & parts & post).
  assert (p : e1 = Call id f (Some t) args).
  { unfold ResolverPreVisit in pre. cbn [expr_id] in pre. destruct (GetReferenceForId refs id s) as [ref s0] eqn:g.
    destruct ref as [ref|]; [|injection pre as <- <- <-; auto].
    assert (v0 : ref_value ref = None).
    { apply nv. unfold GetReferenceForId in g. destruct (find_reference refs id); [destruct (id =? 0)%Z|]; congruence. }
    rewrite v0 in pre. injection pre as <- <- <-. auto. }
  subst e1. cbn [settled members held app] in parts.
  apply parts_cons in parts as (c & s3 & t' & b4 & b5 & above' & hc & hw & hp). cbn in hc. injection hc as <-. cbn [with_child] in hp.
  assert (ka : forall k, In k (numbered (fun i _ => [InArg i]) 0 args) -> exists i, k = InArg i).
  { intros k ik. apply in_numbered in ik as (j & x & _ & [<-|[]]). eauto. }
  pose proof (args_parts _ _ _ _ _ _ _ _ _ _ ka hp) as (args' & -> & la).
  unfold ResolverPostVisit in post. cbn [expr_id] in post. destruct (GetReferenceForId refs id s2) as [ref s0].
  unfold MaybeUpdateCallNode in post. set (s4 := match ref with Some _ => _ | None => _ end) in post. rewrite la, sp, ox in post.
  destruct (match ToNamespace s4 t' with Some n => _ | None => _ end) as [g'|]; [discriminate|].
  cbn in post. injection post as _ _ _ <-. left. reflexivity.
Qed.

(** ** Namespaces *)
Lemma namespace_marked id name fields e m s : outcome id name fields e (Some m) -> In m (marked s) -> ToNamespace s e = None.
Proof.
  intros h i. assert (x : existsb (Z.eqb m) (marked s) = true) by (apply existsb_exists; exists m; split; [exact i|apply Z.eqb_refl]).
  remember (Some m) as o eqn:eo. induction h; try discriminate; try (injection eo as ->; cbn; rewrite x; reflexivity).
  cbn [ToNamespace expr_id]. rewrite (IHh eo). destruct (existsb (Z.eqb i0) (marked s)); reflexivity.
Qed.
Lemma text_snoc name fields i f : text name (fields ++ [(i, f)]) = (text name fields ++ "." ++ f)%string.
Proof. unfold text. rewrite fold_left_app. reflexivity. Qed.
Lemma namespace_plain id name s fields : (forall i, In i (id :: map fst fields) -> ~ In i (marked s)) ->
  ToNamespace s (selects fields (Ident id name)) = Some (text name fields).
Proof.
  induction fields as [|[i f] fields IH] using rev_ind; intros h.
  - cbn. destruct (existsb _ _) eqn:e; [|reflexivity]. apply existsb_exists in e as (x & ix & ex). apply Z.eqb_eq in ex. subst x. destruct (h id (or_introl eq_refl) ix).
  - rewrite selects_snoc, text_snoc. cbn. destruct (existsb _ _) eqn:e.
    + apply existsb_exists in e as (x & ix & ex). apply Z.eqb_eq in ex. subst x. destruct (h i); [right; rewrite map_app; apply in_or_app; right; left; reflexivity|exact ix].
    + rewrite IH; [reflexivity|]. intros j ij. apply h. destruct ij as [->|ij]; [left; reflexivity|]. right. rewrite map_app. apply in_or_app. left. exact ij.
Qed.

Lemma named_not_unnamed i n : named refs i n -> unnamed refs i -> False.
Proof. intros (a & b & ref & c & d & e) [u|[u|(ref' & c' & _ & e')]]; congruence. Qed.
Lemma named_fun i n n' : named refs i n -> named refs i n' -> n = n'.
Proof. intros (_ & _ & ref & c & _ & e) (_ & _ & ref' & c' & _ & e'). congruence. Qed.

Lemma outcome_nil id name e m : outcome id name [] e m ->
  (unnamed refs id /\ e = Ident id name /\ m = None) \/ (named refs id name /\ e = Ident id name /\ m = None)
  \/ exists n, named refs id n /\ n <> name /\ e = Ident id n /\ m = Some id.
Proof.
  intros h. remember [] as l eqn:el. destruct h; try (symmetry in el; apply app_cons_not_nil in el; destruct el); [auto|auto|]. right. right. eauto.
Qed.
Lemma outcome_snoc id name fields i f e m : outcome id name (fields ++ [(i, f)]) e m ->
  (exists n, named refs i n /\ e = Ident i n /\ m = Some i)
  \/ (unnamed refs i /\ exists e', outcome id name fields e' m /\ e = Select i (Some e') f false).
Proof.
  intros h. remember (fields ++ [(i, f)]) as l eqn:el. destruct h; try (apply app_cons_not_nil in el; destruct el);
    apply app_inj_tail in el as [-> [= -> ->]]; [left; eauto|right; eauto].
Qed.
Lemma outcome_select id name before i f after e m n : outcome id name (before ++ (i, f) :: after) e m ->
  named refs i n -> Forall (fun x => unnamed refs (fst x)) after -> e = selects after (Ident i n) /\ m = Some i.
Proof.
  revert e. induction after as [|[j g] after IH] using rev_ind; intros e h hn ha.
  - apply outcome_snoc in h as [(n' & hn' & -> & ->)|[u _]]; [|destruct (named_not_unnamed i n hn u)].
    rewrite (named_fun _ _ _ hn hn'). auto.
  - apply Forall_app in ha as [ha hj]. inversion hj as [|? ? uj _]; subst. cbn in uj.
    replace (before ++ (i, f) :: after ++ [(j, g)]) with ((before ++ (i, f) :: after) ++ [(j, g)]) in h by (rewrite <- app_assoc; reflexivity).
    apply outcome_snoc in h as [(n' & hn' & _)|(_ & e' & h & ->)]; [destruct (named_not_unnamed j n' hn' uj)|].
    destruct (IH e' h hn ha) as [-> ->]. rewrite selects_snoc. auto.
Qed.
Lemma outcome_fields id name fields e m : outcome id name fields e m -> Forall (fun x => unnamed refs (fst x)) fields ->
  exists e0, outcome id name [] e0 m /\ e = selects fields e0.
Proof.
  revert e. induction fields as [|[j g] fields IH] using rev_ind; intros e h ha; [eauto|].
  apply Forall_app in ha as [ha hj]. inversion hj as [|? ? uj _]; subst. cbn in uj.
  apply outcome_snoc in h as [(n' & hn' & _)|(_ & e' & h & ->)]; [destruct (named_not_unnamed j n' hn' uj)|].
  destruct (IH e' h ha) as (e0 & h0 & ->). exists e0. rewrite selects_snoc. auto.
Qed.
End Resolver.
