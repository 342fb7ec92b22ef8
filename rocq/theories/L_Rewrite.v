(* Lemmas about rewriting trees in place. *)
From Coq Require Import ZArith String List Bool Lia.
From Verif Require Import Base M_Ast S_Ast L_Ast.
From Verif Require Import M_Rewrite S_Rewrite.
Import ListNotations.
Open Scope nat_scope.
Open Scope list_scope.

(** ** Members *)
Lemma nth_at_nth {A} i j (f : A -> A) l :
  nth_error (at_nth i f l) j = if Nat.eqb i j then option_map f (nth_error l j) else nth_error l j.
Proof.
  revert i j. induction l as [|x l IH]; intros [|i] [|j]; cbn; try reflexivity.
  - now destruct (Nat.eqb i j).
  - apply IH.
Qed.
Lemma at_nth_at_nth {A} i (f g h : A -> A) l : (forall x, g (f x) = h x) -> at_nth i g (at_nth i f l) = at_nth i h l.
Proof. intros H. revert i. induction l as [|x l IH]; intros [|i]; cbn; congruence. Qed.
Lemma at_nth_same {A} i (f : A -> A) l x : nth_error l i = Some x -> f x = x -> at_nth i f l = l.
Proof. revert i. induction l as [|y l IH]; intros [|i]; cbn; try easy; [now intros [= ->] ->|]. intros H E. f_equal. eauto. Qed.
Lemma child_with k e c x : child k e = Some c -> child k (with_child k e x) = Some x.
Proof.
  destruct k, e; cbn; try easy; rewrite ?nth_at_nth, ?Nat.eqb_refl; try (now destruct a);
    match goal with |- context [nth_error ?l ?j] => destruct (nth_error l j) as [y|] end; cbn; try easy;
    repeat match goal with z : (_ * _)%type |- _ => destruct z end; easy.
Qed.
Lemma with_with k e x y : with_child k (with_child k e x) y = with_child k e y.
Proof.
  destruct k, e; cbn; try easy; try (now destruct a); f_equal; apply at_nth_at_nth; try easy;
    intros z; repeat match goal with z : (_ * _)%type |- _ => destruct z end; easy.
Qed.
Lemma with_same k e c : child k e = Some c -> with_child k e c = e.
Proof.
  destruct k, e; cbn; try easy.
  - now intros ->.
  - now intros ->.
  - intros H. f_equal. now apply at_nth_same with c.
  - destruct (nth_error elements i) as [[o b]|] eqn:E; [|easy]. intros ->. f_equal. now apply (at_nth_same i _ _ _ E).
  - destruct (nth_error fields i) as [[[[? ?] ?] ?]|] eqn:E; [|easy]. intros ->. f_equal. now apply (at_nth_same i _ _ _ E).
  - destruct (nth_error entries i) as [[[[? ?] ?] ?]|] eqn:E; [|easy]. intros ->. f_equal. now apply (at_nth_same i _ _ _ E).
  - destruct (nth_error entries i) as [[[[? ?] ?] ?]|] eqn:E; [|easy]. intros ->. f_equal. now apply (at_nth_same i _ _ _ E).
  - destruct a; now intros ->.
Qed.
Lemma with_other k k' e x : k <> k' -> child k' (with_child k e x) = child k' e.
Proof.
  intros N. destruct k, e; cbn; try reflexivity; destruct k'; cbn; try reflexivity; try easy; try (now destruct a);
    try (destruct a, a0; try reflexivity; congruence);
    rewrite ?nth_at_nth; (destruct (Nat.eqb_spec i i0) as [->|]; [|reflexivity]); try congruence;
    match goal with |- context [nth_error ?l ?j] => destruct (nth_error l j) as [y|] end; cbn; try easy;
    repeat match goal with z : (_ * _)%type |- _ => destruct z end; easy.
Qed.
Lemma member_dec (k k' : member) : {k = k'} + {k <> k'}.
Proof. repeat decide equality. Qed.
Lemma still_there k k' e x : child k e <> None -> child k' e <> None -> child k' (with_child k e x) <> None.
Proof.
  intros A B. destruct (member_dec k k') as [<-|N]; [|now rewrite with_other].
  destruct (child k e) eqn:E; [|easy]. now rewrite (child_with _ _ _ _ E).
Qed.
Lemma in_held k k' o : In k' (held k o) -> k' = k /\ o <> None.
Proof. destruct o; cbn; [|easy]. intros [<-|[]]. now split. Qed.
Lemma in_numbered {A} (f : nat -> A -> list member) i l k : In k (numbered f i l) ->
  exists j x, nth_error l j = Some x /\ In k (f (i + j) x).
Proof.
  revert i. induction l as [|x l IH]; intros i; cbn; [easy|]. intros H. apply in_app_or in H as [H|H].
  - exists O, x. now rewrite Nat.add_0_r.
  - destruct (IH _ H) as (j & y & E & I). exists (S j), y. now rewrite <- Nat.add_succ_comm.
Qed.
Lemma members_there e k : In k (members e) -> child k e <> None.
Proof.
  destruct e; cbn [members]; try easy; intros H.
  - now apply in_held in H as [-> H].
  - apply in_app_or in H as [H|H]; [now apply in_held in H as [-> H]|].
    apply in_numbered in H as (j & x & E & [<-|[]]). cbn. congruence.
  - apply in_numbered in H as (j & [o b] & E & H). cbn in H. apply in_held in H as [-> H]. cbn. now rewrite E.
  - apply in_numbered in H as (j & [[[? ?] o] b] & E & H). cbn in H. apply in_held in H as [-> H]. cbn. now rewrite E.
  - apply in_numbered in H as (j & [[[? key] o] b] & E & H). cbn in H.
    apply in_app_or in H as [H|H]; apply in_held in H as [-> H]; cbn; now rewrite E.
  - repeat (apply in_app_or in H as [H|H]; [now apply in_held in H as [-> H]|]). now apply in_held in H as [-> H].
Qed.

Lemma map_numbered {A B} (g : member -> B) (f : nat -> A -> list member) (h : A -> list B) o l :
  (forall j x, nth_error l j = Some x -> map g (f (o + j) x) = h x) -> map g (numbered f o l) = concat (map h l).
Proof.
  revert o. induction l as [|x l IH]; intros o H; cbn [numbered map concat]; [reflexivity|]. rewrite map_app. f_equal.
  - specialize (H 0 x eq_refl). now rewrite Nat.add_0_r in H.
  - apply IH. intros j y N. specialize (H (S j) y N). now rewrite <- Nat.add_succ_comm in H.
Qed.
Lemma members_parts e :
  map (fun k => (role_of k, child k (settled e))) (members (settled e)) = map (fun rc => (fst rc, Some (snd rc))) (parts e).
Proof.
  destruct e; try reflexivity.
  - cbn. now destruct operand.
  - cbn [settled members parts]. rewrite !map_app. f_equal; [now destruct target|].
    cut (forall o l, (forall j x, nth_error l j = Some x -> nth_error args (o + j) = Some x) ->
      map (fun k => (role_of k, child k (Call id function target args))) (numbered (fun i _ => [InArg i]) o l)
      = map (fun rc => (fst rc, Some (snd rc))) (arguments o l)); [intros K; now apply K|].
    intros o l. revert o. induction l as [|x l IH]; intros o H; cbn [numbered app map arguments fst snd role_of child]; [reflexivity|]. f_equal.
    + specialize (H 0 x eq_refl). rewrite Nat.add_0_r in H. now rewrite H.
    + apply IH. intros j y N. specialize (H (S j) y N). now rewrite <- Nat.add_succ_comm in H.
  - cbn [settled members parts]. rewrite (map_numbered _ _ (fun x => [(Element, fst x)])).
    + rewrite !map_map. induction elements as [|[o b] l IH]; cbn; [reflexivity|]. cbn in IH. now rewrite IH.
    + intros j [o b] N. cbn [Nat.add fst]. pose proof N as N'. rewrite nth_error_map in N'. destruct (nth_error elements j) as [[o' b']|]; [|easy].
      injection N' as <- <-. cbn [or_new held map role_of child]. rewrite N. reflexivity.
  - cbn [settled members parts]. rewrite (map_numbered _ _ (fun x => let '(_, _, o, _) := x in map (fun rc => (fst rc, Some (snd rc))) (present FieldValue o))).
    + rewrite concat_map, map_map. f_equal. apply map_ext. now intros [[[? ?] o0] ?].
    + intros j [[[? ?] o0] b] N. destruct o0; cbn; [|reflexivity]. now rewrite N.
  - cbn [settled members parts]. rewrite (map_numbered _ _ (fun x => let '(_, key, o, _) := x in map (fun rc => (fst rc, Some (snd rc))) (present EntryKey key ++ present EntryValue o))).
    + rewrite concat_map, map_map. f_equal. apply map_ext. now intros [[[? ?] o0] ?].
    + intros j [[[? key] o0] b] N. destruct key, o0; cbn; rewrite ?N; reflexivity.
Qed.
Lemma member_part e k : In k (members (settled e)) -> exists c, child k (settled e) = Some c /\ In (role_of k, c) (parts e).
Proof.
  intros H. apply (in_map (fun k => (role_of k, child k (settled e)))) in H. rewrite members_parts in H.
  apply in_map_iff in H as ([r c] & E & I). injection E as E1 E2. cbn in *. subst. exists c. now rewrite <- E2.
Qed.
Lemma nodup_app {A} (l l' : list A) : NoDup l -> NoDup l' -> (forall x, In x l -> ~ In x l') -> NoDup (l ++ l').
Proof.
  induction 1 as [|x l N _ IH]; intros H D; [exact H|]. cbn. constructor.
  - intros I. apply in_app_or in I as [I|I]; [easy|]. now apply (D x (or_introl eq_refl)).
  - apply IH; [exact H|]. intros y I. apply D. now right.
Qed.
Lemma nodup_numbered {A} (f : nat -> A -> list member) o l :
  (forall i x, NoDup (f i x)) -> (forall i j x y k, In k (f i x) -> In k (f j y) -> i = j) -> NoDup (numbered f o l).
Proof.
  intros N D. revert o. induction l as [|x l IH]; intros o; cbn [numbered]; [constructor|]. apply nodup_app; [apply N|apply IH|].
  intros k I I'. apply in_numbered in I' as (j & y & _ & I'). specialize (D _ _ _ _ _ I I'). lia.
Qed.
Lemma nodup_held k o : NoDup (held k o). Proof. destruct o; repeat constructor; easy. Qed.
Lemma members_nodup e : NoDup (members e).
Proof.
  destruct e; cbn [members]; try apply nodup_held; try constructor.
  - apply nodup_app; [apply nodup_held| |].
    + apply nodup_numbered; [intros; repeat constructor; easy|]. intros i j x y k [<-|[]] [E|[]]. congruence.
    + intros k H H'. apply in_held in H as [-> _]. now apply in_numbered in H' as (? & ? & _ & [E|[]]).
  - apply nodup_numbered; [intros; apply nodup_held|]. intros i j x y k H H'. apply in_held in H as [-> _]. apply in_held in H' as [E _]. congruence.
  - apply nodup_numbered; [intros i [[[? ?] o0] ?]; apply nodup_held|].
    intros i j [[[? ?] o0] ?] [[[? ?] o'] ?] k H H'. apply in_held in H as [-> _]. apply in_held in H' as [E _]. congruence.
  - apply nodup_numbered.
    + intros i [[[? key] o0] ?]. apply nodup_app; try apply nodup_held. intros k H H'. apply in_held in H as [-> _]. now apply in_held in H' as [E _].
    + intros i j [[[? key] o0] ?] [[[? key'] o'] ?] k H H'.
      apply in_app_or in H as [H|H], H' as [H'|H']; try apply in_app_or in H'; 
      repeat match goal with H : _ \/ _ |- _ => destruct H as [H|H] end;
      apply in_held in H as [-> _]; apply in_held in H' as [E _]; congruence.
  - repeat (apply nodup_app; [apply nodup_held| |intros k H H'; apply in_held in H as [-> _];
      repeat (apply in_app_or in H' as [H'|H']; [now apply in_held in H' as [E _]|]); now apply in_held in H' as [E _]]). apply nodup_held.
Qed.

(** ** Places *)
Lemma get_put p v t t' : put p v t = Val t' -> get p t' = Val v.
Proof.
  revert t t'. induction p as [|k p IH]; intros t t'; cbn [get put]; [now intros [= ->]|].
  destruct (child k t) as [c|] eqn:E; [|easy]. destruct (put p v c) as [c'| |] eqn:P; cbn; try easy. intros [= <-].
  rewrite (child_with _ _ _ _ E). eauto.
Qed.
Lemma put_some p v t e : get p t = Val e -> exists t', put p v t = Val t'.
Proof.
  revert t. induction p as [|k p IH]; intros t; cbn [get put]; [eauto|]. destruct (child k t) as [c|] eqn:E; [|easy]. intros H.
  destruct (IH _ H) as (c' & P). rewrite P. cbn. eauto.
Qed.
Lemma put_put p u v t t' : put p u t = Val t' -> put p v t' = put p v t.
Proof.
  revert t t'. induction p as [|k p IH]; intros t t'; cbn [put]; [reflexivity|].
  destruct (child k t) as [c|] eqn:E; [|easy]. destruct (put p u c) as [c'| |] eqn:P; cbn; try easy. intros [= <-].
  rewrite (child_with _ _ _ _ E), (IH _ _ P). destruct (put p v c); cbn; [|easy..]. now rewrite with_with.
Qed.
Lemma put_same p t e : get p t = Val e -> put p e t = Val t.
Proof.
  revert t. induction p as [|k p IH]; intros t; cbn [get put]; [now intros [= ->]|].
  destruct (child k t) as [c|] eqn:E; [|easy]. intros H. rewrite (IH _ H). cbn. now rewrite (with_same _ _ _ E).
Qed.
Lemma get_snoc p k t e : get p t = Val e -> get (p ++ [k]) t = match child k e with Some c => Val c | None => UB end.
Proof.
  revert t. induction p as [|k' p IH]; intros t; cbn [get app]; [now intros [= ->]|].
  destruct (child k' t) as [c|] eqn:E; [|easy]. apply IH.
Qed.
Lemma put_snoc p k t e c v : get p t = Val e -> child k e = Some c -> put (p ++ [k]) v t = put p (with_child k e v) t.
Proof.
  revert t. induction p as [|k' p IH]; intros t; cbn [get put app]; [now intros [= ->] ->|].
  destruct (child k' t) as [c'|] eqn:E; [|easy]. intros H C. now rewrite (IH _ H C).
Qed.
Lemma get_all_snoc ps p t es e : get_all ps t = Val es -> get p t = Val e -> get_all (ps ++ [p]) t = Val (es ++ [e]).
Proof.
  intros A B. revert es A. induction ps as [|q ps IH]; intros es; cbn [get_all app].
  - intros [= <-]. now rewrite B.
  - destruct (get q t); cbn; [|easy..]. destruct (get_all ps t); cbn; [|easy..]. intros [= <-].
    now rewrite (IH _ eq_refl).
Qed.

(** ** What a step pushes *)
Section Steps.
Context {S : Type} (v : AstRewriter S) (special : bool).
Definition rrecord_of (p : place) (k : member) : rrecord :=
  match k with
  | InTarget => RArg (p ++ [k]) p kTarget
  | InArg i => RArg (p ++ [k]) p (Z.of_nat i)
  | InPiece a => rcomprehension special (p ++ [k]) p a
  | _ => RExpr (p ++ [k])
  end.
Definition todo (p : place) (ks : list member) : rstack := map (fun k => (rrecord_of p k, false)) ks.
Lemma fold_numbered {A} p (f : nat -> A -> list member) (g : rstack -> nat -> rstack) l :
  (forall i x st, nth_error l i = Some x -> g st i = todo p (f i x) ++ st) ->
  forall st, fold_left g (rev (seq 0 (length l))) st = todo p (numbered f 0 l) ++ st.
Proof.
  cut (forall o, (forall i x st, nth_error l i = Some x -> g st (o + i) = todo p (f (o + i) x) ++ st) ->
    forall st, fold_left g (rev (seq o (length l))) st = todo p (numbered f o l) ++ st); [intros H K; now apply H|].
  induction l as [|x l IH]; intros o H st; [reflexivity|]. cbn [length seq rev numbered]. unfold todo in *. rewrite fold_left_app. cbn [fold_left].
  rewrite IH.
  - pose proof (H 0%nat x (map (fun k => (rrecord_of p k, false)) (numbered f (Datatypes.S o) l) ++ st) eq_refl) as E. rewrite Nat.add_0_r in E. rewrite E. now rewrite map_app, app_assoc.
  - intros i y st' N. replace (Datatypes.S o + i)%nat with (o + Datatypes.S i)%nat by lia. now apply H.
Qed.
Lemma numbered_map {A B} (h : A -> B) (f : nat -> B -> list member) i l : numbered f i (map h l) = numbered (fun i x => f i (h x)) i l.
Proof. revert i. induction l as [|x l IH]; intros i; cbn; [easy|]. now rewrite IH. Qed.
Lemma mutable_new o : mutable o = or_new o.
Proof. now destruct o. Qed.
Lemma push_deps p t e t2 st : get p t = Val e -> put p (settled e) t = Val t2 ->
  rPushDependencies special t (RExpr p) st = Val (t2, todo p (members (settled e)) ++ st).
Proof.
  intros G P. unfold rPushDependencies. rewrite G. cbn [obind].
  assert (settled e = e -> t2 = t) as K by (intros Q; rewrite Q, (put_same _ _ _ G) in P; congruence).
  destruct e; cbn [settled members] in *; try (rewrite (K eq_refl); reflexivity).
  - rewrite (K eq_refl). now destruct operand.
  - rewrite (K eq_refl). unfold rPushCallDeps. rewrite (fold_numbered p (fun i _ => [InArg i])) by reflexivity.
    destruct target; reflexivity.
  - cbn [rPushListDeps]. replace (map (fun '(o, optional) => (mutable o, optional)) elements)
      with (map (fun x => (or_new (fst x), snd x)) elements) by (apply map_ext; intros [o b]; cbn; now rewrite mutable_new).
    rewrite P. cbn [obind]. f_equal. f_equal. rewrite numbered_map.
    apply fold_numbered. intros i [o b] st' N. reflexivity.
  - rewrite (K eq_refl). f_equal. f_equal. apply fold_numbered. intros i [[[? ?] o] b] st' N. rewrite N. now destruct o.
  - rewrite (K eq_refl). f_equal. f_equal. apply fold_numbered. intros i [[[? key] o] b] st' N. rewrite N. now destruct key, o.
  - rewrite !mutable_new, P. cbn [obind]. f_equal.
Qed.

(* The expressions on the path, when the place p is given another expression. *)
Definition ctx (path : list place) (p : place) (t : Expr) (above : Expr -> list Expr) : Prop :=
  forall x t', put p x t = Val t' -> get_all path t' = Val (above x).
Lemma ctx_put path p t above u t1 : ctx path p t above -> put p u t = Val t1 -> ctx path p t1 above.
Proof. intros C P x t' Q. rewrite (put_put _ _ _ _ _ P) in Q. eauto. Qed.
Lemma ctx_child path p t above e k c : ctx path p t above -> get p t = Val e -> child k e = Some c ->
  ctx (path ++ [p]) (p ++ [k]) t (fun x => above (with_child k e x) ++ [with_child k e x]).
Proof.
  intros C G K x t' P. rewrite (put_snoc _ _ _ _ _ _ G K) in P. apply get_all_snoc; [now apply C|]. eapply get_put; eauto.
Qed.

Lemma step_pre t p below path b s e above s1 e1 b1 t2 :
  get p t = Val e -> ctx path p t above ->
  PreVisitRewrite v (TraversalStackUpdate v s (above e ++ [e])) e = (s1, e1, b1) ->
  put p (settled e1) t = Val t2 ->
  rstep v special (mkMachine t ((RExpr p, false) :: below) path b s) =
  Val (mkMachine t2 (todo p (members (settled e1)) ++ (RExpr p, true) :: below) (path ++ [p]) (b || b1)
         (told v s1 ([PreVisitExpr e1] ++ before e1))).
Proof.
  intros G C P Q. unfold rstep. cbn [records traversal_path tree user rewritten].
  pose proof (C e t (put_same _ _ _ G)) as A. rewrite (get_all_snoc _ _ _ _ _ A G). cbn [obind].
  rewrite G. cbn [obind]. rewrite P. destruct (put_some p e1 t e G) as (t1 & P1). rewrite P1. cbn [obind tree records traversal_path rewritten user].
  pose proof (get_put _ _ _ _ P1) as G1. unfold rPreVisit. rewrite G1. cbn [obind].
  rewrite (push_deps p t1 e1 t2 _ G1); [|now rewrite (put_put _ _ _ _ _ P1)]. cbn [obind fst snd].
  unfold told. now rewrite PreVisit_expr.
Qed.
Lemma step_post t p below path b s e above s3 e3 b3 t3 :
  get p t = Val e -> ctx path p t above ->
  PostVisitRewrite v (told v s (after e ++ [PostVisitExpr e])) e = (s3, e3, b3) ->
  put p e3 t = Val t3 ->
  rstep v special (mkMachine t ((RExpr p, true) :: below) (path ++ [p]) b s) =
  Val (mkMachine t3 below path (b || b3) (TraversalStackUpdate v s3 (above e3))).
Proof.
  intros G C P Q. unfold rstep. cbn [records traversal_path tree user rewritten]. unfold rPostVisit. rewrite G. cbn [obind].
  rewrite PostVisit_expr. unfold told in P. rewrite P, Q. cbn [obind].
  destruct (path ++ [p]) as [|q l] eqn:E; [now destruct path|]. rewrite <- E, removelast_last, (C _ _ Q). reflexivity.
Qed.

Definition reaches (m m' : machine) : Prop := forall n r, rloop v special n m' = Some r -> exists n', rloop v special n' m = Some r.
Lemma reaches_refl m : reaches m m. Proof. intros n r H; eauto. Qed.
Lemma reaches_trans a b c : reaches a b -> reaches b c -> reaches a c.
Proof. intros H K n r E. destruct (K _ _ E) as (n' & E'). exact (H _ _ E'). Qed.
Lemma reaches_step m m' : records m <> [] -> rstep v special m = Val m' -> reaches m m'.
Proof. intros N E n r H. exists (Datatypes.S n). cbn [rloop]. destruct (records m) eqn:R; [easy|]. now rewrite E. Qed.
Lemma loop_step n m m' r : rloop v special n m = Some r -> rstep v special m = Val m' -> records m <> [] ->
  exists j, n = Datatypes.S j /\ rloop v special j m' = Some r.
Proof. intros R E N. revert R. destruct n as [|j]; cbn [rloop]; destruct (records m) eqn:R; try easy. rewrite E. eauto. Qed.

(* A part that is not visited directly: the record is replaced by that of the
   expression, on top of itself. *)
Definition direct (k : member) : bool :=
  match k with InTarget | InArg _ | InPiece _ => false | _ => true end.
Lemma direct_record p k : direct k = true ->
  rrecord_of p k = RExpr (p ++ [k]) /\ forall e, enter special e (role_of k) = [] /\ leave special e (role_of k) = [].
Proof. now destruct k. Qed.
Lemma step_enter t p k rest path b s e : get p t = Val e -> direct k = false ->
  rstep v special (mkMachine t ((rrecord_of p k, false) :: rest) path b s) =
  Val (mkMachine t ((RExpr (p ++ [k]), false) :: (rrecord_of p k, true) :: rest) path b (told v s (enter special e (role_of k)))).
Proof.
  intros G D. unfold rstep. cbn [records traversal_path tree user rewritten].
  destruct k; try discriminate D; cbn [rrecord_of role_of enter told fold_left].
  - reflexivity.
  - reflexivity.
  - unfold rcomprehension. destruct special; cbn [rPreVisit rPushDependencies obind tree]; [|reflexivity].
    rewrite G. reflexivity.
Qed.
Lemma step_leave t p k rest path b s e : get p t = Val e -> direct k = false ->
  rstep v special (mkMachine t ((rrecord_of p k, true) :: rest) path b s) =
  Val (mkMachine t rest path b (told v s (leave special e (role_of k)))).
Proof.
  intros G D. unfold rstep. cbn [records traversal_path tree user rewritten].
  destruct k; try discriminate D; cbn [rrecord_of role_of leave told fold_left].
  - cbn [rPostVisit]. rewrite G. reflexivity.
  - cbn [rPostVisit]. rewrite G. cbn [obind]. destruct (Z.eqb_spec (Z.of_nat i) kTarget); [unfold kTarget in *; lia|]. reflexivity.
  - unfold rcomprehension. destruct special; cbn [rPostVisit]; rewrite G; cbn [obind]; [reflexivity|]. destruct a; reflexivity.
Qed.

Scheme rewrites_mut := Minimality for rewrites Sort Prop with rewrites_parts_mut := Minimality for rewrites_parts Sort Prop.
Combined Scheme rewrites_both from rewrites_mut, rewrites_parts_mut.

Lemma forward :
  (forall above s e s' e' f, rewrites v special above s e s' e' f -> forall t p path below b t',
     get p t = Val e -> ctx path p t above -> put p e' t = Val t' ->
     reaches (mkMachine t ((RExpr p, false) :: below) path b s) (mkMachine t' below path (b || f) s')) /\
  (forall above ks s e s' e' f, rewrites_parts v special above ks s e s' e' f -> forall t p path rest b t',
     get p t = Val e -> ctx path p t above -> put p e' t = Val t' ->
     reaches (mkMachine t (todo p ks ++ rest) (path ++ [p]) b s) (mkMachine t' rest (path ++ [p]) (b || f) s')).
Proof.
  apply rewrites_both.
  - intros above s e s1 e1 b1 s2 e2 b2 s3 e3 b3 PRE _ IH POST t p path below b t' G C P.
    destruct (put_some p (settled e1) t e G) as (t1 & P1).
    eapply reaches_trans; [eapply reaches_step; [easy|]; eapply (step_pre t p below path b s e above); eauto|].
    destruct (put_some p e2 t1 _ (get_put _ _ _ _ P1)) as (t2 & P2).
    eapply reaches_trans; [eapply IH; [eapply get_put; eauto|eapply ctx_put; eauto|eauto]|].
    eapply reaches_step; [easy|]. rewrite (step_post t2 p below path _ s2 e2 above s3 e3 b3 t').
    + now rewrite !orb_assoc.
    + eapply get_put; eauto.
    + eapply ctx_put; [|eauto]. eapply ctx_put; eauto.
    + exact POST.
    + now rewrite (put_put _ _ _ _ _ P2), (put_put _ _ _ _ _ P1).
  - intros above s e t p path rest b t' G C P. rewrite (put_same _ _ _ G) in P. injection P as <-. rewrite orb_false_r. apply reaches_refl.
  - intros above k ks s e c s1 c' b1 s2 e' b2 K _ IHe _ IHp t p path rest b t' G C P.
    pose proof (ctx_child _ _ _ _ _ _ _ C G K) as C'.
    assert (G' : get (p ++ [k]) t = Val c) by (rewrite (get_snoc _ _ _ _ G), K; reflexivity).
    destruct (put_some (p ++ [k]) c' t c G') as (t1 & P1).
    pose proof P1 as P1'. rewrite (put_snoc _ _ _ _ _ _ G K) in P1'.
    pose proof (get_put _ _ _ _ P1') as G1.
    assert (REST : reaches (mkMachine t1 (todo p ks ++ rest) (path ++ [p]) (b || b1) (told v s1 (leave special (with_child k e c') (role_of k))))
                           (mkMachine t' rest (path ++ [p]) (b || (b1 || b2)) s2)).
    { rewrite orb_assoc. eapply IHp; [exact G1|eapply ctx_put; eauto|]. now rewrite (put_put _ _ _ _ _ P1'). }
    cbn [todo map app]. destruct (direct k) eqn:D.
    + destruct (direct_record p k D) as (-> & E). rewrite (proj1 (E e)) in IHe. rewrite (proj2 (E (with_child k e c'))) in REST.
      eapply reaches_trans; [|exact REST]. now apply IHe.
    + eapply reaches_trans; [eapply reaches_step; [easy|]; eapply step_enter; eauto|].
      eapply reaches_trans; [eapply IHe; eauto|].
      eapply reaches_trans; [|exact REST]. eapply reaches_step; [easy|]. eapply step_leave; eauto.
Qed.

(* A run that ends has run through the rewriting of the expression on top. *)
Definition runs_through (n : nat) : Prop := forall above t p path below b s e r,
  get p t = Val e -> ctx path p t above ->
  rloop v special n (mkMachine t ((RExpr p, false) :: below) path b s) = Some r ->
  exists s' e' f t' j, rewrites v special above s e s' e' f /\ put p e' t = Val t' /\ (j < n)%nat /\
    rloop v special j (mkMachine t' below path (b || f) s') = Some r.
Lemma parts_through n : (forall j, (j < n)%nat -> runs_through j) -> forall ks above t p path rest b s e r j,
  (j < n)%nat -> (forall k, In k ks -> child k e <> None) -> get p t = Val e -> ctx path p t above ->
  rloop v special j (mkMachine t (todo p ks ++ rest) (path ++ [p]) b s) = Some r ->
  exists s' e' f t' i, rewrites_parts v special above ks s e s' e' f /\ put p e' t = Val t' /\ (i <= j)%nat /\
    rloop v special i (mkMachine t' rest (path ++ [p]) (b || f) s') = Some r.
Proof.
  intros IH. induction ks as [|k ks IHk]; intros above t p path rest b s e r j J K G C R.
  - exists s, e, false, t, j. split; [constructor|]. split; [now apply put_same|]. split; [lia|]. now rewrite orb_false_r.
  - destruct (child k e) as [c|] eqn:Kc; [|now apply (K k (or_introl eq_refl)) in Kc].
    pose proof (ctx_child _ _ _ _ _ _ _ C G Kc) as C'.
    assert (G' : get (p ++ [k]) t = Val c) by (rewrite (get_snoc _ _ _ _ G), Kc; reflexivity).
    cbn [todo map app] in R.
    assert (exists s1 c1 f1 t1 i, rewrites v special (fun x => above (with_child k e x) ++ [with_child k e x]) (told v s (enter special e (role_of k))) c s1 c1 f1 /\
      put p (with_child k e c1) t = Val t1 /\ (i <= j)%nat /\
      rloop v special i (mkMachine t1 (todo p ks ++ rest) (path ++ [p]) (b || f1) (told v s1 (leave special (with_child k e c1) (role_of k)))) = Some r)
      as (s1 & c1 & f1 & t1 & i & W & P1 & I & R1).
    { destruct (direct k) eqn:D.
      - destruct (direct_record p k D) as (E & E'). rewrite E in R.
        destruct (IH j J _ _ _ _ _ _ _ _ _ G' C' R) as (s1 & c1 & f1 & t1 & i & W & P1 & I & R1).
        rewrite (put_snoc _ _ _ _ _ _ G Kc) in P1.
        exists s1, c1, f1, t1, i. rewrite (proj1 (E' e)), (proj2 (E' (with_child k e c1))). repeat split; try easy. lia.
      - destruct (loop_step _ _ _ _ R (step_enter t p k _ _ _ _ e G D) ltac:(easy)) as (i0 & -> & R'). clear R; rename R' into R.
        destruct (IH i0 ltac:(lia) _ _ _ _ _ _ _ _ _ G' C' R) as (s1 & c1 & f1 & t1 & i & W & P1 & I & R1).
        rewrite (put_snoc _ _ _ _ _ _ G Kc) in P1.
        destruct (loop_step _ _ _ _ R1 (step_leave t1 p k _ _ _ _ _ (get_put _ _ _ _ P1) D) ltac:(easy)) as (i1 & -> & R1'). clear R1; rename R1' into R1.
        exists s1, c1, f1, t1, i1. repeat split; try easy. lia. }
    destruct (IHk above t1 p path rest (b || f1) (told v s1 (leave special (with_child k e c1) (role_of k))) (with_child k e c1) r i ltac:(lia)) as (s2 & e2 & f2 & t2 & i2 & W2 & P2 & I2 & R2).
    + intros k' H. apply still_there; [congruence|]. apply K. now right.
    + eapply get_put; eauto.
    + eapply ctx_put; eauto.
    + exact R1.
    + rewrite (put_put _ _ _ _ _ P1) in P2. exists s2, e2, (f1 || f2), t2, i2. split; [econstructor; eauto|]. split; [exact P2|]. split; [lia|].
      now rewrite orb_assoc.
Qed.
Lemma backward n : runs_through n.
Proof.
  induction n as [n IH] using lt_wf_ind. intros above t p path below b s e r G C R.
  destruct (PreVisitRewrite v (TraversalStackUpdate v s (above e ++ [e])) e) as [[s1 e1] b1] eqn:PRE.
  destruct (put_some p (settled e1) t e G) as (t1 & P1).
  destruct (loop_step _ _ _ _ R (step_pre t p below path b s e above s1 e1 b1 t1 G C PRE P1) ltac:(easy)) as (j & -> & R'). clear R; rename R' into R.
  destruct (parts_through (Datatypes.S j) IH _ above t1 p path _ _ _ (settled e1) _ j ltac:(lia) (members_there _) (get_put _ _ _ _ P1) (ctx_put _ _ _ _ _ _ C P1) R)
    as (s2 & e2 & f2 & t2 & i2 & W2 & P2 & I2 & R2).
  destruct (PostVisitRewrite v (told v s2 (after e2 ++ [PostVisitExpr e2])) e2) as [[s3 e3] b3] eqn:POST.
  destruct (put_some p e3 t2 e2 (get_put _ _ _ _ P2)) as (t3 & P3).
  destruct (loop_step _ _ _ _ R2 (step_post t2 p below path _ _ e2 above s3 e3 b3 t3 (get_put _ _ _ _ P2)
    (ctx_put _ _ _ _ _ _ (ctx_put _ _ _ _ _ _ C P1) P2) POST P3) ltac:(easy)) as (i3 & -> & R3).
  rewrite (put_put _ _ _ _ _ P2), (put_put _ _ _ _ _ P1) in P3.
  exists (TraversalStackUpdate v s3 (above e3)), e3, (b1 || f2 || b3), t3, i3.
  split; [econstructor; eauto|]. split; [exact P3|]. split; [lia|]. now rewrite !orb_assoc.
Qed.

Lemma rloop_more n m x r : rloop v special n x = Some r -> (n <= m)%nat -> rloop v special m x = Some r.
Proof.
  revert m x. induction n as [|n IH]; intros [|m] x; cbn [rloop]; destruct (records x); try easy; try lia.
  destruct (rstep v special x); try easy. intros H L. apply IH; [exact H|lia].
Qed.

(* Rewriting ends when the first callback does not make expressions larger. *)
Lemma total : (forall s e, (size (snd (fst (PreVisitRewrite v s e))) <= size e)%nat) ->
  forall e above s, exists s' e' f, rewrites v special above s e s' e' f.
Proof.
  intros H. enough (forall n e, (size e <= n)%nat -> forall above s, exists s' e' f, rewrites v special above s e s' e' f) as K by (intros e; now apply (K (size e))).
  induction n as [|n IH]; intros e L above s; [pose proof (size_pos e); lia|].
  destruct (PreVisitRewrite v (TraversalStackUpdate v s (above e ++ [e])) e) as [[s1 e1] b1] eqn:PRE.
  pose proof (H (TraversalStackUpdate v s (above e ++ [e])) e) as Hs. rewrite PRE in Hs. cbn in Hs.
  assert (forall ks, NoDup ks -> forall s x, (forall k, In k ks -> exists c, child k x = Some c /\ (size c <= n)%nat) ->
    exists s' e' f, rewrites_parts v special above ks s x s' e' f) as K.
  { induction ks as [|k ks IHk]; intros N s0 x A; [do 3 eexists; constructor|]. inversion N as [|? ? Nk N']; subst.
    destruct (A k (or_introl eq_refl)) as (c & Kc & Sc).
    destruct (IH c Sc (fun y => above (with_child k x y) ++ [with_child k x y]) (told v s0 (enter special x (role_of k)))) as (s2 & c2 & f2 & W).
    destruct (IHk N' (told v s2 (leave special (with_child k x c2) (role_of k))) (with_child k x c2)) as (s3 & e3 & f3 & W3).
    - intros k' I. rewrite with_other; [apply A; now right|]. intros ->. easy.
    - do 3 eexists. econstructor; eauto. }
  destruct (K (members (settled e1)) (members_nodup _) (told v s1 ([PreVisitExpr e1] ++ before e1)) (settled e1)) as (s2 & e2 & f2 & W2).
  { intros k I. destruct (member_part e1 k I) as (c & E & P). exists c. split; [exact E|]. apply part_smaller in P. lia. }
  destruct (PostVisitRewrite v (told v s2 (after e2 ++ [PostVisitExpr e2])) e2) as [[s3 e3] b3] eqn:POST.
  do 3 eexists. econstructor; eauto.
Qed.
End Steps.
