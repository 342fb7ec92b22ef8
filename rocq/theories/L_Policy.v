(* Lemmas about composed policies. *)
From Coq Require Import ZArith List Bool String Ascii Lia DecimalString DecimalNat.
From Verif Require Import Base M_Overflow M_Number M_Attr M_Value M_Logic M_Expr M_Machine M_Macro
  S_Eval S_Macro L_Core L_Meaning L_Macro P_Macro2.
From Verif Require Import M_Policy S_Policy.
Import ListNotations.
Local Open Scope string_scope.
Open Scope list_scope.
Open Scope Z_scope.
Local Open Scope out_scope.

(* ---- names ---- *)
Lemma append_inj a : forall b c, (a ++ b)%string = (a ++ c)%string -> b = c.
Proof. induction a; cbn; intros b c H; auto. injection H. auto. Qed.
Lemma index_inj i j : index_name i = index_name j -> i = j.
Proof.
  unfold index_name. intros H. apply append_inj in H.
  apply DecimalNat.Unsigned.to_uint_inj.
  assert (E : NilEmpty.uint_of_string (NilEmpty.string_of_uint (Nat.to_uint i)) =
              NilEmpty.uint_of_string (NilEmpty.string_of_uint (Nat.to_uint j))) by now rewrite H.
  rewrite !NilEmpty.usu in E. congruence.
Qed.
Lemma prefix_append a : forall b, String.prefix a (a ++ b) = true.
Proof.
  induction a as [|c a IH]; intros b; cbn; [now destruct b|].
  destruct (ascii_dec c c); auto.
Qed.
Lemma index_prefix i : String.prefix "@index" (index_name i) = true.
Proof. apply prefix_append. Qed.
Lemma index_neq i x : String.prefix "@index" x = false -> index_name i <> x.
Proof. intros H <-. now rewrite index_prefix in H. Qed.
Lemma index_neqb i x : String.prefix "@index" x = false -> String.eqb x (index_name i) = false.
Proof. intros H. apply String.eqb_neq. intros E. eapply index_neq; eauto. Qed.
Lemma ident_prefix x : String.prefix "variables." (variable_ident x) = true.
Proof. apply prefix_append. Qed.
Lemma ident_prefix' x : String.prefix "variable" (variable_ident x) = true.
Proof. reflexivity. Qed.
Lemma ident_not_index x : String.prefix "@index" (variable_ident x) = false.
Proof. reflexivity. Qed.

(* ---- renaming ---- *)
Definition resolves (scopes : list scope) (x : string) : option nat :=
  if String.prefix "variable" x then ResolvePolicyVariable scopes x else None.
Lemma map_name_eq scopes x : map_name scopes x = match resolves scopes x with Some i => index_name i | None => x end.
Proof. unfold map_name, resolves. now destruct (String.prefix "variable" x). Qed.
Definition scopes_ok (scopes : list scope) (n : nat) : Prop :=
  forall x i, resolves scopes x = Some i -> String.prefix "variables." x = true /\ (i < n)%nat.
Definition sees (scopes : list scope) (rhoS rhoF : env) : Prop :=
  forall x, String.prefix "@index" x = false ->
  match resolves scopes x with
  | Some i => exists o, rhoF (index_name i) = Some o /\ rhoS x = Some o
  | None => rhoF x = rhoS x
  end.

Section Rename.
  Variables (C : config) (R : registry) (scopes : list scope) (n : nat).
  Hypothesis Hs : scopes_ok scopes n.
  Notation ren := (MapVariables scopes).

  Lemma unreserved z : reserved_name z = false -> resolves scopes z = None /\ String.prefix "@index" z = false.
  Proof.
    unfold reserved_name. intros H. apply orb_false_iff in H as [H1 H2]. split; auto.
    destruct (resolves scopes z) as [i|] eqn:E; auto. destruct (Hs _ _ E) as [H _]. congruence.
  Qed.
  Lemma sees_bind z o rhoS rhoF : reserved_name z = false -> sees scopes rhoS rhoF ->
    sees scopes (bind_local z o rhoS) (bind_local z o rhoF).
  Proof.
    intros Hz H x Hx. specialize (H x Hx). destruct (unreserved z Hz) as [Hr Hi]. unfold bind_local.
    destruct (String.eqb z x) eqn:E.
    - apply String.eqb_eq in E. subst x. rewrite Hr. auto.
    - destruct (resolves scopes x) as [i|]; auto. rewrite (index_neqb i z Hi). exact H.
  Qed.
  Lemma sees_loop x x2 y b t kv a rhoS rhoF :
    reserved_name x = false -> reserved_name x2 = false -> reserved_name y = false -> sees scopes rhoS rhoF ->
    sees scopes (loop_env C x x2 y b t kv a rhoS) (loop_env C x x2 y b t kv a rhoF).
  Proof. intros. unfold loop_env. destruct (String.eqb x2 ""); auto using sees_bind. Qed.

  Lemma rename_bind x x2 r c f : IsBind x x2 (rename f r) (rename f c) = IsBind x x2 r c.
  Proof. unfold IsBind. destruct c; auto. destruct v; auto. destruct b; auto. destruct r; auto. destruct elems; auto. Qed.

  Lemma rename_meaning e : user_expr e = true -> forall rhoS rhoF, sees scopes rhoS rhoF ->
    meaning C R (ren e) rhoF = meaning C R e rhoS.
  Proof.
    unfold MapVariables.
    induction e using expr_ind'; intros Hu rhoS rhoF H'; cbn [rename user_expr] in *.
    - reflexivity.
    - apply negb_true_iff in Hu. specialize (H' x Hu). rewrite map_name_eq. unfold resolves in *.
      destruct x as [|c s]; [cbn in H'; cbn; now rewrite H'|].
      destruct (String.prefix "variable" (String c s)) eqn:Ep.
      + assert (Ec : c = "v"%char).
        { clear H'. destruct c as [[] [] [] [] [] [] [] []]; try reflexivity; discriminate Ep. }
        subst c. destruct (ResolvePolicyVariable scopes (String "v" s)) as [i|].
        * destruct H' as (o & H1 & H2). cbn [meaning]. rewrite H2.
          assert (E : index_name i = String "@" (String.append "index" (NilEmpty.string_of_uint (Nat.to_uint i)))) by reflexivity.
          rewrite E in *. cbn [meaning]. now rewrite H1.
        * cbn [meaning]. now rewrite H'.
      + cbn [meaning]. destruct c as [[] [] [] [] [] [] [] []]; cbn beta iota; now rewrite ?H'.
    - cbn [meaning]. apply obind_ext; auto.
    - apply andb_true_iff in Hu as [Ht Ha]. cbn [meaning].
      assert (E : map (fun a => meaning C R a rhoF) (map (rename (map_name scopes)) args) =
                  map (fun a => meaning C R a rhoS) args).
      { rewrite map_map. rewrite forallb_forall in Ha. rewrite Forall_forall in H0. apply map_ext_in. auto. }
      rewrite E. destruct t as [a|]; cbn [option_map]; [|reflexivity]. now rewrite (H Ht _ _ H').
    - cbn [meaning]. apply obind_ext; [|intros; now rewrite map_map]. f_equal. rewrite map_map.
      rewrite forallb_forall in Hu. rewrite Forall_forall in H. apply map_ext_in. intros p Hp. cbn [snd]. auto.
    - cbn [meaning]. apply obind_ext; [|intros; now rewrite map_map]. f_equal.
      rewrite forallb_forall in Hu. rewrite Forall_forall in H.
      induction l as [|p l IH]; [reflexivity|]. cbn [map flat_map fst snd app].
      destruct (H p (or_introl eq_refl)) as [Hk Hv].
      specialize (Hu p (or_introl eq_refl)) as Hp. apply andb_true_iff in Hp as [Hp1 Hp2].
      rewrite (Hk Hp1 _ _ H'), (Hv Hp2 _ _ H'). f_equal. f_equal. apply IH; intros; [apply H|apply Hu]; now right.
    - apply andb_true_iff in Hu as [Hn He]. apply andb_true_iff in Hn as [Hn Hy]. apply andb_true_iff in Hn as [Hx Hx2].
      apply negb_true_iff in Hx, Hx2, Hy.
      apply andb_true_iff in He as [He U5]. apply andb_true_iff in He as [He U4].
      apply andb_true_iff in He as [He U3]. apply andb_true_iff in He as [U1 U2].
      cbn [meaning]. rewrite rename_bind. destruct (IsBind x x2 e1 e3).
      + rewrite (IHe2 U2 _ _ H'). apply IHe5; auto. now apply sees_bind.
      + apply obind_ext; auto. intros r. destruct (comp_init C r) as [|[b items]]; auto.
        apply obind_ext; auto. intros i. apply eval_loop_ext; intros.
        * apply IHe3; auto using sees_loop.
        * apply IHe4; auto using sees_loop.
        * apply IHe5; auto using sees_bind.
  Qed.
End Rename.

(* ---- names an expression uses ---- *)
(* the block variables e uses are below n *)
Definition closed (n : nat) (e : expr) : Prop := forall i, free (index_name i) e = true -> (i < n)%nat.
Lemma closed_le n m e : closed n e -> (n <= m)%nat -> closed m e.
Proof. intros H Hl i Hi. specialize (H i Hi). lia. Qed.
Definition user_closed e : user_expr e = true -> forall i, free (index_name i) e = false.
Proof.
  induction e using expr_ind'; intros Hu i; cbn [free user_expr] in *.
  - reflexivity.
  - apply negb_true_iff in Hu. now apply index_neqb.
  - auto.
  - apply andb_true_iff in Hu as [Ht Ha].
    assert (E : (fix go l := match l with [] => false | a :: l' => free (index_name i) a || go l' end) args = false).
    { clear H Ht. induction H0 as [|a l Ha' Hl IH]; [reflexivity|]. cbn [forallb] in Ha.
      apply andb_true_iff in Ha as [U1 U2]. rewrite Ha', IH; auto. }
    rewrite E. destruct t; auto. now rewrite H.
  - induction H as [|[o a] l Ha Hl IH]; [reflexivity|]. cbn [forallb snd] in *.
    apply andb_true_iff in Hu as [U1 U2]. rewrite Ha, IH; auto.
  - induction H as [|[o [k v]] l [Hk Hv] Hl IH]; [reflexivity|]. cbn [forallb fst snd] in *.
    apply andb_true_iff in Hu as [U1 U2]. apply andb_true_iff in U1 as [U0 U1]. rewrite Hk, Hv, IH; auto.
  - apply andb_true_iff in Hu as [_ He].
    apply andb_true_iff in He as [He U5]. apply andb_true_iff in He as [He U4].
    apply andb_true_iff in He as [He U3]. apply andb_true_iff in He as [U1 U2].
    rewrite IHe1, IHe2, IHe3, IHe4, IHe5; auto. now rewrite !andb_false_r.
Qed.
Lemma rename_closed scopes n e : scopes_ok scopes n -> user_expr e = true -> closed n (MapVariables scopes e).
Proof.
  intros Hs. unfold MapVariables, closed.
  induction e using expr_ind'; intros Hu i; cbn [rename free user_expr] in *.
  - discriminate.
  - apply negb_true_iff in Hu. rewrite map_name_eq. destruct (resolves scopes x) as [j|] eqn:E.
    + rewrite String.eqb_eq. intros Hi. apply index_inj in Hi. subst j. now apply (Hs x).
    + rewrite index_neqb by exact Hu. discriminate.
  - auto.
  - apply andb_true_iff in Hu as [Ht Ha]. rewrite orb_true_iff. intros [Hi|Hi].
    + destruct t; cbn [option_map] in Hi; [auto|discriminate].
    + clear H Ht. induction H0 as [|a l Ha' Hl IH]; [discriminate|]. cbn [forallb map] in *.
      apply andb_true_iff in Ha as [U1 U2]. apply orb_true_iff in Hi as [Hi|Hi]; auto.
  - induction H as [|[o a] l Ha Hl IH]; [discriminate|]. cbn [forallb map fst snd] in *.
    apply andb_true_iff in Hu as [U1 U2]. rewrite orb_true_iff. intros [Hi|Hi]; auto.
  - induction H as [|[o [k v]] l [Hk Hv] Hl IH]; [discriminate|]. cbn [forallb map fst snd] in *.
    apply andb_true_iff in Hu as [U1 U2]. apply andb_true_iff in U1 as [U0 U1].
    rewrite !orb_true_iff. intros [[Hi|Hi]|Hi]; auto.
  - apply andb_true_iff in Hu as [_ He].
    apply andb_true_iff in He as [He U5]. apply andb_true_iff in He as [He U4].
    apply andb_true_iff in He as [He U3]. apply andb_true_iff in He as [U1 U2].
    rewrite !orb_true_iff, !andb_true_iff, !orb_true_iff.
    intros [[[Hi|Hi]|[_ [Hi|Hi]]]|[_ Hi]]; auto.
Qed.

(* ---- the block's list ---- *)
Section Block.
  Variables (C : config) (R : registry).

  Definition solves (init : list expr) (rho : env) : Prop :=
    forall i e, nth_error init i = Some e -> rho (index_name i) = Some (meaning C R e rho).
  (* every element uses elements before it only *)
  Definition in_order (n : nat) (init : list expr) : Prop :=
    forall i e, nth_error init i = Some e -> closed (n + i) e.
  Lemma in_order_app n a b : in_order n a -> in_order (n + List.length a) b -> in_order n (a ++ b).
  Proof.
    intros Ha Hb i e Hi. destruct (Nat.lt_ge_cases i (List.length a)) as [Hl|Hl].
    - rewrite nth_error_app1 in Hi by exact Hl. auto.
    - rewrite nth_error_app2 in Hi by exact Hl. specialize (Hb _ _ Hi). now replace (n + i)%nat with
        (n + List.length a + (i - List.length a))%nat by lia.
  Qed.
  Lemma in_order_one n e : closed n e -> in_order n [e].
  Proof. intros H [|[|i]] x Hx; try discriminate. injection Hx as <-. now rewrite Nat.add_0_r. Qed.
  Lemma in_order_nil n : in_order n [].
  Proof. intros [|i] x Hx; discriminate. Qed.
  Lemma solves_app a b rho : solves (a ++ b) rho -> solves a rho.
  Proof.
    intros H i e Hi. apply H. rewrite nth_error_app1; auto. apply nth_error_Some. congruence.
  Qed.

  Lemma block_env_other i init rho x : (forall j, (i <= j)%nat -> (j < i + List.length init)%nat -> index_name j <> x) ->
    block_env C R i init rho x = rho x.
  Proof.
    revert i rho. induction init as [|e l IH]; intros i rho H; cbn [block_env List.length] in *; auto.
    rewrite IH.
    - unfold bind_local. destruct (String.eqb (index_name i) x) eqn:E; auto.
      apply String.eqb_eq in E. elim (H i); auto; lia.
    - intros j H1 H2. apply H; lia.
  Qed.
  Lemma block_env_app i a b rho :
    block_env C R i (a ++ b) rho = block_env C R (i + List.length a) b (block_env C R i a rho).
  Proof.
    revert i rho. induction a as [|e l IH]; intros i rho; cbn [block_env app List.length].
    - now rewrite Nat.add_0_r.
    - rewrite IH. f_equal. lia.
  Qed.
  Lemma block_env_user init rho x : String.prefix "@index" x = false -> block_env C R 0 init rho x = rho x.
  Proof. intros H. apply block_env_other. intros j _ _. now apply index_neq. Qed.
  (* what e below n means does not change when later elements are bound *)
  Lemma block_env_later n init rho e : closed n e ->
    meaning C R e (block_env C R n init rho) = meaning C R e rho.
  Proof.
    intros He. apply meaning_free. intros x Hx. apply block_env_other. intros j Hj _ <-.
    specialize (He j Hx). lia.
  Qed.
  Lemma block_env_solves init rho : in_order 0 init -> solves init (block_env C R 0 init rho).
  Proof.
    intros Ho i e Hi. destruct (nth_error_split _ _ Hi) as (a & b & -> & Hl).
    rewrite block_env_app. cbn [block_env]. rewrite Hl, Nat.add_0_l.
    set (r := block_env C R 0 a rho).
    rewrite block_env_other.
    - unfold bind_local at 1. rewrite String.eqb_refl. f_equal.
      change (block_env C R (S i) b (bind_local (index_name i) (meaning C R e r) r)) with
        (block_env C R i (e :: b) r).
      symmetry. apply block_env_later. exact (Ho i e Hi).
    - intros j Hj _ E. apply index_inj in E. lia.
  Qed.
End Block.
