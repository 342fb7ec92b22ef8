(* Lemmas on declarations of functions. *)
From Coq Require Import String Ascii List Bool Arith Lia Permutation.
From Verif Require Import Base M_Infer S_Infer L_Infer.
From Verif Require M_Signature S_Signature L_Signature P_Signature.
From Verif Require Import M_Decl S_Decl.
Import ListNotations.
Open Scope list_scope.
Local Open Scope nat_scope.

(* ---- assignability ---- *)

Fixpoint pointwise (l m : list ty) : bool :=
  match l, m with
  | [], [] => true
  | x :: l', y :: m' => TypeIsAssignable x y && pointwise l' m'
  | _, _ => false
  end.

Lemma assignable_unfold to from : TypeIsAssignable to from =
  ty_eqb to from
  || match to with
     | TDyn => true
     | TWrapper p => atom_assignable TNull from || atom_assignable (TPrim p) from
     | _ => tkind_eqb (kind_of to) (kind_of from) && String.eqb (M_Infer.type_name to) (M_Infer.type_name from)
            && pointwise (params to) (params from)
     end.
Proof. destruct to; reflexivity. Qed.

Lemma prim_eqb_eq p q : prim_eqb p q = true -> p = q.
Proof. destruct p, q; cbn; intros H; try reflexivity; discriminate H. Qed.

Section AccInd.
  Variable P : ty -> ty -> Prop.
  Hypothesis Hdyn : forall t, P TDyn t.
  Hypothesis Hnull : forall p, P (TWrapper p) TNull.
  Hypothesis Hbox : forall p, P (TWrapper p) (TPrim p).
  Hypothesis Hsame : forall t, P t t.
  Hypothesis Htype : forall l m, P (TType l) (TType m).
  Hypothesis Hlist : forall a b, accepts a b -> P a b -> P (TList a) (TList b).
  Hypothesis Hmap : forall k v k' v', accepts k k' -> P k k' -> accepts v v' -> P v v' -> P (TMap k v) (TMap k' v').
  Hypothesis Hopaque : forall n l m, Forall2 accepts l m -> Forall2 P l m -> P (TOpaque n l) (TOpaque n m).
  Hypothesis Hfunction : forall l m, Forall2 accepts l m -> Forall2 P l m -> P (TFunction l) (TFunction m).
  Fixpoint accepts_ind' (a b : ty) (H : accepts a b) {struct H} : P a b.
  Proof.
    destruct H.
    - apply Hdyn. - apply Hnull. - apply Hbox. - apply Hsame. - apply Htype.
    - apply Hlist; [exact H|]. apply accepts_ind', H.
    - apply Hmap; [exact H| |exact H0|]; apply accepts_ind'; assumption.
    - apply Hopaque; [exact H|]. induction H; constructor; [apply accepts_ind'; exact H|exact IHForall2].
    - apply Hfunction; [exact H|]. induction H; constructor; [apply accepts_ind'; exact H|exact IHForall2].
  Qed.
End AccInd.

Lemma eqb_accepts : forall a b, ty_eqb a b = true -> accepts a b.
Proof.
  induction a as [a IH] using ty_params_ind. intros b.
  assert (HL : forall l m, (forall u, In u l -> forall b, ty_eqb u b = true -> accepts u b) ->
    tys_eqb l m = true -> Forall2 accepts l m).
  { induction l as [|x l IHl]; intros [|y m] Hl H; try discriminate H; constructor.
    - apply andb_prop in H as [H _]. apply Hl; [left; reflexivity|exact H].
    - apply andb_prop in H as [_ H]. apply IHl; [|exact H]. intros u Hu. apply Hl. right. exact Hu. }
  destruct a, b; cbn; intros H; try discriminate H; try apply acc_same; try apply acc_type; try apply acc_dyn.
  - apply prim_eqb_eq in H as ->. apply acc_same.
  - apply prim_eqb_eq in H as ->. apply acc_same.
  - apply String.eqb_eq in H as ->. apply acc_same.
  - apply String.eqb_eq in H as ->. apply acc_same.
  - apply String.eqb_eq in H as ->. apply acc_same.
  - apply acc_list. apply IH; [left; reflexivity|exact H].
  - apply andb_prop in H as [H1 H2]. apply acc_map; apply IH; cbn; auto.
  - apply andb_prop in H as [H1 H2]. apply String.eqb_eq in H1 as ->. apply acc_opaque. apply HL; [exact IH|exact H2].
  - apply acc_function. apply HL; [exact IH|exact H].
Qed.

Lemma atom_null from : atom_assignable TNull from = true -> from = TNull.
Proof. destruct from; cbn; intros H; try reflexivity; discriminate H. Qed.
Lemma atom_prim p from : atom_assignable (TPrim p) from = true -> from = TPrim p.
Proof.
  destruct from; cbn; intros H; try discriminate H. apply orb_prop in H as [H|H].
  - now apply prim_eqb_eq in H as ->.
  - rewrite !andb_true_r in H. now apply prim_eqb_eq in H as ->.
Qed.

Lemma assignable_accepts : forall to from, TypeIsAssignable to from = true <-> accepts to from.
Proof.
  intros to from. split.
  - revert from. induction to as [to IH] using ty_params_ind. intros from. rewrite assignable_unfold.
    intros H. apply orb_prop in H as [H|H]; [now apply eqb_accepts|].
    assert (HL : forall l m, (forall u, In u l -> forall b, TypeIsAssignable u b = true -> accepts u b) ->
      pointwise l m = true -> Forall2 accepts l m).
    { induction l as [|x l IHl]; intros [|y m] Hl E; try discriminate E; constructor.
      - apply andb_prop in E as [E _]. apply Hl; [left; reflexivity|exact E].
      - apply andb_prop in E as [_ E]. apply IHl; [|exact E]. intros u Hu. apply Hl. right. exact Hu. }
    pose proof (HL (params to) (params from) IH) as HP. clear HL IH.
    destruct to; try apply acc_dyn;
      try (apply orb_prop in H as [H|H]; [apply atom_null in H as ->; apply acc_null|apply atom_prim in H as ->; apply acc_box]);
      apply andb_prop in H as [H H3]; apply andb_prop in H as [H1 H2]; specialize (HP H3);
      destruct from; try discriminate H1; try apply acc_same; try apply acc_type.
    + cbn in H1. apply prim_eqb_eq in H1 as ->. apply acc_same.
    + apply String.eqb_eq in H2. cbn in H2. subst. apply acc_same.
    + apply String.eqb_eq in H2. cbn in H2. subst. apply acc_same.
    + apply String.eqb_eq in H2. cbn in H2. subst. apply acc_same.
    + cbn in HP. inversion HP; subst. now apply acc_list.
    + cbn in HP. inversion HP as [|? ? ? ? Ha Hb]; subst. inversion Hb; subst. now apply acc_map.
    + apply String.eqb_eq in H2. cbn in H2. subst. now apply acc_opaque.
    + now apply acc_function.
  - intros H. induction H using accepts_ind'; rewrite assignable_unfold.
    + apply orb_true_r.
    + reflexivity.
    + destruct p; reflexivity.
    + now rewrite ty_eqb_refl.
    + reflexivity.
    + cbn. rewrite IHaccepts. now rewrite orb_true_r.
    + cbn. rewrite IHaccepts1, IHaccepts2. now rewrite orb_true_r.
    + cbn [kind_of tkind_eqb M_Infer.type_name params]. rewrite String.eqb_refl.
      assert (E : pointwise l m = true). { clear H. induction H0; cbn; [reflexivity|]. now rewrite H, IHForall2. }
      rewrite E. apply orb_true_r.
    + cbn [kind_of tkind_eqb M_Infer.type_name params]. 
      assert (E : pointwise l m = true). { clear H. induction H0; cbn; [reflexivity|]. now rewrite H, IHForall2. }
      rewrite E. apply orb_true_r.
Qed.

Lemma f2_trans l m : Forall2 (fun a b => forall c, accepts b c -> accepts a c) l m ->
  forall c, Forall2 accepts m c -> Forall2 accepts l c.
Proof. induction 1 as [|x y l m Hx _ IH]; intros c Hm; inversion Hm; subst; constructor; auto. Qed.
Lemma accepts_trans : forall a b, accepts a b -> forall c, accepts b c -> accepts a c.
Proof.
  intros a b H. induction H using accepts_ind'; intros c Hc.
  - apply acc_dyn.
  - inversion Hc; subst. apply acc_null.
  - inversion Hc; subst. apply acc_box.
  - exact Hc.
  - inversion Hc; subst; apply acc_type.
  - inversion Hc; subst; apply acc_list; [apply IHaccepts, acc_same|now apply IHaccepts].
  - inversion Hc; subst; apply acc_map; first [now apply IHaccepts1|now apply IHaccepts2|apply IHaccepts1, acc_same|apply IHaccepts2, acc_same].
  - inversion Hc; subst; apply acc_opaque; [exact H|]. eapply f2_trans; eassumption.
  - inversion Hc; subst; apply acc_function; [exact H|]. eapply f2_trans; eassumption.
Qed.

Lemma overlap_collide o o' : SignaturesOverlap o o' = true <-> collide o o'.
Proof.
  unfold SignaturesOverlap, collide. rewrite andb_true_iff, eqb_true_iff.
  assert (E : (Nat.eqb (List.length (od_args o)) (List.length (od_args o')) && args_overlap (od_args o) (od_args o'))%bool = true
    <-> Forall2 (fun a b => accepts a b \/ accepts b a) (od_args o) (od_args o')).
  { rewrite andb_true_iff. generalize (od_args o) (od_args o'). induction l as [|a l IH]; intros [|b m]; cbn [args_overlap List.length Nat.eqb].
    - split; auto. - split; [intros [H _]; discriminate H|intros H; inversion H].
    - split; [intros [H _]; discriminate H|intros H; inversion H].
    - rewrite andb_true_iff, orb_true_iff, !assignable_accepts. split.
      + intros (H & H1 & H2). constructor; [exact H1|]. apply IH. now split.
      + intros H. inversion H; subst. apply IH in H5. tauto. }
  now rewrite E.
Qed.

Lemma collide_sym o o' : collide o o' -> collide o' o.
Proof.
  intros [H1 H2]. split; [now symmetry|]. induction H2; constructor; [tauto|assumption].
Qed.
Lemma collide_refl o : collide o o.
Proof. split; [reflexivity|]. induction (od_args o); constructor; [left; apply acc_same|assumption]. Qed.

(* ---- one call, two overloads ---- *)

Lemma fixed_accepts a : forall b, accepts a b -> fixed a -> accepts b a.
Proof.
  intros b H. induction H using accepts_ind'; cbn [fixed]; intros F; try contradiction.
  - apply acc_same.
  - apply acc_type.
  - apply acc_list. now apply IHaccepts.
  - apply acc_map; [now apply IHaccepts1|now apply IHaccepts2].
  - apply acc_opaque. clear H. induction H0; constructor; [now apply H|]. apply IHForall2. apply F.
  - apply acc_function. clear H. induction H0; constructor; [now apply H|]. apply IHForall2. apply F.
Qed.

Lemma f2_same l : Forall2 accepts l l.
Proof. induction l; constructor; [apply acc_same|assumption]. Qed.
Lemma from_opaque n l c : accepts (TOpaque n l) c -> exists m, c = TOpaque n m /\ Forall2 accepts l m.
Proof. intros H. inversion H; subst; [eexists; split; [reflexivity|apply f2_same]|eauto]. Qed.
Lemma from_function l c : accepts (TFunction l) c -> exists m, c = TFunction m /\ Forall2 accepts l m.
Proof. intros H. inversion H; subst; [eexists; split; [reflexivity|apply f2_same]|eauto]. Qed.
Lemma f2_one e c : Forall2 accepts [e] c -> exists x, c = [x] /\ accepts e x.
Proof. intros H. inversion H as [|? ? ? ? H1 H2]; subst. inversion H2; subst. eauto. Qed.

Lemma single_comparable : forall a b c, single a -> single b -> accepts a c -> accepts b c -> accepts a b \/ accepts b a.
Proof.
  induction a as [a IH] using ty_params_ind. intros b c Sa Sb Ha Hb.
  assert (Ff : fixed a -> accepts a b \/ accepts b a).
  { intros F. right. eapply accepts_trans; [exact Hb|]. now apply fixed_accepts. }
  assert (Fg : fixed b -> accepts a b \/ accepts b a).
  { intros F. left. eapply accepts_trans; [exact Ha|]. now apply fixed_accepts. }
  destruct a; cbn [single] in Sa; destruct Sa as [Sa|Sa]; try (apply Ff; exact Sa); try contradiction.
  - left. apply acc_dyn.
  - destruct b; cbn [single] in Sb; destruct Sb as [Sb|Sb]; try (apply Fg; exact Sb); try contradiction.
    + right. apply acc_dyn.
    + assert (exists x, c = TList x /\ accepts a x) as (x & -> & Hx).
      { inversion Ha; subst; [exists a; split; [reflexivity|apply acc_same]|eauto]. }
      assert (accepts b x) as Hx'.
      { inversion Hb; subst; [apply acc_same|assumption]. }
      destruct (IH a (or_introl eq_refl) b x Sa Sb Hx Hx'); [left|right]; now apply acc_list.
    + destruct ps as [|e [|? ?]]; try contradiction. inversion Ha; subst; inversion Hb.
    + destruct ps as [|e [|? ?]]; try contradiction. inversion Ha; subst; inversion Hb.
  - destruct ps as [|e [|? ?]]; try contradiction.
    destruct b; cbn [single] in Sb; destruct Sb as [Sb|Sb]; try (apply Fg; exact Sb); try contradiction.
    + right. apply acc_dyn.
    + inversion Ha; subst; inversion Hb.
    + destruct ps as [|e' [|? ?]]; try contradiction.
      apply from_opaque in Ha as (m & -> & Ha). apply f2_one in Ha as (x & -> & Hx).
      apply from_opaque in Hb as (m & [= <- <-] & Hb). apply f2_one in Hb as (y & [= <-] & Hx').
      destruct (IH e (or_introl eq_refl) e' x Sa Sb Hx Hx'); [left|right]; apply acc_opaque; constructor; [assumption|constructor|assumption|constructor].
    + destruct ps as [|e' [|? ?]]; try contradiction. inversion Ha; subst; inversion Hb.
  - destruct ps as [|e [|? ?]]; try contradiction.
    destruct b; cbn [single] in Sb; destruct Sb as [Sb|Sb]; try (apply Fg; exact Sb); try contradiction.
    + right. apply acc_dyn.
    + inversion Ha; subst; inversion Hb.
    + destruct ps as [|e' [|? ?]]; try contradiction. inversion Ha; subst; inversion Hb.
    + destruct ps as [|e' [|? ?]]; try contradiction.
      apply from_function in Ha as (m & -> & Ha). apply f2_one in Ha as (x & -> & Hx).
      apply from_function in Hb as (m & [= <-] & Hb). apply f2_one in Hb as (y & [= <-] & Hx').
      destruct (IH e (or_introl eq_refl) e' x Sa Sb Hx Hx'); [left|right]; apply acc_function; constructor; [assumption|constructor|assumption|constructor].
Qed.

Lemma lower l m : Forall2 (fun a b => accepts a b \/ accepts b a) l m -> exists c, Forall2 accepts l c /\ Forall2 accepts m c.
Proof.
  induction 1 as [|a b l m [H|H] _ (c & Hc & Hc')]; [exists []; auto|exists (b :: c)|exists (a :: c)];
    split; constructor; try assumption; apply acc_same.
Qed.
