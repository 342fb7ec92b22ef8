From Coq Require Import ZArith String List Bool Lia ZifyBool.
From Coq Require Import Floats.SpecFloat.
From Verif Require Import Base M_Overflow M_Number M_Ast S_Ast L_Ast.
From Verif Require Import M_AstProto S_AstProto L_AstProto L_AstProto2.
Import ListNotations.
Open Scope list_scope.
Open Scope Z_scope.
Local Open Scope out_scope.

(** ** Inductions *)
Lemma type_ind (P : TypeSpec -> Prop) :
  (forall t, (forall s, In (Some s) (members t) -> P s) -> P t) -> forall t, P t.
Proof.
  intros H. fix IH 1. intros t. apply H. destruct t as [| | |p|p|w|e|k v|r l|n|n|o| |n l]; cbn [members]; intros s Hs; try (cbn in Hs; contradiction).
  - destruct Hs as [Hs|[]]. destruct e as [e|]; [|discriminate]. injection Hs as <-. apply IH.
  - destruct Hs as [Hs|[Hs|[]]].
    + destruct k as [e|]; [|discriminate]. injection Hs as <-. apply IH.
    + destruct v as [e|]; [|discriminate]. injection Hs as <-. apply IH.
  - destruct Hs as [Hs|Hs].
    + destruct r as [e|]; [|discriminate]. injection Hs as <-. apply IH.
    + induction l as [|x l IHl]; [destruct Hs|]. destruct Hs as [Hs|Hs]; [injection Hs as <-; apply IH|now apply IHl].
  - destruct Hs as [Hs|[]]. destruct o as [e|]; [|discriminate]. injection Hs as <-. apply IH.
  - induction l as [|x l IHl]; [destruct Hs|]. destruct Hs as [Hs|Hs]; [injection Hs as <-; apply IH|now apply IHl].
Qed.
Definition subtypes (p : TypePb) : list TypePb :=
  match p with
  | TList e => [e]
  | TMap k v => [k; v]
  | TFunction r l => r :: l
  | TType t => [t]
  | TAbstract _ l => l
  | _ => []
  end.
Lemma typepb_ind (P : TypePb -> Prop) :
  (forall t, (forall s, In s (subtypes t) -> P s) -> P t) -> forall t, P t.
Proof.
  intros H. fix IH 1. intros t. apply H. destruct t as [| | |p|p|w|e|k v|r l|n|n|o| |n l]; cbn [subtypes]; intros s Hs; try (cbn in Hs; contradiction).
  - destruct Hs as [<-|[]]. apply IH.
  - destruct Hs as [<-|[<-|[]]]; apply IH.
  - destruct Hs as [<-|Hs]; [apply IH|]. induction l as [|x l IHl]; [destruct Hs|]. destruct Hs as [<-|Hs]; [apply IH|now apply IHl].
  - destruct Hs as [<-|[]]. apply IH.
  - induction l as [|x l IHl]; [destruct Hs|]. destruct Hs as [<-|Hs]; [apply IH|now apply IHl].
Qed.

(** ** all2 *)
Lemma all2_iff {A} (f : A -> A -> bool) l : forall l', all2 f l l' = true <-> Forall2 (fun x y => f x y = true) l l'.
Proof.
  induction l as [|x l IH]; intros [|y l']; cbn.
  - split; [constructor|easy].
  - split; [easy|inversion 1].
  - split; [easy|inversion 1].
  - rewrite andb_true_iff. split.
    + intros [H1 H2]. constructor; [easy|]. now apply IH.
    + inversion 1; subst. split; [easy|]. now apply IH.
Qed.
Lemma all2_refl {A} (f : A -> A -> bool) l : (forall x, In x l -> f x x = true) -> all2 f l l = true.
Proof. intros H. apply all2_iff. induction l; constructor; [apply H; now left|]. apply IHl. intros; apply H; now right. Qed.
Lemma all2_sym {A} (f : A -> A -> bool) l l' : (forall x y, In x l -> f x y = true -> f y x = true) ->
  all2 f l l' = true -> all2 f l' l = true.
Proof.
  rewrite !all2_iff. intros H F. induction F; constructor; [apply H; [now left|easy]|].
  apply IHF. intros; apply H; [now right|easy].
Qed.
Lemma all2_trans {A} (f : A -> A -> bool) l : (forall x y z, In x l -> f x y = true -> f y z = true -> f x z = true) ->
  forall l' l'', all2 f l l' = true -> all2 f l' l'' = true -> all2 f l l'' = true.
Proof.
  induction l as [|x l IH]; intros H [|y l'] [|z l'']; cbn; try easy.
  rewrite !andb_true_iff. intros [A1 A2] [B1 B2]. split; [apply (H x y z); [now left|easy|easy]|].
  eapply IH; eauto. intros x0 y0 z0 Hx. apply H. now right.
Qed.
Lemma all2_eq {A} (f : A -> A -> bool) l l' : (forall x y, In x l -> In y l' -> f x y = true -> x = y) ->
  all2 f l l' = true -> l = l'.
Proof.
  rewrite all2_iff. intros H F. induction F; [easy|]. f_equal.
  - apply H; [now left|now left|easy].
  - apply IHF. intros; apply H; [now right|now right|easy].
Qed.

(** ** The equality of types *)
Definition teq (x y : option TypeSpec) : bool :=
  match x with
  | Some t => type_eq t (read_type y)
  | None => match read_type y with SUnset => true | _ => false end
  end.
Lemma type_eq_unset_l y : type_eq SUnset y = true -> y = SUnset.
Proof. now destruct y. Qed.
Lemma type_eq_unset_r y : type_eq y SUnset = true -> y = SUnset.
Proof. now destruct y as [| | | | | | | | | | |[]| |]. Qed.
Lemma teq_read x y : teq x y = type_eq (read_type x) (read_type y).
Proof. destruct x; [reflexivity|]. cbn. now destruct (read_type y). Qed.
Lemma Primitive_eq p q : Primitive_beq p q = true <-> p = q.
Proof. split; [apply internal_Primitive_dec_bl|apply internal_Primitive_dec_lb]. Qed.
Lemma WellKnown_eq p q : WellKnown_beq p q = true <-> p = q.
Proof. split; [apply internal_WellKnown_dec_bl|apply internal_WellKnown_dec_lb]. Qed.
Lemma eq_list x y : type_eq (SList x) (SList y) = teq x y. Proof. reflexivity. Qed.
Lemma eq_map k v k' v' : type_eq (SMap k v) (SMap k' v') = teq k k' && teq v v'. Proof. reflexivity. Qed.
Lemma eq_function r l r' l' : type_eq (SFunction r l) (SFunction r' l') = teq r r' && all2 type_eq l l'. Proof. reflexivity. Qed.

Lemma read_member (P : TypeSpec -> Prop) o : P SUnset -> (forall s, o = Some s -> P s) -> P (read_type o).
Proof. destruct o; cbn; auto. Qed.
Theorem type_eq_refl t : type_eq t t = true.
Proof.
  induction t as [t IH] using type_ind.
  assert (forall o, In o (members t) -> teq o o = true) as K.
  { intros o Ho. rewrite teq_read. apply read_member; [easy|]. intros s ->. now apply IH. }
  destruct t as [| | |p|p|w|e|k v|r l|n|n|o| |n l]; try reflexivity.
  - now apply Primitive_eq.
  - now apply Primitive_eq.
  - now apply WellKnown_eq.
  - rewrite eq_list. apply K. now left.
  - rewrite eq_map, andb_true_iff. split; apply K; cbn; auto.
  - rewrite eq_function. rewrite (K r) by (cbn; auto). cbn [andb]. apply all2_refl. intros x Hx. apply IH. cbn. right. now apply in_map.
  - apply String.eqb_refl.
  - apply String.eqb_refl.
  - destruct o as [o|]; [|easy]. cbn. apply IH. now left.
  - cbn. rewrite String.eqb_refl. cbn. apply all2_refl. intros x Hx. apply IH. now apply in_map.
Qed.
Theorem type_eq_sym t : forall u, type_eq t u = true -> type_eq u t = true.
Proof.
  induction t as [t IH] using type_ind. intros u H.
  assert (forall o o', In o (members t) -> teq o o' = true -> teq o' o = true) as K.
  { intros o o' Ho. rewrite !teq_read. destruct o as [s|]; cbn; [apply IH; easy|].
    intros E. apply type_eq_unset_l in E. now rewrite E. }
  destruct t as [| | |p|p|w|e|k v|r l|n|n|o| |n l]; destruct u as [| | |p'|p'|w'|e'|k' v'|r' l'|n'|n'|o'| |n' l'];
    try discriminate H; try reflexivity; try (destruct o; discriminate H).
  - apply Primitive_eq. symmetry. now apply Primitive_eq.
  - apply Primitive_eq. symmetry. now apply Primitive_eq.
  - apply WellKnown_eq. symmetry. now apply WellKnown_eq.
  - rewrite eq_list in *. apply K; [now left|easy].
  - rewrite eq_map in *. apply andb_true_iff in H as [H1 H2]. rewrite (K k k'), (K v v'); cbn; auto.
  - rewrite eq_function in *. apply andb_true_iff in H as [H1 H2]. rewrite (K r r'); [|now left|easy]. cbn.
    revert H2. apply all2_sym. intros x y Hx. apply IH. cbn. right. now apply in_map.
  - cbn in *. now rewrite String.eqb_sym.
  - cbn in *. now rewrite String.eqb_sym.
  - destruct o as [o|], o' as [o'|]; try discriminate H; try easy. cbn in *. apply IH; [now left|easy].
  - cbn in *. apply andb_true_iff in H as [H1 H2]. rewrite String.eqb_sym, H1. cbn.
    revert H2. apply all2_sym. intros x y Hx. apply IH. now apply in_map.
Qed.
Theorem type_eq_trans t : forall u w, type_eq t u = true -> type_eq u w = true -> type_eq t w = true.
Proof.
  induction t as [t IH] using type_ind. intros u z H J.
  assert (forall o o' o'', In o (members t) -> teq o o' = true -> teq o' o'' = true -> teq o o'' = true) as K.
  { intros o o' o'' Ho. rewrite !teq_read. destruct o as [s|]; cbn; [intros; eapply IH; eauto|].
    intros E. apply type_eq_unset_l in E. rewrite E. easy. }
  destruct t as [| | |p|p|w|e|k v|r l|n|n|o| |n l]; destruct u as [| | |p'|p'|w'|e'|k' v'|r' l'|n'|n'|o'| |n' l'];
    try discriminate H; try (destruct o; discriminate H);
    destruct z as [| | |p2|p2|w2|e2|k2 v2|r2 l2|n2|n2|o2| |n2 l2]; try discriminate J; try reflexivity; try (destruct o'; discriminate J).
  - apply Primitive_eq. etransitivity; [apply Primitive_eq|apply Primitive_eq]; eassumption.
  - apply Primitive_eq. etransitivity; [apply Primitive_eq|apply Primitive_eq]; eassumption.
  - apply WellKnown_eq. etransitivity; [apply WellKnown_eq|apply WellKnown_eq]; eassumption.
  - rewrite eq_list in *. eapply K; [now left|eassumption|easy].
  - rewrite eq_map in *. apply andb_true_iff in H as [H1 H2]. apply andb_true_iff in J as [J1 J2].
    rewrite (K k k' k2), (K v v' v2); cbn; auto.
  - rewrite eq_function in *. apply andb_true_iff in H as [H1 H2]. apply andb_true_iff in J as [J1 J2].
    rewrite (K r r' r2); [|now left|easy|easy]. cbn.
    revert H2 J2. apply all2_trans. intros x y q Hx. apply IH. cbn. right. now apply in_map.
  - cbn in *. apply String.eqb_eq in H, J. subst. apply String.eqb_refl.
  - cbn in *. apply String.eqb_eq in H, J. subst. apply String.eqb_refl.
  - destruct o as [o|], o' as [o'|], o2 as [o2|]; try discriminate H; try discriminate J; try easy. cbn in *.
    eapply IH; [now left|eassumption|easy].
  - cbn in *. apply andb_true_iff in H as [H1 H2]. apply andb_true_iff in J as [J1 J2].
    apply String.eqb_eq in H1, J1. subst. rewrite String.eqb_refl. cbn.
    revert H2 J2. apply all2_trans. intros x y q Hx. apply IH. now apply in_map.
Qed.

(** ** Types to messages and back *)
Theorem type_message p : forall t, TypeFromProto p = Val t -> TypeToProto t = p.
Proof.
  induction p as [p IH] using typepb_ind. intros t H.
  assert (forall l l', (forall x, In x l -> In x (subtypes p)) -> mapM TypeFromProto l = Val l' -> map TypeToProto l' = l) as K.
  { intros l l' Hin Hl. apply mapM_inv in Hl. induction Hl; cbn; [easy|]. f_equal; [apply IH; [apply Hin; now left|easy]|].
    apply IHHl. intros; apply Hin; now right. }
  destruct p as [| | |e|e|e|e|k v|r l|n|n|o| |n l]; cbn [TypeFromProto] in H; try (injection H as <-; reflexivity).
  - destruct e; cbn in H; [|discriminate]. now injection H as <-.
  - destruct e; cbn in H; [|discriminate]. now injection H as <-.
  - destruct e; cbn in H; [|discriminate]. now injection H as <-.
  - unbind H. injection H as <-. cbn. f_equal. apply IH; [now left|easy].
  - unbind H. injection H as <-. cbn. f_equal; apply IH; cbn; auto.
  - unbind H. injection H as <-. cbn. f_equal; [apply IH; cbn; auto|]. eapply K; eauto. cbn; auto.
  - assert (forall a, TypeFromProto o = Val a -> TypeToProto a = o) as J by (apply IH; now left).
    destruct o; try (injection H as <-; reflexivity);
      destruct (TypeFromProto _) eqn:E in H; try discriminate H; injection H as <-; cbn [TypeToProto]; rewrite (J _ E); reflexivity.
  - unbind H. injection H as <-. cbn. f_equal. eapply K; [|eassumption]. cbn; auto.
Qed.
Theorem type_from_defined p : (exists t, TypeFromProto p = Val t) <-> ~ has_number p.
Proof.
  split.
  - intros (t & H) N. revert t H. induction N; intros t0 H0; cbn [TypeFromProto] in H0; try discriminate;
      try (unbind H0; eauto; fail).
    + unbind H0. apply mapM_inv in E.
      clear - H E IHN. induction E; [easy|]. destruct H as [<-|H]; eauto.
    + destruct t; try (injection H0 as <-; inversion N); unbind H0; eauto.
    + unbind H0. apply mapM_inv in E.
      clear - H E IHN. induction E; [easy|]. destruct H as [<-|H]; eauto.
  - induction p as [p IH] using typepb_ind. intros N.
    destruct p as [| | |e|e|e|e|k v|r l|n|n|o| |n l]; cbn [TypeFromProto]; eauto.
    + destruct e; [cbn; eauto|]. elim N. constructor.
    + destruct e; [cbn; eauto|]. elim N. constructor.
    + destruct e; [cbn; eauto|]. elim N. constructor.
    + destruct (IH e) as (t & ->); [now left|intros X; apply N; now constructor|]. cbn. eauto.
    + destruct (IH k) as (t & ->); [now left|intros X; apply N; now constructor|].
      destruct (IH v) as (t' & E); [right; now left|intros X; apply N; now constructor|]. cbn. rewrite E. cbn. eauto.
    + destruct (proj2 (mapM_defined TypeFromProto l)) as (l' & ->).
      { intros x Hx. apply IH; [cbn; auto|]. intros X. apply N. now apply (number_arg r l x). }
      destruct (IH r) as (t' & E); [now left|intros X; apply N; now constructor|]. cbn. rewrite E. cbn. eauto.
    + destruct (IH o) as (t & E); [now left|intros X; apply N; now constructor|].
      destruct o; [eauto|..]; rewrite E; cbn; eauto.
    + destruct (proj2 (mapM_defined TypeFromProto l)) as (l' & ->); [|cbn; eauto].
      intros x Hx. apply IH; [cbn; auto|]. intros X. apply N. now apply (number_parameter n l x).
Qed.
Lemma to_not_set t : TypeToProto t = TNotSet -> t = SUnset.
Proof. now destruct t. Qed.
Theorem type_trip t : no_type_of_unset t -> exists t', TypeFromProto (TypeToProto t) = Val t' /\ type_eq t' t = true.
Proof.
  induction t as [t IH] using type_ind. intros H. inversion H as [t' H1 H2]; subst t'.
  assert (forall o, In o (members t) -> exists t', TypeFromProto (match o with Some t => TypeToProto t | None => TNotSet end) = Val t' /\
    teq (Some t') o = true) as K.
  { intros [s|] Ho; [|now exists SUnset]. apply IH; [easy|]. now apply H2. }
  assert (forall l, (forall x, In x l -> In (Some x) (members t)) -> exists l', mapM TypeFromProto (map TypeToProto l) = Val l' /\ all2 type_eq l' l = true) as L.
  { induction l as [|x l IHl]; intros Hin; [now exists []|]. destruct IHl as (l' & M1 & M2); [intros; apply Hin; now right|].
    destruct (IH x) as (y & Y1 & Y2); [apply Hin; now left|apply H2; apply Hin; now left|].
    exists (y :: l'). cbn in *. rewrite Y1. cbn. rewrite M1. cbn. now rewrite Y2. }
  destruct t as [| | |p|p|w|e|k v|r l|n|n|o| |n l]; cbn [TypeToProto TypeFromProto].
  1-3: eexists; split; reflexivity.
  1-3: cbn; eexists; split; [reflexivity|]; apply type_eq_refl.
  - destruct (K e) as (t' & -> & E); [now left|]. eexists. split; [reflexivity|]. exact E.
  - destruct (K k) as (t' & -> & E); [now left|]. destruct (K v) as (t'' & E' & E''); [right; now left|]. cbn [obind]. rewrite E'.
    eexists. split; [reflexivity|]. rewrite eq_map. now rewrite E, E''.
  - destruct (L l) as (l' & -> & E); [intros; cbn; right; now apply in_map|]. cbn [obind].
    destruct (K r) as (t' & E1 & E2); [now left|]. rewrite E1. eexists. split; [reflexivity|]. rewrite eq_function. now rewrite E, E2.
  - eexists. split; [reflexivity|]. apply type_eq_refl.
  - eexists. split; [reflexivity|]. apply type_eq_refl.
  - destruct o as [s|].
    + destruct (K (Some s)) as (t' & E1 & E2); [now left|]. exists (SType (Some t')). split; [|exact E2].
      destruct (TypeToProto s) eqn:E; [|now rewrite E1..].
      apply to_not_set in E. subst. now elim H1.
    + eexists. split; reflexivity.
  - eexists. split; reflexivity.
  - destruct (L l) as (l' & -> & E); [intros; now apply in_map|]. cbn [obind]. eexists. split; [reflexivity|]. cbn. now rewrite String.eqb_refl.
Qed.

(** ** Copies of types *)
Theorem copy_equal t : no_type_of_none t -> type_eq (copy_type t) t = true.
Proof.
  induction t as [t IH] using type_ind. intros H. inversion H as [t' H1 H2]; subst t'.
  assert (forall o, In o (members t) -> teq (Some (match o with Some t => copy_type t | None => SUnset end)) o = true) as K.
  { intros [s|] Ho; [|easy]. apply IH; [easy|]. now apply H2. }
  assert (forall l, (forall x, In x l -> In (Some x) (members t)) -> all2 type_eq (map copy_type l) l = true) as L.
  { induction l as [|x l IHl]; intros Hin; [easy|]. cbn. rewrite IH, IHl; [easy| | |].
    - intros; apply Hin; now right.
    - apply Hin. now left.
    - apply H2. apply Hin. now left. }
  destruct t as [| | |p|p|w|e|k v|r l|n|n|o| |n l]; cbn [copy_type]; try apply type_eq_refl.
  - rewrite eq_list. apply K. now left.
  - rewrite eq_map, K, K; cbn; auto.
  - rewrite eq_function, K, L; cbn; auto. intros; right; now apply in_map.
  - destruct o as [s|]; [|now elim H1]. cbn. apply (K (Some s)). now left.
  - cbn. rewrite String.eqb_refl. cbn. apply L. intros; now apply in_map.
Qed.
Theorem copy_message t : TypeToProto (copy_type t) = TypeToProto t.
Proof.
  induction t as [t IH] using type_ind.
  assert (forall l, (forall x, In x l -> In (Some x) (members t)) -> map TypeToProto (map copy_type l) = map TypeToProto l) as L.
  { intros l Hin. rewrite map_map. apply map_ext_in. intros x Hx. apply IH. now apply Hin. }
  destruct t as [| | |p|p|w|e|k v|r l|n|n|o| |n l]; try reflexivity.
  - destruct e; cbn; [|easy]. f_equal. apply IH. now left.
  - destruct k, v; cbn; f_equal; try easy; apply IH; cbn; auto.
  - cbn. f_equal; [destruct r; [apply IH; now left|easy]|]. apply L. cbn. intros; right; now apply in_map.
  - destruct o; cbn; [|easy]. f_equal. apply IH. now left.
  - cbn. f_equal. apply L. cbn. intros; now apply in_map.
Qed.
