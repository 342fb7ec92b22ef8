From Coq Require Import ZArith String List Bool Lia ZifyBool.
From Coq Require Import Floats.SpecFloat.
From Verif Require Import Base M_Overflow M_Number M_Ast S_Ast L_Ast.
From Verif Require Import M_AstProto S_AstProto L_AstProto L_AstProto2 L_AstProto3.
Import ListNotations.
Open Scope list_scope.
Open Scope Z_scope.
Local Open Scope out_scope.

(** ** Constants *)
Definition close (x y : double) : Prop := x <> S754_nan /\ (x = y \/ exists s t, x = S754_zero s /\ y = S754_zero t).
Lemma eqb_close x y : SFeqb x y = true <-> close x y.
Proof.
  unfold close, SFeqb, SFcompare. split.
  - destruct x as [s|s| |s m e], y as [t|t| |t n f]; intros H; try discriminate H; try (destruct s; discriminate H);
      try (destruct t; discriminate H); try (destruct s, t; discriminate H); (split; [discriminate|]).
    + right. eauto.
    + destruct s, t; try discriminate; now left.
    + left. destruct s, t; try discriminate; destruct (Z.compare_spec e f); try discriminate; subst;
        change (Pos.compare_cont Eq m n) with (Pos.compare m n) in H;
        destruct (Pos.compare_spec m n); try discriminate; now subst.
  - intros (Hn & [<-|(s & t & -> & ->)]); [|easy].
    destruct x as [s|s| |s m e]; try easy; [now destruct s|].
    change (Pos.compare_cont Eq m m) with (Pos.compare m m). rewrite Z.compare_refl, Pos.compare_refl. now destruct s.
Qed.
Lemma all2_Zeq a b : all2 Z.eqb a b = true <-> a = b.
Proof.
  rewrite all2_iff. split.
  - induction 1; [easy|]. f_equal; [lia|easy].
  - intros <-. induction a; constructor; [lia|easy].
Qed.
Definition same_constant (a b : constant) : Prop :=
  match a, b with CDouble x, CDouble y => close x y | _, _ => a = b end.
Lemma constant_eq_same a b : constant_eq a b = true <-> same_constant a b.
Proof.
  destruct a, b; cbn [constant_eq same_constant]; try (split; [discriminate|discriminate]); try (split; reflexivity).
  - destruct b, b0; cbn; split; congruence.
  - rewrite Z.eqb_eq. split; congruence.
  - rewrite Z.eqb_eq. split; congruence.
  - apply eqb_close.
  - rewrite all2_Zeq. split; congruence.
  - rewrite all2_Zeq. split; congruence.
  - destruct d as [x|[]], d0 as [y|[]]; cbn; rewrite ?Z.eqb_eq; split; congruence.
  - destruct t as [x|[]], t0 as [y|[]]; cbn; rewrite ?Z.eqb_eq; split; congruence.
Qed.
Lemma close_sym x y : close x y -> close y x.
Proof. intros (H & [<-|(s & t & -> & ->)]); split; auto; [discriminate|]. right. eauto. Qed.
Lemma close_trans x y z : close x y -> close y z -> close x z.
Proof.
  intros (H & [<-|(s & t & -> & ->)]); [easy|]. intros (H' & [<-|(s' & t' & E & ->)]); split; try discriminate; right; eauto.
Qed.
Lemma constant_refl c : (match c with CDouble x => x <> S754_nan | _ => True end) -> constant_eq c c = true.
Proof. intros H. apply constant_eq_same. destruct c; try easy. split; [easy|now left]. Qed.
Lemma constant_sym a b : constant_eq a b = true -> constant_eq b a = true.
Proof. rewrite !constant_eq_same. destruct a, b; cbn; try congruence. apply close_sym. Qed.
Lemma constant_trans a b c : constant_eq a b = true -> constant_eq b c = true -> constant_eq a c = true.
Proof. rewrite !constant_eq_same. destruct a, b, c; cbn; try congruence. apply close_trans. Qed.

(** ** Expressions *)
Definition oeq (x y : option Expr) : bool :=
  match x with
  | Some e => expr_eq e (read y)
  | None => match read y with Unspecified i => 0 =? i | _ => false end
  end.
Lemma empty_eq_l y : expr_eq (Unspecified 0) y = true -> y = Unspecified 0.
Proof. destruct y; cbn [expr_eq expr_id]; rewrite ?andb_false_r; try discriminate. rewrite andb_true_r. intros H. f_equal. lia. Qed.
Lemma empty_eq_r y : expr_eq y (Unspecified 0) = true -> y = Unspecified 0.
Proof. destruct y; cbn [expr_eq expr_id]; rewrite ?andb_false_r; try discriminate. rewrite andb_true_r. intros H. f_equal. lia. Qed.
Lemma oeq_read x y : oeq x y = expr_eq (read x) (read y).
Proof. destruct x; [reflexivity|]. unfold oeq; cbn [read]; unfold default_instance. destruct (read y); cbn [expr_eq expr_id]; rewrite ?andb_false_r, ?andb_true_r; reflexivity. Qed.
Lemma read_or_empty o : read o = or_empty o. Proof. now destruct o. Qed.
Definition field_eq (x y : Z * string * option Expr * bool) : bool :=
  let '(i, f, v, o) := x in let '(i', f', v', o') := y in (i =? i') && String.eqb f f' && oeq v v' && Bool.eqb o o'.
Definition entry_eq (x y : Z * option Expr * option Expr * bool) : bool :=
  let '(i, k, v, o) := x in let '(i', k', v', o') := y in (i =? i') && oeq k k' && oeq v v' && Bool.eqb o o'.
Definition element_eq (x y : option Expr * bool) : bool :=
  let '(e, o) := x in let '(e', o') := y in oeq e e' && Bool.eqb o o'.
Lemma eq_unfold a b : expr_eq a b =
  (expr_id a =? expr_id b) &&
  match a, b with
  | Unspecified _, Unspecified _ => true
  | Const _ c, Const _ d => constant_eq c d
  | Ident _ x, Ident _ y => String.eqb x y
  | Select _ o f t, Select _ o' f' t' => oeq o o' && String.eqb f f' && Bool.eqb t t'
  | Call _ f t l, Call _ f' t' l' => String.eqb f f' && oeq t t' && all2 expr_eq l l'
  | ListE _ l, ListE _ l' => all2 element_eq l l'
  | StructE _ m l, StructE _ m' l' => String.eqb m m' && all2 field_eq l l'
  | MapE _ l, MapE _ l' => all2 entry_eq l l'
  | Comprehension _ v _ a r i c s f, Comprehension _ v' _ a' r' i' c' s' f' =>
      String.eqb v v' && oeq r r' && String.eqb a a' && oeq i i' && oeq c c' && oeq s s' && oeq f f'
  | _, _ => false
  end.
Proof. destruct a, b; reflexivity. Qed.

Lemma eqb_swap a b : Bool.eqb a b = Bool.eqb b a. Proof. now destruct a, b. Qed.
(* The members of an expression that may be unset *)
Definition slots (e : Expr) : list (option Expr) :=
  match e with
  | Unspecified _ | Const _ _ | Ident _ _ => []
  | Select _ o _ _ => [o]
  | Call _ _ t l => t :: map Some l
  | ListE _ l => map fst l
  | StructE _ _ l => map (fun '(_, _, v, _) => v) l
  | MapE _ l => concat (map (fun '(_, k, v, _) => [k; v]) l)
  | Comprehension _ _ _ _ r i c s f => [r; i; c; s; f]
  end.
Lemma slot_child e c : In (Some c) (slots e) -> In c (children e).
Proof.
  destruct e as [i|i k|i n|i o f t|i f t a|i l|i n l|i l|i v v2 a r j k s f]; cbn [slots]; try easy.
  - intros [->|[]]. now apply child_select.
  - intros [->|H]; [now apply child_target|]. apply in_map_iff in H as (x & [= ->] & H). now apply child_arg.
  - intros H. apply in_map_iff in H as ([x b] & E & H). cbn in E. subst x. now apply (child_element i l c b).
  - intros H. apply in_map_iff in H as ([[[x y] v] b] & E & H). subst v. now apply (child_field i n l x y c b).
  - intros H. apply in_concat in H as (l' & Hl & H). apply in_map_iff in Hl as ([[[x y] v] b] & <- & Hl).
    destruct H as [->|[->|[]]]; [now apply (child_key i l x c v b)|now apply (child_value i l x y c b)].
  - intros H. rewrite children_comprehension. cbn in *. repeat (destruct H as [->|H]; [cbn; auto 7|]). easy.
Qed.
Theorem expr_eq_refl e : no_nan e -> expr_eq e e = true.
Proof.
  induction e as [e IH] using children_ind. intros Hn.
  assert (forall c, In c (children e) -> expr_eq c c = true) as K.
  { intros c Hc. apply IH; [easy|]. eapply throughout_child; eauto. }
  assert (forall o, In o (slots e) -> oeq o o = true) as O.
  { intros [c|] Ho; [|easy]. apply K. now apply slot_child. }
  apply throughout_here in Hn. rewrite eq_unfold, Z.eqb_refl. cbn [andb].
  destruct e as [i|i k|i n|i o f t|i f t a|i l|i n l|i l|i v v2 a r j k s f]; cbn [slots] in O;
    rewrite ?String.eqb_refl, ?Bool.eqb_reflx; cbn [andb].
  - easy.
  - apply constant_refl. now destruct k.
  - easy.
  - rewrite O by now left. easy.
  - rewrite O by now left. cbn. apply all2_refl. intros x Hx. apply K. now apply child_arg.
  - apply all2_refl. intros [x b] Hx. cbn. rewrite O, Bool.eqb_reflx; [easy|]. now apply (in_map fst) in Hx.
  - apply all2_refl. intros [[[x y] v] b] Hx. cbn. rewrite Z.eqb_refl, String.eqb_refl, O, Bool.eqb_reflx; [easy|].
    now apply (in_map (fun '(_, _, v, _) => v)) in Hx.
  - apply all2_refl. intros [[[x y] v] b] Hx. cbn.
    assert (In [y; v] (map (fun '(_, k, v, _) => [k; v]) l)) as Hi by now apply (in_map (fun '(_, k, v, _) => [k; v])) in Hx.
    rewrite Z.eqb_refl, !O, Bool.eqb_reflx; [easy| |]; apply in_concat; eexists; (split; [exact Hi|]); cbn; auto.
  - rewrite !O by (cbn; auto 7). easy.
Qed.
Lemma pair_list {A B C D} (f : A * B * C * D -> list (option Expr)) l x : In x l -> forall o, In o (f x) -> In o (concat (map f l)).
Proof. intros H o Ho. apply in_concat. exists (f x). split; [now apply in_map|easy]. Qed.
Theorem expr_eq_sym e : forall d, expr_eq e d = true -> expr_eq d e = true.
Proof.
  induction e as [e IH] using children_ind. intros d H.
  assert (forall o o', In o (slots e) -> oeq o o' = true -> oeq o' o = true) as O.
  { intros o o' Ho. rewrite !oeq_read. destruct o as [c|]; cbn; [apply IH; now apply slot_child|].
    intros E. apply empty_eq_l in E. now rewrite E. }
  rewrite eq_unfold in *. apply andb_true_iff in H as [Hi H]. rewrite Z.eqb_sym, Hi. cbn [andb].
  destruct e as [i|i k|i n|i o f t|i f t a|i l|i n l|i l|i v v2 a r j k s f];
    destruct d as [i'|i' k'|i' n'|i' o' f' t'|i' f' t' a'|i' l'|i' n' l'|i' l'|i' v' v2' a' r' j' k' s' f']; try discriminate H; cbn [slots] in O.
  - easy.
  - now apply constant_sym.
  - now rewrite String.eqb_sym.
  - rewrite !andb_true_iff in *. destruct H as [[H1 H2] H3]. rewrite String.eqb_sym, eqb_swap.
    repeat split; auto. apply O; [now left|easy].
  - rewrite !andb_true_iff in *. destruct H as [[H1 H2] H3]. rewrite String.eqb_sym. repeat split; auto.
    + apply O; [now left|easy].
    + revert H3. apply all2_sym. intros x y Hx. apply IH. now apply child_arg.
  - revert H. apply all2_sym. intros [x b] [y b'] Hx. cbn. rewrite !andb_true_iff. intros [H1 H2]. split.
    + apply O; [now apply (in_map fst) in Hx|easy].
    + now rewrite eqb_swap.
  - rewrite !andb_true_iff in *. destruct H as [H1 H2]. rewrite String.eqb_sym. split; [easy|].
    revert H2. apply all2_sym. intros [[[x y] v] b] [[[x' y'] v'] b'] Hx. cbn. rewrite !andb_true_iff. intros [[[J1 J2] J3] J4].
    rewrite Z.eqb_sym, String.eqb_sym, eqb_swap. repeat split; auto.
    apply O; [now apply (in_map (fun '(_, _, v, _) => v)) in Hx|easy].
  - revert H. apply all2_sym. intros [[[x y] v] b] [[[x' y'] v'] b'] Hx. cbn. rewrite !andb_true_iff. intros [[[J1 J2] J3] J4].
    rewrite Z.eqb_sym, eqb_swap. repeat split; auto; (apply O; [|easy]); eapply pair_list; [exact Hx| |exact Hx|]; cbn; auto.
  - rewrite !andb_true_iff in *. destruct H as [[[[[[H1 H2] H3] H4] H5] H6] H7].
    rewrite (String.eqb_sym v'), (String.eqb_sym a'). repeat split; auto; (apply O; [cbn; auto 7|easy]).
Qed.
Theorem expr_eq_trans e : forall d z, expr_eq e d = true -> expr_eq d z = true -> expr_eq e z = true.
Proof.
  induction e as [e IH] using children_ind. intros d z H J.
  assert (forall o o' o'', In o (slots e) -> oeq o o' = true -> oeq o' o'' = true -> oeq o o'' = true) as O.
  { intros o o' o'' Ho. rewrite !oeq_read. destruct o as [c|]; cbn; [apply IH; now apply slot_child|].
    intros E. apply empty_eq_l in E. now rewrite E. }
  rewrite eq_unfold in *. apply andb_true_iff in H as [Hi H]. apply andb_true_iff in J as [Ji J].
  apply andb_true_iff. split; [lia|].
  destruct e as [i|i k|i n|i o f t|i f t a|i l|i n l|i l|i v v2 a r j k s f];
    destruct d as [i'|i' k'|i' n'|i' o' f' t'|i' f' t' a'|i' l'|i' n' l'|i' l'|i' v' v2' a' r' j' k' s' f']; try discriminate H;
    destruct z as [i3|i3 k3|i3 n3|i3 o3 f3 t3|i3 f3 t3 a3|i3 l3|i3 n3 l3|i3 l3|i3 v3 v23 a3 r3 j3 k3 s3 f3]; try discriminate J; cbn [slots] in O.
  - easy.
  - eapply constant_trans; eauto.
  - apply String.eqb_eq in H, J. subst. apply String.eqb_refl.
  - rewrite !andb_true_iff in *. destruct H as [[H1 H2] H3], J as [[J1 J2] J3].
    apply String.eqb_eq in H2, J2. apply eqb_prop in H3, J3. subst. repeat split; [|apply String.eqb_refl|apply Bool.eqb_reflx].
    eapply O; [now left|eassumption|easy].
  - rewrite !andb_true_iff in *. destruct H as [[H1 H2] H3], J as [[J1 J2] J3].
    apply String.eqb_eq in H1, J1. subst. repeat split; [apply String.eqb_refl| |].
    + eapply O; [now left|eassumption|easy].
    + revert H3 J3. apply all2_trans. intros x y q Hx. apply IH. now apply child_arg.
  - revert H J. apply all2_trans. intros [x b] [y b'] [q b''] Hx. cbn. rewrite !andb_true_iff. intros [H1 H2] [J1 J2].
    apply eqb_prop in H2, J2. subst. split; [|apply Bool.eqb_reflx]. eapply O; [now apply (in_map fst) in Hx|eassumption|easy].
  - rewrite !andb_true_iff in *. destruct H as [H1 H2], J as [J1 J2]. apply String.eqb_eq in H1, J1. subst. split; [apply String.eqb_refl|].
    revert H2 J2. apply all2_trans. intros [[[x y] v] b] [[[x' y'] v'] b'] [[[x'' y''] v''] b''] Hx. cbn. rewrite !andb_true_iff.
    intros [[[J1 J2] J3] J4] [[[L1 L2] L3] L4]. apply String.eqb_eq in J2, L2. apply eqb_prop in J4, L4. subst.
    repeat split; [lia|apply String.eqb_refl| |apply Bool.eqb_reflx].
    eapply O; [now apply (in_map (fun '(_, _, v, _) => v)) in Hx|eassumption|easy].
  - revert H J. apply all2_trans. intros [[[x y] v] b] [[[x' y'] v'] b'] [[[x'' y''] v''] b''] Hx. cbn. rewrite !andb_true_iff.
    intros [[[J1 J2] J3] J4] [[[L1 L2] L3] L4]. apply eqb_prop in J4, L4. subst.
    repeat split; [lia| | |apply Bool.eqb_reflx].
    + eapply O; [|exact J2|exact L2]. eapply pair_list; [exact Hx|]. cbn; auto.
    + eapply O; [|exact J3|exact L3]. eapply pair_list; [exact Hx|]. cbn; auto.
  - rewrite !andb_true_iff in *. destruct H as [[[[[[H1 H2] H3] H4] H5] H6] H7], J as [[[[[[J1 J2] J3] J4] J5] J6] J7].
    apply String.eqb_eq in H1, J1, H3, J3. subst.
    repeat split; try apply String.eqb_refl; (eapply O; [|eassumption|eassumption]; cbn; auto 7).
Qed.
Theorem expr_eq_plain e : plain e -> forall d, plain d -> expr_eq e d = true -> e = d.
Proof.
  induction e as [e IH] using children_ind. intros Pe d Pd H.
  assert (forall c c', In c (children e) -> In c' (children d) -> expr_eq c c' = true -> c = c') as K.
  { intros c c' Hc Hc'. apply IH; [easy|eapply throughout_child; [exact Pe|exact Hc]|eapply throughout_child; [exact Pd|exact Hc']]. }
  assert (forall o o', In o (slots e) -> In o' (slots d) -> o <> None -> o' <> None -> oeq o o' = true -> o = o') as O.
  { intros [c|] [c'|] Ho Ho' Hn Hn' E; try (now elim Hn); try (now elim Hn'). f_equal. apply K; [now apply slot_child|now apply slot_child|easy]. }
  clear IH. apply throughout_here in Pe. apply throughout_here in Pd. rewrite eq_unfold in H. apply andb_true_iff in H as [Hi H]. apply Z.eqb_eq in Hi.
  destruct e as [i|i k|i n|i o f t|i f t a|i l|i n l|i l|i v v2 a r j k s f];
    destruct d as [i'|i' k'|i' n'|i' o' f' t'|i' f' t' a'|i' l'|i' n' l'|i' l'|i' v' v2' a' r' j' k' s' f']; try discriminate H;
    cbn [expr_id] in Hi; subst i'; cbn [slots] in O.
  - easy.
  - f_equal. apply constant_eq_same in H. destruct k, k'; try exact H. cbn in *. destruct H as (Hn & [<-|(x & y & -> & ->)]); [easy|].
    now elim (Pe x).
  - f_equal. now apply String.eqb_eq.
  - rewrite !andb_true_iff in H. destruct H as [[H1 H2] H3]. f_equal; [|now apply String.eqb_eq|now apply eqb_prop].
    apply O; [now left|now left|easy|easy|easy].
  - rewrite !andb_true_iff in H. destruct H as [[H1 H2] H3]. f_equal; [now apply String.eqb_eq| |].
    + destruct t as [t|], t' as [t'|]; try easy.
      * f_equal. apply K; [now apply child_target|now apply child_target|easy].
      * apply empty_eq_r in H2. subst. now elim Pe.
      * rewrite oeq_read in H2. apply empty_eq_l in H2. cbn in H2. subst. now elim Pd.
    + apply (all2_eq expr_eq); [|easy]. intros x y Hx Hy. apply K; now apply child_arg.
  - f_equal. apply (all2_eq element_eq); [|easy]. rewrite Forall_forall in Pe, Pd.
    intros [x b] [y b'] Hx Hy E. cbn in E. apply andb_true_iff in E as [E1 E2]. f_equal; [|now apply eqb_prop].
    apply O; [now apply (in_map fst) in Hx|now apply (in_map fst) in Hy|now apply (Pe _ Hx)|now apply (Pd _ Hy)|easy].
  - apply andb_true_iff in H as [H1 H2]. f_equal; [now apply String.eqb_eq|]. apply (all2_eq field_eq); [|easy].
    rewrite Forall_forall in Pe, Pd. intros [[[x y] v] b] [[[x' y'] v'] b'] Hx Hy E. cbn in E. rewrite !andb_true_iff in E.
    destruct E as [[[E1 E2] E3] E4]. apply Z.eqb_eq in E1. apply String.eqb_eq in E2. apply eqb_prop in E4. subst.
    do 2 f_equal. apply O; [now apply (in_map (fun '(_, _, v, _) => v)) in Hx|now apply (in_map (fun '(_, _, v, _) => v)) in Hy| | |easy].
    + now apply (Pe _ Hx).
    + now apply (Pd _ Hy).
  - f_equal. apply (all2_eq entry_eq); [|easy].
    rewrite Forall_forall in Pe, Pd. intros [[[x y] v] b] [[[x' y'] v'] b'] Hx Hy E. cbn in E. rewrite !andb_true_iff in E.
    destruct E as [[[E1 E2] E3] E4]. apply Z.eqb_eq in E1. apply eqb_prop in E4. subst.
    destruct (Pe _ Hx) as (P1 & P2), (Pd _ Hy) as (P3 & P4).
    assert (y = y') as -> by (apply O; try easy; (eapply pair_list; [eassumption|cbn; auto])).
    assert (v = v') as -> by (apply O; try easy; (eapply pair_list; [eassumption|cbn; auto])). easy.
  - rewrite !andb_true_iff in H. destruct H as [[[[[[H1 H2] H3] H4] H5] H6] H7]. apply String.eqb_eq in H1, H3. subst.
    destruct Pe as (-> & P1 & P2 & P3 & P4 & P5), Pd as (-> & Q1 & Q2 & Q3 & Q4 & Q5).
    f_equal; apply O; try easy; cbn; auto 7.
Qed.
