From Coq Require Import ZArith String List Bool Lia ZifyBool Sorted.
From Coq Require Import Floats.SpecFloat.
From Verif Require Import Base M_Overflow M_Number M_Ast S_Ast L_Ast.
From Verif Require Import M_AstProto S_AstProto L_AstProto.
Import ListNotations.
Open Scope list_scope.
Open Scope Z_scope.
Local Open Scope out_scope.

Ltac unbind H :=
  repeat match type of H with
         | obind ?x _ = Val _ => let E := fresh "E" in destruct x eqn:E; cbn [obind] in H; try discriminate H
         end.

(** ** When the conversion to a message succeeds *)
Lemma In_list_of {A} (x : A) o : In x (list_of o) -> o = Some x.
Proof. destruct o; cbn; [|easy]. now intros [->|[]]. Qed.
Lemma throughout_none (P : Expr -> Prop) : P (Unspecified 0) -> throughout P (Unspecified 0).
Proof. intros H. constructor; [easy|constructor]. Qed.
Theorem defined_times e : forall p, ExprToProto e = Val p -> storable_times e.
Proof.
  induction e as [e IH] using children_ind. intros p H.
  constructor.
  { destruct e; try exact I. cbn in H. destruct (ConstantToProto c) eqn:E; cbn in H; try discriminate.
    eapply constant_defined; eauto. }
  apply Forall_forall. intros c Hc.
  destruct e as [i|i k|i n|i o f t|i f t a|i l|i n l|i l|i v v2 a r j k s f]; cbn [ExprToProto] in H; try easy.
  - unbind H. cbn in Hc. unfold present in Hc. destruct o as [x|]; [|easy]. destruct Hc as [<-|[]].
    cbn in E. unbind E. eapply IH; [now left|eassumption].
  - unbind H. pose proof Hc as Hin. rewrite children_call in Hc. apply in_app_iff in Hc as [Hc|Hc].
    + apply In_list_of in Hc as ->. cbn in E. unbind E. eapply IH; eauto.
    + destruct (proj1 (mapM_defined ExprToProto a) (ex_intro _ _ E0) c Hc) as (q & Hq). eapply IH; eauto.
  - unbind H. pose proof Hc as Hin. rewrite children_list in Hc. apply in_map_iff in Hc as ([[x|] b] & <- & Hx); cbn in *.
    + match type of E with mapM ?f l = _ => destruct (proj1 (mapM_defined f l) (ex_intro _ _ E) _ Hx) as (q & Hq) end.
      eapply IH; eauto.
    + now apply throughout_none.
  - unbind H. pose proof Hc as Hin. rewrite children_struct in Hc. apply in_concat in Hc as (l' & Hl & Hc).
    apply in_map_iff in Hl as ([[[x y] v] b] & <- & Hx). apply In_list_of in Hc as ->.
    match type of E with mapM ?f l = _ => destruct (proj1 (mapM_defined f l) (ex_intro _ _ E) _ Hx) as (q & Hq) end.
    cbn in Hq. unbind Hq. unbind E0. eapply IH; eauto.
  - unbind H. pose proof Hc as Hin. rewrite children_map in Hc. apply in_concat in Hc as (l' & Hl & Hc).
    apply in_map_iff in Hl as ([[[x y] v] b] & <- & Hx).
    match type of E with mapM ?f l = _ => destruct (proj1 (mapM_defined f l) (ex_intro _ _ E) _ Hx) as (q & Hq) end.
    cbn in Hq. unbind Hq. apply in_app_iff in Hc as [Hc|Hc]; apply In_list_of in Hc as ->.
    + cbn in E0. unbind E0. eapply IH; eauto.
    + cbn in E1. unbind E1. eapply IH; eauto.
  - unbind H. pose proof Hc as Hin. rewrite children_comprehension in Hc.
    assert (forall o o', optM ExprToProto o = Val o' -> or_empty o = c -> storable_times c) as K.
    { intros [x|] o' Ho <-; cbn in *; [|now apply throughout_none]. unbind Ho. eapply IH; eauto. }
    repeat (destruct Hc as [Hc|Hc]; [eapply K; [|exact Hc]; eassumption|]). easy.
Qed.
Theorem times_defined e : storable_times e -> exists p, ExprToProto e = Val p.
Proof.
  induction e as [e IH] using children_ind. intros Ht.
  assert (forall c, In c (children e) -> exists p, ExprToProto c = Val p) as K.
  { intros c Hc. apply IH; [easy|]. eapply throughout_child; eauto. }
  clear IH. apply throughout_here in Ht.
  destruct e as [i|i c|i n|i o f t|i f t a|i l|i n l|i l|i v v2 a r j k s f]; cbn [ExprToProto]; eauto.
  - destruct (constant_trip c Ht) as (p & Hp & _). rewrite Hp. eexists. reflexivity.
  - destruct (proj2 (optM_defined ExprToProto o)) as (o' & ->); [intros x ->; apply K; now apply child_select|]. eexists. reflexivity.
  - destruct (proj2 (optM_defined ExprToProto t)) as (t' & ->); [intros x ->; apply K; now apply child_target|].
    destruct (proj2 (mapM_defined ExprToProto a)) as (a' & H); [intros x Hx; apply K; now apply child_arg|].
    cbn [obind]. rewrite H. eexists. reflexivity.
  - match goal with |- context [mapM ?f l] => destruct (proj2 (mapM_defined f l)) as (l' & H) end.
    { intros [[x|] b] Hx; eauto. apply K. now apply (child_element i l x b). }
    rewrite H. eexists. reflexivity.
  - match goal with |- context [mapM ?f l] => destruct (proj2 (mapM_defined f l)) as (l' & H) end.
    { intros [[[x y] v] b] Hx. destruct (proj2 (optM_defined ExprToProto v)) as (v' & ->).
      - intros c ->. apply K. now apply (child_field i n l x y c b).
      - eexists. reflexivity. }
    rewrite H. eexists. reflexivity.
  - match goal with |- context [mapM ?f l] => destruct (proj2 (mapM_defined f l)) as (l' & H) end.
    { intros [[[x y] v] b] Hx. destruct (proj2 (optM_defined ExprToProto y)) as (y' & ->).
      - intros c ->. apply K. now apply (child_key i l x c v b).
      - destruct (proj2 (optM_defined ExprToProto v)) as (v' & Hv).
        + intros c ->. apply K. now apply (child_value i l x y c b).
        + cbn [obind]. rewrite Hv. eexists. reflexivity. }
    rewrite H. eexists. reflexivity.
  - rewrite children_comprehension in K.
    assert (forall o, In (or_empty o) [or_empty r; or_empty j; or_empty k; or_empty s; or_empty f] ->
            exists o', optM ExprToProto o = Val o') as K'.
    { intros o Ho. apply optM_defined. intros x ->. now apply K. }
    destruct (K' r) as (r' & ->); [now left|]. destruct (K' j) as (j' & J1); [right; now left|].
    destruct (K' k) as (k' & K1); [right; right; now left|].
    destruct (K' s) as (s' & S1); [right; right; right; now left|].
    destruct (K' f) as (f' & F1); [right; right; right; right; now left|].
    cbn [obind]. rewrite J1. cbn [obind]. rewrite K1. cbn [obind]. rewrite S1. cbn [obind]. rewrite F1. eexists. reflexivity.
Qed.

(** ** Induction over messages *)
Fixpoint pb_size (p : ExprPb) : nat :=
  match p with
  | mkPb _ kind =>
    let opt (o : option ExprPb) := match o with Some p => pb_size p | None => O end in
    S (match kind with
       | KNotSet | KConst _ | KIdent _ => O
       | KSelect o _ _ => opt o
       | KCall t _ args => opt t + list_sum (map pb_size args)
       | KList es _ => list_sum (map pb_size es)
       | KStruct _ es =>
           list_sum (map (fun x : Z * KeyPb * option ExprPb * bool =>
             match x with (_, k, v, _) => match k with MapKey k => pb_size k | _ => O end + opt v end) es)
       | KComprehension _ _ a _ b c d r => opt a + opt b + opt c + opt d + opt r
       end)%nat
  end.
Lemma submessage_smaller p c : In c (submessages p) -> (pb_size c < pb_size p)%nat.
Proof.
  destruct p as [i k]. destruct k; cbn [submessages]; try easy; intros H.
  - apply In_list_of in H as ->. cbn. lia.
  - apply in_app_or in H as [H|H].
    + apply In_list_of in H as ->. cbn. lia.
    + pose proof (sum_in pb_size c args H). cbn. lia.
  - pose proof (sum_in pb_size c elements H). cbn. lia.
  - apply in_concat in H as (l & H & Hc). apply in_map_iff in H as ([[[fid k] v] b] & <- & H).
    pose proof (sum_in (fun x : Z * KeyPb * option ExprPb * bool =>
             match x with (_, k, v, _) => match k with MapKey k => pb_size k | _ => O end +
               match v with Some p => pb_size p | None => O end end)%nat _ _ H) as Q. cbn in Q.
    apply in_app_or in Hc as [Hc|Hc].
    + destruct k as [| |k]; try easy. destruct Hc as [<-|[]]. cbn. lia.
    + apply In_list_of in Hc as ->. cbn. lia.
  - rewrite !in_app_iff in H.
    destruct H as [H|[H|[H|[H|H]]]]; apply In_list_of in H as ->; cbn; lia.
Qed.
Lemma pb_ind (P : ExprPb -> Prop) : (forall p, (forall c, In c (submessages p) -> P c) -> P p) -> forall p, P p.
Proof.
  intros H p. remember (pb_size p) as n eqn:E. assert (pb_size p <= n)%nat as L by lia. clear E. revert p L.
  induction n as [|n IH]; intros p L; [destruct p; cbn in L; lia|].
  apply H. intros c I. apply IH. apply submessage_smaller in I. lia.
Qed.

(** ** What comes from a message is well shaped *)
Lemma mark_set idx es : forall i, Forall (fun x : option Expr * bool => fst x <> None) (mark_optional i idx es).
Proof. induction es; cbn; constructor; cbn; [easy|auto]. Qed.
Lemma mark_exprs idx es : forall i, map (fun x => or_empty (fst x)) (mark_optional i idx es) = es.
Proof. induction es; cbn; intros; [easy|]. now rewrite IHes. Qed.
Lemma Forall2_In_r {A B} (R : A -> B -> Prop) l l' y : Forall2 R l l' -> In y l' -> exists x, In x l /\ R x y.
Proof. induction 1; [easy|]. intros [<-|H1]; [exists x; split; [now left|easy]|]. destruct (IHForall2 H1) as (z & ? & ?). exists z. split; [now right|easy]. Qed.
Lemma sub_value i n l a k c d : In (a, k, Some c, d) l -> In c (submessages (mkPb i (KStruct n l))).
Proof.
  intros H. cbn. apply in_concat. eexists. split; [apply in_map_iff; exists (a, k, Some c, d); split; [reflexivity|easy]|].
  apply in_app_iff. right. now left.
Qed.
Lemma sub_key i n l a k v d : In (a, MapKey k, v, d) l -> In k (submessages (mkPb i (KStruct n l))).
Proof.
  intros H. cbn. apply in_concat. eexists. split; [apply in_map_iff; exists (a, MapKey k, v, d); split; [reflexivity|easy]|].
  now left.
Qed.
Theorem from_shaped p : forall e, ExprFromProto p = Val e -> well_shaped e.
Proof.
  induction p as [p IH] using pb_ind. intros e H.
  assert (forall o o', (forall x, o = Some x -> In x (submessages p)) -> optM ExprFromProto o = Val o' ->
    forall c, o' = Some c -> well_shaped c) as KO.
  { intros o o' Hin Ho c ->. apply optM_inv in Ho as [[_ [=]]|(x & y & -> & [= ->] & Ho)]. eapply IH; eauto. }
  assert (forall l l', (forall x, In x l -> In x (submessages p)) -> mapM ExprFromProto l = Val l' ->
    forall c, In c l' -> well_shaped c) as KL.
  { intros l l' Hin Hl c Hc. apply mapM_inv in Hl. destruct (Forall2_In_r _ _ _ _ Hl Hc) as (x & Hx & E). eapply IH; eauto. }
  destruct p as [id kind]. destruct kind as [|c|n|o f t|t f a|es idx|n l|v v2 r a i c s f]; cbn [ExprFromProto] in H.
  - injection H as <-. repeat constructor.
  - injection H as <-. repeat constructor.
  - injection H as <-. repeat constructor.
  - unbind H. injection H as <-. constructor; [exact I|]. cbn. apply Forall_forall. intros c Hc.
    unfold present in Hc. destruct a as [a|]; [|easy]. destruct Hc as [<-|[]]. eapply KO; [|exact E|reflexivity].
    intros x ->. now left.
  - unbind H. injection H as <-. constructor; [exact I|]. rewrite children_call. apply Forall_forall. intros c Hc.
    apply in_app_iff in Hc as [Hc|Hc].
    + apply In_list_of in Hc as ->. eapply KO; [|exact E|reflexivity]. intros x ->. now left.
    + eapply KL; [|exact E0|exact Hc]. intros x Hx. cbn. apply in_app_iff. now right.
  - unbind H. injection H as <-. constructor; [apply mark_set|]. rewrite children_list, mark_exprs.
    apply Forall_forall. intros c Hc. eapply KL; [|exact E|exact Hc]. now cbn.
  - destruct (String.eqb_spec n "") as [->|Hn].
    + unbind H. injection H as <-. constructor; [exact I|]. rewrite children_map. apply Forall_forall. intros c Hc.
      apply in_concat in Hc as (l' & Hl & Hc). apply in_map_iff in Hl as ([[[x y] v] b] & <- & Hx).
      apply mapM_inv in E. destruct (Forall2_In_r _ _ _ _ E Hx) as ([[[x' y'] v'] b'] & Hx' & E').
      cbn in E'. unbind E'. injection E' as -> -> -> ->.
      apply in_app_iff in Hc as [Hc|Hc]; apply In_list_of in Hc as ->.
      * destruct y' as [| |k]; try discriminate. unbind E0. injection E0 as ->. eapply IH; [|eassumption]. now apply (sub_key id "" l x k v' b).
      * eapply KO; [|exact E1|reflexivity]. intros z ->. now apply (sub_value id "" l x y' z b).
    + unbind H. injection H as <-. constructor; [easy|]. rewrite children_struct. apply Forall_forall. intros c Hc.
      apply in_concat in Hc as (l' & Hl & Hc). apply in_map_iff in Hl as ([[[x y] v] b] & <- & Hx).
      apply mapM_inv in E. destruct (Forall2_In_r _ _ _ _ E Hx) as ([[[x' y'] v'] b'] & Hx' & E').
      cbn in E'. unbind E'. injection E' as -> -> -> ->. apply In_list_of in Hc as ->.
      eapply KO; [|exact E1|reflexivity]. intros z ->. now apply (sub_value id n l x y' z b).
  - unbind H. injection H as <-. constructor; [exact I|]. rewrite children_comprehension.
    assert (forall o o', (forall x, o = Some x -> In x (submessages (mkPb id (KComprehension v v2 r a i c s f)))) ->
      optM ExprFromProto o = Val o' -> well_shaped (or_empty o')) as K.
    { intros o o' Hin Ho. destruct o' as [x|]; cbn; [eapply KO; eauto|now apply throughout_none]. }
    cbn [submessages] in K.
    repeat (constructor; [eapply K; [|eassumption]; intros x ->; rewrite !in_app_iff; cbn; tauto|]). constructor.
Qed.

(** ** From a message in its usual form and back *)
Lemma same_sign s n : 0 <= s * n -> (0 <= s /\ 0 <= n) \/ (s <= 0 /\ n <= 0).
Proof. intros H. destruct (Z_le_gt_dec 0 s), (Z_le_gt_dec 0 n); try nia; try lia. Qed.
Lemma constant_message c : usual_constant c -> ConstantToProto (ConstantFromProto c) = Val c.
Proof.
  destruct c as [| | | | | | | |s n|s n]; try reflexivity; cbn [usual_constant ConstantFromProto ConstantToProto].
  - intros (Hs & Hn & Hsn). apply same_sign in Hsn. unfold DecodeDuration.
    rewrite absl_duration_fin by (unfold nanos_per_sec; change (10 ^ 27) with 1000000000000000000000000000; lia).
    cbn [absl_add_dur]. rewrite absl_duration_fin by (unfold nanos_per_sec; change (10 ^ 27) with 1000000000000000000000000000; lia).
    rewrite duration_out by (unfold nanos_per_sec; change (10 ^ 9) with 1000000000; lia).
    cbn [obind fst snd]. unfold nanos_per_sec. do 2 f_equal; Z.to_euclidean_division_equations; lia.
  - intros (Hs & Hn). unfold DecodeTime.
    rewrite absl_time_fin by (unfold nanos_per_sec; change (10 ^ 27) with 1000000000000000000000000000; lia).
    cbn [absl_add_time]. rewrite absl_time_fin by (unfold nanos_per_sec; change (10 ^ 27) with 1000000000000000000000000000; lia).
    rewrite time_out by (unfold nanos_per_sec; change (10 ^ 9) with 1000000000; lia).
    cbn [obind fst snd]. unfold nanos_per_sec.
    assert ((s * 1000000000 + n) / 1000000000 = s) as -> by (Z.div_mod_to_equations; lia).
    do 2 f_equal; lia.
Qed.
Lemma mark_ext a b es : forall i, (forall j, i <= j -> In j a <-> In j b) -> mark_optional i a es = mark_optional i b es.
Proof.
  induction es as [|e es IH]; intros i H; cbn; [easy|]. f_equal.
  - f_equal. apply eq_true_iff_eq. rewrite !existsb_In. apply H. lia.
  - apply IH. intros j Hj. apply H. lia.
Qed.
Lemma positions_mark es : forall i idx, StronglySorted Z.lt idx -> Forall (fun j => i <= j < i + Z.of_nat (length es)) idx ->
  optional_positions i (mark_optional i idx es) = idx.
Proof.
  induction es as [|e es IH]; intros i idx Hs Hb.
  - destruct idx as [|j idx]; [easy|]. inversion Hb. cbn in *. lia.
  - cbn [mark_optional optional_positions]. destruct idx as [|j idx].
    + cbn. apply (IH (i + 1) []); constructor.
    + inversion Hs as [|? ? Hs' Hlt]; subst. inversion Hb as [|? ? Hj Hb']; subst. cbn [length] in *.
      rewrite Forall_forall in Hlt, Hb'.
      destruct (Z.eq_dec i j) as [<-|Hne].
      * cbn [existsb]. rewrite Z.eqb_refl. cbn [orb app]. f_equal.
        rewrite (mark_ext _ idx) by (cbn; intros k Hk; split; [intros [?|?]; [lia|easy]|now right]).
        apply IH; [easy|]. apply Forall_forall. intros k Hk. specialize (Hlt k Hk). specialize (Hb' k Hk). lia.
      * replace (existsb (Z.eqb i) (j :: idx)) with false.
        -- cbn [app]. apply IH; [easy|]. constructor; [lia|]. apply Forall_forall. intros k Hk. specialize (Hlt k Hk). specialize (Hb' k Hk). lia.
        -- symmetry. destruct (existsb _ _) eqn:E; [|easy]. apply existsb_In in E. destruct E as [E|E]; [lia|]. specialize (Hlt i E). lia.
Qed.
Lemma tm_here P p : throughout_message P p -> P p.
Proof. now inversion 1. Qed.
Lemma tm_sub P p c : throughout_message P p -> In c (submessages p) -> throughout_message P c.
Proof. inversion 1 as [e' H1 H2]; subst. rewrite Forall_forall in H2. auto. Qed.
Lemma Forall2_flip_In {A B} (R : A -> B -> Prop) (S : B -> A -> Prop) l l' :
  Forall2 R l l' -> (forall x y, In x l -> R x y -> S y x) -> Forall2 S l' l.
Proof. induction 1; intros K; constructor; [apply K; [now left|easy]|]. apply IHForall2. intros; apply K; [now right|easy]. Qed.
Theorem from_to p : usual p -> forall e, ExprFromProto p = Val e -> ExprToProto e = Val p.
Proof.
  induction p as [p IH] using pb_ind. intros Hu e H.
  assert (forall c, In c (submessages p) -> forall e, ExprFromProto c = Val e -> ExprToProto e = Val c) as K.
  { intros c Hc. apply IH; [easy|]. eapply tm_sub; eauto. }
  clear IH. apply tm_here in Hu.
  assert (forall o o', (forall x, o = Some x -> In x (submessages p)) -> optM ExprFromProto o = Val o' ->
    optM ExprToProto o' = Val o) as KO.
  { intros o o' Hin Ho. apply optM_inv in Ho as [[-> ->]|(x & y & -> & -> & Ho)]; [easy|].
    cbn. rewrite (K x (Hin x eq_refl) y Ho). easy. }
  assert (forall l l', (forall x, In x l -> In x (submessages p)) -> mapM ExprFromProto l = Val l' ->
    Forall2 (fun e p => ExprToProto e = Val p) l' l) as KL.
  { intros l l' Hin Hl. apply mapM_inv in Hl. induction Hl; constructor; [apply K; [apply Hin; now left|easy]|].
    apply IHHl. intros; apply Hin; now right. }
  destruct p as [id kind]. destruct kind as [|c|n|o f t|t f a|es idx|n l|v v2 r a i c s f]; cbn [ExprFromProto] in H.
  - now injection H as <-.
  - injection H as <-. cbn. now rewrite constant_message.
  - now injection H as <-.
  - unbind H. injection H as <-. cbn. rewrite (KO o a); [easy| |easy]. intros x ->. now left.
  - unbind H. injection H as <-. cbn. rewrite (KO t a0); [|intros x ->; now left|easy]. cbn.
    rewrite (mapM_ok ExprToProto a1 a); [easy|]. apply KL; [|easy]. intros x Hx. cbn. apply in_app_iff. now right.
  - unbind H. injection H as <-. cbn [ExprToProto].
    assert (forall i, mapM (fun x : option Expr * bool =>
                    match x with
                    | (Some e, _) => ExprToProto e
                    | (None, _) => Val (mkPb 0 KNotSet)
                    end) (mark_optional i idx a) = Val es) as M.
    { assert (Forall2 (fun e p => ExprToProto e = Val p) a es) as X by (apply KL; [now cbn|easy]).
      clear - X. induction X; intros i; cbn; [easy|]. rewrite H. cbn in *. now rewrite IHX. }
    rewrite M. cbn [obind]. destruct Hu as (H1 & H2).
    assert (length a = length es) as L.
    { apply mapM_inv in E. clear - E. induction E; cbn; congruence. }
    rewrite positions_mark; [easy|easy|]. now rewrite L.
  - destruct (String.eqb_spec n "") as [->|Hn].
    + unbind H. injection H as <-. cbn [ExprToProto].
      match goal with |- context [mapM ?F a] => replace (mapM F a) with (@Val (list (Z * KeyPb * option ExprPb * bool)) l); [easy|] end.
      symmetry. apply mapM_ok. apply mapM_inv in E.
      eapply Forall2_flip_In; [exact E|]. intros [[[x y] w] b] y0 Hin E'. clear E. cbn beta iota in E' |- *.
      { cbn in E'. unbind E'. injection E' as <-.
        assert (optM ExprToProto a1 = Val w) as W.
        { apply KO; [|easy]. intros z ->. apply (sub_value id "" l x y z b). exact Hin. }
        destruct y as [| |k]; cbn in E; try discriminate.
        -- injection E as <-. cbn. now rewrite W.
        -- unbind E. injection E as <-. cbn.
           rewrite (K k); [|apply (sub_key id "" l x k w b); exact Hin|easy]. cbn. now rewrite W. }
    + unbind H. injection H as <-. cbn [ExprToProto]. specialize (Hu Hn).
      match goal with |- context [mapM ?F a] => replace (mapM F a) with (@Val (list (Z * KeyPb * option ExprPb * bool)) l); [easy|] end.
      symmetry. apply mapM_ok. apply mapM_inv in E.
      rewrite Forall_forall in Hu.
      eapply Forall2_flip_In; [exact E|]. intros [[[x y] w] b] y0 Hin E'. clear E. cbn beta iota in E' |- *.
      { cbn in E'. unbind E'. injection E' as <-.
        assert (optM ExprToProto a1 = Val w) as W.
        { apply KO; [|easy]. intros z ->. apply (sub_value id n l x y z b). exact Hin. }
        destruct (Hu _ Hin) as (fn & ->). injection E as <-. now rewrite W. }
  - unbind H. injection H as <-. cbn [ExprToProto]. cbn [submessages] in KO.
    repeat (erewrite KO; [cbn [obind]| |eassumption]; [|intros x ->; rewrite !in_app_iff; cbn; tauto]). reflexivity.
Qed.
