From Coq Require Import ZArith String List Bool Lia ZifyBool Sorted.
From Coq Require Import Floats.SpecFloat.
From Verif Require Import Base M_Overflow M_Number M_Ast S_Ast L_Ast.
From Verif Require Import M_AstProto S_AstProto.
Import ListNotations.
Open Scope list_scope.
Open Scope Z_scope.
Local Open Scope out_scope.

(** ** mapM *)
Lemma mapM_two {A B C} (f : A -> out B) (g : B -> out C) (h : A -> C) l :
  (forall x, In x l -> exists y, f x = Val y /\ g y = Val (h x)) ->
  exists l', mapM f l = Val l' /\ mapM g l' = Val (map h l).
Proof.
  induction l as [|x l IH]; intros H.
  - now exists [].
  - destruct (H x (or_introl eq_refl)) as (y & Hf & Hg).
    destruct IH as (l' & Hl & Hm); [firstorder|].
    exists (y :: l'). cbn in *. rewrite Hf, Hg. cbn. rewrite Hl, Hm. now cbn.
Qed.
Lemma mapM_two_id {A B} (f : A -> out B) (g : B -> out A) l :
  (forall x, In x l -> exists y, f x = Val y /\ g y = Val x) ->
  exists l', mapM f l = Val l' /\ mapM g l' = Val l.
Proof. intros H. destruct (mapM_two f g (fun x => x) l H) as (l' & H1 & H2). rewrite map_id in H2. eauto. Qed.
Lemma mapM_inv {A B} (f : A -> out B) l : forall l', mapM f l = Val l' -> Forall2 (fun x y => f x = Val y) l l'.
Proof.
  induction l as [|x l IH]; intros l' H; cbn in H.
  - injection H as <-. constructor.
  - destruct (f x) eqn:E; cbn in H; try discriminate. destruct (mapM f l) eqn:E'; cbn in H; try discriminate.
    injection H as <-. constructor; auto.
Qed.
Lemma mapM_ok {A B} (f : A -> out B) l l' : Forall2 (fun x y => f x = Val y) l l' -> mapM f l = Val l'.
Proof. induction 1 as [|x y l l' H _ IH]; cbn; [easy|]. rewrite H. cbn. now rewrite IH. Qed.
Lemma mapM_defined {A B} (f : A -> out B) l : (exists l', mapM f l = Val l') <-> (forall x, In x l -> exists y, f x = Val y).
Proof.
  split.
  - intros (l' & H) x Hx. apply mapM_inv in H. induction H; [easy|]. destruct Hx as [<-|Hx]; eauto.
  - induction l as [|x l IH]; intros H; [now exists []|].
    destruct (H x (or_introl eq_refl)) as (y & Hy). destruct IH as (l' & Hl); [firstorder|].
    exists (y :: l'). cbn in *. rewrite Hy. cbn. now rewrite Hl.
Qed.
Lemma optM_defined {A B} (f : A -> out B) o : (exists o', optM f o = Val o') <-> (forall x, o = Some x -> exists y, f x = Val y).
Proof.
  destruct o as [x|]; cbn; split.
  - intros (o' & H) z [= <-]. destruct (f x); cbn in H; try discriminate; eauto.
  - intros H. destruct (H x eq_refl) as (y & ->). cbn. eauto.
  - intros _ z [=].
  - eauto.
Qed.
Lemma optM_inv {A B} (f : A -> out B) o o' : optM f o = Val o' ->
  (o = None /\ o' = None) \/ exists x y, o = Some x /\ o' = Some y /\ f x = Val y.
Proof.
  destruct o as [x|]; cbn; intros H.
  - destruct (f x) eqn:E; cbn in H; try discriminate. injection H as <-. right; eauto.
  - injection H as <-. now left.
Qed.
Lemma optM_two {A B C} (f : A -> out B) (g : B -> out C) (h : A -> C) o :
  (forall x, o = Some x -> exists y, f x = Val y /\ g y = Val (h x)) ->
  exists o', optM f o = Val o' /\ optM g o' = Val (option_map h o).
Proof.
  destruct o as [x|]; intros H.
  - destruct (H x eq_refl) as (y & H1 & H2). exists (Some y). cbn. rewrite H1. cbn. now rewrite H2.
  - now exists None.
Qed.
Lemma optM_two_id {A B} (f : A -> out B) (g : B -> out A) o :
  (forall x, o = Some x -> exists y, f x = Val y /\ g y = Val x) ->
  exists o', optM f o = Val o' /\ optM g o' = Val o.
Proof. intros H. destruct (optM_two f g (fun x => x) o H) as (o' & H1 & H2). exists o'. rewrite H2. now destruct o. Qed.

(** ** Parts *)
Lemma throughout_here P e : throughout P e -> P e.
Proof. now inversion 1. Qed.
Lemma throughout_child P e c : throughout P e -> In c (children e) -> throughout P c.
Proof. inversion 1 as [e' H1 H2]; subst. rewrite Forall_forall in H2. auto. Qed.
Lemma child_select i o f t c : o = Some c -> In c (children (Select i o f t)).
Proof. intros ->. now left. Qed.
Lemma arguments_snd l : forall i, map snd (arguments i l) = l.
Proof. induction l; cbn; intros; [easy|]. now rewrite IHl. Qed.
Lemma children_call i f t a : children (Call i f t a) = list_of t ++ a.
Proof. unfold children, parts. rewrite map_app, arguments_snd. now destruct t. Qed.
Lemma child_target i f t a c : t = Some c -> In c (children (Call i f t a)).
Proof. intros ->. rewrite children_call. now left. Qed.
Lemma child_arg i f t a c : In c a -> In c (children (Call i f t a)).
Proof. intros. rewrite children_call, in_app_iff. now right. Qed.
Lemma children_list i l : children (ListE i l) = map (fun x => or_empty (fst x)) l.
Proof. unfold children, parts. rewrite map_map. reflexivity. Qed.
Lemma child_element i l c b : In (Some c, b) l -> In c (children (ListE i l)).
Proof. intros H. rewrite children_list. apply in_map_iff. now exists (Some c, b). Qed.
Lemma children_struct i n l : children (StructE i n l) = concat (map (fun '(_, _, v, _) => list_of v) l).
Proof.
  unfold children, parts. rewrite concat_map, map_map. f_equal. apply map_ext.
  intros [[[? ?] [?|]] ?]; reflexivity.
Qed.
Lemma child_field i n l a b c d : In (a, b, Some c, d) l -> In c (children (StructE i n l)).
Proof.
  intros H. rewrite children_struct. apply in_concat. exists [c]. split; [|now left].
  apply in_map_iff. now exists (a, b, Some c, d).
Qed.
Lemma children_map i l : children (MapE i l) = concat (map (fun '(_, k, v, _) => list_of k ++ list_of v) l).
Proof.
  unfold children, parts. rewrite concat_map, map_map. f_equal. apply map_ext.
  intros [[[? [?|]] [?|]] ?]; reflexivity.
Qed.
Lemma child_key i l a c v d : In (a, Some c, v, d) l -> In c (children (MapE i l)).
Proof.
  intros H. rewrite children_map. apply in_concat. exists (list_of (Some c) ++ list_of v). split; [|now left].
  apply in_map_iff. now exists (a, Some c, v, d).
Qed.
Lemma child_value i l a k c d : In (a, k, Some c, d) l -> In c (children (MapE i l)).
Proof.
  intros H. rewrite children_map. apply in_concat. exists (list_of k ++ list_of (Some c)). split.
  - apply in_map_iff. now exists (a, k, Some c, d).
  - rewrite in_app_iff. right. now left.
Qed.
Lemma children_comprehension i v v2 a r j k s f :
  children (Comprehension i v v2 a r j k s f) = [or_empty r; or_empty j; or_empty k; or_empty s; or_empty f].
Proof. reflexivity. Qed.

(** ** Times *)
Lemma duration_out ns : Z.abs ns <= 315576000000 * 10 ^ 9 + 999999999 ->
  EncodeDuration (DFin ns) = Val (Z.quot ns nanos_per_sec, Z.rem ns nanos_per_sec).
Proof.
  intros H. unfold EncodeDuration, MinDurationNs, MaxDurationNs, kDurationMaxSeconds, nanos_per_sec.
  replace (10 ^ 9) with 1000000000 in H by reflexivity.
  destruct ((_ <? _) || _) eqn:E; [lia|reflexivity].
Qed.
Lemma time_out ns : -62135596800 * 10 ^ 9 <= ns <= 253402300799 * 10 ^ 9 + 999999999 ->
  EncodeTime (TFin ns) = Val (ns / nanos_per_sec, ns - ns / nanos_per_sec * nanos_per_sec).
Proof.
  intros H. unfold EncodeTime, MinTimestampNs, MaxTimestampNs, kTimestampMinSeconds, kTimestampMaxSeconds, nanos_per_sec.
  replace (10 ^ 9) with 1000000000 in H by reflexivity.
  destruct ((_ <? _) || _) eqn:E; [lia|reflexivity].
Qed.
Lemma absl_duration_fin ns : - 10 ^ 27 <= ns <= 10 ^ 27 -> absl_duration ns = DFin ns.
Proof.
  intros H. unfold absl_duration. replace (in_int64 _) with true; [reflexivity|].
  symmetry. unfold in_int64, int64_min, int64_max, nanos_per_sec.
  assert (- 10 ^ 18 <= ns / 1000000000 <= 10 ^ 18); [|change (10 ^ 18) with 1000000000000000000 in *; lia].
  change (10 ^ 27) with (10 ^ 18 * 1000000000) in H. change (10^18) with 1000000000000000000 in *.
  Z.div_mod_to_equations. lia.
Qed.
Lemma absl_time_fin ns : - 10 ^ 27 <= ns <= 10 ^ 27 -> absl_time ns = TFin ns.
Proof.
  intros H. pose proof (absl_duration_fin ns H) as E. unfold absl_duration, absl_time in *.
  destruct (in_int64 _); congruence.
Qed.
Lemma duration_back ns : Z.abs ns <= 315576000000 * 10 ^ 9 + 999999999 ->
  DecodeDuration (Z.quot ns nanos_per_sec) (Z.rem ns nanos_per_sec) = DFin ns.
Proof.
  intros H. replace (10 ^ 9) with 1000000000 in H by reflexivity.
  unfold DecodeDuration, nanos_per_sec in *.
  pose proof (Z.quot_rem' ns 1000000000).
  change (10^18) with 1000000000000000000 in *.
  assert (Z.abs (Z.rem ns 1000000000) < 1000000000) by (apply Z.rem_bound_abs; lia).
  rewrite absl_duration_fin by (change (10^27) with 1000000000000000000000000000; lia).
  cbn [absl_add_dur].
  rewrite absl_duration_fin by (change (10^27) with 1000000000000000000000000000; lia).
  f_equal. lia.
Qed.
Lemma time_back ns : -62135596800 * 10 ^ 9 <= ns <= 253402300799 * 10 ^ 9 + 999999999 ->
  DecodeTime (ns / nanos_per_sec) (ns - ns / nanos_per_sec * nanos_per_sec) = TFin ns.
Proof.
  intros H. replace (10 ^ 9) with 1000000000 in H by reflexivity.
  unfold DecodeTime, nanos_per_sec in *.
  assert (ns - 1000000000 < ns / 1000000000 * 1000000000 <= ns) by (Z.div_mod_to_equations; lia).
  rewrite absl_time_fin by (change (10^27) with 1000000000000000000000000000; lia).
  cbn [absl_add_time].
  rewrite absl_time_fin by (change (10^27) with 1000000000000000000000000000; lia).
  f_equal. lia.
Qed.
Lemma constant_trip c : storable_constant c -> exists p, ConstantToProto c = Val p /\ ConstantFromProto p = c.
Proof.
  destruct c; cbn [storable_constant ConstantToProto]; intros H; try (eexists; split; [reflexivity|reflexivity]).
  - destruct H as (ns & -> & H). rewrite duration_out by easy. eexists. split; [reflexivity|].
    cbn [ConstantFromProto fst snd]. now rewrite duration_back.
  - destruct H as (ns & -> & H). rewrite time_out by easy. eexists. split; [reflexivity|].
    cbn [ConstantFromProto fst snd]. now rewrite time_back.
Qed.
Lemma constant_defined c p : ConstantToProto c = Val p -> storable_constant c.
Proof.
  destruct c; cbn [storable_constant ConstantToProto]; try easy; intros H.
  - destruct d as [ns|]; [|discriminate]. exists ns. split; [easy|]. unfold EncodeDuration in H.
    destruct ((_ <? _) || _) eqn:E; [discriminate|]. unfold MinDurationNs, MaxDurationNs, kDurationMaxSeconds, nanos_per_sec in E.
    change (10 ^ 9) with 1000000000. lia.
  - destruct t as [ns|]; [|discriminate]. exists ns. split; [easy|]. unfold EncodeTime in H.
    destruct ((_ <? _) || _) eqn:E; [discriminate|].
    unfold MinTimestampNs, MaxTimestampNs, kTimestampMinSeconds, kTimestampMaxSeconds, nanos_per_sec in E.
    change (10 ^ 9) with 1000000000. lia.
Qed.

(** ** Optional elements *)
Lemma positions_bound l : forall i j, In j (optional_positions i l) -> i <= j < i + Z.of_nat (length l).
Proof.
  induction l as [|[e b] l IH]; intros i j H; [easy|]. cbn [optional_positions] in H. apply in_app_iff in H. cbn [length].
  destruct H as [H|H].
  - destruct b; [|easy]. destruct H as [<-|[]]. lia.
  - apply IH in H. lia.
Qed.
Lemma existsb_In i l : existsb (Z.eqb i) l = true <-> In i l.
Proof. rewrite existsb_exists. split; [intros (x & H & E); assert (i = x) by lia; now subst|intros; exists i; split; [easy|lia]]. Qed.
Lemma mark_positions l : forall i pre, Forall (fun j => j < i) pre -> Forall (fun x => fst x <> None) l ->
  mark_optional i (pre ++ optional_positions i l) (map (fun x => or_empty (fst x)) l) = l.
Proof.
  induction l as [|[e b] l IH]; intros i pre Hp Hl; [easy|].
  inversion Hl as [|? ? He Hl']; subst. cbn in He.
  cbn [optional_positions map mark_optional fst]. f_equal.
  - f_equal; [destruct e; [easy|now elim He]|].
    destruct (existsb _ _) eqn:E.
    + apply existsb_In in E. rewrite !in_app_iff in E. rewrite Forall_forall in Hp. destruct E as [E|[E|E]].
      * apply Hp in E. lia.
      * now destruct b.
      * apply positions_bound in E. lia.
    + destruct b; [|easy]. assert (In i (pre ++ [i] ++ optional_positions (i + 1) l)) as X.
      { apply in_app_iff. right. now left. } apply existsb_In in X. congruence.
  - rewrite app_assoc. apply IH; [|easy]. apply Forall_app. split.
    + eapply Forall_impl; [|exact Hp]. cbn. intros; lia.
    + destruct b; constructor; [lia|constructor].
Qed.

(** ** To a message and back *)
Theorem to_from e : storable_times e -> well_shaped e -> exists p, ExprToProto e = Val p /\ ExprFromProto p = Val e.
Proof.
  induction e as [e IH] using children_ind. intros Ht Hs.
  assert (forall c, In c (children e) -> exists p, ExprToProto c = Val p /\ ExprFromProto p = Val c) as K.
  { intros c Hc. apply IH; [easy| |]; eapply throughout_child; eauto. }
  clear IH. apply throughout_here in Ht. apply throughout_here in Hs.
  destruct e as [i|i c|i n|i o f t|i f t a|i l|i n l|i l|i v v2 a r j k s f]; cbn [ExprToProto].
  - eexists. split; reflexivity.
  - destruct (constant_trip c Ht) as (p & Hp & Hc). rewrite Hp. eexists. split; [reflexivity|]. cbn. now rewrite Hc.
  - eexists. split; reflexivity.
  - destruct (optM_two_id ExprToProto ExprFromProto o) as (o' & H1 & H2); [intros x ->; apply K; now apply child_select|].
    rewrite H1. eexists. split; [reflexivity|]. cbn [ExprFromProto]. now rewrite H2.
  - destruct (optM_two_id ExprToProto ExprFromProto t) as (t' & H1 & H2); [intros x ->; apply K; now apply child_target|].
    destruct (mapM_two_id ExprToProto ExprFromProto a) as (a' & H3 & H4); [intros x Hx; apply K; now apply child_arg|].
    rewrite H1. cbn [obind]. rewrite H3. eexists. split; [reflexivity|]. cbn [ExprFromProto]. rewrite H2. cbn [obind]. now rewrite H4.
  - match goal with |- context [mapM ?f l] =>
      destruct (mapM_two f ExprFromProto (fun x => or_empty (fst x)) l) as (l' & H1 & H2) end.
    { intros [[c|] b] Hx; [apply K; now apply (child_element i l c b)|].
      rewrite Forall_forall in Hs. now elim (Hs _ Hx). }
    rewrite H1. eexists. split; [reflexivity|]. cbn [ExprFromProto]. rewrite H2. cbn [obind]. do 2 f_equal.
    apply (mark_positions l 0 []); [constructor|easy].
  - match goal with |- context [mapM ?f l] => set (F := f) end.
    cbn [ExprFromProto].
    match goal with |- exists p, _ = _ /\ _ => idtac end.
    edestruct (mapM_two_id F (fun x : Z * KeyPb * option ExprPb * bool =>
                        let '(eid, key, value, optional) := x in
                        name <- match key with
                                | KeyNotSet => Val ""%string
                                | FieldKey name => Val name
                                | MapKey _ => bad
                                end ;;
                        v <- optM ExprFromProto value ;;
                        Val (eid, name, v, optional)) l) as (l' & H1 & H2).
    { intros [[[x y] v] b] Hx. cbn [F].
      destruct (optM_two_id ExprToProto ExprFromProto v) as (v' & H1 & H2); [intros c ->; apply K; now apply (child_field i n l x y c b)|].
      exists (x, FieldKey y, v', b). subst F. cbn. rewrite H1. cbn. now rewrite H2. }
    rewrite H1. eexists. split; [reflexivity|]. cbn [ExprFromProto].
    destruct (String.eqb_spec n "") as [->|_]; [now elim Hs|]. now rewrite H2.
  - match goal with |- context [mapM ?f l] => set (F := f) end.
    edestruct (mapM_two_id F (fun x : Z * KeyPb * option ExprPb * bool =>
                        let '(eid, key, value, optional) := x in
                        k <- match key with
                             | KeyNotSet => Val None
                             | MapKey k => e <- ExprFromProto k ;; Val (Some e)
                             | FieldKey _ => bad
                             end ;;
                        v <- optM ExprFromProto value ;;
                        Val (eid, k, v, optional)) l) as (l' & H1 & H2).
    { intros [[[x y] v] b] Hx.
      destruct (optM_two_id ExprToProto ExprFromProto y) as (y' & H1 & H2); [intros c ->; apply K; now apply (child_key i l x c v b)|].
      destruct (optM_two_id ExprToProto ExprFromProto v) as (v' & H3 & H4); [intros c ->; apply K; now apply (child_value i l x y c b)|].
      exists (x, match y' with Some k => MapKey k | None => KeyNotSet end, v', b). subst F. cbn. rewrite H1. cbn. rewrite H3. cbn.
      split; [easy|]. destruct y' as [k|]; cbn in H2 |- *; [rewrite H2|]; cbn; rewrite H4; cbn; [easy|]. now injection H2 as <-. }
    rewrite H1. eexists. split; [reflexivity|]. cbn [ExprFromProto]. cbn [String.eqb]. now rewrite H2.
  - rewrite children_comprehension in K.
    assert (forall o, In (or_empty o) [or_empty r; or_empty j; or_empty k; or_empty s; or_empty f] ->
            exists o', optM ExprToProto o = Val o' /\ optM ExprFromProto o' = Val o) as K'.
    { intros o Ho. apply optM_two_id. intros x ->. now apply K. }
    destruct (K' r) as (r' & R1 & R2); [now left|]. destruct (K' j) as (j' & J1 & J2); [right; now left|].
    destruct (K' k) as (k' & K1 & K2); [right; right; now left|].
    destruct (K' s) as (s' & S1 & S2); [right; right; right; now left|].
    destruct (K' f) as (f' & F1 & F2); [right; right; right; right; now left|].
    rewrite R1. cbn [obind]. rewrite J1. cbn [obind]. rewrite K1. cbn [obind]. rewrite S1. cbn [obind]. rewrite F1. cbn [obind].
    eexists. split; [reflexivity|]. cbn [ExprFromProto].
    rewrite R2. cbn [obind]. rewrite J2. cbn [obind]. rewrite K2. cbn [obind]. rewrite S2. cbn [obind]. now rewrite F2.
Qed.
