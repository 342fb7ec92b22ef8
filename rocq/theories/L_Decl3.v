(* Lemmas on conversions between types and their specifications. *)
From Coq Require Import String Ascii List Bool Arith Lia.
From Verif Require Import Base M_Infer S_Infer L_Infer.
From Verif Require M_Signature S_Signature L_Signature P_Signature.
From Verif Require Import M_Decl S_Decl.
Import ListNotations.
Open Scope list_scope.
Local Open Scope nat_scope.

Lemma all_parts_here P t : all_parts P t -> P t.
Proof. destruct t; intros H; apply H. Qed.
Lemma all_parts_in P l : (fix go l := match l with [] => True | a :: l' => all_parts P a /\ go l' end) l ->
  forall u, In u l -> all_parts P u.
Proof. induction l as [|x l IH]; intros H u []; [subst; apply H|apply IH; [apply H|assumption]]. Qed.
Lemma in_all_parts (P : ty -> Prop) l : (forall u, In u l -> all_parts P u) ->
  (fix go l := match l with [] => True | a :: l' => all_parts P a /\ go l' end) l.
Proof. induction l as [|x l IH]; intros H; [exact I|]. split; [apply H; now left|apply IH; intros u Hu; apply H; now right]. Qed.
Lemma all_parts_params P t : all_parts P t -> forall u, In u (params t) -> all_parts P u.
Proof.
  intros H u Hu. destruct t; cbn [params] in Hu; try contradiction; try (eapply all_parts_in; [apply H|exact Hu]).
  - destruct Hu as [<-|[]]. apply H.
  - destruct Hu as [<-|[<-|[]]]; apply H.
Qed.

Lemma all_out_val {A B} (f : A -> out B) l : (forall x, In x l -> exists y, f x = Val y) ->
  exists m, M_Signature.all_out (map f l) = Val m.
Proof.
  induction l as [|x l IH]; intros H; cbn; [eauto|]. destruct (H x (or_introl eq_refl)) as [y ->].
  destruct IH as [m ->]; [intros z Hz; apply H; now right|]. cbn. eauto.
Qed.
Lemma all_out_inv {A B} (f : A -> out B) l : forall m, M_Signature.all_out (map f l) = Val m -> Forall2 (fun x y => f x = Val y) l m.
Proof.
  induction l as [|x l IH]; intros m; cbn; [intros [= <-]; constructor|].
  destruct (f x) as [y|e|] eqn:E; cbn; try discriminate. destruct (M_Signature.all_out (map f l)) as [k|e|]; cbn; try discriminate.
  intros [= <-]. constructor; [exact E|]. now apply IH.
Qed.
Lemma all_out_of {A B} (f : A -> out B) l m : Forall2 (fun x y => f x = Val y) l m -> M_Signature.all_out (map f l) = Val m.
Proof. induction 1 as [|x y l m H _ IH]; cbn; [reflexivity|]. rewrite H. cbn. now rewrite IH. Qed.

Lemma unlit n : string_of_list_ascii (list_ascii_of_string n) = n.
Proof. apply string_of_list_ascii_of_string. Qed.

Lemma message_same n : ~ In n replaced_messages -> Message n = TStruct n.
Proof.
  intros H. unfold Message. unfold replaced_messages in H.
  repeat (match goal with |- context [String.eqb n ?w] =>
    destruct (String.eqb_spec n w) as [E|_]; [exfalso; apply H; subst n; cbn; tauto|] end). reflexivity.
Qed.

Section Conv.
Variable is_message : string -> bool.
Variable P : pool.

Lemma spec_exists : forall t, constructed t -> specifiable is_message t -> exists s, ConvertTypeToTypeSpec is_message t = Val s.
Proof.
  induction t as [t IH] using ty_params_ind. intros C S.
  pose proof (all_parts_params _ _ C) as Cp. pose proof (all_parts_params _ _ S) as Sp.
  pose proof (all_parts_here _ _ C) as C0. pose proof (all_parts_here _ _ S) as S0.
  assert (IH' : forall u, In u (params t) -> exists s, ConvertTypeToTypeSpec is_message u = Val s).
  { intros u Hu. apply IH; [exact Hu|now apply Cp|now apply Sp]. }
  clear IH C S Cp Sp. destruct t; cbn [ConvertTypeToTypeSpec params] in *; try contradiction; eauto.
  - rewrite S0. eauto.
  - destruct ps as [|e l]; [eauto|]. destruct (IH' e) as [s ->]; [now left|]. cbn. eauto.
  - destruct (IH' t) as [s ->]; [now left|]. cbn. eauto.
  - destruct (IH' t1) as [s ->]; [now left|]. destruct (IH' t2) as [s' ->]; [right; now left|]. cbn. eauto.
  - destruct (all_out_val (ConvertTypeToTypeSpec is_message) ps) as [m ->]; [exact IH'|]. cbn. eauto.
  - destruct ps as [|r l]; [contradiction|]. destruct (IH' r) as [s ->]; [now left|]. cbn [obind].
    destruct (all_out_val (ConvertTypeToTypeSpec is_message) l) as [m ->]; [intros x Hx; apply IH'; now right|]. cbn. eauto.
Qed.

Lemma f2_out_map {A B C} (f : A -> out B) (g : B -> out C) (h : A -> C) l m :
  Forall2 (fun x y => f x = Val y) l m -> (forall x y, In x l -> f x = Val y -> g y = Val (h x)) ->
  M_Signature.all_out (map g m) = Val (map h l).
Proof.
  induction 1 as [|x y l m Hx _ IH]; intros H; cbn [map M_Signature.all_out]; [reflexivity|].
  rewrite (H x y (or_introl eq_refl) Hx). cbn. rewrite IH; [reflexivity|]. intros a b Ha. apply H. now right.
Qed.

Lemma spec_specified t s : ConvertTypeToTypeSpec is_message t = Val s -> M_Signature.is_specified s = true.
Proof.
  destruct t; cbn [ConvertTypeToTypeSpec]; try (intros [= <-]; reflexivity); try discriminate.
  - destruct (is_message name); [intros [= <-]; reflexivity|discriminate].
  - destruct ps; [intros [= <-]; reflexivity|]. destruct (ConvertTypeToTypeSpec _ _); cbn; try discriminate. intros [= <-]. reflexivity.
  - destruct (ConvertTypeToTypeSpec _ _); cbn; try discriminate. intros [= <-]. reflexivity.
  - destruct (ConvertTypeToTypeSpec is_message t1); cbn; try discriminate. destruct (ConvertTypeToTypeSpec _ _); cbn; try discriminate. intros [= <-]. reflexivity.
  - destruct (M_Signature.all_out _); cbn; try discriminate. intros [= <-]. reflexivity.
  - destruct ps as [|r l]; [discriminate|]. destruct (ConvertTypeToTypeSpec is_message r); cbn; try discriminate. destruct (M_Signature.all_out _); cbn; try discriminate. intros [= <-]. reflexivity.
Qed.

(* reading back a specification, or the form its text has *)
Lemma spec_back (c : tspec -> tspec) :
  (forall s, c s = s) \/ (forall s, c s = S_Signature.canonical s) ->
  forall t, constructed t -> known P t -> forall s, ConvertTypeToTypeSpec is_message t = Val s ->
  ConvertTypeSpecToType P (c s) = Val (filled t).
Proof.
  intros Hc. induction t as [t IH] using ty_params_ind. intros C K s.
  pose proof (all_parts_params _ _ C) as Cp. pose proof (all_parts_params _ _ K) as Kp.
  pose proof (all_parts_here _ _ C) as C0. pose proof (all_parts_here _ _ K) as K0.
  assert (IH' : forall u s, In u (params t) -> ConvertTypeToTypeSpec is_message u = Val s -> ConvertTypeSpecToType P (c s) = Val (filled u)).
  { intros u s' Hu. apply IH; [exact Hu|now apply Cp|now apply Kp]. }
  clear IH C K Cp Kp. pose proof spec_specified as SP.
  assert (SPc : forall u s, ConvertTypeToTypeSpec is_message u = Val s -> S_Signature.or_dyn (c s) = c s /\ M_Signature.is_specified (c s) = true).
  { intros u s' H. apply SP in H. destruct Hc as [-> | ->]; (destruct s'; [discriminate H|..]; now cbn). }
  assert (Hl : forall l m, (forall u, In u l -> In u (params t)) -> M_Signature.all_out (map (ConvertTypeToTypeSpec is_message) l) = Val m ->
     M_Signature.all_out (map (ConvertTypeSpecToType P) (map c m)) = Val (map filled l)).
  { intros l m Hi H. apply all_out_inv in H. rewrite map_map. eapply f2_out_map; [exact H|]. cbn. intros x y Hx E. now apply IH'; [apply Hi|]. }
  assert (Cl : forall m, Forall (fun s => True) m -> map c m = m \/ map c m = map S_Signature.canonical m).
  { intros m _. destruct Hc as [Hc|Hc]; [left; rewrite (map_ext _ (fun s => s)) by exact Hc; apply map_id|right; apply map_ext; exact Hc]. }
  destruct t; cbn [ConvertTypeToTypeSpec filled params] in *; try discriminate;
    try (intros [= <-]; destruct Hc as [-> | ->]; cbn; reflexivity).
  - intros [= <-]. destruct Hc as [-> | ->]; destruct p; reflexivity.
  - intros [= <-]. destruct Hc as [-> | ->]; destruct p; reflexivity.
  - destruct (is_message name); [|discriminate]. intros [= <-]. destruct K0 as [K1 K2].
    destruct Hc as [-> | ->]; cbn [S_Signature.canonical ConvertTypeSpecToType]; rewrite unlit, K1; now rewrite message_same.
  - intros [= <-]. destruct K0 as (K1 & K2 & K3).
    destruct Hc as [-> | ->]; cbn [S_Signature.canonical ConvertTypeSpecToType map]; rewrite unlit, K1, K2; unfold Enum; apply String.eqb_neq in K3; now rewrite K3.
  - intros [= <-]. destruct Hc as [-> | ->]; cbn [S_Signature.canonical ConvertTypeSpecToType]; now rewrite unlit.
  - destruct ps as [|e l]; [intros [= <-]; destruct Hc as [-> | ->]; reflexivity|]. destruct l; [|contradiction].
    destruct (ConvertTypeToTypeSpec is_message e) as [s'| |] eqn:E; cbn; try discriminate. intros [= <-].
    specialize (IH' e s' (or_introl eq_refl) E). cbn [map].
    destruct Hc as [Hc|Hc]; rewrite !Hc in *; cbn [S_Signature.canonical ConvertTypeSpecToType]; now rewrite IH'.
  - destruct (ConvertTypeToTypeSpec is_message t) as [s'| |] eqn:E; cbn; try discriminate. intros [= <-].
    specialize (IH' t s' (or_introl eq_refl) E). destruct (SPc t s' E) as [S1 S2].
    destruct Hc as [Hc|Hc]; rewrite !Hc in *; cbn [S_Signature.canonical ConvertTypeSpecToType]; rewrite ?S1, S2, IH'; reflexivity.
  - destruct (ConvertTypeToTypeSpec is_message t1) as [s1| |] eqn:E; cbn; try discriminate.
    destruct (ConvertTypeToTypeSpec is_message t2) as [s2| |] eqn:E2; cbn; try discriminate. intros [= <-].
    pose proof (IH' t1 s1 (or_introl eq_refl) E) as I1. pose proof (IH' t2 s2 (or_intror (or_introl eq_refl)) E2) as I2.
    destruct (SPc t1 s1 E) as [S1 S2]. destruct (SPc t2 s2 E2) as [S3 S4].
    destruct Hc as [Hc|Hc]; rewrite !Hc in *; cbn [S_Signature.canonical ConvertTypeSpecToType]; rewrite ?S1, S2, I1, ?S3, S4, I2; reflexivity.
  - destruct (M_Signature.all_out _) as [m| |] eqn:E; cbn; try discriminate. intros [= <-]. destruct K0 as [K1 K2].
    specialize (Hl ps m (fun u H => H) E). destruct Hc as [Hc|Hc].
    + rewrite Hc. rewrite (map_ext c (fun s => s) Hc), map_id in Hl. cbn [ConvertTypeSpecToType]. rewrite unlit, K1, K2, Hl. reflexivity.
    + rewrite Hc. rewrite (map_ext c _ Hc) in Hl. cbn [S_Signature.canonical ConvertTypeSpecToType]. rewrite unlit, K1, K2, Hl. reflexivity.
  - destruct ps as [|r l]; [discriminate|]. destruct (ConvertTypeToTypeSpec is_message r) as [s1| |] eqn:E; cbn [obind]; try discriminate.
    destruct (M_Signature.all_out _) as [m| |] eqn:E2; cbn [obind]; try discriminate. intros [= <-].
    pose proof (IH' r s1 (or_introl eq_refl) E) as I1. destruct (SPc r s1 E) as [S1 S2].
    specialize (Hl l m (fun u H => or_intror H) E2). cbn [map]. destruct Hc as [Hc|Hc].
    + rewrite !Hc in *. rewrite (map_ext c (fun s => s) Hc), map_id in Hl. cbn [ConvertTypeSpecToType]. rewrite S2, I1. cbn [obind]. rewrite Hl. reflexivity.
    + rewrite !Hc in *. rewrite (map_ext c _ Hc) in Hl. cbn [S_Signature.canonical ConvertTypeSpecToType]. rewrite S1, S2, I1. cbn [obind]. rewrite Hl. reflexivity.
Qed.

(* the failures *)
Lemma spec_fails : forall t, constructed t ->
  (exists s, ConvertTypeToTypeSpec is_message t = Val s) -> specifiable is_message t.
Proof.
  induction t as [t IH] using ty_params_ind. intros C [s H].
  pose proof (all_parts_params _ _ C) as Cp. pose proof (all_parts_here _ _ C) as C0.
  assert (IH' : forall u s, In u (params t) -> ConvertTypeToTypeSpec is_message u = Val s -> specifiable is_message u).
  { intros u s' Hu E. apply IH; [exact Hu|now apply Cp|eauto]. }
  clear IH C Cp. unfold specifiable in *.
  assert (Hl : forall l m, (forall u, In u l -> In u (params t)) -> M_Signature.all_out (map (ConvertTypeToTypeSpec is_message) l) = Val m ->
     forall u, In u l -> all_parts (fun t => match t with TUnknown => False | TStruct n => is_message n = true | _ => True end) u).
  { intros l m Hi E u Hu. apply all_out_inv in E. 
    assert (exists y, ConvertTypeToTypeSpec is_message u = Val y) as [y Hy].
    { clear -E Hu. induction E; [contradiction|]. destruct Hu as [<-|Hu]; eauto. }
    eapply IH'; [apply Hi, Hu|exact Hy]. }
  destruct t; cbn [ConvertTypeToTypeSpec params all_parts] in *; try discriminate; try (split; exact I).
  - destruct (is_message name); [split; [reflexivity|exact I]|discriminate].
  - split; [exact I|]. destruct ps as [|e [|? ?]]; [exact I| |contradiction]. destruct (ConvertTypeToTypeSpec is_message e) as [s'| |] eqn:E; cbn in H; try discriminate.
    split; [|exact I]. eapply IH'; [now left|exact E].
  - split; [exact I|]. destruct (ConvertTypeToTypeSpec is_message t) as [s'| |] eqn:E; cbn in H; try discriminate. eapply IH'; [now left|exact E].
  - split; [exact I|]. destruct (ConvertTypeToTypeSpec is_message t1) as [s1| |] eqn:E; cbn in H; try discriminate.
    destruct (ConvertTypeToTypeSpec is_message t2) as [s2| |] eqn:E2; cbn in H; try discriminate. split; [eapply IH'; [now left|exact E]|eapply IH'; [right; now left|exact E2]].
  - split; [exact I|]. destruct (M_Signature.all_out _) as [m| |] eqn:E; cbn in H; try discriminate. apply in_all_parts. apply (Hl ps m); auto.
  - split; [exact I|]. destruct ps as [|r l]; [exact I|]. destruct (ConvertTypeToTypeSpec is_message r) as [s1| |] eqn:E; cbn [obind] in H; try discriminate.
    destruct (M_Signature.all_out _) as [m| |] eqn:E2; cbn in H; try discriminate. split; [eapply IH'; [now left|exact E]|].
    apply in_all_parts. apply (Hl l m); [intros u Hu; now right|exact E2].
Qed.

Lemma spec_no_ub : forall t, constructed t -> ConvertTypeToTypeSpec is_message t <> UB.
Proof.
  induction t as [t IH] using ty_params_ind. intros C.
  pose proof (all_parts_params _ _ C) as Cp. pose proof (all_parts_here _ _ C) as C0.
  assert (IH' : forall u, In u (params t) -> ConvertTypeToTypeSpec is_message u <> UB).
  { intros u Hu. apply IH; [exact Hu|now apply Cp]. }
  clear IH C Cp.
  assert (Hl : forall l, (forall u, In u l -> In u (params t)) -> M_Signature.all_out (map (ConvertTypeToTypeSpec is_message) l) <> UB).
  { induction l as [|x l IHl]; intros Hi; cbn; [discriminate|]. pose proof (IH' x (Hi x (or_introl eq_refl))) as Hx.
    destruct (ConvertTypeToTypeSpec is_message x); cbn; try congruence. 
    assert (M_Signature.all_out (map (ConvertTypeToTypeSpec is_message) l) <> UB) by (apply IHl; intros u Hu; apply Hi; now right).
    destruct (M_Signature.all_out _); cbn; congruence. }
  destruct t; cbn [ConvertTypeToTypeSpec params] in *; try discriminate.
  - destruct (is_message name); discriminate.
  - destruct ps as [|e l]; [discriminate|]. specialize (IH' e (or_introl eq_refl)). destruct (ConvertTypeToTypeSpec is_message e); cbn; congruence.
  - specialize (IH' t (or_introl eq_refl)). destruct (ConvertTypeToTypeSpec is_message t); cbn; congruence.
  - pose proof (IH' t1 (or_introl eq_refl)). pose proof (IH' t2 (or_intror (or_introl eq_refl))).
    destruct (ConvertTypeToTypeSpec is_message t1); cbn; try congruence. destruct (ConvertTypeToTypeSpec is_message t2); cbn; congruence.
  - specialize (Hl ps (fun u H => H)). destruct (M_Signature.all_out _); cbn; congruence.
  - destruct ps as [|r l]; [contradiction|]. pose proof (IH' r (or_introl eq_refl)). specialize (Hl l (fun u H => or_intror H)).
    destruct (ConvertTypeToTypeSpec is_message r); cbn; try congruence. destruct (M_Signature.all_out _); cbn; congruence.
Qed.
End Conv.

Lemma collect_params n t : In n (CollectTypeParams t) <-> has_param n t.
Proof.
  split.
  - induction t as [t IH] using ty_params_ind. destruct t; cbn [CollectTypeParams params] in *; try contradiction.
    + intros [<-|[]]. constructor.
    + intros H. apply hp_list. apply IH; [now left|exact H].
    + intros H. apply in_app_iff in H as [H|H]; [apply hp_key|apply hp_value]; apply IH; cbn; auto.
    + intros H. apply in_flat_map in H as (x & Hx & H). eapply hp_opaque; [exact Hx|]. now apply IH.
    + intros H. apply in_flat_map in H as (x & Hx & H). eapply hp_function; [exact Hx|]. now apply IH.
  - induction 1; cbn [CollectTypeParams]; try (apply in_app_iff; auto); auto.
    + now left.
    + apply in_flat_map. eauto.
    + apply in_flat_map. eauto.
Qed.
