(* Lemmas about reading JSON, its equality, and exported values. *)
From Coq Require Import ZArith QArith String List Bool Lia ZifyBool Permutation.
From Verif Require Import Base M_Overflow M_Number M_Attr M_Value S_Num S_Value L_Float L_Number L_Conv P_Num L_Value.
From Verif Require Import M_Civil M_Convert.
From Verif Require Import S_Format S_Convert S_Time.
From Verif Require L_Format L_Convert2.
From Verif Require Import M_Json S_Json L_Json L_Json2.
Import ListNotations.
Open Scope list_scope.
Open Scope Z_scope.

Definition json_ind' (P : json -> Prop) (Hu : P JUnset) (Hn : P JNull) (Hb : forall b, P (JBool b)) (Hd : forall d, P (JNumber d))
  (Hs : forall s, P (JString s)) (Hl : forall l, Forall P l -> P (JList l))
  (Hm : forall m, Forall (fun f => P (snd f)) m -> P (JStruct m)) : forall j, P j :=
  fix go (j : json) : P j :=
    match j with
    | JUnset => Hu | JNull => Hn | JBool b => Hb b | JNumber d => Hd d | JString s => Hs s
    | JList l => Hl l ((fix all l : Forall P l :=
        match l with [] => Forall_nil _ | x :: l' => Forall_cons _ (go x) (all l') end) l)
    | JStruct m => Hm m ((fix all m : Forall (fun f => P (snd f)) m :=
        match m with [] => Forall_nil _ | e :: m' => Forall_cons _ (go (snd e)) (all m') end) m)
    end.
Lemma throughout_list P l : throughout P (JList l) <-> P (JList l) /\ Forall (throughout P) l.
Proof.
  cbn [throughout]. apply and_iff_compat_l. induction l; [split; auto|].
  rewrite Forall_cons_iff, <- IHl. reflexivity.
Qed.
Lemma throughout_struct P m : throughout P (JStruct m) <-> P (JStruct m) /\ Forall (fun e => throughout P (snd e)) m.
Proof.
  cbn [throughout]. apply and_iff_compat_l. induction m as [|[k v] m IH]; [split; auto|].
  rewrite Forall_cons_iff, <- IH. reflexivity.
Qed.

(** ** Reading *)
Definition read_field (e : list Z * json) : mkey * value := (KString (fst e), ParsedJsonValue (snd e)).
Lemma read_struct m : ParsedJsonValue (JStruct m) = VMap (map read_field m).
Proof. reflexivity. Qed.
Lemma read_find k m : find_key (KString k) (map read_field m) = match find_field k m with Some j => Some (ParsedJsonValue j) | None => None end.
Proof.
  induction m as [|[k' j] m IH]; [reflexivity|]. cbn [map read_field fst snd find_key find_field key_eqb]. now destruct (bytes_eqb k' k).
Qed.
Lemma read_names m : map fst (map read_field m) = map KString (map fst m).
Proof. rewrite !map_map. reflexivity. Qed.
Lemma nodup_names m : NoDup (map fst m) -> NoDup (map fst (map read_field m)).
Proof.
  rewrite read_names. generalize (map fst m). clear. induction 1 as [|x l N _ IH]; cbn [map]; constructor; [|easy].
  intros I. apply in_map_iff in I. destruct I as (y & E & I). injection E as ->. contradiction.
Qed.
Lemma read_equal a : forall b, JsonEquals a b = ValueEqual (ParsedJsonValue a) (ParsedJsonValue b).
Proof.
  induction a using json_ind'; intros c; try (destruct c; reflexivity).
  - destruct c as [| | | | |l'|]; try reflexivity. cbn [JsonEquals unset_is_null ParsedJsonValue ValueEqual]. rewrite !map_length.
    destruct (Nat.eqb (List.length l) (List.length l')); [cbn [negb]|reflexivity].
    revert l'. induction H as [|x l Hx _ IH]; intros l'; [reflexivity|]. destruct l' as [|y l']; [reflexivity|].
    cbn [json_list_equal list_equal_loop map]. rewrite Hx. destruct (ValueEqual _ _); [|reflexivity]. apply IH.
  - destruct c as [| | | | | |m']; try reflexivity. rewrite !read_struct. cbn [JsonEquals unset_is_null ValueEqual]. rewrite !map_length.
    destruct (Nat.eqb (List.length m) (List.length m')); [cbn [negb]|reflexivity].
    transitivity (json_struct_equal JsonEquals m' m); [destruct m; reflexivity|].
    induction H as [|[k x] m Hx _ IH]; [reflexivity|]. cbn [json_struct_equal map_equal_loop map read_field fst snd].
    rewrite MapFind_key, read_find. destruct (find_field k m') as [y|]; [|reflexivity]. cbn [snd] in Hx. rewrite Hx.
    destruct (ValueEqual _ _); [|reflexivity]. exact IH.
Qed.
Lemma read_ok j : message j -> value_ok (ParsedJsonValue j).
Proof.
  unfold message, value_ok. induction j using json_ind'; intros M; try (repeat split; fail).
  - destruct M as [M _]. now split.
  - cbn [ParsedJsonValue]. apply throughout_list in M. destruct M as [_ M]. apply everywhere_list. split; [constructor|].
    rewrite Forall_forall in *. intros x I. apply in_map_iff in I. destruct I as (y & <- & I). auto.
  - rewrite read_struct. apply throughout_struct in M. destruct M as [N M]. apply everywhere_map. split.
    + split; [now apply nodup_names|]. rewrite read_names. apply Forall_forall. intros k I. apply in_map_iff in I. now destruct I as (y & <- & _).
    + rewrite Forall_forall in *. intros x I. apply in_map_iff in I. destruct I as (y & <- & I). cbn [read_field snd]. auto.
Qed.
Lemma read_no_nan j : no_nan j -> nan_free (ParsedJsonValue j).
Proof.
  unfold no_nan, nan_free. induction j using json_ind'; intros M; try (repeat split; fail).
  - destruct M as [M _]. now split.
  - cbn [ParsedJsonValue]. apply throughout_list in M. destruct M as [_ M]. apply everywhere_list. split; [constructor|].
    rewrite Forall_forall in *. intros x I. apply in_map_iff in I. destruct I as (y & <- & I). auto.
  - rewrite read_struct. apply throughout_struct in M. destruct M as [N M]. apply everywhere_map. split; [constructor|].
    rewrite Forall_forall in *. intros x I. apply in_map_iff in I. destruct I as (y & <- & I). cbn [read_field snd]. auto.
Qed.

(** ** Equality *)
Lemma d_eq_math x y : valid_double x = true -> valid_double y = true -> d_eq x y = true <-> math_eq (NDouble x) (NDouble y).
Proof.
  intros X Y. rewrite <- num_eq_double by easy.
  destruct (C03_comparison_matches_order_partial (NDouble x) (NDouble y) X Y (or_introl eq_refl)) as (_ & _ & H & _). exact H.
Qed.
Lemma JsonEquals_list xs ys : JsonEquals (JList xs) (JList ys) = true <-> Forall2 (fun x y => JsonEquals x y = true) xs ys.
Proof.
  rewrite read_equal. cbn [ParsedJsonValue]. rewrite ValueEqual_list. split.
  - revert ys. induction xs as [|x xs IH]; intros [|y ys] H; inversion H; subst; constructor; [now rewrite read_equal|auto].
  - induction 1; cbn [map]; constructor; [now rewrite <- read_equal|auto].
Qed.
Lemma JsonEquals_struct m n : NoDup (map fst n) -> JsonEquals (JStruct m) (JStruct n) = true <->
  List.length m = List.length n /\ forall e, In e m -> exists f, In f n /\ fst e = fst f /\ JsonEquals (snd e) (snd f) = true.
Proof.
  intros N. rewrite read_equal, !read_struct, ValueEqual_map by now apply nodup_names. rewrite !map_length.
  apply and_iff_compat_l. split; intros H e I.
  - destruct (H (read_field e)) as (f & If & E & V); [now apply in_map|]. apply in_map_iff in If. destruct If as (g & <- & Ig).
    exists g. cbn [read_field fst snd] in *. injection E as E. rewrite read_equal. auto.
  - apply in_map_iff in I. destruct I as (g & <- & Ig). destruct (H g Ig) as (f & If & E & V). exists (read_field f).
    split; [now apply in_map|]. cbn [read_field fst snd]. rewrite <- read_equal. split; [now f_equal|easy].
Qed.
Lemma equal_same a : forall b, message a -> message b -> JsonEquals a b = true <-> same_json a b.
Proof.
  unfold message. induction a using json_ind'; intros c A C.
  - destruct c; cbn [JsonEquals unset_is_null]; split; try discriminate; try reflexivity; try (intros _; constructor; auto); intros S; inversion S as [? ? [|] [|]| | | | |]; try discriminate; reflexivity.
  - destruct c; cbn [JsonEquals unset_is_null]; split; try discriminate; try reflexivity; try (intros _; constructor; auto); intros S; inversion S as [? ? [|] [|]| | | | |]; try discriminate; reflexivity.
  - destruct c; cbn [JsonEquals unset_is_null]; split; try discriminate; try (intros S; inversion S as [? ? [|] [|]| | | | |]; subst; discriminate).
    + intros E. apply eqb_prop in E as ->. apply sj_bool.
    + intros S. inversion S as [? ? [|] [|]| | | | |]; subst; try discriminate. apply Bool.eqb_reflx.
  - destruct c; cbn [JsonEquals unset_is_null]; split; try discriminate; try (intros S; inversion S as [? ? [|] [|]| | | | |]; subst; discriminate); destruct A as [A _], C as [C _].
    + intros E. apply sj_number. now apply d_eq_math.
    + intros S. inversion S as [? ? [|] [|]| | | | |]; subst; try discriminate. now apply d_eq_math.
  - destruct c; cbn [JsonEquals unset_is_null]; split; try discriminate; try (intros S; inversion S as [? ? [|] [|]| | | | |]; subst; discriminate).
    + intros E. apply bytes_eqb_eq in E as ->. apply sj_string.
    + intros S. inversion S as [? ? [|] [|]| | | | |]; subst; try discriminate. apply bytes_eqb_refl.
  - destruct c as [| | | | |l'|]; try (split; [discriminate|intros S; inversion S as [? ? [|] [|]| | | | |]; subst; discriminate]).
    apply throughout_list in A, C. destruct A as [_ A], C as [_ C]. rewrite Forall_forall in *. rewrite JsonEquals_list. split.
    + intros F. apply sj_list. eapply Forall2_impl_in; [|exact F]. intros x y Ix Iy E. apply H; auto.
    + intros S. inversion S as [? ? [|] [|]| | | |? ? F|]; subst; try discriminate. eapply Forall2_impl_in; [|exact F]. intros x y Ix Iy E. apply H; auto.
  - destruct c as [| | | | | |m']; try (split; [discriminate|intros S; inversion S as [? ? [|] [|]| | | | |]; subst; discriminate]).
    apply throughout_struct in A, C. destruct A as [NA A], C as [NC C]. rewrite Forall_forall in *. rewrite JsonEquals_struct by easy. split.
    + intros [L F]. destruct (pairing fst fst (fun e f => JsonEquals (snd e) (snd f) = true) m NA m' L F) as (n & P & G).
      apply sj_struct with (ys := n); [|now apply Permutation_sym]. eapply Forall2_impl_in; [|exact G]. intros e f Ie If [E V]. split; [easy|].
      apply H; auto. apply C. eapply Permutation_in; [apply Permutation_sym, P|easy].
    + intros S. inversion S as [? ? [|] [|]| | | | |? ? ? F P]; subst; try discriminate. split.
      * rewrite (Forall2_length _ _ _ F). now apply Permutation_length.
      * intros e Ie. destruct (Forall2_in_l _ _ _ _ F Ie) as (f & If & E & V). assert (In f m') as If' by (eapply Permutation_in; eauto).
        exists f. repeat split; auto. apply H; auto.
Qed.

(** ** Round trips *)
Lemma nulls_trip j : message j -> exists j', ConvertToJson (ParsedJsonValue j) = Val j' /\ all_set j' /\
  ParsedJsonValue j' = ParsedJsonValue j /\ (all_set j -> j' = j).
Proof.
  unfold message, all_set. induction j using json_ind'; intros M;
    try (eexists; split; [reflexivity|]; split; [split; [discriminate|exact I]|]; split; [reflexivity|]; intros A; (reflexivity || (exfalso; now apply A))).
  - apply throughout_list in M. destruct M as [_ M]. cbn [ParsedJsonValue ConvertToJson].
    assert (exists js, Forall2 (fun x j' => ConvertToJson x = Val j') (map ParsedJsonValue l) js /\ Forall (throughout (fun j => j <> JUnset)) js /\
      map ParsedJsonValue js = map ParsedJsonValue l /\ (Forall (throughout (fun j => j <> JUnset)) l -> js = l)) as (js & F & S & P & Q).
    { induction l as [|x l IHl]; [exists []; repeat split; auto; constructor|].
      inversion H as [|? ? Hx Hl]; subst. inversion M as [|? ? Mx Ml]; subst. destruct (IHl Hl Ml) as (js & F & S & P & Q). destruct (Hx Mx) as (j & F' & S' & P' & Q').
      exists (j :: js). cbn [map]. split; [now constructor|]. split; [now constructor|]. split; [now rewrite P', P|]. intros A. inversion A; subst. f_equal; auto. }
    apply list_to_json_ok in F. rewrite F. cbn [obind]. exists (JList js). split; [reflexivity|]. split; [apply throughout_list; now split|].
    split; [cbn [ParsedJsonValue]; now rewrite P|]. intros A. apply throughout_list in A. f_equal. now apply Q.
  - apply throughout_struct in M. destruct M as [N M]. rewrite read_struct. cbn [ConvertToJson].
    assert (exists fs, Forall2 (fun e f => fst e = KString (fst f) /\ ConvertToJson (snd e) = Val (snd f)) (map read_field m) fs /\
      Forall (fun e => throughout (fun j => j <> JUnset) (snd e)) fs /\
      map read_field fs = map read_field m /\ (Forall (fun e => throughout (fun j => j <> JUnset) (snd e)) m -> fs = m)) as (fs & F & S & P & Q).
    { clear N. induction m as [|[k x] m IHl]; [exists []; repeat split; auto; constructor|].
      inversion H as [|? ? Hx Hl]; subst. inversion M as [|? ? Mx Ml]; subst. destruct (IHl Hl Ml) as (js & F & S & P & Q). destruct (Hx Mx) as (j & F' & S' & P' & Q').
      cbn [snd] in *. exists ((k, j) :: js). cbn [map]. split; [constructor; [now split|easy]|]. split; [now constructor|].
      split; [rewrite P; unfold read_field; cbn [fst snd]; now rewrite P'|]. intros A. inversion A; subst. f_equal; [f_equal|]; auto. }
    rewrite (map_to_json_ok ConvertToJson _ [] fs); [|cbn [map app]|exact F].
    2:{ rewrite map_map. cbn [read_field fst name]. exact N. }
    cbn [obind app]. exists (JStruct fs). split; [reflexivity|]. split.
    { apply throughout_struct. split; [discriminate|easy]. }
    split; [rewrite !read_struct; now rewrite P|]. intros A. apply throughout_struct in A. f_equal. now apply Q.
Qed.
Lemma num_eq_denotes n d i : number_ok n -> int_small n -> denotes_int n i -> valid_double d = true -> denotes_int (NDouble d) i -> num_eq n (NDouble d) = true.
Proof.
  intros On Sn Dn Vd Dd. destruct (C03_comparison_never_reversed n (NDouble d) On Vd) as (_ & _ & _ & _ & _ & H & _). apply H.
  destruct Dn as (q & Eq1 & E1), Dd as (r & Eq2 & E2). unfold math_eq, math_cmp. rewrite Eq1, Eq2. cbn [spec_compare ext_compare].
  f_equal. apply Qeq_alt. now rewrite E1, E2.
Qed.
Lemma value_trip v : value_ok v -> has_json v -> plain v -> nan_free v ->
  exists j, ConvertToJson v = Val j /\ ValueEqual v (ParsedJsonValue j) = true.
Proof.
  unfold value_ok, has_json, plain, nan_free. induction v using value_ind'; intros V J P N; cbn [ConvertToJson];
    try (destruct J as [[] _]; fail); try (destruct P as [[] _]; fail).
  - eexists. split; reflexivity.
  - eexists. split; [reflexivity|]. apply Bool.eqb_reflx.
  - destruct V as [V _], P as [P _]. eexists. split; [reflexivity|]. unfold SetNumberInt, kJsonMinInt, kJsonMaxInt. cbn [plain_node node_ok] in *.
    assert ((i <? - (2 ^ 53 - 1)) || (2 ^ 53 - 1 <? i) = false) as -> by lia. cbn [ParsedJsonValue ValueEqual].
    destruct (double_exact i ltac:(lia)) as [D Vd]. apply num_eq_denotes with (i := i); auto; [cbn; lia|]. now apply denotes_NInt.
  - destruct V as [V _], P as [P _]. eexists. split; [reflexivity|]. unfold SetNumberUint, kJsonMaxUint. cbn [plain_node node_ok] in *. unfold in_uint64 in V.
    assert (2 ^ 53 - 1 <? u = false) as -> by lia. cbn [ParsedJsonValue ValueEqual].
    destruct (double_exact u ltac:(lia)) as [D Vd]. apply num_eq_denotes with (i := u); auto; [cbn; lia|]. now apply denotes_NUint.
  - destruct V as [V _], N as [N _]. eexists. split; [reflexivity|]. cbn [ParsedJsonValue ValueEqual]. now apply d_eq_refl.
  - eexists. split; [reflexivity|]. apply bytes_eqb_refl.
  - rewrite everywhere_list in *. destruct V as [_ V], J as [_ J], P as [_ P], N as [_ N].
    assert (exists js, Forall2 (fun x j => ConvertToJson x = Val j) l js /\ Forall2 (fun x y => ValueEqual x y = true) l (map ParsedJsonValue js)) as (js & F & G).
    { induction l as [|x l IHl]; [exists []; split; constructor|]. inversion H; subst. inversion V; subst. inversion J; subst. inversion P; subst. inversion N; subst.
      destruct IHl as (js & F & G); auto. destruct H2 as (j & A & B); auto. exists (j :: js). cbn [map]. split; constructor; auto. }
    apply list_to_json_ok in F. rewrite F. cbn [obind]. exists (JList js). split; [reflexivity|]. cbn [ParsedJsonValue]. now apply ValueEqual_list.
  - rewrite everywhere_map in *. destruct V as [[Nd _] V], J as [K J], P as [_ P], N as [_ N]. cbn [json_node] in K.
    assert (exists fs, Forall2 (fun e f => (fst e = KString (fst f) /\ ConvertToJson (snd e) = Val (snd f)) /\ ValueEqual (snd e) (ParsedJsonValue (snd f)) = true) m fs) as (fs & F).
    { apply Forall_exists2. rewrite Forall_forall in *. intros e I. destruct (K e I) as [s Es]. destruct (H e I) as (j & A & B); auto. now exists (s, j). }
    assert (Forall2 (fun e f => fst e = KString (fst f) /\ ConvertToJson (snd e) = Val (snd f)) m fs) as F1 by (eapply Forall2_impl_in; [|exact F]; cbv beta; tauto).
    rewrite (map_to_json_ok ConvertToJson m [] fs); [|cbn [map app]; now apply names_nodup|exact F1]. cbn [obind app]. exists (JStruct fs). split; [reflexivity|].
    rewrite read_struct. apply ValueEqual_map.
    + rewrite read_names. replace (map KString (map fst fs)) with (map fst m); [easy|]. clear - F1. induction F1 as [|e f m fs [E _] _ IH]; cbn [map]; [reflexivity|]. now rewrite E, IH.
    + rewrite map_length. split; [now apply Forall2_length in F|]. intros e I. destruct (Forall2_in_l _ _ _ _ F I) as (f & If & [E _] & B).
      exists (read_field f). split; [now apply in_map|]. now split.
Qed.

(** ** Exported values *)
Lemma KeyAsString_text k : (exists t, KeyAsString k = Val t /\ key_text k t) \/ (exists b, k = KBool b).
Proof.
  destruct k as [b|i|u|s]; [right; eauto|left|left|left]; eexists; (split; [reflexivity|]); try apply L_Format.int_text_ok. reflexivity.
Qed.
Lemma export_list_ok (f : value -> json -> out json) l js : Forall2 (fun x j => f x JUnset = Val j) l js ->
  forall acc, export_list f l acc = Val (acc ++ js).
Proof.
  induction 1 as [|x j l js E _ IH]; intros acc; cbn [export_list]; [now rewrite app_nil_r|]. rewrite E. cbn [obind].
  fold (export_list f). rewrite IH. now rewrite <- app_assoc.
Qed.
Lemma export_map_ok (f : value -> json -> out json) m fs :
  Forall2 (fun e g => KeyAsString (fst e) = Val (fst g) /\ f (snd e) JUnset = Val (snd g)) m fs ->
  forall acc, NoDup (map fst (acc ++ fs)) -> export_map f m acc = Val (acc ++ fs).
Proof.
  induction 1 as [|[k x] [t j] m fs [Ek Ex] _ IH]; intros acc N; cbn [export_map]; [now rewrite app_nil_r|]. cbn [fst snd] in *.
  rewrite Ek. cbn [obind]. rewrite map_app in N. cbn [map fst] in N. apply NoDup_remove in N as N'. destruct N' as [_ N2].
  assert (~ In t (map fst acc)) as Na by (intros I; apply N2, in_or_app; now left).
  rewrite (proj2 (find_field_none t acc) Na), Ex. cbn [obind]. rewrite set_field_new by easy. fold (export_map f).
  rewrite IH; [now rewrite <- app_assoc|]. rewrite <- app_assoc. rewrite map_app. exact N.
Qed.
Lemma double_within i : Z.abs i <= 2 ^ 64 -> (Z.abs i <= 2 ^ 53 -> denotes_int (NDouble (double_of_Z i)) i) /\
  exists x, number_value (NDouble (double_of_Z i)) = Some (Fin x) /\ (x - inject_Z i <= inject_Z 1024 /\ inject_Z i - x <= inject_Z 1024)%Q.
Proof.
  intros H. split; [intros S; now apply double_exact|]. destruct (rounded_any i H) as (r & [Rv (x & Ex & Ee) _ Rn _ _]).
  exists x. split; [exact Ex|]. rewrite Ee. unfold Qminus. rewrite <- !inject_Z_opp, <- !inject_Z_plus, <- !Zle_Qle. lia.
Qed.
Lemma export_ok v : value_ok v -> octets_ok v -> everywhere export_node v -> everywhere keys_apart v ->
  exists j, ExportInto v JUnset = Val j /\ exported v j.
Proof.
  unfold value_ok, octets_ok. induction v using value_ind'; intros V O X A; cbn [ExportInto];
    try (destruct X as [[] _]; fail); try (eexists; split; [reflexivity|constructor]; fail).
  - destruct V as [V _]. eexists. split; [reflexivity|]. cbn [node_ok] in V. unfold in_int64, int64_min, int64_max in V.
    destruct (double_within i ltac:(lia)) as [D (x & E & B)]. constructor; [easy|]. exists x, (inject_Z i). split; [easy|]. split; [reflexivity|easy].
  - destruct V as [V _]. eexists. split; [reflexivity|]. cbn [node_ok] in V. unfold in_uint64, uint64_max in V.
    destruct (double_within u ltac:(lia)) as [D (x & E & B)]. constructor; [easy|]. exists x, (inject_Z u). split; [easy|]. split; [reflexivity|easy].
  - destruct O as [O _]. eexists. split; [reflexivity|]. constructor. now apply escape_ok.
  - destruct X as [(ns & -> & R) _]. destruct (duration_json ns R) as (t & _ & T & p & E & ->). rewrite E. cbn [obind]. eexists. split; [reflexivity|now constructor].
  - destruct X as [(ns & -> & R) _]. destruct (timestamp_json ns R) as (s & _ & T & p & E & ->). rewrite E. cbn [obind]. eexists. split; [reflexivity|now constructor].
  - rewrite everywhere_list in *. destruct V as [_ V], O as [_ O], X as [_ X], A as [_ A].
    assert (exists js, Forall2 (fun x j => ExportInto x JUnset = Val j /\ exported x j) l js) as (js & F).
    { apply Forall_exists2. rewrite Forall_forall in *. intros x I. apply H; auto. }
    rewrite (export_list_ok ExportInto l js); [|eapply Forall2_impl_in; [|exact F]; cbv beta; tauto]. eexists. split; [reflexivity|].
    constructor. eapply Forall2_impl_in; [|exact F]. cbv beta. tauto.
  - rewrite everywhere_map in *. destruct V as [[Nd _] V], O as [_ O], X as [K X], A as [D A]. cbn [export_node keys_apart] in K, D.
    assert (exists fs, Forall2 (fun e g => KeyAsString (fst e) = Val (fst g) /\ key_text (fst e) (fst g) /\ ExportInto (snd e) JUnset = Val (snd g) /\ exported (snd e) (snd g)) m fs) as (fs & F).
    { apply Forall_exists2. rewrite Forall_forall in *. intros e I. destruct (H e I) as (j & E & Q); auto.
      destruct (KeyAsString_text (fst e)) as [(t & Et & T)|(b & Eb)]; [now exists (t, j)|]. specialize (K e I). now rewrite Eb in K. }
    assert (NoDup (map fst fs)) as Nf.
    { clear - F Nd D. induction F as [|e g m fs (_ & T & _) F IH]; cbn [map] in *; constructor; inversion Nd; subst.
      - intros I. apply in_map_iff in I. destruct I as (g' & Eg & I). destruct (Forall2_in_r _ _ _ _ F I) as (e' & Ie' & _ & T' & _). rewrite Eg in T'.
        assert (fst e = fst e') as Ee by (apply (D _ _ (fst g)); auto; [now left|right; now apply in_map]). apply H1. rewrite Ee. now apply in_map.
      - apply IH; [easy|]. intros k k' t I I'. apply D; now right. }
    rewrite (export_map_ok ExportInto m fs); [|eapply Forall2_impl_in; [|exact F]; cbv beta; tauto|exact Nf]. eexists. split; [reflexivity|].
    econstructor; [|apply Permutation_refl]. eapply Forall2_impl_in; [|exact F]. cbv beta. tauto.
Qed.
Lemma export_agrees v : value_ok v -> has_json v -> everywhere exact_node v -> exists j, ExportInto v JUnset = Val j /\ ConvertToJson v = Val j.
Proof.
  unfold value_ok, has_json. induction v using value_ind'; intros V X S; cbn [ExportInto ConvertToJson];
    try (destruct X as [[] _]; fail); try (eexists; split; reflexivity).
  - destruct S as [S _]. cbn [exact_node] in S. unfold SetNumberInt, kJsonMinInt, kJsonMaxInt. assert ((i <? - (2 ^ 53 - 1)) || (2 ^ 53 - 1 <? i) = false) as -> by lia. eexists. split; reflexivity.
  - destruct S as [S _]. cbn [exact_node] in S. unfold SetNumberUint, kJsonMaxUint. assert (2 ^ 53 - 1 <? u = false) as -> by lia. eexists. split; reflexivity.
  - eexists. split; [reflexivity|]. now destruct s.
  - destruct X as [(ns & -> & R) _]. destruct (duration_json ns R) as (t & C & T & p & E & ->). rewrite E, C. cbn [obind]. eexists. split; reflexivity.
  - destruct X as [(ns & -> & R) _]. destruct (timestamp_json ns R) as (s & C & T & p & E & ->). rewrite E, C. cbn [obind]. eexists. split; reflexivity.
  - rewrite everywhere_list in *. destruct V as [_ V], X as [_ X], S as [_ S].
    assert (exists js, Forall2 (fun x j => ExportInto x JUnset = Val j /\ ConvertToJson x = Val j) l js) as (js & F).
    { apply Forall_exists2. rewrite Forall_forall in *. intros x I. apply H; auto. }
    rewrite (export_list_ok ExportInto l js); [|eapply Forall2_impl_in; [|exact F]; cbv beta; tauto].
    rewrite (proj2 (list_to_json_ok ConvertToJson l js)); [|eapply Forall2_impl_in; [|exact F]; cbv beta; tauto]. eexists. split; reflexivity.
  - rewrite everywhere_map in *. destruct V as [[Nd _] V], X as [K X], S as [_ S]. cbn [json_node] in K.
    assert (exists fs, Forall2 (fun e f => (fst e = KString (fst f) /\ ConvertToJson (snd e) = Val (snd f)) /\ ExportInto (snd e) JUnset = Val (snd f)) m fs) as (fs & F).
    { apply Forall_exists2. rewrite Forall_forall in *. intros e I. destruct (K e I) as [s Es]. destruct (H e I) as (j & A & B); auto. now exists (s, j). }
    rewrite (map_to_json_ok ConvertToJson m [] fs); [|cbn [map app]; now apply names_nodup|eapply Forall2_impl_in; [|exact F]; cbv beta; tauto].
    rewrite (export_map_ok ExportInto m fs).
    + eexists. split; reflexivity.
    + eapply Forall2_impl_in; [|exact F]. intros e f _ _ [[E1 E2] E3]. rewrite E1. now split.
    + cbn [app]. apply names_nodup in Nd; [|easy]. replace (map fst fs) with (map (fun e => name (fst e)) m); [easy|]. clear - F.
      induction F as [|e f m fs [[E _] _] _ IH]; cbn [map]; [reflexivity|]. now rewrite E, IH.
Qed.
Lemma d_eq_trans x y z : valid_double x = true -> valid_double y = true -> valid_double z = true -> d_eq x y = true -> d_eq y z = true -> d_eq x z = true.
Proof.
  intros X Y Z'. rewrite !d_eq_math by easy. unfold math_eq, math_cmp, spec_compare.
  destruct (number_value (NDouble x)) as [a|], (number_value (NDouble y)) as [b|], (number_value (NDouble z)) as [c|]; try discriminate.
  destruct a as [|a|], b as [|b|], c as [|c|]; cbn; try discriminate; try reflexivity. intros H1 H2. injection H1 as H1. injection H2 as H2.
  f_equal. apply Qeq_alt. apply Qeq_alt in H1, H2. now rewrite H1, H2.
Qed.
Lemma equal_trans a : forall b c, message a -> message b -> message c -> JsonEquals a b = true -> JsonEquals b c = true -> JsonEquals a c = true.
Proof.
  unfold message. induction a using json_ind'; intros b' c A B C E1 E2.
  1,2: destruct b'; try discriminate; destruct c; try discriminate; reflexivity.
  - destruct b'; try discriminate; destruct c; try discriminate. cbn in *. apply eqb_prop in E1, E2. subst. apply Bool.eqb_reflx.
  - destruct b'; try discriminate; destruct c; try discriminate. cbn in *. destruct A, B, C. eapply d_eq_trans; [| | |exact E1|exact E2]; easy.
  - destruct b'; try discriminate; destruct c; try discriminate. cbn in *. apply bytes_eqb_eq in E1, E2. subst. apply bytes_eqb_refl.
  - destruct b' as [| | | | |l1|]; try discriminate; destruct c as [| | | | |l2|]; try discriminate. apply throughout_list in A, B, C. destruct A as [_ A], B as [_ B], C as [_ C].
    rewrite JsonEquals_list in *. revert l2 C E2. induction E1 as [|x y l l1 Exy _ IH]; intros l2 C E2; inversion E2; subst; constructor.
    + inversion H; inversion A; inversion B; inversion C; subst. eauto.
    + inversion H; inversion A; inversion B; inversion C; subst. eauto.
  - destruct b' as [| | | | | |m1]; try discriminate; destruct c as [| | | | | |m2]; try discriminate. apply throughout_struct in A, B, C. destruct A as [NA A], B as [NB B], C as [NC C].
    rewrite JsonEquals_struct in * by easy. destruct E1 as [L1 E1], E2 as [L2 E2]. split; [congruence|]. rewrite Forall_forall in *. intros e I.
    destruct (E1 e I) as (f & If & Ef & Jf). destruct (E2 f If) as (g & Ig & Eg & Jg). exists g. split; [easy|]. split; [congruence|].
    apply (H e I (snd f) (snd g)); auto.
Qed.
