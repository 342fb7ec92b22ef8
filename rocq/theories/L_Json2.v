(* Lemmas about values as JSON and the equality of JSON. *)
From Coq Require Import ZArith QArith String List Bool Lia ZifyBool Permutation.
From Verif Require Import Base M_Overflow M_Number M_Attr M_Value S_Num S_Value L_Float L_Number L_Conv P_Num L_Value.
From Verif Require Import M_Civil M_Convert.
From Verif Require Import S_Format S_Convert S_Time.
From Verif Require L_Format L_Convert2.
From Verif Require Import M_Json S_Json L_Json.
Import ListNotations.
Open Scope list_scope.
Open Scope Z_scope.
Local Ltac Zify.zify_post_hook ::= idtac.

(** ** Times *)
Lemma quot_facts ns : exists s n, s = Z.quot ns 1000000000 /\ n = ns - s * 1000000000 /\
  (0 <= ns -> 0 <= s /\ 0 <= n < 1000000000) /\ (ns <= 0 -> s <= 0 /\ -1000000000 < n <= 0).
Proof.
  exists (Z.quot ns 1000000000), (ns - Z.quot ns 1000000000 * 1000000000). pose proof (Z.quot_rem' ns 1000000000) as Q.
  split; [reflexivity|]. split; [reflexivity|]. split; intros H.
  - pose proof (Z.rem_bound_pos ns 1000000000 ltac:(lia) ltac:(lia)). pose proof (Z.quot_pos ns 1000000000 ltac:(lia) ltac:(lia)). lia.
  - pose proof (Z.rem_bound_pos (- ns) 1000000000 ltac:(lia) ltac:(lia)) as B. rewrite Z.rem_opp_l in B by lia.
    pose proof (Z.quot_pos (- ns) 1000000000 ltac:(lia) ltac:(lia)) as P. rewrite Z.quot_opp_l in P by lia. lia.
Qed.
Lemma dur_div_small ns : dur_range ns -> dur_div_sec ns = Z.quot ns 1000000000.
Proof.
  unfold dur_range, dur_bound. intros R. unfold dur_div_sec, int64_min, int64_max, nanos_per_sec.
  destruct (quot_facts ns) as (s & n & -> & En & P & N). lia.
Qed.
Lemma duration_json ns : dur_range ns -> exists t, SetStringValueFromDuration (DFin ns) = Val (JString t) /\ duration_text ns t /\
  exists p, EncodeDuration (DFin ns) = Val p /\ t = TimeUtil_Duration (fst p) (snd p).
Proof.
  intros R. destruct (L_Convert2.EncodeDuration_text ns R) as (t & E & T). exists t.
  unfold SetStringValueFromDuration, EncodeDuration, IDivSeconds. unfold EncodeDurationToJson, ValidateDuration, IDivSeconds in E.
  assert (dur_below (DFin ns) MinDurationNs = false) as X1.
  { unfold dur_below, MinDurationNs, kDurationMaxSeconds, nanos_per_sec. unfold dur_range, dur_bound in R. lia. }
  assert (dur_above (DFin ns) MaxDurationNs = false) as X2.
  { unfold dur_above, MaxDurationNs, kDurationMaxSeconds, nanos_per_sec. unfold dur_range, dur_bound in R. lia. }
  rewrite X1, X2 in *. cbn [obind] in *. rewrite dur_div_small in * by easy. unfold nanos_per_sec in *.
  destruct (quot_facts ns) as (s & n & Es & En & P & N). rewrite <- Es in *. rewrite <- En in *.
  assert (ToInt64Nanoseconds (DFin n) = n) as Tn.
  { unfold ToInt64Nanoseconds, int64_min, int64_max. lia. }
  rewrite Tn in *.
  assert (IsDurationValid s n = true) as ->.
  { unfold IsDurationValid. unfold dur_range, dur_bound in R. destruct (s <? 0) eqn:?, (0 <? s) eqn:?; lia. }
  assert (TimeUtil_Duration s n = t) as TE.
  { unfold TimeUtil_Duration. destruct ((s <? 0) || (n <? 0)); injection E as <-; reflexivity. }
  rewrite TE.
  split; [reflexivity|]. split; [easy|]. exists (s, n). split; [reflexivity|]. cbn [fst snd]. now symmetry.
Qed.
Lemma duration_json_inv d j : SetStringValueFromDuration d = Val j -> exists ns, d = DFin ns /\ dur_range ns.
Proof.
  unfold SetStringValueFromDuration. destruct d as [ns|b].
  - intros H. exists ns. split; [easy|]. cbn [IDivSeconds] in H.
    destruct (IsDurationValid _ _) eqn:V; [|discriminate]. clear H. unfold IsDurationValid in V.
    rewrite !andb_true_iff in V. assert (-315576000000 <= dur_div_sec ns <= 315576000000) as B by (destruct V as [[[[[V1 V2] _] _] _] _]; lia). clear V.
    unfold dur_div_sec, int64_min, int64_max, nanos_per_sec in B. destruct (quot_facts ns) as (s & n & -> & En & P & N).
    unfold dur_range, dur_bound. lia.
  - cbn [IDivSeconds]. destruct b; intros H; vm_compute in H; discriminate.
Qed.
Lemma timestamp_json ns : ts_range ns -> exists t, SetStringValueFromTimestamp (TFin ns) = Val (JString t) /\ timestamp_text ns t /\
  exists p, EncodeTime (TFin ns) = Val p /\ t = TimeUtil_Timestamp (fst p) (snd p).
Proof.
  intros R. destruct (L_Convert2.EncodeTimestamp_text ns R) as (t & E & T). exists t.
  unfold SetStringValueFromTimestamp, EncodeTime. unfold EncodeTimestampToJson, ValidateTimestamp in E.
  assert (time_below (TFin ns) MinTimestampNs = false) as X1.
  { unfold time_below, MinTimestampNs, kTimestampMinSeconds, nanos_per_sec. unfold ts_range, ts_min in R. lia. }
  assert (time_above (TFin ns) MaxTimestampNs = false) as X2.
  { unfold time_above, MaxTimestampNs, kTimestampMaxSeconds, nanos_per_sec. unfold ts_range, ts_max in R. lia. }
  rewrite X1, X2 in *. cbn [obind] in *. rewrite L_Convert2.ToUnixSeconds_range in * by easy. unfold nanos_per_sec in *.
  pose proof (Z.div_mod ns (10 ^ 9) ltac:(lia)) as D. pose proof (Z.mod_pos_bound ns (10 ^ 9) ltac:(lia)) as B.
  set (s := ns / 10 ^ 9) in *. set (n := ns - s * 1000000000) in *.
  assert (IsTimestampValid s n = true) as ->.
  { unfold IsTimestampValid, n. unfold ts_range, ts_min, ts_max in R. lia. }
  injection E as <-. split; [reflexivity|]. split; [easy|]. eexists. split; reflexivity.
Qed.
Lemma timestamp_json_inv d j : SetStringValueFromTimestamp d = Val j -> exists ns, d = TFin ns /\ ts_range ns.
Proof.
  unfold SetStringValueFromTimestamp. destruct d as [ns|b]; [|discriminate].
  intros H. exists ns. split; [easy|]. destruct (IsTimestampValid _ _) eqn:V; [|discriminate]. clear H. unfold IsTimestampValid in V.
  assert (-62135596800 <= ToUnixSeconds ns <= 253402300799) as B by lia. clear V.
  unfold ToUnixSeconds, int64_min, int64_max, nanos_per_sec in B.
  pose proof (Z.div_mod ns 1000000000 ltac:(lia)). pose proof (Z.mod_pos_bound ns 1000000000 ltac:(lia)).
  unfold ts_range, ts_min, ts_max. lia.
Qed.

(** ** Numbers *)
Lemma double_exact i : Z.abs i <= 2 ^ 53 -> denotes_int (NDouble (double_of_Z i)) i /\ valid_double (double_of_Z i) = true.
Proof.
  intros H. destruct (rounded_any i ltac:(lia)) as (r & [Rv (x & Ex & Ee) Rs _ _ _]).
  rewrite (Rs H) in Ee. split; [|easy]. exists x. split; [exact Ex|easy].
Qed.
Lemma int_json i : in_int64 i = true -> json_of (VInt i) (SetNumberInt i).
Proof.
  intros H. unfold SetNumberInt, kJsonMinInt, kJsonMaxInt. destruct ((i <? _) || (_ <? i)) eqn:E.
  - apply jo_int_text; [lia|apply L_Format.int_text_ok].
  - apply jo_int; [lia|]. apply double_exact. lia.
Qed.
Lemma uint_json u : in_uint64 u = true -> json_of (VUint u) (SetNumberUint u).
Proof.
  intros H. unfold in_uint64 in H. unfold SetNumberUint, kJsonMaxUint. destruct (_ <? u) eqn:E.
  - apply jo_uint_text; [lia|apply L_Format.int_text_ok].
  - apply jo_uint; [lia|]. apply double_exact. lia.
Qed.
Lemma bytes_json b : Forall is_byte b -> json_of (VBytes b) (SetStringValueFromBytes b).
Proof.
  intros H. replace (SetStringValueFromBytes b) with (JString (Base64Escape b)) by now destruct b.
  constructor. now apply escape_ok.
Qed.

(** ** Fields *)
Lemma set_field_new k j m : ~ In k (map fst m) -> set_field k j m = m ++ [(k, j)].
Proof.
  induction m as [|[k' j'] m IH]; cbn [set_field map In fst app]; intros N; [reflexivity|].
  destruct (bytes_eqb k' k) eqn:E; [apply bytes_eqb_eq in E; tauto|]. f_equal. tauto.
Qed.
Lemma find_field_in k m v : find_field k m = Some v -> In (k, v) m.
Proof.
  induction m as [|[k' j'] m IH]; cbn [find_field]; [discriminate|]. destruct (bytes_eqb k' k) eqn:E.
  - apply bytes_eqb_eq in E as ->. intros H. injection H as ->. now left.
  - intros H. right. auto.
Qed.
Lemma find_field_none k m : find_field k m = None <-> ~ In k (map fst m).
Proof.
  induction m as [|[k' j'] m IH]; cbn [find_field map In fst]; [tauto|]. destruct (bytes_eqb k' k) eqn:E.
  - apply bytes_eqb_eq in E as ->. split; [discriminate|tauto].
  - rewrite IH. split; [|tauto]. intros N [->|I]; [|tauto]. now rewrite bytes_eqb_refl in E.
Qed.
Lemma in_find_field k m v : NoDup (map fst m) -> In (k, v) m -> find_field k m = Some v.
Proof.
  induction m as [|[k' j'] m IH]; cbn [find_field map In fst]; [tauto|]. intros N [H|H]; inversion N; subst.
  - injection H as -> ->. now rewrite bytes_eqb_refl.
  - destruct (bytes_eqb k' k) eqn:E; [|auto]. apply bytes_eqb_eq in E as ->. exfalso. apply H2. now apply (in_map fst) in H.
Qed.

(** ** To JSON *)
Definition name (k : mkey) : list Z := match k with KString s => s | _ => [] end.
Lemma map_to_json_ok (conv : value -> out json) m : forall acc fs,
  NoDup (map fst acc ++ map (fun e => name (fst e)) m) ->
  Forall2 (fun e f => fst e = KString (fst f) /\ conv (snd e) = Val (snd f)) m fs ->
  map_to_json conv m acc = Val (acc ++ fs).
Proof.
  induction m as [|[k x] m IH]; intros acc fs N F; inversion F as [|? [k' j] ? fs' [E1 E2] F']; subst; cbn [map_to_json fst snd] in *.
  - now rewrite app_nil_r.
  - subst k. cbn [ValueToJsonString obind]. rewrite E2. cbn [obind]. cbn [map name fst] in N.
    apply NoDup_remove in N as N'. destruct N' as [N1 N2]. rewrite set_field_new.
    2:{ intros I. apply N2. apply in_or_app. now left. }
    fold (map_to_json conv). rewrite (IH _ fs'); [now rewrite <- app_assoc| |easy].
    rewrite map_app. cbn [map fst]. now rewrite <- app_assoc.
Qed.
Lemma map_to_json_inv (conv : value -> out json) m : forall acc fs, map_to_json conv m acc = Val fs ->
  Forall (fun e => (exists s, fst e = KString s) /\ exists j, conv (snd e) = Val j) m.
Proof.
  induction m as [|[k x] m IH]; intros acc fs H; [constructor|]. cbn [map_to_json] in H. fold (map_to_json conv) in H.
  destruct k; cbn [ValueToJsonString obind] in H; try discriminate. destruct (conv x) eqn:E; cbn [obind] in H; try discriminate.
  constructor; [cbn [fst snd]; eauto|]. eauto.
Qed.
Lemma list_to_json_ok (conv : value -> out json) l js : list_to_json conv l = Val js <-> Forall2 (fun x j => conv x = Val j) l js.
Proof.
  revert js. induction l as [|x l IH]; intros js; cbn [list_to_json].
  - split; [intros H; injection H as <-; constructor|]. intros H. now inversion H.
  - fold (list_to_json conv). split.
    + destruct (conv x) eqn:E; cbn [obind]; try discriminate. destruct (list_to_json conv l) eqn:El; cbn [obind]; try discriminate.
      intros H. injection H as <-. constructor; [easy|]. now apply IH.
    + intros H. inversion H as [|? j ? js' A B]; subst. rewrite A. cbn [obind]. apply IH in B. now rewrite B.
Qed.
Lemma Forall_exists2 {A B} (R : A -> B -> Prop) l : Forall (fun x => exists y, R x y) l -> exists l', Forall2 R l l'.
Proof.
  induction 1 as [|x l [y H] _ [l' IH]]; [exists []; constructor|]. exists (y :: l'). now constructor.
Qed.
Lemma names_nodup m : Forall (fun e : mkey * value => exists s, fst e = KString s) m -> NoDup (map fst m) -> NoDup (map (fun e => name (fst e)) m).
Proof.
  induction 1 as [|[k x] m [s E] F IH]; cbn [map fst]; intros N; [constructor|]. cbn [fst] in E. subst k. inversion N as [|? ? N1 N2]; subst. constructor; [|auto].
  cbn [name]. intros I. apply N1. apply in_map_iff in I. destruct I as ([k' x'] & E & I). cbn [fst] in E.
  rewrite Forall_forall in F. destruct (F _ I) as [s' E']. cbn [fst] in E'. subst k'. cbn [name] in E. subst s'. now apply (in_map fst) in I.
Qed.

Lemma to_json v : value_ok v -> octets_ok v ->
  (has_json v -> exists j, ConvertToJson v = Val j /\ json_of v j) /\
  (forall j, ConvertToJson v = Val j -> has_json v).
Proof.
  unfold value_ok, octets_ok, has_json. induction v using value_ind'; intros V O; cbn [ConvertToJson];
    try (split; [intros _; eexists; split; [reflexivity|constructor]|intros; split; constructor]; fail);
    try (split; [intros []; contradiction|discriminate]).
  - destruct V as [V _]. split; [intros _; eexists; split; [reflexivity|]; now apply int_json|split; constructor].
  - destruct V as [V _]. split; [intros _; eexists; split; [reflexivity|]; now apply uint_json|split; constructor].
  - destruct O as [O _]. split; [intros _; eexists; split; [reflexivity|]; now apply bytes_json|split; constructor].
  - split.
    + intros [(ns & -> & R) _]. destruct (duration_json ns R) as (t & E & T & _). rewrite E. eexists. split; [reflexivity|now constructor].
    + intros j H. split; [|constructor]. now apply duration_json_inv in H.
  - split.
    + intros [(ns & -> & R) _]. destruct (timestamp_json ns R) as (s & E & T & _). rewrite E. eexists. split; [reflexivity|now constructor].
    + intros j H. split; [|constructor]. now apply timestamp_json_inv in H.
  - rewrite everywhere_list in *. destruct V as [_ V], O as [_ O]. split.
    + intros [_ J]. assert (Forall (fun x => exists j, ConvertToJson x = Val j /\ json_of x j) l) as F.
      { rewrite Forall_forall in *. intros x I. destruct (H x I (V x I) (O x I)) as [G _]. auto. }
      apply Forall_exists2 in F. destruct F as [js F]. exists (JList js).
      rewrite (proj2 (list_to_json_ok ConvertToJson l js)).
      * split; [reflexivity|]. constructor. eapply Forall2_impl_in; [|exact F]. intros x y _ _ [_ G]. exact G.
      * eapply Forall2_impl_in; [|exact F]. now intros x y _ _ [G _].
    + intros j Hj. destruct (list_to_json ConvertToJson l) as [js| |] eqn:E; cbn [obind] in Hj; try discriminate. apply list_to_json_ok in E.
      apply everywhere_list. split; [constructor|]. rewrite Forall_forall in *. intros x I. destruct (Forall2_in_l _ _ _ _ E I) as (y & _ & Ey). destruct (H x I (V x I) (O x I)) as [_ G]. eauto.
  - rewrite everywhere_map in *. destruct V as [[Nd Kk] V], O as [_ O]. split.
    + intros [K J]. cbn [json_node] in K. assert (Forall (fun e => exists f, fst e = KString (fst f) /\ ConvertToJson (snd e) = Val (snd f) /\ json_of (snd e) (snd f)) m) as F.
      { rewrite Forall_forall in *. intros e I. destruct (H e I (V e I) (O e I)) as [G _]. destruct (G (J e I)) as (j & E & Q). destruct (K e I) as [s Es].
        now exists (s, j). }
      apply Forall_exists2 in F. destruct F as [fs F]. exists (JStruct fs). rewrite (map_to_json_ok ConvertToJson m [] fs).
      * split; [reflexivity|]. econstructor; [|apply Permutation_refl]. eapply Forall2_impl_in; [|exact F]. intros x y _ _ (A & _ & B). now split.
      * cbn [map app]. now apply names_nodup.
      * eapply Forall2_impl_in; [|exact F]. intros x y _ _ (A & B & _). now split.
    + intros j Hj. destruct (map_to_json ConvertToJson m []) as [fs| |] eqn:E; cbn [obind] in Hj; try discriminate. apply map_to_json_inv in E.
      apply everywhere_map. rewrite Forall_forall in *. split; [cbn [json_node]; rewrite Forall_forall; intros e I; now destruct (E e I)|].
      intros e I. destruct (E e I) as [_ [y Ey]]. destruct (H e I (V e I) (O e I)) as [_ G]. eauto.
Qed.
