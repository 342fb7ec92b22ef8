(* C109 to C112: values as JSON, the equality of JSON, base 64, exported values. *)
From Coq Require Import ZArith QArith String List Bool Lia ZifyBool Permutation.
From Verif Require Import Base M_Overflow M_Number M_Attr M_Value S_Num S_Value L_Float L_Number L_Conv P_Num L_Value.
From Verif Require Import M_Civil M_Convert.
From Verif Require Import S_Format S_Convert S_Time.
From Verif Require Import M_Json S_Json L_Json L_Json2 L_Json3.
Import ListNotations.
Open Scope list_scope.
Open Scope Z_scope.

(** * C109: values as JSON *)
(* Exactly the values that have JSON are converted, each to its JSON. *)
Theorem C109_json : forall v, value_ok v -> octets_ok v ->
  (has_json v <-> exists j, ConvertToJson v = Val j) /\
  (forall j, ConvertToJson v = Val j -> json_of v j).
Proof.
  intros v V O. destruct (to_json v V O) as [A B]. split; [split|].
  - intros H. destruct (A H) as (j & E & _). eauto.
  - intros (j & E). eauto.
  - intros j E. destruct (A (B j E)) as (j' & E' & J). rewrite E in E'. now injection E' as ->.
Qed.
Print Assumptions C109_json.
Example C109_json_used :
  let v := VMap [(KString [97], VList [VInt 1; VInt (2 ^ 53); VBytes [1; 2]; VDuration (DFin 1500000000)])] in
  has_json v /\ ConvertToJson v =
    Val (JStruct [([97], JList [JNumber (double_of_Z 1); JString (text "9007199254740992"); JString (text "AQI="); JString (text "1.500s")])]).
Proof.
  split; [|reflexivity]. cbn. repeat split; auto. repeat constructor. eexists. reflexivity.
  eexists. split; [reflexivity|]. unfold dur_range, dur_bound. lia.
Qed.

(* A value without JSON is refused with an error, unless a time is infinite or out of
   range. *)
Theorem C109_refused : forall v,
  everywhere (fun v => match v with VDuration _ | VTimestamp _ => json_node v | _ => True end) v ->
  (exists j, ConvertToJson v = Val j) \/ (exists s, ConvertToJson v = Err s /\ In (st_code s) [kFailedPrecondition; kInvalidArgument]).
Proof.
  assert (forall l, Forall (fun v => (exists j, ConvertToJson v = Val j) \/ (exists s, ConvertToJson v = Err s /\ In (st_code s) [kFailedPrecondition; kInvalidArgument])) l ->
    (exists j, list_to_json ConvertToJson l = Val j) \/ (exists s, list_to_json ConvertToJson l = Err s /\ In (st_code s) [kFailedPrecondition; kInvalidArgument])) as HL.
  { induction 1 as [|x l [(j & E)|(s & E & C)] _ IH]; cbn [list_to_json]; [left; eauto| |]; rewrite E; cbn [obind]; [|right; eauto].
    fold (list_to_json ConvertToJson). destruct IH as [(js & ->)|(s & -> & C)]; cbn [obind]; eauto. }
  assert (forall m, Forall (fun e => (exists j, ConvertToJson (snd e) = Val j) \/ (exists s, ConvertToJson (snd e) = Err s /\ In (st_code s) [kFailedPrecondition; kInvalidArgument])) m -> forall acc,
    (exists j, map_to_json ConvertToJson m acc = Val j) \/ (exists s, map_to_json ConvertToJson m acc = Err s /\ In (st_code s) [kFailedPrecondition; kInvalidArgument])) as HM.
  { induction 1 as [|[k x] m H _ IH]; intros acc; cbn [map_to_json]; [left; eauto|]. cbn [snd] in H.
    destruct k; cbn [ValueToJsonString obind]; try (right; eexists; split; [reflexivity|cbn; tauto]).
    destruct H as [(j & E)|(st & E & C)]; rewrite E; cbn [obind]; [|right; eauto]. fold (map_to_json ConvertToJson). apply IH. }
  induction v using value_ind'; intros X; cbn [ConvertToJson]; try (left; eexists; reflexivity);
    try (right; eexists; split; [reflexivity|cbn; tauto]).
  - destruct X as [(ns & -> & R) _]. destruct (duration_json ns R) as (t & E & _). rewrite E. eauto.
  - destruct X as [(ns & -> & R) _]. destruct (timestamp_json ns R) as (t & E & _). rewrite E. eauto.
  - apply everywhere_list in X. destruct X as [_ X]. destruct (HL l) as [(js & ->)|(s & -> & C)]; cbn [obind]; eauto.
    rewrite Forall_forall in *. auto.
  - apply everywhere_map in X. destruct X as [_ X]. destruct (HM m) with (acc := @nil (list Z * json)) as [(js & ->)|(s & -> & C)]; cbn [obind]; eauto.
    rewrite Forall_forall in *. auto.
Qed.
Print Assumptions C109_refused.
Example C109_refused_used : ConvertToJson (VMap [(KInt 1, VNull)]) = Err (mkStatus kInvalidArgument "type conversion error").
Proof. reflexivity. Qed.

(* What JSON is read as is converted back to the same JSON, with nulls for what was
   unset, and read again as the same value. *)
Theorem C109_from_json : forall j, message j -> exists j', ConvertToJson (ParsedJsonValue j) = Val j' /\
  all_set j' /\ ParsedJsonValue j' = ParsedJsonValue j /\ (all_set j -> j' = j).
Proof. exact nulls_trip. Qed.
Print Assumptions C109_from_json.
Example C109_from_json_used :
  let j := JStruct [([97], JList [JUnset; JBool true]); ([98], JNumber (double_of_Z 3))] in
  message j /\ ConvertToJson (ParsedJsonValue j) = Val (JStruct [([97], JList [JNull; JBool true]); ([98], JNumber (double_of_Z 3))]).
Proof. split; [|reflexivity]. cbn. repeat split; auto. repeat constructor; cbn; intuition discriminate. Qed.

(* A value of nulls, booleans, numbers, strings, lists and maps of names, with
   integers below 2^53, is read back from its JSON as an equal value ... *)
Theorem C109_round_trip_partial : forall v, value_ok v -> has_json v -> plain v -> nan_free v ->
  exists j, ConvertToJson v = Val j /\ ValueEqual v (ParsedJsonValue j) = true.
Proof. exact value_trip. Qed.
Print Assumptions C109_round_trip_partial.
Example C109_round_trip_used :
  let v := VMap [(KString [97], VList [VInt (-5); VUint 7; VString [98]]); (KString [], VNull)] in
  value_ok v /\ has_json v /\ plain v /\ nan_free v.
Proof.
  cbn. repeat split; auto; try lia; repeat constructor; cbn; try (intuition discriminate); try lia; eexists; reflexivity.
Qed.
(* ... other integers, bytes and times come back as strings. *)
Theorem C109_round_trip_refuted : exists v1 v2 v3, Forall (fun v => value_ok v /\ octets_ok v /\ has_json v /\
    exists j, ConvertToJson v = Val j /\ ValueEqual v (ParsedJsonValue j) = false) [v1; v2; v3] /\
  v1 = VInt (2 ^ 53) /\ v2 = VBytes [1] /\ v3 = VDuration (DFin 0).
Proof.
  exists (VInt (2 ^ 53)), (VBytes [1]), (VDuration (DFin 0)). split; [|now repeat split].
  repeat constructor; try (eexists; split; reflexivity); try lia.
  exists 0. split; [reflexivity|]. unfold dur_range, dur_bound. lia.
Qed.
Print Assumptions C109_round_trip_refuted.
(* An infinite duration, which arithmetic can yield when range checks are off, is not
   refused: a check of debug builds fails. *)
Theorem C109_infinite_refuted : ~ (forall v, value_ok v -> ConvertToJson v <> UB).
Proof. intros H. apply (H (VDuration (DInf false))); [repeat split|reflexivity]. Qed.
Print Assumptions C109_infinite_refuted.

(** * C110: equality of JSON *)
(* Two messages are equal exactly when they are the same JSON, and when the values they
   are read as are equal. *)
Theorem C110_equality : forall a b, message a -> message b ->
  (JsonEquals a b = true <-> same_json a b) /\
  JsonEquals a b = ValueEqual (ParsedJsonValue a) (ParsedJsonValue b).
Proof. intros a b A B. split; [now apply equal_same|apply read_equal]. Qed.
Print Assumptions C110_equality.
Example C110_equality_used :
  let a := JStruct [([97], JUnset); ([98], JNumber (double_of_Z 3))] in
  let b := JStruct [([98], JNumber (double_of_Z 3)); ([97], JNull)] in
  message a /\ message b /\ JsonEquals a b = true /\ JsonEquals a (JStruct [([97], JUnset); ([99], JUnset)]) = false.
Proof. cbn. repeat split; auto; repeat constructor; cbn; intuition discriminate. Qed.

(* Without NaN the equality is reflexive; it is symmetric in any case. *)
Theorem C110_equivalence : forall a b, message a -> message b ->
  (no_nan a -> JsonEquals a a = true) /\ JsonEquals a b = JsonEquals b a.
Proof.
  intros a b A B. rewrite !read_equal. split.
  - intros N. apply ValueEqual_refl; [now apply read_ok|now apply read_no_nan].
  - apply ValueEqual_sym; now apply read_ok.
Qed.
Print Assumptions C110_equivalence.
Theorem C110_transitive : forall a b c, message a -> message b -> message c ->
  JsonEquals a b = true -> JsonEquals b c = true -> JsonEquals a c = true.
Proof. exact equal_trans. Qed.
Print Assumptions C110_transitive.
Example C110_equivalence_used : let j := JList [JNumber (double_of_Z 1); JUnset] in message j /\ no_nan j /\ JsonEquals j j = true.
Proof. cbn. repeat split; discriminate. Qed.
Theorem C110_nan_refuted : exists j, message j /\ JsonEquals j j = false.
Proof. exists (JNumber S754_nan). split; [cbn|]; auto. Qed.
Print Assumptions C110_nan_refuted.

(** * C111: base 64 *)
(* Encoding writes the base 64 of the bytes and decoding reads them back. *)
Theorem C111_encode : forall b, Forall is_byte b ->
  exists s, Base64Encode b = Val (VString s) /\ base64 b s /\ Base64Decode s = Val (VBytes b).
Proof.
  intros b B. exists (Base64Escape b). split; [reflexivity|]. split; [now apply escape_ok|]. unfold Base64Decode.
  now rewrite (proj2 (reads_unescape (Base64Escape b) b) (base64_reads_back _ _ B (escape_ok b B))).
Qed.
Print Assumptions C111_encode.
(* Decoding accepts exactly the texts that read as bytes, and anything else is an
   error. *)
Theorem C111_decode : forall s,
  (forall b, Base64Decode s = Val (VBytes b) <-> base64_reads s b) /\
  ((forall b, ~ base64_reads s b) -> exists e, Base64Decode s = Val (VError e) /\ st_code e = kInvalidArgument) /\
  (forall t, filter not_space t = filter not_space s -> Base64Decode t = Base64Decode s).
Proof.
  intros s. unfold Base64Decode. split; [|split].
  - intros b. rewrite <- reads_unescape. destruct (Base64Unescape s); split; intros H; try discriminate; now injection H as ->.
  - intros N. destruct (Base64Unescape s) as [b|] eqn:E; [|eexists; now split]. apply reads_unescape in E. destruct (N b E).
  - intros t E. now rewrite <- (unescape_filter t), E, unescape_filter.
Qed.
Print Assumptions C111_decode.
Example C111_used : Base64Encode [72; 105; 33; 255] = Val (VString (text "SGkh/w==")) /\
  Base64Decode (text "SG kh/w") = Val (VBytes [72; 105; 33; 255]) /\
  (exists e, Base64Decode (text "SG-h") = Val (VError e)) /\ (exists e, Base64Decode (text "SGkh/w=") = Val (VError e)).
Proof. repeat split; eexists; reflexivity. Qed.
(* Distinct encodings without white space can decode alike: digits after the last byte
   are ignored. *)
Theorem C111_canonical_refuted : exists s t b, s <> t /\ filter not_space s = s /\ filter not_space t = t /\
  length s = length t /\ Base64Decode s = Val (VBytes b) /\ Base64Decode t = Val (VBytes b).
Proof. exists (text "QQ=="), (text "QR=="), [65]. repeat split. discriminate. Qed.
Print Assumptions C111_canonical_refuted.

(** * C112: exported values *)
(* Export writes a value whose map keys have distinct texts as its JSON, integers as
   doubles. *)
Theorem C112_export_partial : forall v, value_ok v -> octets_ok v -> everywhere export_node v -> everywhere keys_apart v ->
  exists j, ExportAsProtoValue v = Val j /\ exported v j.
Proof. exact export_ok. Qed.
Print Assumptions C112_export_partial.
Example C112_export_used :
  ExportAsProtoValue (VMap [(KInt 1, VList [VInt 5; VBytes [1]]); (KUint 2, VTimestamp (TFin 0))]) =
  Val (JStruct [([49], JList [JNumber (double_of_Z 5); JString (text "AQ==")]); ([50], JString (text "1970-01-01T00:00:00Z"))]).
Proof. reflexivity. Qed.
(* Nothing with a boolean key, a type, an optional, an error or an unknown in it is
   exported. *)
Theorem C112_refused : forall v j, ExportAsProtoValue v = Val j ->
  everywhere (fun v => match v with
    | VMap m => Forall (fun e => match fst e with KBool _ => False | _ => True end) m
    | VType _ | VOptional _ | VError _ | VUnknown _ => False
    | _ => True end) v.
Proof.
  intros v. unfold ExportAsProtoValue. generalize JUnset. induction v using value_ind'; intros old j E; cbn [ExportInto] in E; try discriminate E; try (split; exact I).
  - rewrite everywhere_list. split; [exact I|]. destruct (export_list ExportInto l _) as [js|s|] eqn:El in E; cbn [obind] in E; try discriminate E. clear E j.
    revert js El. generalize (match old with JList l => l | _ => [] end). induction H as [|x l Hx F IH]; intros acc js El; constructor; cbn [export_list] in El;
      (destruct (ExportInto x JUnset) as [jx|s|] eqn:Ex; cbn [obind] in El; try discriminate El); [eapply Hx, Ex|]. fold (export_list ExportInto) in El. eapply IH, El.
  - rewrite everywhere_map. destruct (export_map ExportInto m _) as [js|s|] eqn:El in E; cbn [obind] in E; try discriminate E. clear E j.
    assert (G : forall acc js, export_map ExportInto m acc = Val js -> Forall (fun e => match fst e with KBool _ => False | _ => True end) m /\
      Forall (fun e => everywhere (fun v => match v with
        | VMap m => Forall (fun e => match fst e with KBool _ => False | _ => True end) m
        | VType _ | VOptional _ | VError _ | VUnknown _ => False
        | _ => True end) (snd e)) m); [|now apply (G _ _ El)].
    clear El. induction H as [|[k x] m Hx F IH]; intros acc js' El; [split; constructor|]. cbn [export_map] in El. cbn [snd] in Hx.
    destruct (KeyAsString k) as [t|s|] eqn:Ek; cbn [obind] in El; try discriminate El.
    destruct (ExportInto x _) as [jx|s|] eqn:Ex in El; cbn [obind] in El; try discriminate El. fold (export_map ExportInto) in El.
    destruct (IH _ _ El) as [A B]. split; constructor; try assumption; [now destruct k|eapply Hx, Ex].
Qed.
Print Assumptions C112_refused.
Example C112_refused_used : exists s, ExportAsProtoValue (VList [VMap [(KBool true, VNull)]]) = Err s.
Proof. eexists. reflexivity. Qed.
(* Where integers are exact and keys are names, export and conversion agree. *)
Theorem C112_agrees : forall v, value_ok v -> has_json v -> everywhere exact_node v ->
  exists j, ExportAsProtoValue v = Val j /\ ConvertToJson v = Val j.
Proof. exact export_agrees. Qed.
Print Assumptions C112_agrees.
Example C112_agrees_used : let v := VMap [(KString [97], VList [VInt 5; VBytes [1]])] in value_ok v /\ has_json v /\ everywhere exact_node v.
Proof. cbn. repeat split; auto; try lia; repeat constructor; cbn; try (intuition discriminate); eexists; reflexivity. Qed.
(* An integer above 2^53 is not exported as itself ... *)
Theorem C112_integers_refuted : exists i j, in_int64 i = true /\ i <> j /\ in_int64 j = true /\
  ExportAsProtoValue (VInt i) = ExportAsProtoValue (VInt j).
Proof. exists (2 ^ 53), (2 ^ 53 + 1). repeat split; discriminate. Qed.
Print Assumptions C112_integers_refuted.
(* ... and keys with the same text have their values merged into one field. *)
Theorem C112_keys_refuted : exists v, value_ok v /\ everywhere export_node v /\
  (exists k1 x k2 y, v = VMap [(k1, VList x); (k2, VList y)] /\ k1 <> k2 /\
    exists js, length js = (length x + length y)%nat /\ exists t, ExportAsProtoValue v = Val (JStruct [(t, JList js)])).
Proof.
  exists (VMap [(KInt 1, VList [VBool true]); (KString [49], VList [VBool false])]). split; [|split].
  - cbn. repeat split; repeat constructor; cbn; intuition discriminate.
  - cbn. repeat split; repeat constructor.
  - do 4 eexists. split; [reflexivity|]. split; [discriminate|]. exists [JBool true; JBool false]. split; [reflexivity|]. eexists. reflexivity.
Qed.
Print Assumptions C112_keys_refuted.
