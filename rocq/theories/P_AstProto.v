(* C89-C92: abstract syntax trees as protobuf messages, and their equality. *)
From Coq Require Import ZArith String List Bool Lia Sorted.
From Coq Require Import Floats.SpecFloat.
From Verif Require Import Base M_Overflow M_Number M_Ast S_Ast L_Ast.
From Verif Require Import M_AstProto S_AstProto L_AstProto L_AstProto2 L_AstProto3 L_AstProto4 L_AstProto5.
Import ListNotations.
Open Scope list_scope.
Open Scope Z_scope.
Local Open Scope out_scope.

(** * C89: expressions to messages and back *)

(* The conversion to a message succeeds exactly when the times in the expression
   can be stored. *)
Theorem C89_defined : forall e, (exists p, ExprToProto e = Val p) <-> storable_times e.
Proof. intros e. split; [intros (p & H); eapply defined_times; eauto|apply times_defined]. Qed.
Print Assumptions C89_defined.

(* Back from the message comes the same expression, if it names its structs and
   its list elements are set. *)
Theorem C89_roundtrip_partial : forall e,
  storable_times e -> well_shaped e -> exists p, ExprToProto e = Val p /\ ExprFromProto p = Val e.
Proof. exact to_from. Qed.
Print Assumptions C89_roundtrip_partial.

(* Not so otherwise: a struct without a name cannot be read again if it has
   fields, and comes back as a map if it has none. *)
Theorem C89_roundtrip_refuted :
  (exists e p s, storable_times e /\ ExprToProto e = Val p /\ ExprFromProto p = Err s) /\
  (exists e p e', storable_times e /\ ExprToProto e = Val p /\ ExprFromProto p = Val e' /\ expr_eq e e' = false).
Proof.
  split.
  - exists (StructE 1 "" [(2, "f"%string, None, false)]). eexists. eexists. split; [|split; reflexivity].
    repeat constructor.
  - exists (StructE 1 "" []). eexists. eexists. split; [repeat constructor|]. split; [reflexivity|]. split; reflexivity.
Qed.
Print Assumptions C89_roundtrip_refuted.

(* Every expression read from a message survives further trips, if its times can
   be stored. *)
Theorem C89_stable : forall p e,
  ExprFromProto p = Val e -> storable_times e -> exists p', ExprToProto e = Val p' /\ ExprFromProto p' = Val e.
Proof. intros p e H Ht. apply to_from; [easy|]. eapply from_shaped; eauto. Qed.
Print Assumptions C89_stable.

(* A message in its usual form is what the expression read from it is written to. *)
Theorem C89_message : forall p e, usual p -> ExprFromProto p = Val e -> ExprToProto e = Val p.
Proof. intros p e H. now apply from_to. Qed.
Print Assumptions C89_message.

(* Different well-shaped expressions are written to different messages. *)
Theorem C89_injective : forall e e' p,
  well_shaped e -> well_shaped e' -> ExprToProto e = Val p -> ExprToProto e' = Val p -> e = e'.
Proof.
  intros e e' p Hw Hw' H H'.
  destruct (to_from e) as (q & E & F); [eapply defined_times; eauto|easy|].
  destruct (to_from e') as (q' & E' & F'); [eapply defined_times; eauto|easy|]. congruence.
Qed.
Print Assumptions C89_injective.

(* { -1.5s: [x, ?M{f: y}] } *)
Definition sample : Expr :=
  MapE 1 [(2, Some (Const 3 (CDuration (DFin (-1500000000)))),
           Some (ListE 4 [(Some (Ident 5 "x"), false);
                          (Some (StructE 6 "M" [(7, "f"%string, Some (Ident 8 "y"), false)]), true)]), false)].
Example C89_case : storable_times sample /\ well_shaped sample /\
  ExprToProto sample = Val (mkPb 1 (KStruct "" [(2, MapKey (mkPb 3 (KConst (PbDuration (-1) (-500000000)))),
    Some (mkPb 4 (KList [mkPb 5 (KIdent "x"); mkPb 6 (KStruct "M" [(7, FieldKey "f", Some (mkPb 8 (KIdent "y")), false)])] [1])), false)])).
Proof.
  assert (storable_times sample) as Hs.
  { constructor; [exact I|]. repeat constructor. exists (-1500000000). split; [reflexivity|]. cbn. lia. }
  split; [exact Hs|]. split; [|reflexivity].
  repeat constructor; try discriminate.
Qed.
Example C89_usual_case : exists p, ExprToProto sample = Val p /\ usual p.
Proof.
  eexists. split; [reflexivity|].
  repeat (first [apply throughout_pb|apply Forall_cons|apply Forall_nil|apply SSorted_cons|apply SSorted_nil|split]); cbn; try easy; try lia; try (intros _; constructor; [now exists "f"%string|constructor]).
Qed.

(** * C90: types to messages and back, equality and copies of types *)

Theorem C90_roundtrip_partial : forall t,
  no_type_of_unset t -> exists t', TypeFromProto (TypeToProto t) = Val t' /\ type_eq t' t = true.
Proof. exact type_trip. Qed.
Print Assumptions C90_roundtrip_partial.
Theorem C90_roundtrip_refuted :
  exists t t', TypeFromProto (TypeToProto t) = Val t' /\ type_eq t' t = false.
Proof. exists (SType (Some SUnset)). eexists. split; reflexivity. Qed.
Print Assumptions C90_roundtrip_refuted.

(* A message is read exactly when its enums have values with names, and is what
   the type read is written to. *)
Theorem C90_message : forall p,
  ((exists t, TypeFromProto p = Val t) <-> ~ has_number p) /\ (forall t, TypeFromProto p = Val t -> TypeToProto t = p).
Proof. intros p. split; [apply type_from_defined|apply type_message]. Qed.
Print Assumptions C90_message.

Theorem C90_equivalence :
  (forall t, type_eq t t = true) /\ (forall t u, type_eq t u = true -> type_eq u t = true) /\
  (forall t u v, type_eq t u = true -> type_eq u v = true -> type_eq t v = true).
Proof. repeat split; [apply type_eq_refl|intros t; apply type_eq_sym|intros t; apply type_eq_trans]. Qed.
Print Assumptions C90_equivalence.

(* A copy equals the original, if this has no type of types without argument. *)
Theorem C90_copy_partial : forall t, no_type_of_none t -> type_eq (copy_type t) t = true.
Proof. exact copy_equal. Qed.
Print Assumptions C90_copy_partial.
(* The type that is read from the message for `type` differs from its copy. *)
Theorem C90_copy_refuted : exists p t, TypeFromProto p = Val t /\ type_eq (copy_type t) t = false.
Proof. exists (TType TNotSet). eexists. split; reflexivity. Qed.
Print Assumptions C90_copy_refuted.
(* Both are written to the same message. *)
Theorem C90_copy_message : forall t, TypeToProto (copy_type t) = TypeToProto t.
Proof. exact copy_message. Qed.
Print Assumptions C90_copy_message.

Example C90_case : let t := SMap (Some (SPrimitive PrString)) (Some (SAbstract "optional" [SType (Some (SList None))])) in
  no_type_of_unset t /\ no_type_of_none t /\
  TypeToProto t = TMap (TPrimitive (Named PrString)) (TAbstract "optional" [TType (TList TNotSet)]).
Proof.
  assert (forall (P : TypeSpec -> Prop) t, P t -> (forall s, In (Some s) (members t) -> all_types P s) -> all_types P t) as C by (intros; now constructor).
  cbn zeta. split; [|split; [|reflexivity]].
  all: repeat (apply C; [easy|cbn [members map In]; intros s Hs; repeat (destruct Hs as [Hs|Hs]; [try discriminate Hs; injection Hs as <-|]); try contradiction]).
Qed.

(** * C91: the equality of expressions *)

(* An equivalence relation on expressions without NaN, symmetric and transitive on
   all. *)
Theorem C91_equivalence :
  (forall e, no_nan e -> expr_eq e e = true) /\ (forall e d, expr_eq e d = true -> expr_eq d e = true) /\
  (forall e d c, expr_eq e d = true -> expr_eq d c = true -> expr_eq e c = true).
Proof. repeat split; [apply expr_eq_refl|intros e; apply expr_eq_sym|intros e; apply expr_eq_trans]. Qed.
Print Assumptions C91_equivalence.

(* Equal expressions are the same, if nothing that may be set is left unset, no
   constant is 0.0 and no comprehension has two variables. *)
Theorem C91_same_partial : forall e d, plain e -> plain d -> expr_eq e d = true -> e = d.
Proof. intros e d H. now apply expr_eq_plain. Qed.
Print Assumptions C91_same_partial.

(* Comprehensions over the same range with different second variables are equal,
   though all their parts are set. *)
Theorem C91_same_refuted : exists v w r i c s f,
  v <> w /\ expr_eq (Comprehension 1 "k" v "a" (Some r) (Some i) (Some c) (Some s) (Some f))
                    (Comprehension 1 "k" w "a" (Some r) (Some i) (Some c) (Some s) (Some f)) = true.
Proof.
  exists "v"%string, "w"%string, (Ident 2 "r"), (Const 3 (CInt 0)), (Const 4 (CBool true)), (Ident 5 "v"), (Ident 6 "a").
  split; [discriminate|reflexivity].
Qed.
Print Assumptions C91_same_refuted.
(* The second variable of a comprehension never matters. *)
Theorem C91_second_variable : forall i v w w' a r n c s f d,
  expr_eq (Comprehension i v w a r n c s f) d = expr_eq (Comprehension i v w' a r n c s f) d.
Proof. reflexivity. Qed.
Print Assumptions C91_second_variable.
Example C91_case : plain sample /\ no_nan sample /\ expr_eq sample sample = true.
Proof. split; [|split; [|reflexivity]]; repeat constructor; discriminate. Qed.

(** * C92: whole syntax trees to messages and back *)

Lemma entries_trip {A B} (f : A -> out B) (g : B -> out A) l :
  (forall x, In x l -> exists y, f (snd x) = Val y /\ g y = Val (snd x)) ->
  exists l', entriesM f l = Val l' /\ entriesM g l' = Val l.
Proof.
  intros H. apply mapM_two_id. intros [k x] Hx. destruct (H _ Hx) as (y & E & F). exists (k, y). cbn in *. rewrite E. cbn. now rewrite F.
Qed.
Lemma source_trip s :
  Forall (fun m => storable_times (snd m)) (s_macro_calls s) -> Forall (fun m => well_shaped (snd m)) (s_macro_calls s) ->
  exists p s', SourceInfoToProto s = Val p /\ SourceInfoFromProto p = Val s' /\ same_source s s'.
Proof.
  rewrite !Forall_forall. intros H1 H2. unfold SourceInfoToProto, SourceInfoFromProto.
  destruct (entries_trip ExprToProto ExprFromProto (s_macro_calls s)) as (l & E & F); [intros x Hx; apply to_from; auto|].
  rewrite E. eexists. eexists. split; [reflexivity|]. cbn [sp_macro_calls]. rewrite F. split; [reflexivity|].
  repeat split. cbn [s_extensions sp_extensions]. rewrite map_map.
  induction (s_extensions s) as [|[x v c] l' IH]; cbn; constructor; [|exact IH].
  cbn. destruct v as [[a b]|]; cbn; (repeat split); (rewrite map_map; now rewrite map_id).
Qed.
(* A parsed tree comes back as it was. *)
Theorem C92_parsed_partial : forall a, storable_ast a -> well_shaped_ast a ->
  exists p a', AstToParsedExpr a = Val p /\ CreateAstFromParsedExpr p = Val a' /\
    root_expr a' = root_expr a /\ same_source (source_info a) (source_info a') /\ is_checked a' = false.
Proof.
  intros a (H1 & H2) (H3 & H4). destruct (to_from _ H1 H3) as (p & E & F).
  destruct (source_trip _ H2 H4) as (q & s' & E' & F' & S).
  unfold AstToParsedExpr, CreateAstFromParsedExpr. rewrite E. cbn [obind]. rewrite E'.
  eexists. eexists. split; [reflexivity|]. cbn [pp_expr pp_source_info]. rewrite F. cbn [obind]. rewrite F'. split; [reflexivity|]. auto.
Qed.
Print Assumptions C92_parsed_partial.
(* So does a checked tree, with its references; its types come back equal. *)
Theorem C92_checked_partial : forall a, is_checked a = true ->
  storable_ast a -> well_shaped_ast a -> storable_references a -> Forall (fun t => no_type_of_unset (snd t)) (type_map a) ->
  exists p a', AstToCheckedExpr a = Val p /\ CreateAstFromCheckedExpr p = Val a' /\
    root_expr a' = root_expr a /\ same_source (source_info a) (source_info a') /\
    reference_map a' = reference_map a /\
    Forall2 (fun x y => fst x = fst y /\ type_eq (snd x) (snd y) = true) (type_map a') (type_map a) /\
    expr_version a' = expr_version a /\ is_checked a' = true.
Proof.
  intros a Hc (H1 & H2) (H3 & H4) Hr Ht. destruct (to_from _ H1 H3) as (p & E & F).
  destruct (source_trip _ H2 H4) as (q & s' & E' & F' & S).
  destruct (entries_trip ReferenceToProto ReferenceFromProto (reference_map a)) as (r & R1 & R2).
  { unfold storable_references in Hr. rewrite Forall_forall in Hr. intros [k [n o v]] Hx. specialize (Hr _ Hx). cbn in *.
    unfold ReferenceToProto, ReferenceFromProto. cbn.
    destruct v as [c|]; [|eexists; split; reflexivity]. destruct (constant_trip c (Hr c eq_refl)) as (pc & C1 & C2).
    cbn. rewrite C1. eexists. split; [reflexivity|]. cbn. now rewrite C2. }
  assert (exists t t', entriesM (fun t => Val (TypeToProto t)) (type_map a) = Val t /\ entriesM TypeFromProto t = Val t' /\
    Forall2 (fun x y => fst x = fst y /\ type_eq (snd x) (snd y) = true) t' (type_map a)) as (t & t' & T1 & T2 & T3).
  { induction Ht as [|[k x] l Hx _ IH]; [exists [], []; repeat constructor|]. destruct IH as (t & t' & T1 & T2 & T3).
    destruct (type_trip x Hx) as (y & Y1 & Y2). exists ((k, TypeToProto x) :: t), ((k, y) :: t').
    unfold entriesM in *. cbn in *. rewrite T1. cbn. rewrite Y1. cbn. rewrite T2. cbn. repeat split. now constructor. }
  unfold AstToCheckedExpr, CreateAstFromCheckedExpr. rewrite Hc, E. cbn [negb obind]. rewrite E'. cbn [obind]. rewrite R1. cbn [obind].
  rewrite T1. eexists. eexists. split; [reflexivity|]. cbn [cp_expr cp_source_info cp_reference_map cp_type_map cp_expr_version].
  rewrite F. cbn [obind]. rewrite F'. cbn [obind]. rewrite R2. cbn [obind]. rewrite T2. split; [reflexivity|]. repeat split; auto; apply S.
Qed.
Print Assumptions C92_checked_partial.
(* A tree becomes a checked message exactly when it is checked and its times can
   be stored; whatever else is wrong with its types. *)
Theorem C92_defined : forall a,
  ((exists p, AstToParsedExpr a = Val p) <-> storable_ast a) /\
  ((exists p, AstToCheckedExpr a = Val p) <-> is_checked a = true /\ storable_ast a /\ storable_references a).
Proof.
  intros a.
  assert (forall s, (exists p, SourceInfoToProto s = Val p) <-> Forall (fun m => storable_times (snd m)) (s_macro_calls s)) as S.
  { intros s. rewrite Forall_forall. unfold SourceInfoToProto, entriesM. split.
    - intros (p & H) x Hx. unbind H.
      match type of E with mapM ?f ?l = _ => destruct (proj1 (mapM_defined f l) (ex_intro _ _ E) _ Hx) as (q & Hq) end.
      unbind Hq. eapply defined_times; eauto.
    - intros H. match goal with |- context [mapM ?f ?l] => destruct (proj2 (mapM_defined f l)) as (q & ->) end.
      + intros x Hx. destruct (times_defined _ (H _ Hx)) as (p & ->). eexists. reflexivity.
      + eexists. reflexivity. }
  assert ((exists p, entriesM ReferenceToProto (reference_map a) = Val p) <-> storable_references a) as R.
  { unfold storable_references. rewrite Forall_forall. unfold entriesM. rewrite mapM_defined. unfold ReferenceToProto. split.
    - intros H x Hx c Hc. destruct (H x Hx) as (y & Hy). rewrite Hc in Hy. cbn in Hy.
      destruct (ConstantToProto c) eqn:E; try discriminate. eapply constant_defined; eauto.
    - intros H x Hx. specialize (H x Hx). destruct (r_value (snd x)) as [c|]; [|eexists; reflexivity].
      destruct (constant_trip c (H c eq_refl)) as (q & Q & _). cbn. rewrite Q. eexists. reflexivity. }
  unfold AstToParsedExpr, AstToCheckedExpr, storable_ast. split; split.
  - intros (p & H). unbind H. split; [eapply defined_times; eauto|]. apply S. eauto.
  - intros (H1 & H2). destruct (times_defined _ H1) as (p & ->). apply S in H2 as (q & Q). cbn [obind]. rewrite Q. eexists. reflexivity.
  - intros (p & H). destruct (is_checked a); [|discriminate]. cbn [negb] in H. unbind H. split; [easy|].
    split; [split; [eapply defined_times; eauto|apply S; eauto]|apply R; eauto].
  - intros (Hc & (H1 & H2) & H3). rewrite Hc. cbn [negb]. destruct (times_defined _ H1) as (p & ->). apply S in H2 as (q & Q). cbn [obind].
    rewrite Q. cbn [obind]. apply R in H3 as (r & ->). cbn [obind].
    destruct (proj2 (mapM_defined (fun x : Z * TypeSpec => y <- Val (TypeToProto (snd x)) ;; Val (fst x, y)) (type_map a))) as (t & T).
    + intros x _. eexists. reflexivity.
    + unfold entriesM. rewrite T. eexists. reflexivity.
Qed.
Print Assumptions C92_defined.
(* What is not converted is refused with the status for invalid arguments. *)
Theorem C92_failures :
  let answers {A} (o : out A) := (exists v, o = Val v) \/ o = Err (mkStatus kInvalidArgument "") in
  (forall a, answers (AstToParsedExpr a)) /\ (forall a, answers (AstToCheckedExpr a)) /\
  (forall p, answers (CreateAstFromParsedExpr p)) /\ (forall p, answers (CreateAstFromCheckedExpr p)).
Proof. exact tame_conversions. Qed.
Print Assumptions C92_failures.
(* A checked tree read from a message need not equal its copy: the types in it
   need not. *)
Theorem C92_copy_refuted : exists p a,
  CreateAstFromCheckedExpr p = Val a /\
  exists id t, In (id, t) (type_map a) /\ type_eq (copy_type t) t = false.
Proof.
  exists (mkChecked [] [(1, TType TNotSet)] (mkSourcePb "" "" [] [] [] []) "" (mkPb 1 (KIdent "int"))).
  eexists. split; [reflexivity|]. exists 1. eexists. split; [now left|reflexivity].
Qed.
Print Assumptions C92_copy_refuted.

Example C92_case :
  let a := mkAst (Call 1 "f" None [sample]) (mkSource "cel1" "here" [10; 20] [(1, 5)] [(4, sample)] [mkExtension "x" None [CompParser]])
             [(1, mkReference "" ["f_map"%string] None)] [(1, SType (Some SDyn))] "" true in
  is_checked a = true /\ storable_ast a /\ well_shaped_ast a /\ storable_references a /\
  Forall (fun t => no_type_of_unset (snd t)) (type_map a).
Proof.
  cbn zeta. destruct C89_case as (H1 & H2 & _).
  split; [reflexivity|]. split; [|split; [|split]].
  - split; [|constructor; [exact H1|constructor]]. constructor; [exact I|]. constructor; [exact H1|constructor].
  - split; [|constructor; [exact H2|constructor]]. constructor; [exact I|]. constructor; [exact H2|constructor].
  - constructor; [|constructor]. cbn. discriminate.
  - constructor; [|constructor]. constructor; [discriminate|]. intros s Hs. cbn in Hs. destruct Hs as [[= <-]|[]]. constructor; [discriminate|]. cbn. contradiction.
Qed.
