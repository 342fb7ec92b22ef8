(* C127: the text of a type. *)
From Coq Require Import String Ascii List Bool Arith Lia.
From Verif Require Import M_TypeName S_TypeName L_TypeName.
Import ListNotations.
Open Scope string_scope.
Open Scope list_scope.

(** FormatTypeName ends for every type, however deep, and writes the type as a term of names. *)
Theorem C127_text : forall t,
  (exists n, FormatTypeName n t = Some (written (reads t)))
  /\ forall n s, FormatTypeName n t = Some s -> s = written (reads t).
Proof.
  intros t. destruct (all_printed t) as [n h].
  assert (e : FormatTypeName n t = Some (written (reads t))).
  { unfold FormatTypeName. rewrite <- (Nat.add_0_r n), h. reflexivity. }
  split; [eauto|]. intros m s em. unfold FormatTypeName in *. apply (loop_more _ n) in em. apply (loop_more _ m) in e.
  rewrite Nat.add_comm in e. congruence.
Qed.
Print Assumptions C127_text.
Example C127_text_example :
  FormatTypeName 30 (TMap TString (TOpaque "pair" [TList TInt; TType (Some TDyn); TStruct "a.B"])) = Some "map(string, pair(list(int), type(dyn), a.B))".
Proof. reflexivity. Qed.

(* induction over tidy types *)
Lemma tidy_induction so (P : Type_ -> Prop) :
  (forall t, In t [TDyn; TAny; TBool; TBoolWrapper; TBytes; TBytesWrapper; TDouble; TDoubleWrapper; TDuration; TInt; TIntWrapper; TNull;
                   TString; TStringWrapper; TTimestamp; TUint; TUintWrapper; TUnknown; TError; TType None] -> P t) ->
  (forall e, P e -> P (TList e)) -> (forall k v, P k -> P v -> P (TMap k v)) ->
  (forall n ps, usable so OfOpaque n -> Forall P ps -> P (TOpaque n ps)) -> (forall n, usable so OfMessage n -> P (TStruct n)) ->
  (forall p, P p -> P (TType (Some p))) -> (forall n, usable so OfParam n -> P (TTypeParam n)) -> forall t, tidy so t -> P t.
Proof.
  intros hb hl hm ho hs ht hp. fix IH 2. intros t h. destruct h as [t i|e h|k v h1 h2|n ps u f|n u|p h|n u].
  - apply hb, i.
  - apply hl, IH, h.
  - apply hm; apply IH; assumption.
  - apply ho; [exact u|]. induction f as [|x l hx f IHf]; constructor; [apply IH, hx|exact IHf].
  - apply hs, u.
  - apply ht, IH, h.
  - apply hp, u.
Qed.
Lemma builtin_plain n : In n builtin_names -> plain n.
Proof.
  intros i c ic. unfold builtin_names in i.
  repeat (destruct i as [i|i]; [rewrite <- i in ic; cbn in ic; repeat (destruct ic as [ic|ic]; [rewrite <- ic; reflexivity|]); destruct ic|]). destruct i.
Qed.
Lemma reads_wf so t : tidy so t -> wf (reads t).
Proof.
  assert (wd : forall n, In n builtin_names -> wf (word n)) by (intros n i; constructor; [apply builtin_plain, i|constructor]).
  revert t. apply (tidy_induction so (fun t => wf (reads t))); [intros t H|intros e H|intros k v H H0|intros n ps H H0|intros n H|intros p H|intros n H].
  - cbn in H. repeat (destruct H as [<-|H]; [cbn [reads]; first [apply wd; cbn; tauto|constructor; [apply builtin_plain; cbn; tauto|constructor; [apply wd; cbn; tauto|constructor]]]|]). destruct H.
  - constructor; [apply builtin_plain; cbn; tauto|]. auto.
  - constructor; [apply builtin_plain; cbn; tauto|]. auto.
  - constructor; [apply H|]. induction H0; constructor; auto.
  - constructor; [apply H|constructor].
  - constructor; [apply builtin_plain; cbn; tauto|]. auto.
  - constructor; [apply H|constructor].
Qed.

(* a reader *)
Definition builtin (n : string) (ps : list Type_) : Type_ :=
  let is := String.eqb n in
  match ps with
  | [] => if is "dyn" then TDyn else if is "any" then TAny else if is "bool" then TBool else if is "bytes" then TBytes else if is "double" then TDouble
          else if is "int" then TInt else if is "string" then TString else if is "uint" then TUint else if is "null_type" then TNull
          else if is "google.protobuf.Duration" then TDuration else if is "google.protobuf.Timestamp" then TTimestamp
          else if is "type" then TType None else if is "*unknown*" then TUnknown else TError
  | [p] => if is "list" then TList p else if is "type" then TType (Some p)
           else match p with TBool => TBoolWrapper | TBytes => TBytesWrapper | TDouble => TDoubleWrapper | TInt => TIntWrapper
                | TString => TStringWrapper | _ => TUintWrapper end
  | k :: v :: _ => TMap k v
  end.
Fixpoint back (so : string -> sort) (t : term) : Type_ :=
  match t with
  | Term n ps => if existsb (String.eqb n) builtin_names then builtin n (map (back so) ps)
                 else match so n with OfMessage => TStruct n | OfParam => TTypeParam n | OfOpaque => TOpaque n (map (back so) ps) end
  end.
Lemma back_reads so t : tidy so t -> back so (reads t) = t.
Proof.
  assert (nb : forall s n, usable so s n -> existsb (String.eqb n) builtin_names = false).
  { intros s n (_ & _ & h). destruct (existsb _ _) eqn:e; [|reflexivity]. apply existsb_exists in e as (x & ix & ex). apply String.eqb_eq in ex. subst x. destruct (h ix). }
  revert t. apply (tidy_induction so (fun t => back so (reads t) = t)); [intros t H|intros e IHh|intros k v IHh1 IHh2|intros n ps H H0|intros n H|intros p IHh|intros n H].
  - cbn in H. repeat (destruct H as [<-|H]; [reflexivity|]). destruct H.
  - cbn. now rewrite IHh.
  - cbn. now rewrite IHh1, IHh2.
  - cbn [reads back]. rewrite (nb _ _ H), (proj1 H). f_equal. rewrite map_map. induction H0 as [|x l hx f IHf]; [reflexivity|]. cbn. now rewrite hx, IHf.
  - cbn [reads back word]. rewrite (nb _ _ H), (proj1 H). reflexivity.
  - cbn. now rewrite IHh.
  - cbn [reads back word]. rewrite (nb _ _ H), (proj1 H). reflexivity.
Qed.

(** The text tells types apart, if their names do: two types with the same text are the same. *)
Theorem C127_distinct_partial : forall so t t' n n' s, tidy so t -> tidy so t' ->
  FormatTypeName n t = Some s -> FormatTypeName n' t' = Some s -> t = t'.
Proof.
  intros so t t' n n' s h h' e e'. apply C127_text in e. apply C127_text in e'. rewrite <- (back_reads so t h), <- (back_reads so t' h'). f_equal.
  apply (read_back _ (reads t) (reads t') "" "" (le_n _) (reads_wf so t h) (reads_wf so t' h') I I). rewrite !sapp_nil. congruence.
Qed.
Print Assumptions C127_distinct_partial.
Example C127_distinct_example : tidy (fun n => if String.eqb n "pair" then OfOpaque else OfMessage) (TMap TString (TOpaque "pair" [TList TIntWrapper; TStruct "a.B"])).
Proof.
  repeat first [constructor; fail|constructor 2|constructor 3|constructor 4|constructor 5; split; [reflexivity|split]|apply tidy_basic; cbn; tauto|apply Forall_cons|apply Forall_nil|split; [reflexivity|split]].
  all: try (cbn; intuition discriminate).
  all: intros c ic; cbn in ic; repeat (destruct ic as [<-|ic]; [reflexivity|]); destruct ic.
Qed.

(** In general it does not: enums are written as int, functions as errors, and nothing keeps
    the names of messages, opaque types and type parameters apart. *)
Theorem C127_distinct_refuted :
  (exists s, FormatTypeName 3 (TEnum "a.E") = Some s /\ FormatTypeName 3 TInt = Some s)
  /\ (exists s, FormatTypeName 3 (TStruct "T") = Some s /\ FormatTypeName 3 (TTypeParam "T") = Some s)
  /\ (exists s, FormatTypeName 9 (TOpaque "list" [TInt]) = Some s /\ FormatTypeName 9 (TList TInt) = Some s)
  /\ exists s, FormatTypeName 3 (TFunction TInt []) = Some s /\ FormatTypeName 3 TError = Some s.
Proof. repeat split; eexists; split; reflexivity. Qed.
Print Assumptions C127_distinct_refuted.
