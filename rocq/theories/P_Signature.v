(* C55, C56, C57: text signatures of types and function overloads. *)
From Coq Require Import ZArith List Bool String Ascii Lia.
From Verif Require Import Base.
From Verif Require Import M_Signature S_Signature L_Signature.
Import ListNotations.
Local Open Scope char_scope.
Open Scope list_scope.

(* C55.  The signature of a type, parsed, is that type again; so is that of a
   function overload.  Names are not empty, have no white space and are not the
   signature words of other types. *)
Theorem C55_type_round_trip : forall t s,
  well_named t -> spaceless_names t ->
  MakeTypeSpecSignature t = Val s -> ParseTypeSpec s = Val (canonical t).
Proof.
  intros t s Hw Hs H. unfold ParseTypeSpec. rewrite strip_free by (eapply sp_print; eauto).
  apply reads_type. now apply parse_print.
Qed.
Print Assumptions C55_type_round_trip.

Theorem C55_overload_round_trip : forall f args is_member s,
  f <> [] -> spaceless f -> Forall well_named args -> Forall spaceless_names args ->
  MakeOverloadSignature f args is_member = Val s ->
  ParseFunctionSignature s = Val (mkParsed f is_member (map canonical args)).
Proof.
  intros f args m s Hf Hfs Hw Hs H. rewrite parse_function_stripped, strip_free by (eapply sp_overload; eauto).
  now apply parse_overload.
Qed.
Print Assumptions C55_overload_round_trip.

(* white space added outside of escapes does not matter *)
Fixpoint respaced (s s' : text) : Prop :=
  match s' with
  | [] => s = []
  | c :: r =>
      (is_space c = true /\ respaced s r)
      \/ match s with
         | [] => False
         | x :: q => x = c /\ (if Ascii.eqb c "\" then
                                 match q, r with [], [] => True | y :: q', z :: r' => y = z /\ respaced q' r' | _, _ => False end
                               else respaced q r)
         end
  end.
Theorem C55_white_space : forall t s s',
  well_named t -> spaceless_names t ->
  MakeTypeSpecSignature t = Val s -> respaced s s' -> ParseTypeSpec s' = Val (canonical t).
Proof.
  intros t s s' Hw Hs H Hr. unfold ParseTypeSpec. pose proof (sp_print t s Hs H) as Hf.
  assert (E : StripUnescapedWhitespace s' = s).
  { unfold StripUnescapedWhitespace. clear H Hw Hs t. remember (List.length s') as n eqn:En.
    assert (Hn : (List.length s' <= n)%nat) by lia. clear En. revert s' s Hf Hr Hn. induction n as [|n IH]; intros s' s Hf Hr Hn.
    { destruct s'; [symmetry; exact Hr|cbn in Hn; lia]. }
    destruct s' as [|c r]; [symmetry; exact Hr|]. cbn [respaced] in Hr. cbn [List.length] in Hn. cbn [strip_loop].
    destruct Hr as [[Hc Hr]|Hr].
    - rewrite Hc. destruct (Ascii.eqb_spec c "\") as [->|_]; [discriminate Hc|]. apply IH; [exact Hf|exact Hr|lia].
    - destruct s as [|x q]; [contradiction|]. destruct Hr as [-> Hr]. inversion Hf as [|? ? Hc Hf']; subst.
      destruct (Ascii.eqb c "\").
      + destruct q as [|y q'], r as [|z r']; try contradiction; [reflexivity|]. destruct Hr as [-> Hr].
        cbn [strip_loop]. cbn [List.length] in Hn. inversion Hf'; subst. rewrite (IH r' q') by (assumption || lia). reflexivity.
      + rewrite Hc. rewrite (IH r q) by (assumption || lia). reflexivity. }
  rewrite E. apply reads_type. now apply parse_print.
Qed.
Print Assumptions C55_white_space.

(* every text is either parsed or rejected with an error *)
Theorem C55_total : forall s,
  (exists t, ParseTypeSpec s = Val t) \/ (exists e, ParseTypeSpec s = Err e).
Proof.
  intros s. unfold ParseTypeSpec. pose proof (parse_type_total (StripUnescapedWhitespace s)) as H.
  destruct (ParseType _) as [t|e|]; [left; eauto|right; eauto|contradiction].
Qed.
Print Assumptions C55_total.
Theorem C55_overload_total : forall s,
  (exists o, ParseFunctionSignature s = Val o) \/ (exists e, ParseFunctionSignature s = Err e).
Proof.
  intros s. rewrite parse_function_stripped. pose proof (parse_function_total (StripUnescapedWhitespace s)) as H.
  destruct (parse_stripped _) as [t|e|]; [left; eauto|right; eauto|contradiction].
Qed.
Print Assumptions C55_overload_total.

Definition ex_type : tspec :=
  TMap (TParam (lit "K.x")) (TAbstract (lit "my.pkg<v>") [TMessage (lit "a.b,c"); TList TUnset; TFun (TWrap PInt) [TDyn]]).
Lemma name_ok n : n <> [] -> contains_dotdot n = false -> forallb (fun w => negb (text_eqb n (lit w))) reserved = true -> type_name n.
Proof.
  intros H1 H2 H3. split; [exact H1|]. split; [now apply dotdot_true|]. rewrite forallb_forall in H3. apply Forall_forall.
  intros w Hw E. specialize (H3 w Hw). rewrite (proj2 (text_eqb_eq _ _) E) in H3. discriminate H3.
Qed.
Example ex_well_named : well_named ex_type.
Proof.
  cbn. repeat split; try discriminate; try (apply name_ok; [discriminate|reflexivity|reflexivity]).
Qed.
Example ex_spaceless : spaceless_names ex_type.
Proof. cbn. repeat split; try (unfold spaceless; cbn; repeat (constructor; [repeat split; discriminate|]); constructor). Qed.
Example ex_signature : MakeTypeSpecSignature ex_type =
  Val (lit "map<~K\.x,my.pkg\<v\><a.b\,c,list<dyn>,function<int_wrapper,dyn>>>").
Proof. reflexivity. Qed.
Example ex_respaced : respaced (lit "list<int>") (lit " list< int >  ").
Proof. cbn. repeat (first [left; split; [reflexivity|] | right; split; [reflexivity|]]). reflexivity. Qed.
Example ex_overload : MakeOverloadSignature (lit "f.g") [ex_type; TPrim PInt] true =
  Val (lit "map<~K\.x,my.pkg\<v\><a.b\,c,list<dyn>,function<int_wrapper,dyn>>>.f\.g(int)").
Proof. reflexivity. Qed.

(* C56.  Different overloads have different signatures. *)
Theorem C56_overload_distinct_partial : forall f args m f' args' m' s,
  f <> [] -> f' <> [] -> Forall well_named args -> Forall well_named args' ->
  MakeOverloadSignature f args m = Val s -> MakeOverloadSignature f' args' m' = Val s ->
  f = f' /\ m = m' /\ map canonical args = map canonical args'.
Proof.
  intros f args m f' args' m' s Hf Hf' Hw Hw' H H'.
  pose proof (parse_overload f args m s Hf Hw H) as E. rewrite (parse_overload f' args' m' s Hf' Hw' H') in E.
  injection E as -> -> ->. auto.
Qed.
Print Assumptions C56_overload_distinct_partial.
Theorem C56_type_distinct_partial : forall t t' s,
  well_named t -> well_named t' ->
  MakeTypeSpecSignature t = Val s -> MakeTypeSpecSignature t' = Val s -> canonical t = canonical t'.
Proof.
  intros t t' s Hw Hw' H H'. pose proof (reads_type _ _ (parse_print t s Hw H)) as E.
  rewrite (reads_type _ _ (parse_print t' s Hw' H')) in E. now injection E.
Qed.
Print Assumptions C56_type_distinct_partial.
(* What is missing: a message or abstract type may be named like a built-in one,
   and then has its signature; two different overloads of one function then
   share their generated overload id.  The message types that have a built-in
   counterpart are read as that. *)
Theorem C56_distinct_refuted :
  (exists t t' s, t <> t' /\ canonical t <> canonical t' /\
     MakeOverloadSignature (lit "f") [t] false = Val s /\ MakeOverloadSignature (lit "f") [t'] false = Val s)
  /\ (exists n s, n <> [] /\ MakeTypeSpecSignature (TMessage n) = Val s /\ ParseTypeSpec s = Val (TWkt WAny)).
Proof.
  split.
  - exists (TMessage (lit "int")), (TPrim PInt), (lit "f(int)"). repeat split; try discriminate; reflexivity.
  - exists (lit "google.protobuf.Any"), (lit "google.protobuf.Any"). repeat split; try discriminate; reflexivity.
Qed.
Print Assumptions C56_distinct_refuted.
Example ex_distinct :
  MakeOverloadSignature (lit "f") [TPrim PInt] true <> MakeOverloadSignature (lit "f") [TPrim PInt] false.
Proof. discriminate. Qed.

(* C57.  What was parsed can be written, and reads as the same thing. *)
Theorem C57_type_stable_partial : forall s t, ParseTypeSpec s = Val t ->
  exists s', MakeTypeSpecSignature t = Val s' /\ (spaceless_names t -> ParseTypeSpec s' = Val t).
Proof.
  intros s t H. destruct (parse_good _ _ _ H) as (Hw & Hc & d & Hd). exists d. split; [exact Hd|].
  intros Hs. rewrite <- Hc at 1. now apply C55_type_round_trip.
Qed.
Print Assumptions C57_type_stable_partial.
Theorem C57_overload_stable_partial : forall s o, ParseFunctionSignature s = Val o ->
  exists s', MakeOverloadSignature (po_name o) (po_args o) (po_member o) = Val s' /\
    (spaceless (po_name o) -> Forall spaceless_names (po_args o) -> ParseFunctionSignature s' = Val o).
Proof.
  intros s o H. rewrite parse_function_stripped in H. destruct (parse_function_good _ _ H) as (Hn & Hg & Hm).
  destruct (good_all _ Hg) as (Hw & Hc & ds & Hds).
  assert (Hd : exists s', MakeOverloadSignature (po_name o) (po_args o) (po_member o) = Val s').
  { unfold MakeOverloadSignature. destruct (po_member o); [|rewrite Hds; eexists; reflexivity].
    destruct (po_args o) as [|a l]; [now contradiction Hm|]. inversion Hg as [|? ? (_ & _ & d & Ha) Hl]; subst.
    destruct (good_all _ Hl) as (_ & _ & ds' & Hds'). rewrite Ha. cbn [obind]. rewrite Hds'. eexists. reflexivity. }
  destruct Hd as [s' Hd]. exists s'. split; [exact Hd|]. intros Hs1 Hs2.
  rewrite (C55_overload_round_trip _ _ _ _ Hn Hs1 Hw Hs2 Hd), Hc. now destruct o.
Qed.
Print Assumptions C57_overload_stable_partial.
(* What is missing: a name with escaped white space.  It is parsed, but written
   without the escape, and then read without the white space. *)
Theorem C57_stable_refuted : exists s t s' t',
  ParseTypeSpec s = Val t /\ MakeTypeSpecSignature t = Val s' /\ ParseTypeSpec s' = Val t' /\ t' <> t.
Proof.
  exists (lit "a\ b"), (TAbstract (lit "a b") []), (lit "a b"), (TAbstract (lit "ab") []). repeat split; try discriminate; reflexivity.
Qed.
Print Assumptions C57_stable_refuted.
Example ex_parsed : ParseTypeSpec (lit " google.protobuf.Struct ") = Val (TMap (TPrim PString) TDyn).
Proof. reflexivity. Qed.
