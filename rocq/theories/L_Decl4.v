(* Lemmas on the texts of types, and on assignability against the checker. *)
From Coq Require Import String Ascii List Bool Arith Lia.
From Verif Require Import Base M_Infer S_Infer L_Infer.
From Verif Require M_Signature S_Signature L_Signature P_Signature.
From Verif Require Import M_Decl S_Decl L_Decl L_Decl3.
Import ListNotations.
Open Scope list_scope.
Local Open Scope nat_scope.

Section Named.
Variable is_message : string -> bool.
Notation conv := (ConvertTypeToTypeSpec is_message).

Lemma parts_list (Q : tspec -> Prop) l : Forall (S_Signature.parts Q) l ->
  (fix go l := match l with [] => True | a :: l' => S_Signature.parts Q a /\ go l' end) l.
Proof. induction 1; [exact I|]. now split. Qed.

Lemma named_parts (Q : tspec -> Prop) (A : ty -> Prop) :
  (forall t s, A t -> conv t = Val s -> Q s) -> Q M_Signature.TDyn ->
  forall t, all_parts A t -> forall s, conv t = Val s -> S_Signature.parts Q s.
Proof.
  intros HQ HD. induction t as [t IH] using ty_params_ind. intros HA s H.
  pose proof (all_parts_params _ _ HA) as Ap. pose proof (HQ t s (all_parts_here _ _ HA) H) as H0.
  assert (IH' : forall u s, In u (params t) -> conv u = Val s -> S_Signature.parts Q s).
  { intros u s' Hu. apply IH; auto. }
  assert (Hl : forall l m, (forall u, In u l -> In u (params t)) -> M_Signature.all_out (map conv l) = Val m -> Forall (S_Signature.parts Q) m).
  { intros l m Hi E. apply all_out_inv in E. clear -E Hi IH'. induction E as [|x y l m Hx _ IHE]; constructor.
    - eapply IH'; [apply Hi; now left|exact Hx].
    - apply IHE. intros u Hu. apply Hi. now right. }
  clear IH HA Ap HQ. destruct t; cbn [ConvertTypeToTypeSpec params] in *; try discriminate;
    try (injection H as <-; cbn [S_Signature.parts]; split; [exact H0|exact I]).
  - destruct (is_message name); [|discriminate]. injection H as <-. now split.
  - destruct ps as [|e l]; [injection H as <-; split; [exact H0|]; now split|].
    destruct (conv e) as [s'| |] eqn:E; cbn in H; try discriminate. injection H as <-. split; [exact H0|]. eapply IH'; [now left|exact E].
  - destruct (conv t) as [s'| |] eqn:E; cbn in H; try discriminate. injection H as <-. split; [exact H0|]. eapply IH'; [now left|exact E].
  - destruct (conv t1) as [s1| |] eqn:E; cbn in H; try discriminate. destruct (conv t2) as [s2| |] eqn:E2; cbn in H; try discriminate.
    injection H as <-. split; [exact H0|]. split; [eapply IH'; [now left|exact E]|eapply IH'; [right; now left|exact E2]].
  - destruct (M_Signature.all_out _) as [m| |] eqn:E; cbn in H; try discriminate. injection H as <-. split; [exact H0|].
    apply parts_list. apply (Hl ps m); auto.
  - destruct ps as [|r l]; [discriminate|]. destruct (conv r) as [s1| |] eqn:E; cbn [obind] in H; try discriminate.
    destruct (M_Signature.all_out _) as [m| |] eqn:E2; cbn in H; try discriminate. injection H as <-. split; [exact H0|].
    split; [eapply IH'; [now left|exact E]|]. apply parts_list. apply (Hl l m); [intros u Hu; now right|exact E2].
Qed.

Lemma named_ok t s : named t -> conv t = Val s -> S_Signature.well_named s /\ S_Signature.spaceless_names s.
Proof.
  intros N H. split.
  - revert s H. eapply named_parts; [|exact I|exact N]. intros u s Hu Hs. destruct u; cbn [ConvertTypeToTypeSpec] in Hs;
      repeat match type of Hs with
      | obind ?a _ = _ => destruct a; cbn [obind] in Hs; try discriminate
      | (if ?b then _ else _) = _ => destruct b; try discriminate
      | match ?l with [] => _ | _ => _ end = _ => destruct l; try discriminate
      end; try discriminate; injection Hs as <-; try exact I; apply Hu.
  - revert s H. eapply named_parts; [|exact I|exact N]. intros u s Hu Hs. destruct u; cbn [ConvertTypeToTypeSpec] in Hs;
      repeat match type of Hs with
      | obind ?a _ = _ => destruct a; cbn [obind] in Hs; try discriminate
      | (if ?b then _ else _) = _ => destruct b; try discriminate
      | match ?l with [] => _ | _ => _ end = _ => destruct l; try discriminate
      end; try discriminate; injection Hs as <-; try exact I; apply Hu.
Qed.
End Named.

Lemma conforms_refl lg t : conforms lg t t.
Proof.
  induction t as [t IH] using ty_params_ind.
  assert (HL : forall l, (forall u, In u l -> conforms lg u u) -> Forall2 (conforms lg) l l).
  { induction l as [|x l IHl]; intros H; constructor; [apply H; now left|apply IHl; intros u Hu; apply H; now right]. }
  destruct t; cbn [params] in IH; try (apply conf_atom; reflexivity).
  - apply conf_type.
  - apply conf_list. apply IH. now left.
  - apply conf_map; apply IH; cbn; auto.
  - apply conf_opaque. now apply HL.
  - apply conf_function. now apply HL.
Qed.
Lemma accepts_conforms lg to from : accepts to from -> conforms lg from to.
Proof.
  intros H. induction H using accepts_ind'.
  - apply conf_to_wild. constructor.
  - apply conf_null_box.
  - apply conf_box.
  - apply conforms_refl.
  - apply conf_type.
  - now apply conf_list.
  - now apply conf_map.
  - apply conf_opaque. clear H. induction H0; constructor; assumption.
  - apply conf_function. clear H. induction H0; constructor; assumption.
Qed.
