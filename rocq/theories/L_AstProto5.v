(* Failures of the conversions between syntax trees and messages. *)
From Coq Require Import ZArith String List Bool Lia.
From Verif Require Import Base M_Overflow M_Number M_Ast M_AstProto S_AstProto.
Import ListNotations.
Open Scope list_scope.
Local Open Scope out_scope.

(** ** What fails, fails with the status for invalid arguments *)
Definition tame {A} (o : out A) : Prop := (exists v, o = Val v) \/ o = Err (mkStatus kInvalidArgument "").
Lemma tame_val {A} (v : A) : tame (Val v).
Proof. left. now exists v. Qed.
Lemma tame_bad {A} : tame (@bad A).
Proof. now right. Qed.
Lemma tame_bind {A B} (o : out A) (f : A -> out B) : tame o -> (forall v, tame (f v)) -> tame (x <- o ;; f x).
Proof. intros [(v & ->)| ->] H; cbn [obind]; [apply H|now right]. Qed.
Lemma tame_mapM {A B} (f : A -> out B) l : Forall (fun x => tame (f x)) l -> tame (mapM f l).
Proof.
  induction 1 as [|x l Hx _ IH]; cbn [mapM]; [apply tame_val|]. apply tame_bind; [exact Hx|]. intros v.
  apply tame_bind; [exact IH|]. intros vs. apply tame_val.
Qed.
Lemma tame_optM {A B} (f : A -> out B) o : (forall x, o = Some x -> tame (f x)) -> tame (optM f o).
Proof.
  intros H. destruct o as [x|]; cbn [optM]; [|apply tame_val]. apply tame_bind; [now apply H|]. intros v. apply tame_val.
Qed.
Lemma tame_constant c : tame (ConstantToProto c).
Proof.
  destruct c; cbn [ConstantToProto]; try apply tame_val;
    (apply tame_bind; [|intros []; apply tame_val]).
  - destruct d; cbn; [|apply tame_bad]. destruct (_ || _); [apply tame_bad|apply tame_val].
  - destruct t; cbn; [|apply tame_bad]. destruct (_ || _); [apply tame_bad|apply tame_val].
Qed.
Lemma tame_to : forall e, tame (ExprToProto e).
Proof.
  fix IH 1. intros e.
  destruct e; cbn [ExprToProto].
  - apply tame_val.
  - apply tame_bind; [apply tame_constant|intros; apply tame_val].
  - apply tame_val.
  - apply tame_bind; [|intros; apply tame_val].
    destruct operand; cbn [optM]; [apply tame_bind; [apply IH|intros; apply tame_val]|apply tame_val].
  - apply tame_bind; [destruct target; cbn [optM]; [apply tame_bind; [apply IH|intros; apply tame_val]|apply tame_val]|].
    intros t. apply tame_bind; [|intros; apply tame_val]. apply tame_mapM. induction args; constructor; auto.
  - apply tame_bind; [|intros; apply tame_val]. apply tame_mapM.
    induction elements as [|[[x|] o] l IHl]; constructor; auto. apply tame_val.
  - apply tame_bind; [|intros; apply tame_val]. apply tame_mapM.
    induction fields as [|[[[a b] [x|]] o] l IHl]; constructor; auto; cbn [optM].
    + apply tame_bind; [apply tame_bind; [apply IH|intros; apply tame_val]|intros; apply tame_val].
    + apply tame_val.
  - apply tame_bind; [|intros; apply tame_val]. apply tame_mapM.
    induction entries as [|[[[a k] v] o] l IHl]; constructor; auto.
    apply tame_bind; [destruct k; cbn [optM]; [apply tame_bind; [apply IH|intros; apply tame_val]|apply tame_val]|]. intros k'.
    apply tame_bind; [destruct v; cbn [optM]; [apply tame_bind; [apply IH|intros; apply tame_val]|apply tame_val]|]. intros v'.
    apply tame_val.
  - repeat (apply tame_bind;
      [match goal with |- tame (optM _ ?o) => destruct o; cbn [optM]; [apply tame_bind; [apply IH|intros; apply tame_val]|apply tame_val] end|intros ?]).
    apply tame_val.
Qed.
Lemma tame_from : forall p, tame (ExprFromProto p).
Proof.
  fix IH 1. intros [id kind].
  destruct kind; cbn [ExprFromProto].
  - apply tame_val.
  - apply tame_val.
  - apply tame_val.
  - apply tame_bind; [|intros; apply tame_val].
    destruct operand; cbn [optM]; [apply tame_bind; [apply IH|intros; apply tame_val]|apply tame_val].
  - apply tame_bind; [destruct target; cbn [optM]; [apply tame_bind; [apply IH|intros; apply tame_val]|apply tame_val]|].
    intros t. apply tame_bind; [|intros; apply tame_val]. apply tame_mapM. induction args; constructor; auto.
  - apply tame_bind; [|intros; apply tame_val]. apply tame_mapM. induction elements; constructor; auto.
  - destruct (String.eqb message_name ""); (apply tame_bind; [|intros; apply tame_val]); apply tame_mapM;
      induction entries as [|[[[a k] v] o] l IHl]; constructor; auto; clear IHl.
    + apply tame_bind; [destruct k; [apply tame_val|apply tame_bad|apply tame_bind; [apply IH|intros; apply tame_val]]|]. intros k'.
      apply tame_bind; [destruct v; cbn [optM]; [apply tame_bind; [apply IH|intros; apply tame_val]|apply tame_val]|]. intros v'.
      apply tame_val.
    + apply tame_bind; [destruct k; [apply tame_val|apply tame_val|apply tame_bad]|]. intros k'.
      apply tame_bind; [destruct v; cbn [optM]; [apply tame_bind; [apply IH|intros; apply tame_val]|apply tame_val]|]. intros v'.
      apply tame_val.
  - repeat (apply tame_bind;
      [match goal with |- tame (optM _ ?o) => destruct o; cbn [optM]; [apply tame_bind; [apply IH|intros; apply tame_val]|apply tame_val] end|intros ?]).
    apply tame_val.
Qed.
Lemma tame_type : forall p, tame (TypeFromProto p).
Proof.
  fix IH 1. intros p. destruct p; cbn [TypeFromProto]; try apply tame_val.
  - apply tame_bind; [destruct p; [apply tame_val|apply tame_bad]|intros; apply tame_val].
  - apply tame_bind; [destruct p; [apply tame_val|apply tame_bad]|intros; apply tame_val].
  - apply tame_bind; [destruct w; [apply tame_val|apply tame_bad]|intros; apply tame_val].
  - apply tame_bind; [apply IH|intros; apply tame_val].
  - apply tame_bind; [apply IH|intros]. apply tame_bind; [apply IH|intros; apply tame_val].
  - apply tame_bind; [apply tame_mapM; match goal with |- Forall _ ?l => induction l; constructor; auto end|intros].
    apply tame_bind; [apply IH|intros; apply tame_val].
  - assert (G : tame (TypeFromProto p)) by apply IH.
    destruct p; try apply tame_val; (apply tame_bind; [exact G|intros; apply tame_val]).
  - apply tame_bind; [apply tame_mapM; match goal with |- Forall _ ?l => induction l; constructor; auto end|intros; apply tame_val].
Qed.
Lemma tame_entries {A B} (f : A -> out B) (l : list (Z * A)) : (forall x, tame (f x)) -> tame (entriesM f l).
Proof.
  intros H. unfold entriesM. apply tame_mapM. apply Forall_forall. intros [k a] _.
  apply tame_bind; [apply H|intros; apply tame_val].
Qed.
Ltac tame_all := repeat (apply tame_bind; [|intros]); try apply tame_val;
  try apply tame_to; try apply tame_from; try (apply tame_entries; intros);
  try apply tame_to; try apply tame_from; try apply tame_type; try apply tame_val.
Lemma tame_conversions :
  (forall a, tame (AstToParsedExpr a)) /\ (forall a, tame (AstToCheckedExpr a)) /\
  (forall p, tame (CreateAstFromParsedExpr p)) /\ (forall p, tame (CreateAstFromCheckedExpr p)).
Proof.
  split; [|split; [|split]]; intros.
  - unfold AstToParsedExpr, SourceInfoToProto. tame_all.
  - unfold AstToCheckedExpr, SourceInfoToProto, ReferenceToProto. destruct (negb _); [apply tame_bad|]. tame_all.
    apply tame_bind; [|intros; apply tame_val]. apply tame_optM. intros. apply tame_constant.
  - unfold CreateAstFromParsedExpr, SourceInfoFromProto. tame_all.
  - unfold CreateAstFromCheckedExpr, SourceInfoFromProto, ReferenceFromProto. tame_all.
Qed.
