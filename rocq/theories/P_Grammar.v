(* Property C77: the parser and the grammar. *)
From Coq Require Import ZArith String Ascii List Bool Lia ZifyBool.
From Verif Require Import Base M_Overflow M_Number M_Attr M_Value M_Logic M_Expr M_Macro M_Balancer M_Namespace.
From Verif Require Import M_Lex M_Parse L_Parse L_Unparse1.
From Verif Require Import S_Grammar L_Grammar L_Grammar2.
Import ListNotations.
Open Scope list_scope.
Open Scope Z_scope.

(* A text parses to an expression exactly when the grammar derives it from the
   tokens of the text. *)
Theorem C77_grammar c text e : Parse c text = Some e <-> exists ts, lex text = Some ts /\ g_expr c ts e.
Proof.
  unfold Parse. split.
  - destruct (lex text) as [ts|]; [|discriminate]. intros H. exists ts. split; [reflexivity|]. now apply parse_tokens_iff.
  - intros (ts & -> & G). now apply parse_tokens_iff.
Qed.
Print Assumptions C77_grammar.
(* No token sequence derives two expressions. *)
Theorem C77_unambiguous c ts e e' : g_expr c ts e -> g_expr c ts e' -> e = e'.
Proof. intros H H'. apply parse_tokens_iff in H. apply parse_tokens_iff in H'. congruence. Qed.
Print Assumptions C77_unambiguous.

(* What that means for operators: x, y, z stand for operands that begin and end
   with no operator. *)
Section Operators.
  Variable c : config.
  Variables (tx ty tz : list token) (x y z : expr).
  Hypotheses (Hx : g_member c tx x) (Hy : g_member c ty y) (Hz : g_member c tz z).
  Definition reads (ts : list token) (e : expr) : Prop := forall e', g_expr c ts e' <-> e' = e.
  Definition op2 (fn : string) (a b : expr) : expr := ECall fn None [a; b].
  Lemma reads_by ts e : g_expr c ts e -> reads ts e.
  Proof. intros G e'. split; [intros G'; now apply (C77_unambiguous c ts)|intros ->; exact G]. Qed.
  Lemma up_or ts e : g_or c ts e -> g_expr c ts e. Proof. now apply G_or. Qed.
  Lemma up_and ts e : g_and c ts e -> g_expr c ts e.
  Proof. intros G. apply up_or. eapply G_ors; [apply G_or1; exact G|apply balanced_single]. Qed.
  Lemma up_rel_and ts e : g_rel c ts e -> g_and c ts e.
  Proof. intros G. eapply G_ands; [apply G_and1; exact G|apply balanced_single]. Qed.
  Lemma up_rel ts e : g_rel c ts e -> g_expr c ts e.
  Proof. intros G. now apply up_and, up_rel_and. Qed.
  Lemma up_plus ts e : g_plus c ts e -> g_expr c ts e. Proof. intros G. apply up_rel. now apply G_rel1. Qed.
  Lemma up_times ts e : g_times c ts e -> g_expr c ts e. Proof. intros G. apply up_plus. now apply G_plus1. Qed.
  Lemma m_times ts e : g_member c ts e -> g_times c ts e. Proof. intros G. now apply G_times1, G_member. Qed.
  Lemma m_plus ts e : g_member c ts e -> g_plus c ts e. Proof. intros G. now apply G_plus1, m_times. Qed.
  Lemma m_rel ts e : g_member c ts e -> g_rel c ts e. Proof. intros G. now apply G_rel1, m_plus. Qed.
  Lemma m_and ts e : g_member c ts e -> g_and c ts e. Proof. intros G. now apply up_rel_and, m_rel. Qed.
  Lemma m_or ts e : g_member c ts e -> g_or c ts e.
  Proof. intros G. apply (G_ors c ts [e]); [apply G_or1; apply m_and; exact G|apply balanced_single]. Qed.
  Lemma balanced_two fn a b : balanced c fn [a; b] = Some (op2 fn a b).
  Proof. unfold balanced. cbn [map]. destruct (c_variadic c); reflexivity. Qed.

  (* * binds tighter than +, + tighter than ==; operators of one level group to the left *)
  Theorem C77_precedence t f p g r h :
    times_sign t f -> plus_sign p g -> relation_sign r h ->
    reads (tx ++ p :: ty ++ t :: tz) (op2 g x (op2 f y z)) /\
    reads (tx ++ t :: ty ++ p :: tz) (op2 g (op2 f x y) z) /\
    reads (tx ++ r :: ty ++ p :: tz) (op2 h x (op2 g y z)) /\
    reads (tx ++ p :: ty ++ r :: tz) (op2 h (op2 g x y) z).
  Proof.
    intros T P R.
    repeat match goal with |- _ /\ _ => split end; apply reads_by.
    - apply up_plus. apply (G_plus2 c tx x p g (ty ++ t :: tz)); [now apply m_plus|exact P|].
      apply G_times2; [now apply m_times|exact T|now apply G_member].
    - apply up_plus. replace (tx ++ t :: ty ++ p :: tz) with ((tx ++ t :: ty) ++ p :: tz) by now rewrite <- app_assoc.
      apply G_plus2; [|exact P|now apply m_times]. apply G_plus1. apply G_times2; [now apply m_times|exact T|now apply G_member].
    - apply up_rel. apply (G_rel2 c tx x r h (ty ++ p :: tz)); [now apply m_rel|exact R|].
      apply G_plus2; [now apply m_plus|exact P|now apply m_times].
    - apply up_rel. replace (tx ++ p :: ty ++ r :: tz) with ((tx ++ p :: ty) ++ r :: tz) by now rewrite <- app_assoc.
      apply G_rel2; [|exact R|now apply m_plus]. apply G_rel1. apply G_plus2; [now apply m_plus|exact P|now apply m_times].
  Qed.
  Theorem C77_left_grouping t f t' f' p g p' g' r h r' h' :
    times_sign t f -> times_sign t' f' -> plus_sign p g -> plus_sign p' g' -> relation_sign r h -> relation_sign r' h' ->
    reads (tx ++ t :: ty ++ t' :: tz) (op2 f' (op2 f x y) z) /\
    reads (tx ++ p :: ty ++ p' :: tz) (op2 g' (op2 g x y) z) /\
    reads (tx ++ r :: ty ++ r' :: tz) (op2 h' (op2 h x y) z).
  Proof.
    intros T T' P P' R R'.
    repeat match goal with |- _ /\ _ => split end; apply reads_by.
    - apply up_times. replace (tx ++ t :: ty ++ t' :: tz) with ((tx ++ t :: ty) ++ t' :: tz) by now rewrite <- app_assoc.
      apply G_times2; [|exact T'|now apply G_member]. apply G_times2; [now apply m_times|exact T|now apply G_member].
    - apply up_plus. replace (tx ++ p :: ty ++ p' :: tz) with ((tx ++ p :: ty) ++ p' :: tz) by now rewrite <- app_assoc.
      apply G_plus2; [|exact P'|now apply m_times]. apply G_plus2; [now apply m_plus|exact P|now apply m_times].
    - apply up_rel. replace (tx ++ r :: ty ++ r' :: tz) with ((tx ++ r :: ty) ++ r' :: tz) by now rewrite <- app_assoc.
      apply G_rel2; [|exact R'|now apply m_plus]. apply G_rel2; [now apply m_rel|exact R|now apply m_plus].
  Qed.
  (* == binds tighter than &&, && than ||, || than ?: ; a conditional after the
     colon needs no parentheses *)
  Theorem C77_logical r h tw w : relation_sign r h -> g_member c tw w ->
    reads (tx ++ S_ AndAnd :: ty ++ r :: tz) (op2 "_&&_" x (op2 h y z)) /\
    reads (tx ++ S_ OrOr :: ty ++ S_ AndAnd :: tz) (op2 "_||_" x (op2 "_&&_" y z)) /\
    reads (tx ++ S_ AndAnd :: ty ++ S_ OrOr :: tz) (op2 "_||_" (op2 "_&&_" x y) z) /\
    reads (tx ++ S_ OrOr :: ty ++ S_ Question :: tz ++ S_ Colon :: tw) (ECall "_?_:_" None [op2 "_||_" x y; z; w]) /\
    (forall tv v, g_member c tv v ->
       reads (tx ++ S_ Question :: ty ++ S_ Colon :: tz ++ S_ Question :: tw ++ S_ Colon :: tv)
             (ECall "_?_:_" None [x; y; ECall "_?_:_" None [z; w; v]])).
  Proof.
    intros R Hw. repeat match goal with |- _ /\ _ => split end; intros; apply reads_by.
    - apply up_and. apply (G_ands c (tx ++ S_ AndAnd :: ty ++ r :: tz) [x; op2 h y z]); [|apply balanced_two].
      apply G_and2; [now apply m_rel|]. apply G_and1. apply G_rel2; [now apply m_rel|exact R|now apply m_plus].
    - apply up_or. apply (G_ors c _ [x; op2 "_&&_" y z]); [|apply balanced_two].
      apply G_or2; [now apply m_and|]. apply G_or1. apply (G_ands c _ [y; z]); [|apply balanced_two].
      apply G_and2; [now apply m_rel|]. apply G_and1. now apply m_rel.
    - apply up_or. replace (tx ++ S_ AndAnd :: ty ++ S_ OrOr :: tz) with ((tx ++ S_ AndAnd :: ty) ++ S_ OrOr :: tz) by now rewrite <- app_assoc.
      apply (G_ors c _ [op2 "_&&_" x y; z]); [|apply balanced_two].
      apply G_or2; [|apply G_or1; now apply m_and]. apply (G_ands c _ [x; y]); [|apply balanced_two].
      apply G_and2; [now apply m_rel|]. apply G_and1. now apply m_rel.
    - replace (tx ++ S_ OrOr :: ty ++ S_ Question :: tz ++ S_ Colon :: tw) with ((tx ++ S_ OrOr :: ty) ++ S_ Question :: tz ++ S_ Colon :: tw)
        by now rewrite <- app_assoc.
      apply G_cond; [|now apply m_or|now apply up_or, m_or]. apply (G_ors c _ [x; y]); [|apply balanced_two].
      apply G_or2; [now apply m_and|]. apply G_or1. now apply m_and.
    - apply G_cond; [now apply m_or|now apply m_or|]. apply G_cond; [now apply m_or|now apply m_or|now apply up_or, m_or].
  Qed.
End Operators.
Print Assumptions C77_precedence.
Print Assumptions C77_left_grouping.
Print Assumptions C77_logical.

(* ---- non-trivial cases ---- *)
Definition cfg : config := mkConfig false true true true (fun _ => None).
Example C77_case : exists ts, lex (codes "a.b[1] - x.f(2) * !!-3 // sum") = Some ts /\
  g_expr cfg ts (ECall "_-_" None [ECall "_[_]" None [ESelect (EIdent "a") "b" false; EConst (VInt 1)];
                                   ECall "_*_" None [ECall "f" (Some (EIdent "x")) [EConst (VInt 2)]; EConst (VInt (-3))]]).
Proof. apply C77_grammar. vm_compute. reflexivity. Qed.
Example C77_operands : g_member cfg [TId "a"; S_ Dot; TId "b"] (ESelect (EIdent "a") "b" false) /\
  times_sign (S_ Star) "_*_" /\ plus_sign (S_ Minus) "_-_" /\ relation_sign (S_ KwIn) "@in".
Proof.
  repeat split; try (cbn; tauto). apply (G_select cfg [TId "a"] (EIdent "a") (TId "b") "b"); [|now left].
  constructor. now apply (G_ident cfg false "a").
Qed.
Example C77_refused : Parse cfg (codes "a +") = None /\ Parse cfg (codes "(a") = None /\ Parse cfg (codes "a b") = None /\
  Parse cfg (codes "!-x") = None /\ Parse cfg (codes "a ? b") = None /\ Parse cfg (codes "f(a,)") = None.
Proof. vm_compute. repeat split. Qed.
