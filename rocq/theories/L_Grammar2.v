(* The parser finds every derivation. *)
From Coq Require Import ZArith String Ascii List Bool Lia ZifyBool.
From Verif Require Import Base M_Overflow M_Number M_Attr M_Value M_Logic M_Expr M_Macro M_Balancer M_Namespace.
From Verif Require Import M_Lex M_Parse L_Parse L_Unparse1.
From Verif Require Import S_Grammar L_Grammar.
Import ListNotations.
Open Scope list_scope.
Open Scope Z_scope.

Section Complete.
  Variable c : config.
  Notation E n := (p_expr c n).
  Ltac from_S m Hm := destruct m as [|m]; [lia|].

  Lemma start_app ts us : start_ok ts -> start_ok (ts ++ us).
  Proof. destruct ts as [|[[]| | | | | | | | | |] ts]; cbn; easy. Qed.
  (* operators in a row *)
  Lemma count_repeat t f : f t = true -> forall k r, match r with u :: _ => f u = false | [] => True end ->
    count_sym f (repeat t k ++ r) = (k, r).
  Proof.
    intros F. induction k as [|k IH]; intros r Hr.
    - cbn [repeat app]. destruct r as [|u r]; [reflexivity|]. cbn. now rewrite Hr.
    - cbn [repeat app]. specialize (IH r Hr).
      assert (U : count_sym f (t :: repeat t k ++ r) = if f t then let '(n, r') := count_sym f (repeat t k ++ r) in (S n, r') else (O, t :: repeat t k ++ r)) by reflexivity.
      now rewrite U, F, IH.
  Qed.
  Lemma nots_ok k x ts : member_ok c x ts -> unary_ok c (repeated (S k) "!_" x) (repeat (S_ Bang) (S k) ++ ts).
  Proof.
    intros [St H] n rest L Sp. rewrite app_length, repeat_length in L.
    assert (X : p_member c (E n) (ts ++ rest) = Some (x, rest)).
    { apply H; [lia|weaken|]. intros m Hm. from_S m Hm. now apply p_suffix_stop. }
    assert (C : count_sym is_bang (repeat (S_ Bang) (S k) ++ ts ++ rest) = (S k, ts ++ rest)).
    { apply count_repeat; [reflexivity|]. destruct ts as [|t ts]; [destruct St|]. cbn [app].
      destruct t as [[]| | | | | | | | | |]; try reflexivity. destruct St. }
    rewrite <- app_assoc.
    change (p_unary c (E n) (repeat (S_ Bang) (S k) ++ ts ++ rest)) with (p_operators c (E n) "!_" is_bang (repeat (S_ Bang) (S k) ++ ts ++ rest)).
    unfold p_operators. rewrite C, X. reflexivity.
  Qed.
  Lemma negs_ok k x ts : member_ok c x ts -> takes_signs (S k) ts -> unary_ok c (repeated (S k) "-_" x) (repeat (S_ Minus) (S k) ++ ts).
  Proof.
    intros [St H] T n rest L Sp. rewrite app_length, repeat_length in L.
    assert (X : p_member c (E n) (ts ++ rest) = Some (x, rest)).
    { apply H; [lia|weaken|]. intros m Hm. from_S m Hm. now apply p_suffix_stop. }
    assert (C : count_sym is_minus (repeat (S_ Minus) (S k) ++ ts ++ rest) = (S k, ts ++ rest)).
    { apply count_repeat; [reflexivity|]. destruct ts as [|t ts]; [destruct St|]. cbn [app].
      destruct t as [[]| | | | | | | | | |]; try reflexivity. destruct T. }
    rewrite <- app_assoc.
    assert (Y : p_unary c (E n) (repeat (S_ Minus) (S k) ++ ts ++ rest) = p_operators c (E n) "-_" is_minus (repeat (S_ Minus) (S k) ++ ts ++ rest)).
    { destruct k as [|k]; [|reflexivity]. cbn [repeat app]. destruct ts as [|t ts]; [destruct St|].
      destruct t as [[]| | | | | | | | | |]; try reflexivity; now destruct T. }
    rewrite Y. unfold p_operators. rewrite C, X. reflexivity.
  Qed.
  (* trailing commas *)
  Lemma p_elems_trail n rest : forall es tss m, es <> [] -> Forall2 (elem_ok c) es tss ->
    Forall (fun ts => (List.length ts <= n)%nat) tss -> (List.length es <= m)%nat ->
    p_elems c (E n) m (commas tss ++ S_ Comma :: S_ RBracket :: rest) = Some (es, rest).
  Proof.
    induction es as [|[o x] es IH]; intros tss m N H L Hm; [easy|].
    inversion H as [|x' us xs' tss' Hx Hxs]; subst. apply Forall_cons_iff in L. destruct L as [L1 L2].
    destruct Hx as [ts [-> [Hx [Sx Mx]]]]. cbn [fst snd] in *. rewrite app_length in L1.
    destruct m as [|m]; [cbn in Hm; lia|]. cbn [p_elems List.length] in *. destruct tss' as [|vs tss'].
    - inversion Hxs; subst. cbn [commas]. rewrite <- app_assoc, p_mark_ok by assumption.
      rewrite Hx by (try lia; reflexivity). reflexivity.
    - change (commas ((mark_ts o ++ ts) :: vs :: tss')) with ((mark_ts o ++ ts) ++ S_ Comma :: commas (vs :: tss')).
      rewrite <- !app_assoc, p_mark_ok by assumption. cbn [app]. rewrite Hx by (try lia; reflexivity).
      assert (N' : es <> []) by (inversion Hxs; discriminate).
      specialize (IH (vs :: tss') m N' Hxs L2 ltac:(lia)). rewrite IH.
      assert (O : opens (commas (vs :: tss') ++ S_ Comma :: S_ RBracket :: rest)).
      { apply commas_opens; [|discriminate]. exact (f2_in _ (fun us => forall r, opens (us ++ r)) _ _ Hxs (elem_opens c)). }
      destruct (commas (vs :: tss') ++ S_ Comma :: S_ RBracket :: rest) as [|t r]; [destruct O|].
      destruct t as [[]| | | | | | | | | |]; try reflexivity; destruct O.
  Qed.
  Lemma p_entries_trail n rest : forall es tss m, es <> [] -> Forall2 (entry_ok c) es tss ->
    Forall (fun ts => (List.length ts <= n)%nat) tss -> (List.length es <= m)%nat ->
    p_entries c (E n) m (commas tss ++ S_ Comma :: S_ RBrace :: rest) = Some (es, rest).
  Proof.
    induction es as [|[o [k v]] es IH]; intros tss m N H L Hm; [easy|].
    inversion H as [|x' us xs' tss' Hx Hxs]; subst. apply Forall_cons_iff in L. destruct L as [L1 L2].
    destruct Hx as [tk [tv [-> [Hk [Hv [Sx Mx]]]]]]. cbn [fst snd] in *. rewrite !app_length in L1. cbn [List.length] in L1.
    destruct m as [|m]; [cbn in Hm; lia|]. cbn [p_entries List.length] in *. destruct tss' as [|vs tss'].
    - inversion Hxs; subst. cbn [commas]. rewrite <- !app_assoc, p_mark_ok by assumption.
      rewrite Hk by (try lia; reflexivity). cbn [app]. rewrite Hv by (try lia; reflexivity). reflexivity.
    - change (commas ((mark_ts o ++ tk ++ S_ Colon :: tv) :: vs :: tss'))
        with ((mark_ts o ++ tk ++ S_ Colon :: tv) ++ S_ Comma :: commas (vs :: tss')).
      rewrite <- !app_assoc, p_mark_ok by assumption. cbn [app]. rewrite Hk by (try lia; reflexivity).
      rewrite Hv by (try lia; reflexivity).
      assert (N' : es <> []) by (inversion Hxs; discriminate).
      specialize (IH (vs :: tss') m N' Hxs L2 ltac:(lia)). rewrite IH.
      assert (O : opens (commas (vs :: tss') ++ S_ Comma :: S_ RBrace :: rest)).
      { apply commas_opens; [|discriminate]. exact (f2_in _ (fun us => forall r, opens (us ++ r)) _ _ Hxs (entry_opens c)). }
      destruct (commas (vs :: tss') ++ S_ Comma :: S_ RBrace :: rest) as [|t r]; [destruct O|].
      destruct t as [[]| | | | | | | | | |]; try reflexivity; destruct O.
  Qed.
  Lemma list_comma_ok es tss : Forall2 (elem_ok c) es tss -> primary_ok c (EList es) (S_ LBracket :: commas tss ++ [S_ Comma; S_ RBracket]).
  Proof.
    intros H. split; [easy|]. intros n rest L St. cbn [List.length] in L. rewrite app_length in L. cbn [List.length] in L.
    cbn [app p_primary]. rewrite <- app_assoc. cbn [app].
    assert (P : p_list c (E n) (commas tss ++ S_ Comma :: S_ RBracket :: rest) = Some (es, rest)); [|now rewrite P].
    unfold p_list. destruct es as [|e es].
    - inversion H; subst. reflexivity.
    - assert (N : tss <> []) by (inversion H; discriminate).
      assert (O : forall us, In us tss -> forall r, opens (us ++ r)).
      { exact (f2_in _ (fun us => forall r, opens (us ++ r)) _ _ H (elem_opens c)). }
      pose proof (commas_opens tss (S_ Comma :: S_ RBracket :: rest) O N) as St'.
      pose proof (p_elems_trail n rest (e :: es) tss (List.length (commas tss ++ S_ Comma :: S_ RBracket :: rest)) ltac:(discriminate) H
                    (Forall_len n tss ltac:(lia))) as P.
      pose proof (commas_count' tss O) as C. pose proof (f2_len _ _ _ H) as LL. rewrite LL in P.
      rewrite app_length in P at 1. specialize (P ltac:(lia)).
      destruct (commas tss ++ S_ Comma :: S_ RBracket :: rest) as [|t r] eqn:Eq; [destruct St'|].
      destruct t as [[]| | | | | | | | | |]; try exact P; destruct St'.
  Qed.
  Lemma map_comma_ok es tss : Forall2 (entry_ok c) es tss -> primary_ok c (EMap es) (S_ LBrace :: commas tss ++ [S_ Comma; S_ RBrace]).
  Proof.
    intros H. split; [easy|]. intros n rest L St. cbn [List.length] in L. rewrite app_length in L. cbn [List.length] in L.
    cbn [app p_primary]. rewrite <- app_assoc. cbn [app].
    assert (P : p_map c (E n) (commas tss ++ S_ Comma :: S_ RBrace :: rest) = Some (es, rest)); [|now rewrite P].
    unfold p_map. destruct es as [|e es].
    - inversion H; subst. reflexivity.
    - assert (N : tss <> []) by (inversion H; discriminate).
      assert (O : forall us, In us tss -> forall r, opens (us ++ r)).
      { exact (f2_in _ (fun us => forall r, opens (us ++ r)) _ _ H (entry_opens c)). }
      pose proof (commas_opens tss (S_ Comma :: S_ RBrace :: rest) O N) as St'.
      pose proof (p_entries_trail n rest (e :: es) tss (List.length (commas tss ++ S_ Comma :: S_ RBrace :: rest)) ltac:(discriminate) H
                    (Forall_len n tss ltac:(lia))) as P.
      pose proof (commas_count' tss O) as C. pose proof (f2_len _ _ _ H) as LL. rewrite LL in P.
      rewrite app_length in P at 1. specialize (P ltac:(lia)).
      destruct (commas tss ++ S_ Comma :: S_ RBrace :: rest) as [|t r] eqn:Eq; [destruct St'|].
      destruct t as [[]| | | | | | | | | |]; try exact P; destruct St'.
  Qed.
  Lemma literal_ok ts e : literal c ts e -> primary_ok c e ts /\ start_ok ts.
  Proof.
    intros H.
    destruct ts as [|t [|u [|v ts]]]; cbn [literal] in H; try contradiction.
    - destruct t as [[]| | | |s|s|s|s|s|s|s]; try contradiction; split; try exact I; split; try exact I; intros n rest L St; cbn [app p_primary]; rewrite ?H; reflexivity.
    - destruct t as [[]| | | |s|s|s|s|s|s|s]; try contradiction; destruct u as [[]| | | |s'|s'|s'|s'|s'|s'|s']; try contradiction;
        (split; [split; [exact I|]|exact I]); intros n rest L St; cbn [app p_primary]; rewrite ?H; reflexivity.
    - destruct t as [[]| | | |s|s|s|s|s|s|s]; try contradiction; destruct u as [[]| | | |s'|s'|s'|s'|s'|s'|s']; contradiction.
  Qed.
  Lemma mark_of o m : optional_mark c o m -> m = mark_ts o /\ mark_ok c o.
  Proof. intros [[-> ->]|[-> [-> O]]]; split; try reflexivity; [discriminate|now intros _]. Qed.

  Definition of_args (us : list token) (l : list expr) : Prop :=
    exists tss, us = commas tss /\ Forall2 (expr_ok c) l tss /\ Forall start_ok tss.
  Definition of_elems (us : list token) (l : list (bool * expr)) : Prop :=
    exists tss, us = commas tss /\ Forall2 (elem_ok c) l tss.
  Definition of_entries (us : list token) (l : list (bool * (expr * expr))) : Prop :=
    exists tss, us = commas tss /\ Forall2 (entry_ok c) l tss.
  Lemma commas_cons ts us tss : tss <> [] -> us = commas tss -> ts ++ S_ Comma :: us = commas (ts :: tss).
  Proof. intros N ->. destruct tss; [easy|reflexivity]. Qed.
  Theorem expr_complete ts e : g_expr c ts e -> expr_ok c e ts /\ start_ok ts.
  Proof.
    revert ts e. apply (g_expr_m c
      (fun ts e => expr_ok c e ts /\ start_ok ts)
      (fun ts e => or_done c e ts /\ start_ok ts)
      (fun ts l => or_ok c l ts /\ start_ok ts)
      (fun ts e => or_ok c [e] ts /\ start_ok ts)
      (fun ts l => and_ok c l ts /\ start_ok ts)
      (fun ts e => rel_ok c e ts /\ start_ok ts)
      (fun ts e => plus_ok c e ts /\ start_ok ts)
      (fun ts e => times_ok c e ts /\ start_ok ts)
      (fun ts e => unary_ok c e ts /\ start_ok ts)
      (fun ts e => member_ok c e ts /\ start_ok ts)
      (fun ts e => primary_ok c e ts /\ start_ok ts)
      of_args of_elems of_entries).
    - intros ts e _ [H S]. split; [|exact S]. apply or_expr; [now destruct ts|exact H].
    - intros tx x ty y tz z _ [Hx Sx] _ [Hy Sy] _ [Hz Sz]. split; [now apply cond_ok|now apply start_app].
    - intros ts l e _ [H S] B. split; [now apply (or_finish c l)|exact S].
    - intros ts x _ H. exact H.
    - intros ts x us l _ [H S] _ [H' S']. split; [now apply (or_app c [x] l)|now apply start_app].
    - intros ts l e _ [H S] B. split; [now apply (and_or c l)|exact S].
    - intros ts x _ [H S]. split; [now apply rel_and|exact S].
    - intros ts x us l _ [H S] _ [H' S']. split; [apply (and_app c [x] l); [now apply rel_and|exact H']|now apply start_app].
    - intros ts x _ [H S]. split; [now apply plus_rel|exact S].
    - intros ts x t fn us y _ [H S] O _ [H' S']. apply relation_sign_op in O. split; [now apply rel_op_ok|now apply start_app].
    - intros ts x _ [H S]. split; [now apply times_plus|exact S].
    - intros ts x t fn us y _ [H S] O _ [H' S']. apply plus_sign_op in O. split; [now apply plus_op_ok|now apply start_app].
    - intros ts x _ [H S]. split; [now apply unary_times|exact S].
    - intros ts x t fn us y _ [H S] O _ [H' S']. apply times_sign_op in O. split; [now apply times_op_ok|now apply start_app].
    - intros ts x _ [H S]. split; [now apply member_unary|exact S].
    - intros n ts x _ [H S]. split; [now apply nots_ok|exact I].
    - intros n ts x _ [H S] T. split; [now apply negs_ok|exact I].
    - intros ts x _ [H S]. split; [now apply primary_member|exact S].
    - intros ts x t f _ [H S] F. split; [now apply select_ok|now apply start_app].
    - intros ts x t f _ [H S] F O. split; [now apply opt_select_ok|now apply start_app].
    - intros ts x fn us args e _ [H S] _ (tss & -> & A & St) R. split; [now apply (method_ok c x ts fn args tss)|now apply start_app].
    - intros ts x us i _ [H S] _ [Hi Si]. split; [now apply index_ok|now apply start_app].
    - intros ts x us i _ [H S] _ [Hi Si] O. split; [now apply opt_index_ok|now apply start_app].
    - exact literal_ok.
    - intros dot s R. destruct dot; cbn [dot_ts dotted app]; (split; [|exact I]); [now apply dot_ident_ok|now apply ident_ok].
    - intros dot s us args e R _ (tss & -> & A & St) G. split; [|now destruct dot].
      apply (call_ok c dot s args tss); assumption.
    - intros ts e _ [H S]. split; [now apply paren_ok|exact I].
    - intros ts l comma _ (tss & -> & H) [-> | ->]; (split; [|exact I]); [now apply list_ok|now apply list_comma_ok].
    - intros ts l comma _ (tss & -> & H) [-> | ->]; (split; [|exact I]); [now apply map_ok|now apply map_comma_ok].
    - exists []. repeat split; constructor.
    - intros ts x _ [H S]. exists [ts]. repeat split; repeat constructor; assumption.
    - intros ts x us l _ [H S] _ (tss & Eu & Hl & Sl) N. exists (ts :: tss). split; [|split; now constructor].
      apply commas_cons; [|exact Eu]. inversion Hl; subst; [easy|discriminate].
    - exists []. split; [reflexivity|constructor].
    - intros m o ts x M _ [H S]. destruct (mark_of o m M) as [-> Mo]. exists [mark_ts o ++ ts]. split; [reflexivity|].
      constructor; [|constructor]. exists ts. auto.
    - intros m o ts x us l M _ [H S] _ (tss & Eu & Hl) N. destruct (mark_of o m M) as [-> Mo]. exists ((mark_ts o ++ ts) :: tss). split.
      + apply commas_cons; [|exact Eu]. inversion Hl; subst; [easy|discriminate].
      + constructor; [|exact Hl]. exists ts. auto.
    - exists []. split; [reflexivity|constructor].
    - intros m o tk k tv v M _ [Hk Sk] _ [Hv Sv]. destruct (mark_of o m M) as [-> Mo]. exists [mark_ts o ++ tk ++ S_ Colon :: tv]. split; [reflexivity|].
      constructor; [|constructor]. exists tk, tv. repeat split; assumption.
    - intros m o tk k tv v us l M _ [Hk Sk] _ [Hv Sv] _ (tss & Eu & Hl) N. destruct (mark_of o m M) as [-> Mo].
      exists ((mark_ts o ++ tk ++ S_ Colon :: tv) :: tss). split.
      + apply commas_cons; [|exact Eu]. inversion Hl; subst; [easy|discriminate].
      + constructor; [|exact Hl]. exists tk, tv. repeat split; assumption.
  Qed.
  Theorem parse_tokens_iff ts e : parse_tokens c ts = Some e <-> g_expr c ts e.
  Proof.
    unfold parse_tokens. split.
    - destruct (p_expr c (S (List.length ts)) ts) as [[e' [|t r]]|] eqn:P; intros H; try discriminate. injection H as <-.
      destruct (expr_sound c _ _ _ _ P) as (us & Et & G). rewrite app_nil_r in Et. now subst us.
    - intros G. destruct (expr_complete ts e G) as [H _]. pose proof (H (S (List.length ts)) [] ltac:(lia) I) as X.
      rewrite app_nil_r in X. now rewrite X.
  Qed.
End Complete.
