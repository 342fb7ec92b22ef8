(* The parser finds the derivations of the grammar, and only those. *)
From Coq Require Import ZArith String Ascii List Bool Lia ZifyBool.
From Verif Require Import Base M_Overflow M_Number M_Attr M_Value M_Logic M_Expr M_Macro M_Balancer M_Namespace.
From Verif Require Import M_Lex M_Parse L_Parse L_Unparse1.
From Verif Require Import S_Grammar.
Import ListNotations.
Open Scope list_scope.
Open Scope Z_scope.

Lemma relation_sign_op t fn : relation_sign t fn <-> relation_op t = Some fn.
Proof.
  unfold relation_sign. split.
  - cbn. intros H. repeat (destruct H as [H|H]; [injection H as <- <-; reflexivity|]). destruct H.
  - destruct t as [[]| | | | | | | | | |]; cbn; try discriminate; intros H; injection H as <-; tauto.
Qed.
Lemma plus_sign_op t fn : plus_sign t fn <-> plus_op t = Some fn.
Proof.
  unfold plus_sign. split.
  - cbn. intros H. repeat (destruct H as [H|H]; [injection H as <- <-; reflexivity|]). destruct H.
  - destruct t as [[]| | | | | | | | | |]; cbn; try discriminate; intros H; injection H as <-; tauto.
Qed.
Lemma times_sign_op t fn : times_sign t fn <-> times_op t = Some fn.
Proof.
  unfold times_sign. split.
  - cbn. intros H. repeat (destruct H as [H|H]; [injection H as <- <-; reflexivity|]). destruct H.
  - destruct t as [[]| | | | | | | | | |]; cbn; try discriminate; intros H; injection H as <-; tauto.
Qed.

Section Sound.
  Variable c : config.
  Variable E : parser expr.
  Definition sound {A} (p : parser A) (g : list token -> A -> Prop) : Prop :=
    forall ts x r, p ts = Some (x, r) -> exists us, ts = us ++ r /\ g us x.
  Hypothesis HE : sound E (g_expr c).

  Lemma args_sound : forall n ts l r, p_args E n ts = Some (l, r) ->
    exists us, ts = us ++ S_ RParen :: r /\ g_args c us l /\ l <> [].
  Proof.
    induction n as [|n IH]; intros ts l r H; [discriminate|]. cbn [p_args] in H.
    destruct (E ts) as [[e r1]|] eqn:Ee; [|discriminate]. destruct (HE _ _ _ Ee) as (us & -> & G).
    destruct r1 as [|[[]| | | | | | | | | |] r1]; try discriminate.
    - injection H as <- <-. exists us. split; [reflexivity|]. split; [now constructor|discriminate].
    - destruct (p_args E n r1) as [[es r']|] eqn:Ea; [|discriminate]. injection H as <- <-.
      destruct (IH _ _ _ Ea) as (vs & -> & Ga & N). exists (us ++ S_ Comma :: vs). split; [now rewrite <- app_assoc|].
      split; [now constructor|discriminate].
  Qed.
  Lemma call_args_sound ts l r : p_call_args E ts = Some (l, r) -> exists us, ts = us ++ S_ RParen :: r /\ g_args c us l.
  Proof.
    intros H. assert (X : ts = S_ RParen :: r /\ l = [] \/ p_args E (List.length ts) ts = Some (l, r)).
    { unfold p_call_args in H. destruct ts as [|[[]| | | | | | | | | |] ts]; try (right; exact H). injection H as <- <-. now left. }
    destruct X as [[-> ->]|X].
    - exists []. split; [reflexivity|constructor].
    - destruct (args_sound _ _ _ _ X) as (us & -> & G & _). eauto.
  Qed.
  Lemma mark_sound ts o r : p_mark c ts = Some (o, r) -> exists m, ts = m ++ r /\ optional_mark c o m.
  Proof.
    unfold p_mark. intros H.
    assert (X : ts = r /\ o = false \/ (exists r0, ts = S_ Question :: r0 /\ (if c_optional c then Some (true, r0) else None) = Some (o, r))).
    { destruct ts as [|[[]| | | | | | | | | |] ts]; try (injection H as <- <-; now left). right. eauto. }
    destruct X as [[-> ->]|(r0 & -> & X)].
    - exists []. split; [reflexivity|now left].
    - destruct (c_optional c) eqn:O; [|discriminate]. injection X as <- <-. exists [S_ Question]. split; [reflexivity|now right].
  Qed.
  Lemma elems_sound : forall n ts l r, p_elems c E n ts = Some (l, r) ->
    exists us cm, ts = us ++ cm ++ S_ RBracket :: r /\ g_elems c us l /\ l <> [] /\ (cm = [] \/ cm = [S_ Comma]).
  Proof.
    induction n as [|n IH]; intros ts l r H; [discriminate|]. cbn [p_elems] in H.
    destruct (p_mark c ts) as [[o ts1]|] eqn:Em; [|discriminate]. destruct (mark_sound _ _ _ Em) as (m & -> & M).
    destruct (E ts1) as [[e r1]|] eqn:Ee; [|discriminate]. destruct (HE _ _ _ Ee) as (us & -> & G).
    assert (One : g_elems c (m ++ us) [(o, e)]) by now constructor.
    destruct r1 as [|[[]| | | | | | | | | |] r1]; try discriminate.
    - injection H as <- <-. exists (m ++ us), []. split; [now rewrite <- app_assoc|]. split; [exact One|]. split; [discriminate|now left].
    - assert (X : (exists r2, r1 = S_ RBracket :: r2 /\ l = [(o, e)] /\ r = r2) \/
                  (exists es, p_elems c E n r1 = Some (es, r) /\ l = (o, e) :: es)).
      { destruct r1 as [|[[]| | | | | | | | | |] r2];
          try (match type of H with match ?q with _ => _ end = _ => destruct q as [[es r']|] eqn:Q; [|discriminate]; injection H as <- <-; right; eauto end).
        injection H as <- <-. left. eauto. }
      destruct X as [(r2 & -> & -> & ->)|(es & Q & ->)].
      + exists (m ++ us), [S_ Comma]. split; [now rewrite <- app_assoc|]. split; [exact One|]. split; [discriminate|now right].
      + destruct (IH _ _ _ Q) as (vs & cm & -> & Gv & N & C). exists ((m ++ us) ++ S_ Comma :: vs), cm.
        split; [now rewrite <- !app_assoc|]. split; [now constructor|]. split; [discriminate|exact C].
  Qed.
  Lemma list_sound ts l r : p_list c E ts = Some (l, r) ->
    exists us cm, ts = us ++ cm ++ S_ RBracket :: r /\ g_elems c us l /\ (cm = [] \/ cm = [S_ Comma]).
  Proof.
    intros H. assert (X : (exists cm, ts = cm ++ S_ RBracket :: r /\ l = [] /\ (cm = [] \/ cm = [S_ Comma])) \/
                          p_elems c E (List.length ts) ts = Some (l, r)).
    { unfold p_list in H. destruct ts as [|[[]| | | | | | | | | |] ts]; try (right; exact H).
      - injection H as <- <-. left. exists []. auto.
      - destruct ts as [|[[]| | | | | | | | | |] ts]; try (right; exact H). injection H as <- <-. left. exists [S_ Comma]. auto. }
    destruct X as [(cm & -> & -> & C)|X].
    - exists [], cm. split; [reflexivity|]. split; [constructor|exact C].
    - destruct (elems_sound _ _ _ _ X) as (us & cm & -> & G & _ & C). exists us, cm. auto.
  Qed.
  Lemma entries_sound : forall n ts l r, p_entries c E n ts = Some (l, r) ->
    exists us cm, ts = us ++ cm ++ S_ RBrace :: r /\ g_entries c us l /\ l <> [] /\ (cm = [] \/ cm = [S_ Comma]).
  Proof.
    induction n as [|n IH]; intros ts l r H; [discriminate|]. cbn [p_entries] in H.
    destruct (p_mark c ts) as [[o ts1]|] eqn:Em; [|discriminate]. destruct (mark_sound _ _ _ Em) as (m & -> & M).
    destruct (E ts1) as [[k r1]|] eqn:Ek; [|discriminate]. destruct (HE _ _ _ Ek) as (tk & -> & Gk).
    destruct r1 as [|[[]| | | | | | | | | |] r1]; try discriminate.
    destruct (E r1) as [[v r2]|] eqn:Ev; [|discriminate]. destruct (HE _ _ _ Ev) as (tv & -> & Gv).
    assert (One : g_entries c (m ++ tk ++ S_ Colon :: tv) [(o, (k, v))]) by now constructor.
    destruct r2 as [|[[]| | | | | | | | | |] r2]; try discriminate.
    - injection H as <- <-. exists (m ++ tk ++ S_ Colon :: tv), []. split; [rewrite <- ?app_assoc; cbn [app]; rewrite <- ?app_assoc; reflexivity|]. split; [exact One|]. split; [discriminate|now left].
    - assert (X : (exists r3, r2 = S_ RBrace :: r3 /\ l = [(o, (k, v))] /\ r = r3) \/
                  (exists es, p_entries c E n r2 = Some (es, r) /\ l = (o, (k, v)) :: es)).
      { destruct r2 as [|[[]| | | | | | | | | |] r3];
          try (match type of H with match ?q with _ => _ end = _ => destruct q as [[es r']|] eqn:Q; [|discriminate]; injection H as <- <-; right; eauto end).
        injection H as <- <-. left. eauto. }
      destruct X as [(r3 & -> & -> & ->)|(es & Q & ->)].
      + exists (m ++ tk ++ S_ Colon :: tv), [S_ Comma]. split; [rewrite <- ?app_assoc; cbn [app]; rewrite <- ?app_assoc; reflexivity|]. split; [exact One|]. split; [discriminate|now right].
      + destruct (IH _ _ _ Q) as (vs & cm & -> & Gv' & N & C). exists ((m ++ tk ++ S_ Colon :: tv) ++ S_ Comma :: vs), cm.
        split; [rewrite <- ?app_assoc; cbn [app]; rewrite <- ?app_assoc; reflexivity|]. split; [now constructor|]. split; [discriminate|exact C].
  Qed.
  Lemma map_sound ts l r : p_map c E ts = Some (l, r) ->
    exists us cm, ts = us ++ cm ++ S_ RBrace :: r /\ g_entries c us l /\ (cm = [] \/ cm = [S_ Comma]).
  Proof.
    intros H. assert (X : (exists cm, ts = cm ++ S_ RBrace :: r /\ l = [] /\ (cm = [] \/ cm = [S_ Comma])) \/
                          p_entries c E (List.length ts) ts = Some (l, r)).
    { unfold p_map in H. destruct ts as [|[[]| | | | | | | | | |] ts]; try (right; exact H).
      - injection H as <- <-. left. exists []. auto.
      - destruct ts as [|[[]| | | | | | | | | |] ts]; try (right; exact H). injection H as <- <-. left. exists [S_ Comma]. auto. }
    destruct X as [(cm & -> & -> & C)|X].
    - exists [], cm. split; [reflexivity|]. split; [constructor|exact C].
    - destruct (entries_sound _ _ _ _ X) as (us & cm & -> & G & _ & C). exists us, cm. auto.
  Qed.

  Lemma ident_sound dot n ts e r : p_ident dot n ts = Some (e, r) -> r = ts /\ e = EIdent (dotted dot n) /\ LexisIsReserved n = false.
  Proof. unfold p_ident. destruct (LexisIsReserved n); [discriminate|]. intros H. injection H as <- <-. auto. Qed.
  Lemma call_sound dot n ts e r : p_global_call c E dot n ts = Some (e, r) ->
    exists us, ts = us ++ S_ RParen :: r /\ g_primary c (dot_ts dot ++ TId n :: S_ LParen :: us ++ [S_ RParen]) e.
  Proof.
    unfold p_global_call. destruct (LexisIsReserved n) eqn:R; [discriminate|]. destruct (p_call_args E ts) as [[args r']|] eqn:A; [|discriminate].
    intros H. destruct (call_args_sound _ _ _ A) as (us & -> & G). exists us. unfold with_rest in H.
    destruct (global_call c _ args) as [e'|] eqn:Gc; [|discriminate]. injection H as <- <-. split; [reflexivity|]. now apply (G_call c dot n us args).
  Qed.
  Lemma with_rest_some o r e r' : with_rest o r = Some (e, r') -> o = Some e /\ r' = r.
  Proof. unfold with_rest. destruct o; [|discriminate]. intros H. injection H as <- <-. auto. Qed.
  Ltac lit H us := apply with_rest_some in H; destruct H as [H ->]; exists us; split; [reflexivity|apply G_literal; exact H].
  Lemma primary_sound : sound (p_primary c E) (g_primary c).
  Proof.
    intros ts e r H. destruct ts as [|t ts]; [discriminate|].
    destruct t as [s| | | |n|n|s|s|s|s|s]; cbn [p_primary] in H.
    - destruct s; try discriminate.
      + (* [ *) destruct (p_list c E ts) as [[l r']|] eqn:L; [|discriminate]. injection H as <- <-.
        destruct (list_sound _ _ _ L) as (us & cm & -> & G & C). exists (S_ LBracket :: us ++ cm ++ [S_ RBracket]).
        split; [cbn [app]; now rewrite <- !app_assoc|now constructor].
      + (* { *) destruct (p_map c E ts) as [[l r']|] eqn:L; [|discriminate]. injection H as <- <-.
        destruct (map_sound _ _ _ L) as (us & cm & -> & G & C). exists (S_ LBrace :: us ++ cm ++ [S_ RBrace]).
        split; [cbn [app]; now rewrite <- !app_assoc|now constructor].
      + (* ( *) destruct (E ts) as [[e' r1]|] eqn:Ee; [|discriminate]. destruct (HE _ _ _ Ee) as (us & -> & G).
        destruct r1 as [|[[]| | | | | | | | | |] r1]; try discriminate. injection H as <- <-.
        exists (S_ LParen :: us ++ [S_ RParen]). split; [cbn [app]; now rewrite <- !app_assoc|now constructor].
      + (* . *) destruct ts as [|t ts]; [discriminate|]. destruct t as [s| | | |n|n|s|s|s|s|s]; try discriminate.
        assert (X : p_ident true n ts = Some (e, r) \/ exists ts', ts = S_ LParen :: ts' /\ p_global_call c E true n ts' = Some (e, r)).
        { destruct ts as [|[[]| | | | | | | | | |] ts']; try (now left). right. eauto. }
        destruct X as [X|(ts' & -> & X)].
        * apply ident_sound in X. destruct X as (-> & -> & R). exists [S_ Dot; TId n]. split; [reflexivity|]. now apply (G_ident c true n).
        * apply call_sound in X. destruct X as (us & -> & G). exists (dot_ts true ++ TId n :: S_ LParen :: us ++ [S_ RParen]).
          split; [cbn [dot_ts app]; now rewrite <- !app_assoc|exact G].
      + (* - *) destruct ts as [|t ts]; [discriminate|]. destruct t as [s| | | |n|n|s|s|s|s|s]; try discriminate.
        * lit H [S_ Minus; TNumInt s].
        * lit H [S_ Minus; TNumFloat s].
    - injection H as <- <-. exists [TTrue]. split; [reflexivity|now apply G_literal].
    - injection H as <- <-. exists [TFalse]. split; [reflexivity|now apply G_literal].
    - injection H as <- <-. exists [TNull]. split; [reflexivity|now apply G_literal].
    - assert (X : p_ident false n ts = Some (e, r) \/ exists ts', ts = S_ LParen :: ts' /\ p_global_call c E false n ts' = Some (e, r)).
      { destruct ts as [|[[]| | | | | | | | | |] ts']; try (now left). right. eauto. }
      destruct X as [X|(ts' & -> & X)].
      + apply ident_sound in X. destruct X as (-> & -> & R). exists [TId n]. split; [reflexivity|]. now apply (G_ident c false n).
      + apply call_sound in X. destruct X as (us & -> & G). exists (dot_ts false ++ TId n :: S_ LParen :: us ++ [S_ RParen]).
        split; [cbn [dot_ts app]; now rewrite <- !app_assoc|exact G].
    - discriminate.
    - lit H [TNumInt s].
    - lit H [TNumUint s].
    - lit H [TNumFloat s].
    - lit H [TString s].
    - lit H [TBytes s].
  Qed.
  Lemma field_sound ts f r : p_field c ts = Some (f, r) -> exists t, ts = t :: r /\ field c t f.
  Proof.
    destruct ts as [|t ts]; [discriminate|]. destruct t; try discriminate; cbn [p_field].
    - intros H. injection H as <- <-. eexists. split; [reflexivity|now left].
    - destruct (c_quoted c) eqn:Q; [|discriminate]. intros H. injection H as <- <-. eexists. split; [reflexivity|now right].
  Qed.
  Lemma suffix_sound : forall n x ts e r, p_suffix c E n x ts = Some (e, r) -> forall us, g_member c us x ->
    exists vs, ts = vs ++ r /\ g_member c (us ++ vs) e.
  Proof.
    induction n as [|n IH]; intros x ts e r H us G; [discriminate|].
    assert (Stop : Some (x, ts) = Some (e, r) -> exists vs, ts = vs ++ r /\ g_member c (us ++ vs) e).
    { intros Q. injection Q as <- <-. exists []. split; [reflexivity|now rewrite app_nil_r]. }
    assert (Next : forall ws x' ts', ts = ws ++ ts' -> g_member c (us ++ ws) x' -> p_suffix c E n x' ts' = Some (e, r) ->
       exists vs, ts = vs ++ r /\ g_member c (us ++ vs) e).
    { intros ws x' ts' -> G' Q. destruct (IH _ _ _ _ Q _ G') as (vs & -> & G2). exists (ws ++ vs). rewrite !app_assoc in *. auto. }
    cbn [p_suffix] in H. destruct ts as [|t ts]; [now apply Stop|].
    destruct t as [s| | | |fn|f|s|s|s|s|s]; try (now apply Stop). destruct s; try (now apply Stop).
    - (* [ *) assert (X : (exists i r', E ts = Some (i, S_ RBracket :: r') /\ p_suffix c E n (ECall "_[_]" None [x; i]) r' = Some (e, r)) \/
         (exists ts' i r', ts = S_ Question :: ts' /\ c_optional c = true /\ E ts' = Some (i, S_ RBracket :: r') /\
            p_suffix c E n (ECall "_[?_]" None [x; i]) r' = Some (e, r))).
      { assert (Y : match E ts with Some (i, S_ RBracket :: r') => p_suffix c E n (ECall "_[_]" None [x; i]) r' | _ => None end = Some (e, r) ->
            exists i r', E ts = Some (i, S_ RBracket :: r') /\ p_suffix c E n (ECall "_[_]" None [x; i]) r' = Some (e, r)).
        { destruct (E ts) as [[i [|[[]| | | | | | | | | |] r']]|]; try discriminate. eauto. }
        destruct ts as [|[[]| | | | | | | | | |] ts']; try (left; apply Y; exact H).
        right. destruct (E ts') as [[i [|[[]| | | | | | | | | |] r']]|] eqn:Ee; try discriminate.
        destruct (c_optional c) eqn:O; [|discriminate]. exists ts', i, r'. auto. }
      destruct X as [(i & r' & Ee & X)|(ts' & i & r' & -> & O & Ee & X)]; destruct (HE _ _ _ Ee) as (ws & -> & Gi).
      + apply (Next (S_ LBracket :: ws ++ [S_ RBracket]) (ECall "_[_]" None [x; i]) r'); [cbn [app]; now rewrite <- app_assoc|now constructor|exact X].
      + apply (Next (S_ LBracket :: S_ Question :: ws ++ [S_ RBracket]) (ECall "_[?_]" None [x; i]) r'); [cbn [app]; now rewrite <- app_assoc|now constructor|exact X].
    - (* . *) assert (X : (exists f r', p_field c ts = Some (f, r') /\ p_suffix c E n (ESelect x f false) r' = Some (e, r)) \/
         (exists ts' f r', ts = S_ Question :: ts' /\ c_optional c = true /\ p_field c ts' = Some (f, r') /\
            p_suffix c E n (ECall "_?._" None [x; EConst (VString (codes f))]) r' = Some (e, r)) \/
         (exists fn ts' args r' e', ts = TId fn :: S_ LParen :: ts' /\ p_call_args E ts' = Some (args, r') /\
            receiver_call c fn x args = Some e' /\ p_suffix c E n e' r' = Some (e, r))).
      { assert (Y : match p_field c ts with Some (f, r') => p_suffix c E n (ESelect x f false) r' | None => None end = Some (e, r) ->
            exists f r', p_field c ts = Some (f, r') /\ p_suffix c E n (ESelect x f false) r' = Some (e, r)).
        { destruct (p_field c ts) as [[f r']|]; try discriminate. eauto. }
        destruct ts as [|[s| | | |fn|f|s|s|s|s|s] ts']; try (left; apply Y; exact H).
        - destruct s; try (left; apply Y; exact H). right. left. destruct (p_field c ts') as [[f r']|] eqn:F; [|discriminate].
          destruct (c_optional c) eqn:O; [|discriminate]. exists ts', f, r'. auto.
        - destruct ts' as [|[[]| | | | | | | | | |] ts']; try (left; apply Y; exact H).
          right. right. destruct (p_call_args E ts') as [[args r']|] eqn:A; [|discriminate].
          destruct (receiver_call c fn x args) as [e'|] eqn:Rc; [|discriminate]. exists fn, ts', args, r', e'. auto. }
      destruct X as [(f & r' & F & X)|[(ts' & f & r' & -> & O & F & X)|(fn & ts' & args & r' & e' & -> & A & Rc & X)]].
      + destruct (field_sound _ _ _ F) as (t & -> & Ft). apply (Next [S_ Dot; t] (ESelect x f false) r'); [reflexivity|now constructor|exact X].
      + destruct (field_sound _ _ _ F) as (t & -> & Ft). apply (Next [S_ Dot; S_ Question; t] (ECall "_?._" None [x; EConst (VString (codes f))]) r'); [reflexivity|now constructor|exact X].
      + destruct (call_args_sound _ _ _ A) as (ws & -> & Ga).
        apply (Next (S_ Dot :: TId fn :: S_ LParen :: ws ++ [S_ RParen]) e' r'); [cbn [app]; now rewrite <- app_assoc| |exact X].
        now apply (G_method c us x fn ws args).
  Qed.
  Lemma member_sound : sound (p_member c E) (g_member c).
  Proof.
    intros ts e r H. unfold p_member in H. destruct (p_primary c E ts) as [[x r1]|] eqn:P; [|discriminate].
    destruct (primary_sound _ _ _ P) as (us & -> & G). destruct (suffix_sound _ _ _ _ _ H us (G_primary c us x G)) as (vs & -> & G').
    exists (us ++ vs). split; [now rewrite app_assoc|exact G'].
  Qed.
  Lemma count_sound t f : (forall u, f u = true <-> u = t) -> forall ts k r, count_sym f ts = (k, r) ->
    ts = repeat t k ++ r /\ match r with u :: _ => u <> t | [] => True end.
  Proof.
    intros F. induction ts as [|u ts IH]; intros k r H.
    - injection H as <- <-. split; [reflexivity|exact I].
    - cbn [count_sym] in H. change ((fix go (ts0 : list token) : nat * list token := match ts0 with | [] => (0%nat, []) | t0 :: r0 => if f t0 then let '(n, r') := go r0 in (S n, r') else (0%nat, ts0) end) ts) with (count_sym f ts) in H.
      destruct (f u) eqn:Fu.
      + destruct (count_sym f ts) as [n r'] eqn:C. injection H as <- <-. destruct (IH n r' eq_refl) as [-> Hr].
        apply F in Fu. subst u. split; [reflexivity|exact Hr].
      + injection H as <- <-. split; [reflexivity|]. intros ->. assert (f t = true) by now apply F. congruence.
  Qed.
  Lemma bang_iff u : is_bang u = true <-> u = S_ Bang.
  Proof. destruct u as [[]| | | | | | | | | |]; cbn; split; intros H; try discriminate; reflexivity. Qed.
  Lemma minus_iff u : is_minus u = true <-> u = S_ Minus.
  Proof. destruct u as [[]| | | | | | | | | |]; cbn; split; intros H; try discriminate; reflexivity. Qed.
  Lemma nonempty_member us x : g_member c us x -> us <> [].
  Proof.
    intros G. assert (P : forall vs y, g_primary c vs y -> vs <> []).
    { intros vs y Gp. destruct Gp as [vs y L|[]|[]| | |]; try discriminate. intros ->. exact L. }
    destruct G as [us x Gp| | | | |]; [now apply (P us x)|..]; intros Q; apply app_eq_nil in Q; destruct Q; discriminate.
  Qed.
  Lemma unary_sound : sound (p_unary c E) (g_unary c).
  Proof.
    intros ts e r H.
    assert (M : p_member c E ts = Some (e, r) -> exists us, ts = us ++ r /\ g_unary c us e).
    { intros Q. destruct (member_sound _ _ _ Q) as (us & -> & G). exists us. split; [reflexivity|now constructor]. }
    destruct ts as [|t ts]; [now apply M|]. destruct t as [s| | | | | | | | | |]; try (now apply M). destruct s; try (now apply M).
    - (* - *) assert (X : p_member c E (S_ Minus :: ts) = Some (e, r) \/
         ((match ts with TNumInt _ :: _ | TNumFloat _ :: _ => False | _ => True end) /\ p_operators c E "-_" is_minus (S_ Minus :: ts) = Some (e, r))).
      { destruct ts as [|[[]| | | | | | | | | |] ts]; cbn [p_unary] in H; try (right; split; [exact I|exact H]); now left. }
      destruct X as [X|[N X]]; [now apply M|]. clear M H. unfold p_operators in X.
      destruct (count_sym is_minus (S_ Minus :: ts)) as [k r1] eqn:C. destruct (count_sound _ _ minus_iff _ _ _ C) as [Et Hr].
      destruct (p_member c E r1) as [[x r2]|] eqn:P; [|discriminate]. injection X as <- <-.
      destruct (member_sound _ _ _ P) as (us & -> & G).
      destruct k as [|k]; [cbn [repeat app] in Et; rewrite <- Et in Hr; now destruct Hr|].
      exists (repeat (S_ Minus) (S k) ++ us). split; [now rewrite <- app_assoc|]. apply G_neg; [exact G|].
      pose proof (nonempty_member us x G) as Ne. destruct us as [|u us]; [easy|]. cbn [app] in Hr.
      destruct k as [|k]; [cbn [repeat app] in Et; injection Et as ->; cbn [app] in N|];
        destruct u as [[]| | | | | | | | | |]; cbn [takes_signs]; try exact I; try discriminate; try (now destruct Hr); try contradiction.
    - (* ! *) clear M. cbn [p_unary] in H. unfold p_operators in H.
      destruct (count_sym is_bang (S_ Bang :: ts)) as [k r1] eqn:C. destruct (count_sound _ _ bang_iff _ _ _ C) as [Et Hr].
      destruct (p_member c E r1) as [[x r2]|] eqn:P; [|discriminate]. injection H as <- <-.
      destruct (member_sound _ _ _ P) as (us & -> & G).
      destruct k as [|k]; [cbn [repeat app] in Et; rewrite <- Et in Hr; now destruct Hr|].
      exists (repeat (S_ Bang) (S k) ++ us). split; [now rewrite Et, <- app_assoc|now apply G_not].
  Qed.
  (* left recursive chains *)
  Lemma rest_sound op next (g g' : list token -> expr -> Prop) : sound next g' ->
    (forall ts x t fn us y, g ts x -> op t = Some fn -> g' us y -> g (ts ++ t :: us) (ECall fn None [x; y])) ->
    forall n x ts e r, p_rest op next n x ts = Some (e, r) -> forall us, g us x -> exists vs, ts = vs ++ r /\ g (us ++ vs) e.
  Proof.
    intros Hn Hg. induction n as [|n IH]; intros x ts e r H us G; [discriminate|].
    assert (Stop : Some (x, ts) = Some (e, r) -> exists vs, ts = vs ++ r /\ g (us ++ vs) e).
    { intros Q. injection Q as <- <-. exists []. split; [reflexivity|now rewrite app_nil_r]. }
    cbn [p_rest] in H. destruct ts as [|t ts]; [now apply Stop|]. destruct (op t) as [fn|] eqn:O; [|now apply Stop].
    destruct (next ts) as [[y r']|] eqn:N; [|discriminate]. destruct (Hn _ _ _ N) as (ws & -> & Gy).
    destruct (IH _ _ _ _ H (us ++ t :: ws) (Hg _ _ _ _ _ _ G O Gy)) as (vs & -> & G').
    exists (t :: ws ++ vs). split; [cbn [app]; now rewrite app_assoc|]. now rewrite <- app_assoc in G'.
  Qed.
  Lemma left_sound op next (g g' : list token -> expr -> Prop) : sound next g' -> (forall ts x, g' ts x -> g ts x) ->
    (forall ts x t fn us y, g ts x -> op t = Some fn -> g' us y -> g (ts ++ t :: us) (ECall fn None [x; y])) ->
    sound (p_left op next) g.
  Proof.
    intros Hn H1 H2 ts e r H. unfold p_left in H. destruct (next ts) as [[x r']|] eqn:N; [|discriminate].
    destruct (Hn _ _ _ N) as (us & -> & G). destruct (rest_sound op next g g' Hn H2 _ _ _ _ _ H us (H1 _ _ G)) as (vs & -> & G').
    exists (us ++ vs). split; [now rewrite app_assoc|exact G'].
  Qed.
  Lemma times_sound : sound (p_times c E) (g_times c).
  Proof.
    apply (left_sound _ _ _ (g_unary c)); [exact unary_sound|now constructor|].
    intros ts x t fn us y G O G'. apply times_sign_op in O. now apply G_times2.
  Qed.
  Lemma plus_sound : sound (p_plus c E) (g_plus c).
  Proof.
    apply (left_sound _ _ _ (g_times c)); [exact times_sound|now constructor|].
    intros ts x t fn us y G O G'. apply plus_sign_op in O. now apply G_plus2.
  Qed.
  Lemma rel_sound : sound (p_relation c E) (g_rel c).
  Proof.
    apply (left_sound _ _ _ (g_plus c)); [exact plus_sound|now constructor|].
    intros ts x t fn us y G O G'. apply relation_sign_op in O. now apply G_rel2.
  Qed.
  (* chains of && and || *)
  Lemma more_sound sep is_op next (g : list token -> expr -> Prop) (gl : list token -> list expr -> Prop) :
    (forall u, is_op u = true <-> u = sep) -> sound next g ->
    (forall ts x, g ts x -> gl ts [x]) -> (forall ts x us l, g ts x -> gl us l -> gl (ts ++ sep :: us) (x :: l)) ->
    forall n l ts l' r, p_more is_op next n l ts = Some (l', r) -> forall us x, g us x ->
      exists vs more, ts = vs ++ r /\ l' = l ++ more /\ gl (us ++ vs) (x :: more).
  Proof.
    intros Hs Hn H1 H2. induction n as [|n IH]; intros l ts l' r H us x G; [discriminate|].
    assert (Stop : Some (l, ts) = Some (l', r) -> exists vs more, ts = vs ++ r /\ l' = l ++ more /\ gl (us ++ vs) (x :: more)).
    { intros Q. injection Q as <- <-. exists [], []. rewrite !app_nil_r. auto. }
    cbn [p_more] in H. destruct ts as [|t ts]; [now apply Stop|]. destruct (is_op t) eqn:O; [|now apply Stop].
    apply Hs in O. subst t. destruct (next ts) as [[y r']|] eqn:N; [|discriminate]. destruct (Hn _ _ _ N) as (ws & -> & Gy).
    destruct (IH _ _ _ _ H ws y Gy) as (vs & more & -> & -> & G'). exists (sep :: ws ++ vs), (y :: more).
    split; [cbn [app]; now rewrite app_assoc|]. split; [now rewrite <- app_assoc|]. now apply H2.
  Qed.
  Lemma operands_sound sep is_op next (g : list token -> expr -> Prop) (gl : list token -> list expr -> Prop) :
    (forall u, is_op u = true <-> u = sep) -> sound next g ->
    (forall ts x, g ts x -> gl ts [x]) -> (forall ts x us l, g ts x -> gl us l -> gl (ts ++ sep :: us) (x :: l)) ->
    sound (p_operands is_op next []) gl.
  Proof.
    intros Hs Hn H1 H2 ts l r H. unfold p_operands in H. destruct (next ts) as [[x r']|] eqn:N; [|discriminate].
    destruct (Hn _ _ _ N) as (us & -> & G).
    destruct (more_sound sep is_op next g gl Hs Hn H1 H2 _ _ _ _ _ H us x G) as (vs & more & -> & -> & G').
    exists (us ++ vs). split; [now rewrite app_assoc|exact G'].
  Qed.
  Lemma and_iff u : is_and u = true <-> u = S_ AndAnd.
  Proof. destruct u as [[]| | | | | | | | | |]; cbn; split; intros H; try discriminate; reflexivity. Qed.
  Lemma or_iff u : is_or u = true <-> u = S_ OrOr.
  Proof. destruct u as [[]| | | | | | | | | |]; cbn; split; intros H; try discriminate; reflexivity. Qed.
  Lemma and_sound : sound (p_and c E) (g_and c).
  Proof.
    intros ts e r H. unfold p_and, p_logical in H. destruct (p_operands is_and (p_relation c E) [] ts) as [[l r']|] eqn:P; [|discriminate].
    destruct (operands_sound _ _ _ (g_rel c) (g_ands c) and_iff rel_sound ltac:(now constructor) ltac:(now constructor) _ _ _ P) as (us & -> & G).
    apply with_rest_some in H. destruct H as [B ->]. exists us. split; [reflexivity|]. now apply (G_ands c us l).
  Qed.
  Lemma or_sound : sound (p_or c E) (g_or c).
  Proof.
    intros ts e r H. unfold p_or, p_logical in H. destruct (p_operands is_or (p_and c E) [] ts) as [[l r']|] eqn:P; [|discriminate].
    destruct (operands_sound _ _ _ (g_and c) (g_ors c) or_iff and_sound ltac:(now constructor) ltac:(now constructor) _ _ _ P) as (us & -> & G).
    apply with_rest_some in H. destruct H as [B ->]. exists us. split; [reflexivity|]. now apply (G_ors c us l).
  Qed.
  Lemma conditional_sound : sound (p_conditional c E) (g_expr c).
  Proof.
    intros ts e r H. unfold p_conditional in H. destruct (p_or c E ts) as [[x r1]|] eqn:P; [|discriminate].
    destruct (or_sound _ _ _ P) as (tx & -> & Gx).
    assert (X : Some (x, r1) = Some (e, r) \/ exists r2, r1 = S_ Question :: r2).
    { destruct r1 as [|[[]| | | | | | | | | |] r2]; try (now left). right. eauto. }
    destruct X as [X|(r2 & ->)].
    - injection X as <- <-. exists tx. split; [reflexivity|now constructor].
    - destruct (p_or c E r2) as [[y r3]|] eqn:Py; [|discriminate]. destruct (or_sound _ _ _ Py) as (ty & -> & Gy).
      destruct r3 as [|[[]| | | | | | | | | |] r3]; try discriminate.
      destruct (E r3) as [[z r4]|] eqn:Ez; [|discriminate]. destruct (HE _ _ _ Ez) as (tz & -> & Gz). injection H as <- <-.
      exists (tx ++ S_ Question :: ty ++ S_ Colon :: tz). split; [|now constructor].
      rewrite <- app_assoc. cbn [app]. now rewrite <- app_assoc.
  Qed.
End Sound.
Theorem expr_sound c : forall n, sound (p_expr c n) (g_expr c).
Proof. induction n as [|n IH]; [intros ts e r H; discriminate|]. cbn [p_expr]. now apply conditional_sound. Qed.
