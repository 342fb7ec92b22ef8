(* The round trip of the unparser: the remaining cases. *)
From Coq Require Import ZArith String Ascii List Bool Lia ZifyBool.
From Verif Require Import Base M_Overflow M_Number M_Utf8 S_Utf8 M_Strings M_Attr M_Value M_Logic M_Expr
  M_Macro M_Balancer M_Namespace.
From Verif Require Import M_Lex M_Parse M_Unparse S_Unparse L_Lex L_LexStr L_Parse L_Unparse1 L_Unparse2 L_Unparse3.
Import ListNotations.
Open Scope list_scope.
Open Scope Z_scope.

Section Main.
  Variable c : config.
  Variable sd : double -> list Z.
  Notation good := (good c sd).

  Lemma const_case v : const_ok v -> good (EConst v).
  Proof.
    intros H. destruct (const_good c sd v H) as (t & ts & V & L & E & S & P & N).
    apply (good_simple c sd (EConst v) t ts); cbn [lv]; try lia; auto.
    intros _. apply level_member; [exact S|]. now apply primary_member.
  Qed.
  Lemma ident_case n : name_ok n -> good (EIdent n).
  Proof.
    intros [H|[s [-> H]]]; destruct (identifier_word _ H) as [W R]; pose proof (reserved_keyword _ R) as K.
    - apply (good_simple c sd (EIdent n) (codes n) [TId n]); cbn [lv]; try lia; try easy.
      + intros rest ts' Fo Lx. cbn [app]. now apply lx_id.
      + now apply word_ends.
      + intros _. apply level_member; [easy|]. now apply primary_member, ident_ok.
    - apply (good_simple c sd (EIdent (String "." s)) (46 :: codes s) [S_ Dot; TId s]); cbn [lv]; try lia; try easy.
      + intros rest ts' Fo Lx. cbn [app]. apply lx_dot; [now apply word_no_digit|]. now apply lx_id.
      + apply (ends_app [46] (codes s)); [easy|now apply word_ends].
      + intros _. apply level_member; [easy|]. now apply primary_member, dot_ident_ok.
  Qed.

  (* ---- indexing ---- *)
  Lemma index_case a i : printable c a -> good a -> unary a = false -> good i -> good (ECall "_[_]" None [a; i]).
  Proof.
    intros P G U (ti & tsi & Vi & Li & Ei & Si & _ & _ & Lvi & _).
    destruct (base_target c sd a P U G) as (t & ts & V & L & E & S & M & N).
    apply (good_simple c sd (ECall "_[_]" None [a; i]) (t ++ ([91] ++ ti) ++ [93]) (ts ++ S_ LBracket :: tsi ++ [S_ RBracket]));
      try exact (eq_refl false).
    - change (Visit sd (ECall "_[_]" None [a; i])) with
        (obind (nest (IsBinaryOrTernaryOperator a) (Visit sd a)) (fun ta => obind (Visit sd i) (fun ti =>
           Val (ta ++ [91] ++ mark (String.eqb "_[_]" "_[?_]") ++ ti ++ [93])))).
      rewrite V. cbn [obind]. rewrite Vi. reflexivity.
    - intros rest ts' Fo Lx. rewrite <- !app_assoc. apply L; [left; cbn; tauto|]. cbn [app]. apply lx_lbracket.
      rewrite <- app_assoc. apply Li; [left; cbn; tauto|]. now apply lx_rbracket.
    - now apply ends_last.
    - now apply start_app.
    - intros Sm. apply small_app in Sm. destruct Sm as [Sm1 Sm]. apply small_cons, small_app in Sm. destruct Sm as [Sm2 _].
      apply level_member; [now apply start_app|]. apply (index_ok c (norm c a) ts (norm c i) tsi); auto. apply (Lvi Sm2).
    - intros _ Ld. apply neg_app; [exact S|]. apply N. exact Ld.
    - apply Z.leb_le. reflexivity.
  Qed.
  Lemma opt_index_case a i : c_optional c = true -> printable c a -> good a -> unary a = false -> good i -> good (ECall "_[?_]" None [a; i]).
  Proof.
    intros O P G U (ti & tsi & Vi & Li & Ei & Si & _ & _ & Lvi & _).
    destruct (base_target c sd a P U G) as (t & ts & V & L & E & S & M & N).
    apply (good_simple c sd (ECall "_[?_]" None [a; i]) (t ++ ([91; 63] ++ ti) ++ [93])
             (ts ++ S_ LBracket :: S_ Question :: tsi ++ [S_ RBracket])); try exact (eq_refl false).
    - change (Visit sd (ECall "_[?_]" None [a; i])) with
        (obind (nest (IsBinaryOrTernaryOperator a) (Visit sd a)) (fun ta => obind (Visit sd i) (fun ti =>
           Val (ta ++ [91] ++ mark (String.eqb "_[?_]" "_[?_]") ++ ti ++ [93])))).
      rewrite V. cbn [obind]. rewrite Vi. reflexivity.
    - intros rest ts' Fo Lx. rewrite <- !app_assoc. apply L; [left; cbn; tauto|]. cbn [app]. apply lx_lbracket, lx_question.
      rewrite <- app_assoc. apply Li; [left; cbn; tauto|]. now apply lx_rbracket.
    - now apply ends_last.
    - now apply start_app.
    - intros Sm. apply small_app in Sm. destruct Sm as [Sm1 Sm]. apply small_cons, small_cons, small_app in Sm. destruct Sm as [Sm2 _].
      apply level_member; [now apply start_app|]. apply (opt_index_ok c (norm c a) ts (norm c i) tsi); auto. apply (Lvi Sm2).
    - intros _ Ld. apply neg_app; [exact S|]. apply N. exact Ld.
    - apply Z.leb_le. reflexivity.
  Qed.
  Lemma opt_select_case a f : c_optional c = true -> printable c a -> good a -> unary a = false -> field_ok c f ->
    good (ECall "_?._" None [a; EConst (VString (codes f))]).
  Proof.
    intros O P G U F. destruct (base_target c sd a P U G) as (t & ts & V & L & E & S & M & N).
    destruct (field_lex c f F) as (ft & Ft & Fe & Fd & Fl).
    apply (good_simple c sd (ECall "_?._" None [a; EConst (VString (codes f))]) (t ++ [46; 63] ++ FormatField f)
             (ts ++ [S_ Dot; S_ Question; ft])); try exact (eq_refl false).
    - change (Visit sd (ECall "_?._" None [a; EConst (VString (codes f))])) with
        (obind (nest (IsBinaryOrTernaryOperator a) (Visit sd a)) (fun ta =>
           Val (ta ++ [46; 63] ++ FormatField (of_codes (codes f))))).
      rewrite V. cbn [obind]. now rewrite of_codes_codes.
    - intros rest ts' Fo Lx. rewrite <- !app_assoc. cbn [app]. apply L; [right; split; reflexivity|].
      apply lx_dot; [reflexivity|]. apply lx_question. now apply Fl.
    - now apply ends_mid.
    - now apply start_app.
    - intros Sm. apply small_app in Sm. destruct Sm as [Sm _]. apply level_member; [now apply start_app|].
      apply (opt_select_ok c (norm c a) ts f ft); auto.
    - intros _ Ld. apply neg_app; [exact S|]. apply N. exact Ld.
    - apply Z.leb_le. reflexivity.
  Qed.

  (* ---- calls ---- *)
  Lemma visit_plain fn target args : plain fn -> Visit sd (ECall fn target args) =
    obind (match target with
           | Some t => obind (nest (IsBinaryOrTernaryOperator t) (Visit sd t)) (fun r => Val (r ++ [46]))
           | None => Val []
           end) (fun tt => obind (join_out comma_space (Visit sd) args) (fun ta => Val (tt ++ codes fn ++ [40] ++ ta ++ [41]))).
  Proof.
    intros H. destruct (plain_tables fn H) as (A & B & _ & D & E & F & _). cbn [Visit]. rewrite A, B, D, E, F. reflexivity.
  Qed.
  Lemma norm_plain fn args : plain fn -> norm c (ECall fn None args) = ECall fn None (map (norm c) args).
  Proof.
    intros H. destruct (plain_tables fn H) as (_ & _ & _ & _ & _ & _ & Lg). unfold norm. cbn [flat]. rewrite Lg. cbn [regroup].
    rewrite Lg. now rewrite map_map.
  Qed.
  Lemma call_case fn args : name_ok fn -> fn <> "_in_"%string -> global_macro fn (List.length args) = false ->
    Forall (fun a => printable c a /\ good a) args -> good (ECall fn None args).
  Proof.
    intros Nm Ni Gm F. pose proof (name_plain fn Nm Ni) as Pl. destruct (plain_tables fn Pl) as (_ & _ & Pr & _ & _ & _ & Lg).
    destruct (args_good c sd args F) as (t & tss & V & L & S & K).
    assert (X : exists dot s, fn = (if dot : bool then String "." s else s) /\ LexisIsIdentifier s = true).
    { destruct Nm as [H|[s [-> H]]]; [exists false, fn; auto|exists true, s; auto]. }
    destruct X as (dot & s & Ef & Hs). destruct (identifier_word s Hs) as [W R]. pose proof (reserved_keyword s R) as Kw.
    assert (Ec : codes fn = (if dot then [46] else []) ++ codes s) by (rewrite Ef; now destruct dot).
    apply (good_simple c sd (ECall fn None args) (codes fn ++ ([40] ++ t) ++ [41])
             ((if dot then [S_ Dot] else []) ++ TId s :: S_ LParen :: commas tss ++ [S_ RParen])).
    - exact Lg.
    - rewrite (visit_plain fn None args Pl). cbn [obind]. rewrite V. reflexivity.
    - intros rest ts' Fo Lx. rewrite Ec, <- !app_assoc. cbn [app].
      assert (Y : Lexes (codes s ++ 40 :: t ++ 41 :: rest) (TId s :: S_ LParen :: commas tss ++ S_ RParen :: ts')).
      { apply lx_id; try assumption; [left; cbn; tauto|]. apply lx_lparen. apply L; [left; cbn; tauto|]. now apply lx_rparen. }
      rewrite <- app_assoc. cbn [app]. destruct dot; cbn [app].
      + apply lx_dot; [now apply word_no_digit|]. exact Y.
      + exact Y.
    - rewrite Ec. apply ends_last; [|reflexivity]. pose proof (word_ends s W) as We. destruct dot; [|exact We].
      now apply (ends_app [46] (codes s)).
    - now destruct dot.
    - intros Sm. apply level_member; [now destruct dot|]. apply primary_member. rewrite (norm_plain fn args Pl).
      apply (call_ok c dot s (map (norm c) args) tss); [exact R| |exact S|].
      + apply K. apply small_app in Sm. destruct Sm as [_ Sm]. apply small_cons, small_cons, small_app in Sm. apply Sm.
      + rewrite <- Ef. unfold global_call. unfold global_macro in Gm. rewrite map_length, <- andb_assoc, Gm, andb_false_r. reflexivity.
    - intros _ _. now destruct dot.
    - cbn [lv]. rewrite Pr. lia.
  Qed.
  Lemma not_receiver_macro fn t xs : receiver_macro fn (List.length xs) = false ->
    receiver_call c fn t xs = Some (ECall fn (Some t) xs).
  Proof.
    unfold receiver_macro, receiver_call. cbn [existsb fst snd]. rewrite !orb_false_iff. intros (A & B & C & D & E & F & G & H & _).
    rewrite A, B, C, D, E, F, G, H, !andb_false_r. reflexivity.
  Qed.
  (* a target, a name and arguments *)
  Lemma lex_method t ts fn ta tsa : lexb t ts -> is_word fn = true -> keyword fn = false -> lexb ta tsa ->
    lexb (t ++ [46] ++ codes fn ++ [40] ++ ta ++ [41]) (ts ++ S_ Dot :: TId fn :: S_ LParen :: tsa ++ [S_ RParen]).
  Proof.
    intros L W K La rest ts' Fo Lx. rewrite <- !app_assoc. apply L.
    - right. split; [reflexivity|]. now apply word_no_digit.
    - cbn [app]. apply lx_dot; [now apply word_no_digit|]. apply lx_id; try assumption; [left; cbn; tauto|]. apply lx_lparen.
      rewrite <- app_assoc. apply La; [left; cbn; tauto|]. now apply lx_rparen.
  Qed.
  Lemma method_case fn t args : is_word fn = true -> keyword fn = false -> fn <> "_in_"%string ->
    receiver_macro fn (List.length args) = false -> printable c t -> good t -> unary t = false ->
    Forall (fun a => printable c a /\ good a) args -> good (ECall fn (Some t) args).
  Proof.
    intros W Kw Ni Rm P G U F. assert (Pl : plain fn) by (left; auto).
    destruct (plain_tables fn Pl) as (_ & _ & Pr & _ & _ & _ & Lg).
    destruct (args_good c sd args F) as (ta & tss & Va & La & Sa & Ka).
    destruct (base_target c sd t P U G) as (tt & ts & V & L & E & S & M & N).
    apply (good_simple c sd (ECall fn (Some t) args) (tt ++ [46] ++ codes fn ++ [40] ++ ta ++ [41])
             (ts ++ S_ Dot :: TId fn :: S_ LParen :: commas tss ++ [S_ RParen])).
    - exact I.
    - rewrite (visit_plain fn (Some t) args Pl). rewrite V. cbn [obind]. rewrite Va. cbn [obind]. now rewrite <- app_assoc.
    - now apply lex_method.
    - rewrite !app_assoc. split; [|now rewrite last_app_ne by discriminate]. destruct E as [E _]. now destruct tt.
    - now apply start_app.
    - intros Sm. apply small_app in Sm. destruct Sm as [Sm1 Sm2]. apply small_cons, small_cons, small_cons, small_app in Sm2.
      apply level_member; [now apply start_app|].
      apply (method_ok c (norm c t) ts fn (map (norm c) args) tss); auto; [apply Ka, Sm2|].
      rewrite not_receiver_macro by (now rewrite map_length). unfold norm. cbn [flat regroup]. now rewrite map_map.
    - intros _ Ld. apply neg_app; [exact S|]. apply N. exact Ld.
    - cbn [lv]. rewrite Pr. lia.
  Qed.

  (* ---- lists and maps ---- *)
  Lemma lexb_mark o t ts : lexb t ts -> lexb (mark o ++ t) (mark_ts o ++ ts).
  Proof.
    intros L rest ts' Fo Lx. rewrite <- !app_assoc. destruct o; cbn [mark mark_ts app]; [apply lx_question|]; now apply L.
  Qed.
  Lemma list_case l : Forall (fun p => marks_ok c (fst p) /\ printable c (snd p) /\ good (snd p)) l -> good (EList l).
  Proof.
    intros H.
    destruct (join_good (fun p => match p with (o, a) => obind (Visit sd a) (fun r => Val (mark o ++ r)) end)
       (fun p us => exists ts, us = mark_ts (fst p) ++ ts /\ (small ts -> expr_ok c (norm c (snd p)) ts) /\ start_ok ts /\ mark_ok c (fst p)) l)
      as (t & tss & V & F & L).
    { eapply Forall_impl; [|exact H]. intros [o a] (M & _ & G). cbn [fst snd] in *.
      destruct G as (t & ts & V & L & E & S & _ & _ & Lv & _). exists (mark o ++ t), (mark_ts o ++ ts). rewrite V. cbn [obind].
      split; [reflexivity|]. split; [now apply lexb_mark|]. exists ts. split; [reflexivity|]. split; [|split; [exact S|exact M]].
      intros Sm. apply (Lv Sm). }
    apply (good_simple c sd (EList l) ([91] ++ t ++ [93]) (S_ LBracket :: commas tss ++ [S_ RBracket])); try easy.
    - cbn [Visit]. rewrite V. reflexivity.
    - intros rest ts' Fo Lx. cbn [app]. rewrite <- !app_assoc. apply lx_lbracket. apply L; [left; cbn; tauto|]. now apply lx_rbracket.
    - split; [easy|]. now rewrite app_assoc, last_app_ne by discriminate.
    - intros Sm. apply small_cons, small_app in Sm. destruct Sm as [Sm _].
      assert (X : forall ts, In ts tss -> small ts).
      { intros ts Hts. pose proof (commas_length tss ts Hts). unfold small in *. lia. }
      apply level_member; [easy|]. apply primary_member. unfold norm. cbn [flat regroup]. apply list_ok. rewrite map_map.
      clear -F X. induction F as [|[o a] us l tss (ts & -> & He & S & M) _ IH]; cbn [map]; constructor.
      + exists ts. cbn [fst snd] in *. split; [reflexivity|]. split; [|auto]. apply He.
        apply (small_app (mark_ts o)), X. now left.
      + apply IH. intros u Hu. apply X. now right.
  Qed.
  Lemma map_case l : Forall (fun p => marks_ok c (fst p) /\ (printable c (fst (snd p)) /\ good (fst (snd p))) /\
    (printable c (snd (snd p)) /\ good (snd (snd p)))) l -> good (EMap l).
  Proof.
    intros H.
    destruct (join_good (fun p => match p with (o, (k, v)) =>
          obind (Visit sd k) (fun tk => obind (Visit sd v) (fun tv => Val (mark o ++ tk ++ [58; 32] ++ tv))) end)
       (fun p us => exists tk tv, us = mark_ts (fst p) ++ tk ++ S_ Colon :: tv /\ (small tk -> expr_ok c (norm c (fst (snd p))) tk) /\
          (small tv -> expr_ok c (norm c (snd (snd p))) tv) /\ start_ok tk /\ mark_ok c (fst p)) l)
      as (t & tss & V & F & L).
    { eapply Forall_impl; [|exact H]. intros [o [k v]] (M & [_ Gk] & [_ Gv]). cbn [fst snd] in *.
      destruct Gk as (t & ts & V & L & E & S & _ & _ & Lv & _).
      destruct Gv as (t' & ts' & V' & L' & E' & S' & _ & _ & Lv' & _).
      exists (mark o ++ t ++ [58; 32] ++ t'), (mark_ts o ++ ts ++ S_ Colon :: ts'). rewrite V. cbn [obind]. rewrite V'. cbn [obind].
      split; [reflexivity|]. split.
      - apply lexb_mark. apply lexb_sep; try assumption; [|intros r; left; cbn; tauto].
        intros rest us Hl. cbn [app]. apply lx_colon, lx_space, Hl.
      - exists ts, ts'. split; [reflexivity|]. split; [intros Sm; apply (Lv Sm)|]. split; [intros Sm; apply (Lv' Sm)|]. auto. }
    apply (good_simple c sd (EMap l) ([123] ++ t ++ [125]) (S_ LBrace :: commas tss ++ [S_ RBrace])); try easy.
    - cbn [Visit]. rewrite V. reflexivity.
    - intros rest ts' Fo Lx. cbn [app]. rewrite <- !app_assoc. apply lx_lbrace. apply L; [left; cbn; tauto|]. now apply lx_rbrace.
    - split; [easy|]. now rewrite app_assoc, last_app_ne by discriminate.
    - intros Sm. apply small_cons, small_app in Sm. destruct Sm as [Sm _].
      assert (X : forall ts, In ts tss -> small ts).
      { intros ts Hts. pose proof (commas_length tss ts Hts). unfold small in *. lia. }
      apply level_member; [easy|]. apply primary_member. unfold norm. cbn [flat regroup]. apply map_ok. rewrite map_map.
      clear -F X. induction F as [|[o [k v]] us l tss (tk & tv & -> & Hk & Hv & S & M) _ IH]; cbn [map]; constructor.
      + exists tk, tv. cbn [fst snd] in *. split; [reflexivity|].
        assert (Sm : small (mark_ts o ++ tk ++ S_ Colon :: tv)) by (apply X; now left).
        apply small_app in Sm. destruct Sm as [_ Sm]. apply small_app in Sm. destruct Sm as [Sm1 Sm2]. apply small_cons in Sm2. auto.
      + apply IH. intros u Hu. apply X. now right.
  Qed.

  (* ---- macros ---- *)
  Lemma variable_good x : variable_ok x -> printable c (EIdent x) /\ good (EIdent x).
  Proof. intros [H _]. assert (name_ok x) by (left; exact H). split; [now constructor|now apply ident_case]. Qed.
  Lemma simple_variable name x k : variable_ok x -> simple_var name (EIdent x) k = k x.
  Proof.
    intros [H N]. destruct (identifier_word x H) as [W _]. destruct x as [|a x]; [discriminate|]. unfold simple_var, IsSimpleIdentifier.
    destruct (Ascii.eqb_spec a "."%char) as [->|_]; [discriminate|]. destruct (String.eqb_spec (String a x) kDeprecatedAccu); [contradiction|reflexivity].
  Qed.
  Lemma norm_ident x : norm c (EIdent x) = EIdent x. Proof. reflexivity. Qed.
  (* a macro call is read as e' *)
  Lemma macro_case e range name args : (lv e = 0) -> (leading_number e = leading_number range) ->
    match e with EComp _ _ _ _ _ _ _ _ => True | _ => False end ->
    is_word name = true -> keyword name = false ->
    printable c range -> good range -> unary range = false -> Forall (fun a => printable c a /\ good a) args ->
    (forall tr ta, nest (IsComplexOperator range) (Visit sd range) = Val tr -> join_out comma_space (Visit sd) args = Val ta ->
       Visit sd e = Val (tr ++ [46] ++ codes name ++ [40] ++ ta ++ [41])) ->
    receiver_call c name (norm c range) (map (norm c) args) = Some (norm c e) ->
    good e.
  Proof.
    intros Hl Hn He W Kw P G U F Hv Hr.
    destruct (args_good c sd args F) as (ta & tss & Va & La & Sa & Ka).
    destruct (simple_target c sd range P U G) as (tt & ts & V & L & E & S & M & N).
    apply (good_simple c sd e (tt ++ [46] ++ codes name ++ [40] ++ ta ++ [41])
             (ts ++ S_ Dot :: TId name :: S_ LParen :: commas tss ++ [S_ RParen])); try lia.
    - destruct e; try contradiction He; exact I.
    - now apply Hv.
    - now apply lex_method.
    - rewrite !app_assoc. split; [|now rewrite last_app_ne by discriminate]. destruct E as [E _]. now destruct tt.
    - now apply start_app.
    - intros Sm. apply small_app in Sm. destruct Sm as [Sm1 Sm2]. apply small_cons, small_cons, small_cons, small_app in Sm2.
      apply level_member; [now apply start_app|].
      apply (method_ok c (norm c range) ts name (map (norm c) args) tss); auto. apply Ka, Sm2.
    - intros _ Ld. apply neg_app; [exact S|]. apply N. now rewrite <- Hn.
  Qed.
  Lemma join2 x p t : join_out comma_space (Visit sd) [EIdent x; p] = Val t ->
    exists tp, Visit sd p = Val tp /\ t = codes x ++ comma_space ++ tp.
  Proof. cbn [join_out Visit obind]. destruct (Visit sd p) as [tp| |]; try discriminate. cbn [obind]. intros H. injection H as <-. eauto. Qed.
  Lemma join3 x p f t : join_out comma_space (Visit sd) [EIdent x; p; f] = Val t ->
    exists tp tf, Visit sd p = Val tp /\ Visit sd f = Val tf /\ t = codes x ++ comma_space ++ tp ++ comma_space ++ tf.
  Proof.
    cbn [join_out Visit obind]. destruct (Visit sd p) as [tp| |]; try discriminate. cbn [obind].
    destruct (Visit sd f) as [tf| |]; try discriminate. cbn [obind]. intros H. injection H as <-. eauto 10.
  Qed.
  Ltac two P G V := constructor; [now apply variable_good|constructor; [split; [exact P|exact G]|constructor]].
  Lemma all_case x range p : c_macros c = true -> variable_ok x -> printable c range -> good range -> unary range = false ->
    printable c p -> good p -> good (all_comp accu_name x "" range p).
  Proof.
    intros Mc V P G U Pp Gp. apply (macro_case _ range "all" [EIdent x; p]); try easy; [two Pp Gp V| |].
    - intros tr ta Vr Va. destruct (join2 x p ta Va) as (tp & Vp & ->).
      unfold all_comp. cbn [Visit]. rewrite Vr. cbn [obind NewCall call_function]. rewrite Vp. cbn [String.eqb Ascii.eqb Bool.eqb obind is_call NewAccuIdent]. now rewrite <- !app_assoc.
    - unfold receiver_call. rewrite Mc. cbn [map]. rewrite norm_ident. cbn [andb List.length Nat.eqb String.eqb Ascii.eqb Bool.eqb].
      unfold ExpandAllMacro. rewrite simple_variable by exact V. reflexivity.
  Qed.
  Lemma exists_case x range p : c_macros c = true -> variable_ok x -> printable c range -> good range -> unary range = false ->
    printable c p -> good p -> good (exists_comp accu_name x "" range p).
  Proof.
    intros Mc V P G U Pp Gp. apply (macro_case _ range "exists" [EIdent x; p]); try easy; [two Pp Gp V| |].
    - intros tr ta Vr Va. destruct (join2 x p ta Va) as (tp & Vp & ->).
      unfold exists_comp. cbn [Visit]. rewrite Vr. cbn [obind NewCall call_function]. rewrite Vp. cbn [String.eqb Ascii.eqb Bool.eqb obind is_call NewAccuIdent]. now rewrite <- !app_assoc.
    - unfold receiver_call. rewrite Mc. cbn [map]. rewrite norm_ident. cbn [andb List.length Nat.eqb String.eqb Ascii.eqb Bool.eqb].
      unfold ExpandExistsMacro. rewrite simple_variable by exact V. reflexivity.
  Qed.
  Lemma exists_one_case x range p : c_macros c = true -> variable_ok x -> printable c range -> good range -> unary range = false ->
    printable c p -> good p -> good (exists_one_comp accu_name x "" range p).
  Proof.
    intros Mc V P G U Pp Gp. apply (macro_case _ range "exists_one" [EIdent x; p]); try easy; [two Pp Gp V| |].
    - intros tr ta Vr Va. destruct (join2 x p ta Va) as (tp & Vp & ->).
      unfold exists_one_comp. cbn [Visit]. rewrite Vr. cbn [obind NewCall call_function]. rewrite Vp. cbn [String.eqb Ascii.eqb Bool.eqb obind is_call NewAccuIdent]. now rewrite <- !app_assoc.
    - unfold receiver_call. rewrite Mc. cbn [map]. rewrite norm_ident. cbn [andb List.length Nat.eqb String.eqb Ascii.eqb Bool.eqb].
      unfold ExpandExistsOneMacro. rewrite simple_variable by exact V. reflexivity.
  Qed.
  Lemma map2_case x range p : c_macros c = true -> variable_ok x -> printable c range -> good range -> unary range = false ->
    printable c p -> good p -> good (map_comp accu_name x "" range p).
  Proof.
    intros Mc V P G U Pp Gp. apply (macro_case _ range "map" [EIdent x; p]); try easy; [two Pp Gp V| |].
    - intros tr ta Vr Va. destruct (join2 x p ta Va) as (tp & Vp & ->).
      unfold map_comp, NewList. cbn [Visit]. rewrite Vr. cbn [obind NewCall call_function map]. rewrite Vp. cbn [String.eqb Ascii.eqb Bool.eqb obind is_call NewAccuIdent]. now rewrite <- !app_assoc.
    - unfold receiver_call. rewrite Mc. cbn [map]. rewrite norm_ident. cbn [andb List.length Nat.eqb String.eqb Ascii.eqb Bool.eqb].
      unfold ExpandMap2Macro. rewrite simple_variable by exact V. reflexivity.
  Qed.
  Lemma map3_case x range p f : c_macros c = true -> variable_ok x -> printable c range -> good range -> unary range = false ->
    printable c p -> good p -> printable c f -> good f -> good (map_filter_comp accu_name x "" range p f).
  Proof.
    intros Mc V P G U Pp Gp Pf Gf. apply (macro_case _ range "map" [EIdent x; p; f]); try easy.
    - constructor; [now apply variable_good|]. constructor; [auto|]. constructor; [auto|constructor].
    - intros tr ta Vr Va. destruct (join3 x p f ta Va) as (tp & tf & Vp & Vf & ->).
      unfold map_filter_comp, NewList. cbn [Visit]. rewrite Vr. cbn [obind NewCall call_function map]. rewrite Vp, Vf. cbn [String.eqb Ascii.eqb Bool.eqb obind is_call NewAccuIdent]. now rewrite <- !app_assoc.
    - unfold receiver_call. rewrite Mc. cbn [map]. rewrite norm_ident. cbn [andb List.length Nat.eqb String.eqb Ascii.eqb Bool.eqb].
      unfold ExpandMap3Macro. rewrite simple_variable by exact V. reflexivity.
  Qed.

  Theorem printable_good : forall e, printable c e -> good e.
  Proof.
    apply printable_ind'.
    - exact const_case.
    - exact ident_case.
    - intros o f P G. now apply select_good.
    - intros o f M P G. now apply has_good.
    - intros a P G. now apply not_good.
    - intros a P G. now apply neg_good.
    - intros fn l r I Pl Gl Pr Gr. now apply binary_good.
    - intros fn args Lg N F. now apply logical_good.
    - intros x y z Px Gx Py Gy Pz Gz. now apply cond_good.
    - intros a i Pa Ga U _ Gi. now apply index_case.
    - intros a i O Pa Ga U _ Gi. now apply opt_index_case.
    - intros a f O Pa Ga U F. now apply opt_select_case.
    - intros fn args Nm Ni Gm F. now apply call_case.
    - intros fn t args W K Ni R P G U F. now apply method_case.
    - exact list_case.
    - exact map_case.
    - exact all_case.
    - exact exists_case.
    - exact exists_one_case.
    - exact map2_case.
    - exact map3_case.
  Qed.
  Lemma Lexes_length s ts : Lexes s ts -> (List.length ts <= List.length s)%nat.
  Proof. induction 1 as [|s o r ts H L _ IH]; [reflexivity|]. destruct o; cbn [add_token List.length]; lia. Qed.
  Lemma span_none f a t : f a = false -> span f (a :: t) = ([], a :: t).
  Proof. intros H. cbn [span]. now rewrite H. Qed.
  Lemma strip_ends t : ends t -> strip t = t.
  Proof.
    intros [A B]. unfold strip. destruct t as [|a t]; [destruct A|]. destruct A as [A _]. rewrite (span_none _ a t A). cbn [snd].
    destruct (rev (a :: t)) as [|z r] eqn:R.
    - apply (f_equal (@rev Z)) in R. rewrite rev_involutive in R. discriminate.
    - assert (Hz : z = last (a :: t) 0).
      { rewrite <- (rev_involutive (a :: t)), R. cbn [rev]. now rewrite last_last. }
      rewrite <- Hz in B. rewrite (span_none _ z r B). cbn [snd]. rewrite <- R. apply rev_involutive.
  Qed.
  Theorem unparse_parse e : printable c e -> exists t, Unparse sd e = Val t /\
    (Z.of_nat (List.length t) <= 2 ^ 30 -> Parse c t = Some (norm c e)).
  Proof.
    intros P. destruct (printable_good e P) as (t & ts & V & L & E & S & _ & _ & Lv & _). exists t.
    unfold Unparse. rewrite V. cbn [obind]. rewrite (strip_ends t E). split; [reflexivity|]. intros Hl.
    specialize (L [] [] I Lx_nil). rewrite !app_nil_r in L. pose proof (Lexes_length _ _ L) as Ln.
    unfold Parse. rewrite (Lexes_lex _ _ L). unfold parse_tokens.
    assert (Sm : small ts) by (unfold small; lia).
    pose proof (l_expr _ _ _ _ _ _ (Lv Sm) (Datatypes.S (List.length ts)) [] ltac:(lia) I) as X. rewrite app_nil_r in X.
    rewrite X. reflexivity.
  Qed.
  (* a constant, of whatever length *)
  Lemma const_parse v : const_ok v -> exists t, Unparse sd (EConst v) = Val t /\ Parse c t = Some (EConst v).
  Proof.
    intros H. destruct (const_good c sd v H) as (t & ts & V & L & E & S & P & N). exists t.
    unfold Unparse. cbn [Visit]. rewrite V. cbn [obind]. rewrite (strip_ends t E). split; [reflexivity|].
    specialize (L [] [] I Lx_nil). rewrite !app_nil_r in L.
    unfold Parse. rewrite (Lexes_lex _ _ L). unfold parse_tokens.
    assert (Lv : Level c 0 (EConst v) [EConst v] [EConst v] ts) by (apply level_member; [exact S|now apply primary_member]).
    pose proof (l_expr _ _ _ _ _ _ Lv (Datatypes.S (List.length ts)) [] ltac:(lia) I) as X.
    rewrite app_nil_r in X. rewrite X. reflexivity.
  Qed.
End Main.
