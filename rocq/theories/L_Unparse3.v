(* The round trip of the unparser: every printable expression prints to a text
   whose tokens are read back. *)
From Coq Require Import ZArith String Ascii List Bool Lia ZifyBool.
From Verif Require Import Base M_Overflow M_Number M_Utf8 S_Utf8 M_Strings M_Attr M_Value M_Logic M_Expr
  M_Macro M_Balancer M_Namespace.
From Verif Require Import M_Lex M_Parse M_Unparse S_Unparse L_Lex L_LexStr L_Parse L_Unparse1 L_Unparse2.
Import ListNotations.
Open Scope list_scope.
Open Scope Z_scope.

Section Main.
  Variable c : config.
  Variable sd : double -> list Z.

  Record Level (k : Z) (x : expr) (la lo : list expr) (ts : list token) : Prop := mkLevel {
    l_member : k <= 1 -> member_ok c x ts;
    l_unary : k <= 2 -> unary_ok c x ts;
    l_times : k <= 3 -> times_ok c x ts;
    l_plus : k <= 4 -> plus_ok c x ts;
    l_rel : k <= 5 -> rel_ok c x ts;
    l_and : k <= 6 -> and_ok c la ts;
    l_or : k <= 7 -> or_ok c lo ts;
    l_done : k <= 7 -> or_done c x ts;
    l_expr : expr_ok c x ts
  }.
  Ltac fin := constructor; intros; try (exfalso; lia); first [assumption|match goal with H : _ <= _ -> ?G |- ?G => apply H; lia end].
  Lemma start_ne ts : start_ok ts -> ts <> [].
  Proof. now destruct ts. Qed.
  Lemma level_expr k x la lo ts : 8 <= k -> expr_ok c x ts -> Level k x la lo ts.
  Proof. intros K H. constructor; try lia. exact H. Qed.
  Lemma level_or k x la lo ts : 7 <= k -> start_ok ts -> or_ok c lo ts -> balanced c "_||_" lo = Some x -> Level k x la lo ts.
  Proof.
    intros K S H B. pose proof (or_finish c lo x ts H B) as D. constructor; intros; try lia; auto.
    apply or_expr; [now apply start_ne|exact D].
  Qed.
  Lemma level_and k x la ts : 6 <= k -> start_ok ts -> and_ok c la ts -> balanced c "_&&_" la = Some x -> Level k x la [x] ts.
  Proof.
    intros K S H B. pose proof (and_or c la x ts H B) as O.
    destruct (level_or 7 x la [x] ts ltac:(lia) S O (balanced_single _ _ _)). fin.
  Qed.
  Lemma level_rel k x ts : 5 <= k -> start_ok ts -> rel_ok c x ts -> Level k x [x] [x] ts.
  Proof.
    intros K S H. pose proof (rel_and c x ts H) as O.
    destruct (level_and 6 x [x] ts ltac:(lia) S O (balanced_single _ _ _)). fin.
  Qed.
  Lemma level_plus k x ts : 4 <= k -> start_ok ts -> plus_ok c x ts -> Level k x [x] [x] ts.
  Proof.
    intros K S H. pose proof (plus_rel c x ts H) as O. destruct (level_rel 5 x ts ltac:(lia) S O). fin.
  Qed.
  Lemma level_times k x ts : 3 <= k -> start_ok ts -> times_ok c x ts -> Level k x [x] [x] ts.
  Proof.
    intros K S H. pose proof (times_plus c x ts H) as O. destruct (level_plus 4 x ts ltac:(lia) S O). fin.
  Qed.
  Lemma level_unary k x ts : 2 <= k -> start_ok ts -> unary_ok c x ts -> Level k x [x] [x] ts.
  Proof.
    intros K S H. pose proof (unary_times c x ts H) as O. destruct (level_times 3 x ts ltac:(lia) S O). fin.
  Qed.
  Lemma level_member k x ts : start_ok ts -> member_ok c x ts -> Level k x [x] [x] ts.
  Proof.
    intros S H. pose proof (member_unary c x ts H) as O. destruct (level_unary 2 x ts ltac:(lia) S O). fin.
  Qed.

  Definition small (ts : list token) : Prop := Z.of_nat (List.length ts) <= 2 ^ 30.
  Definition operands (fn : string) (e : expr) : list expr := map (regroup c) (parts fn (flat e)).
  (* [o]: what is printed for e, at level k *)
  Definition Good (o : out (list Z)) (k : Z) (e : expr) (la lo : list expr) : Prop :=
    exists t ts, o = Val t /\ lexb t ts /\ ends t /\ start_ok ts /\
      (List.length la <= List.length ts)%nat /\ (List.length lo <= List.length ts)%nat /\
      (small ts -> Level k (norm c e) la lo ts) /\
      (k <= 1 -> k = -1 \/ leading_number e = false -> neg_start ts).
  Definition good (e : expr) : Prop := Good (Visit sd e) (lv e) e (operands "_&&_" e) (operands "_||_" e).
  (* -1: in parentheses *)
  Lemma nest_good b e : good e ->
    Good (nest b (Visit sd e)) (if b then -1 else lv e) e
      (if b then [norm c e] else operands "_&&_" e) (if b then [norm c e] else operands "_||_" e).
  Proof.
    intros H. destruct b.
    - destruct H as (t & ts & V & L & E & S & Ca & Co & Lv & N).
      exists ([40] ++ t ++ [41]), (S_ LParen :: ts ++ [S_ RParen]). rewrite V. unfold nest; cbn [obind].
      repeat match goal with |- _ /\ _ => split end; try reflexivity; try easy; try (cbn; lia).
      + intros rest ts' F Lx. cbn [app]. rewrite <- !app_assoc. cbn [app]. apply lx_lparen. apply L; [left; cbn; tauto|].
        now apply lx_rparen.
      + split; [easy|]. now rewrite app_assoc, last_app_ne by discriminate.
      + intros Sm. apply level_member; [easy|]. apply primary_member, paren_ok. apply Lv.
        unfold small in *. cbn [List.length] in Sm. rewrite app_length in Sm. lia.
    - destruct H as (t & ts & V & X). exists t, ts. rewrite V. unfold nest; cbn [obind]. split; [reflexivity|exact X].
  Qed.
  Lemma small_app a b : small (a ++ b) -> small a /\ small b.
  Proof. unfold small. rewrite app_length. lia. Qed.
  Lemma small_cons a b : small (a :: b) -> small b.
  Proof. unfold small. cbn [List.length]. lia. Qed.
  Lemma ends_app a b : ends a -> ends b -> ends (a ++ b).
  Proof.
    intros [A _] [B1 B2]. split; [now destruct a|]. rewrite last_app_ne; [exact B2|]. now destruct b.
  Qed.
  Lemma ends_last a l b : ends a -> ascii_space b = false -> ends (a ++ l ++ [b]).
  Proof. intros [A _] B. split; [now destruct a|]. rewrite app_assoc, last_app_ne by discriminate. exact B. Qed.
  Lemma ends_mid a l b : ends a -> ends b -> ends (a ++ l ++ b).
  Proof.
    intros [A _] [B1 B2]. split; [now destruct a|]. rewrite app_assoc, last_app_ne; [exact B2|]. now destruct b.
  Qed.
  Lemma start_app a b : start_ok a -> start_ok (a ++ b).
  Proof. destruct a as [|t a]; [easy|]. destruct t as [[]| | | | | | | | | |]; easy. Qed.
  Lemma neg_app a b : start_ok a -> neg_start a -> neg_start (a ++ b).
  Proof. destruct a as [|t a]; [easy|]. destruct t as [[]| | | | | | | | | |]; easy. Qed.
  Lemma follows_dot f : (forall r, match f ++ r with d :: _ => is_digit d = false | [] => True end) -> forall r, follows (46 :: f ++ r).
  Proof. intros H r. right. split; [reflexivity|]. apply H. Qed.
  Lemma simple_ops e : match e with ECall fn None _ => logical fn = false | _ => True end ->
    operands "_&&_" e = [norm c e] /\ operands "_||_" e = [norm c e].
  Proof. intros H. unfold operands. rewrite !(not_logical_parts e H) by reflexivity. split; reflexivity. Qed.
  (* the frame of the cases below level 6 *)
  Lemma good_simple e t ts : match e with ECall fn None _ => logical fn = false | _ => True end ->
    Visit sd e = Val t -> lexb t ts -> ends t -> start_ok ts ->
    (small ts -> Level (lv e) (norm c e) [norm c e] [norm c e] ts) ->
    (lv e <= 1 -> leading_number e = false -> neg_start ts) -> 0 <= lv e -> good e.
  Proof.
    intros H V L E S Lv N K. unfold good. destruct (simple_ops e H) as [-> ->]. exists t, ts.
    assert (1 <= List.length ts)%nat by (destruct ts; [destruct S|cbn; lia]).
    repeat match goal with |- _ /\ _ => split end; try assumption; try apply E; try (cbn; lia).
    intros K1 [K2|N1]; [lia|auto].
  Qed.
  Ltac decomp H := destruct H as (?t & ?ts & ?V & ?L & ?E & ?S & ?Ca & ?Co & ?Lv & ?N).

  Lemma lexb_sep t ts sep x t' ts' : lexb t ts -> (forall rest us, Lexes rest us -> Lexes (sep ++ rest) (S_ x :: us)) ->
    (forall r, follows (sep ++ r)) -> lexb t' ts' -> lexb (t ++ sep ++ t') (ts ++ S_ x :: ts').
  Proof.
    intros L Sx F L' rest us Fo Lx. rewrite <- !app_assoc. apply L; [apply F|]. cbn [app]. apply Sx. now apply L'.
  Qed.
  (* ---- lists ---- *)
  Lemma join_good {A} (f : A -> out (list Z)) (Q : A -> list token -> Prop) : forall l,
    Forall (fun a => exists t ts, f a = Val t /\ lexb t ts /\ Q a ts) l ->
    exists t tss, join_out comma_space f l = Val t /\ Forall2 Q l tss /\ lexb t (commas tss).
  Proof.
    intros l H. induction H as [|a l (t & ts & V & L & Hq) _ (t' & tss & V' & F & L')].
    - exists [], []. split; [reflexivity|]. split; [constructor|]. intros rest ts' Fo Lx. exact Lx.
    - assert (X : join_out comma_space f (a :: l) = match l with [] => Val t | _ => Val (t ++ comma_space ++ t') end).
      { change (join_out comma_space f (a :: l)) with
          (obind (f a) (fun t => match l with [] => Val t | _ => obind (join_out comma_space f l) (fun r => Val (t ++ comma_space ++ r)) end)).
        rewrite V. cbn [obind]. destruct l; [reflexivity|]. rewrite V'. reflexivity. }
      rewrite X. destruct l as [|b l].
      + exists t, [ts]. split; [reflexivity|]. split; [repeat constructor; exact Hq|exact L].
      + exists (t ++ comma_space ++ t'), (ts :: tss). split; [reflexivity|]. split; [now constructor|].
        inversion F as [|b' us l' tss' Hb Hl]; subst.
        change (commas (ts :: us :: tss')) with (ts ++ S_ Comma :: commas (us :: tss')).
        intros rest ts' Fo Lx. rewrite <- !app_assoc. apply L; [left; cbn; tauto|]. cbn [app comma_space].
        apply lx_comma, lx_space, L'; assumption.
  Qed.
  Lemma args_good args : Forall (fun a => printable c a /\ good a) args ->
    exists t tss, join_out comma_space (Visit sd) args = Val t /\ lexb t (commas tss) /\ Forall start_ok tss /\
      (small (commas tss) -> Forall2 (expr_ok c) (map (norm c) args) tss).
  Proof.
    intros H.
    destruct (join_good (Visit sd) (fun a ts => start_ok ts /\ (small ts -> expr_ok c (norm c a) ts)) args)
      as (t & tss & V & F & L).
    { eapply Forall_impl; [|exact H]. intros a [_ G]. decomp G. exists t, ts. split; [assumption|]. split; [assumption|].
      split; [assumption|]. intros Sm. apply (Lv Sm). }
    exists t, tss. split; [exact V|]. split; [exact L|]. split.
    - clear -F. induction F as [|a ts l tss [S _] _ IH]; constructor; assumption.
    - intros Sm. assert (X : forall ts, In ts tss -> small ts).
      { intros ts Hts. pose proof (commas_length tss ts Hts). unfold small in *. lia. }
      clear -F X. induction F as [|a ts l tss [_ He] _ IH]; constructor.
      + apply He, X. now left.
      + apply IH. intros u Hu. apply X. now right.
  Qed.

  (* ---- targets ---- *)
  Lemma target_good b o : (b = false -> lv o <= 1) -> good o ->
    exists t ts, nest b (Visit sd o) = Val t /\ lexb t ts /\ ends t /\ start_ok ts /\
      (small ts -> member_ok c (norm c o) ts) /\ (leading_number o = false -> neg_start ts).
  Proof.
    intros Hb G. pose proof (nest_good b o G) as H. decomp H. exists t, ts.
    repeat match goal with |- _ /\ _ => split end; try assumption; try apply E.
    - intros Sm. apply (Lv Sm). destruct b; [lia|auto].
    - intros Ld. apply N; [destruct b; [lia|auto]|now right].
  Qed.
  Lemma base_target o : printable c o -> unary o = false -> good o ->
    exists t ts, nest (IsBinaryOrTernaryOperator o) (Visit sd o) = Val t /\ lexb t ts /\ ends t /\ start_ok ts /\
      (small ts -> member_ok c (norm c o) ts) /\ (leading_number o = false -> neg_start ts).
  Proof. intros P U. apply target_good. now apply base_level with (c := c). Qed.
  Lemma simple_target o : printable c o -> unary o = false -> good o ->
    exists t ts, nest (IsComplexOperator o) (Visit sd o) = Val t /\ lexb t ts /\ ends t /\ start_ok ts /\
      (small ts -> member_ok c (norm c o) ts) /\ (leading_number o = false -> neg_start ts).
  Proof. intros P U. apply target_good. now apply simple_level with (c := c). Qed.
  Ltac base H o := let t := fresh "t" in destruct H as (t & ?ts & ?V & ?L & ?E & ?S & ?M & ?N).

  Lemma select_good o f : printable c o -> good o -> unary o = false -> field_ok c f -> good (ESelect o f false).
  Proof.
    intros P G U F. destruct (base_target o P U G) as (t & ts & V & L & E & S & M & N).
    destruct (field_lex c f F) as (ft & Ft & Fe & Fd & Fl).
    apply (good_simple (ESelect o f false) (t ++ [46] ++ FormatField f) (ts ++ [S_ Dot; ft])); cbn [lv leading_number]; try lia; auto.
    - cbn [Visit negb andb]. rewrite V. cbn [obind app]. now rewrite app_nil_r.
    - intros rest ts' Fo Lx. rewrite <- !app_assoc. cbn [app]. apply L; [now apply follows_dot|].
      apply lx_dot; [apply Fd|]. now apply Fl.
    - now apply ends_mid.
    - now apply start_app.
    - intros Sm. apply small_app in Sm. destruct Sm as [Sm _]. apply level_member; [now apply start_app|].
      apply select_ok; auto.
    - intros _ Ld. apply neg_app; auto.
  Qed.
  Lemma has_good o f : c_macros c = true -> printable c o -> good o -> operator_call o = false -> field_ok c f -> good (ESelect o f true).
  Proof.
    intros Mc P G U F. destruct (target_good false o (fun _ => operator_level c o P U) G) as (t & ts & V & L & E & S & M & N).
    destruct (field_lex c f F) as (ft & Ft & Fe & Fd & Fl).
    apply (good_simple (ESelect o f true) (codes "has(" ++ t ++ [46] ++ FormatField f ++ [41])
             (TId "has" :: S_ LParen :: commas [ts ++ [S_ Dot; ft]] ++ [S_ RParen])); cbn [lv leading_number]; try lia; auto; try easy.
    - cbn [Visit negb andb]. unfold nest in *. rewrite V. reflexivity.
    - intros rest ts' Fo Lx. rewrite <- !app_assoc.
      change (codes "has(" ++ t ++ [46] ++ FormatField f ++ [41] ++ rest)
        with (codes "has" ++ 40 :: t ++ 46 :: FormatField f ++ 41 :: rest).
      cbn [app commas]. apply lx_id; [reflexivity|reflexivity|left; cbn; tauto|]. apply lx_lparen.
      rewrite <- !app_assoc. cbn [app]. apply L; [now apply follows_dot|]. apply lx_dot; [apply Fd|].
      apply Fl; [left; cbn; tauto|]. now apply lx_rparen.
    - split; [easy|]. rewrite !app_assoc, last_app_ne by discriminate. reflexivity.
    - intros Sm. assert (Sm' : small ts).
      { unfold small in *. cbn [List.length commas] in Sm. rewrite !app_length in Sm. lia. }
      apply level_member; [easy|]. apply primary_member.
      apply (call_ok c false "has" [ESelect (norm c o) f false] [ts ++ [S_ Dot; ft]]); [reflexivity| |repeat constructor; now apply start_app|].
      + constructor; [|constructor].
        assert (X : Level 0 (ESelect (norm c o) f false) [ESelect (norm c o) f false] [ESelect (norm c o) f false] (ts ++ [S_ Dot; ft])).
        { apply level_member; [now apply start_app|]. apply select_ok; auto. }
        apply X.
      + unfold global_call. rewrite Mc. reflexivity.
  Qed.
  Lemma not_good a : printable c a -> good a -> unary a = false -> good (ECall "!_" None [a]).
  Proof.
    intros P G U. destruct (simple_target a P U G) as (t & ts & V & L & E & S & M & N).
    apply (good_simple (ECall "!_" None [a]) (33 :: t) (S_ Bang :: ts)); try reflexivity; try easy.
    - cbn [Visit LookupUnaryOperator String.eqb Ascii.eqb Bool.eqb]. rewrite V. reflexivity.
    - intros rest ts' Fo Lx. cbn [app]. destruct E as [E _]. destruct t as [|x t]; [destruct E|]. destruct E as [_ E].
      cbn [app]. apply lx_bang; [exact E|]. now apply L.
    - change (33 :: t) with ([33] ++ t). apply (ends_app [33] t); [easy|exact E].
    - intros Sm. apply small_cons in Sm. apply level_unary; [reflexivity|easy|]. apply not_ok; auto.
  Qed.
  Lemma neg_good a : printable c a -> good a -> unary a = false -> leading_number a = false -> good (ECall "-_" None [a]).
  Proof.
    intros P G U Ld. destruct (simple_target a P U G) as (t & ts & V & L & E & S & M & N).
    apply (good_simple (ECall "-_" None [a]) (45 :: t) (S_ Minus :: ts)); try reflexivity; try easy.
    - cbn [Visit LookupUnaryOperator String.eqb Ascii.eqb Bool.eqb]. rewrite V. reflexivity.
    - intros rest ts' Fo Lx. cbn [app]. apply lx_minus. now apply L.
    - change (45 :: t) with ([45] ++ t). apply (ends_app [45] t); [easy|exact E].
    - intros Sm. apply small_cons in Sm. apply level_unary; [reflexivity|easy|]. apply neg_ok; auto.
  Qed.
  Lemma binary_good fn l r : In fn binary_names -> printable c l -> good l -> printable c r -> good r -> good (ECall fn None [l; r]).
  Proof.
    intros I Pl Gl Pr Gr. destruct (binary_tables fn I) as (op & x & Un & Bn & Lg & Lr & Lx & T).
    set (bl := IsComplexOperatorWithRespectTo l fn).
    set (br := if negb (IsComplexOperatorWithRespectTo r fn) && IsOperatorLeftRecursive fn
               then IsOperatorSamePrecedence fn r else IsComplexOperatorWithRespectTo r fn).
    assert (Hp : 3 <= LookupPrecedence fn <= 5) by (destruct T as [[-> _]|[[-> _]|[-> _]]]; lia).
    assert (Hl : bl = false -> lv l <= LookupPrecedence fn) by (apply wrt_level with (c := c); [assumption|lia]).
    assert (Hr : br = false -> lv r <= LookupPrecedence fn - 1) by (apply rhs_level with (c := c); [assumption|lia|assumption]).
    pose proof (nest_good bl l Gl) as (tl & tsl & Vl & Ll & El & Sl & _ & _ & Lvl & _).
    pose proof (nest_good br r Gr) as (tr & tsr & Vr & L_r & Er & Sr & _ & _ & Lvr & _).
    pose proof (binary_not_logical fn I) as Nl.
    assert (Xn : norm c (ECall fn None [l; r]) = ECall fn None [norm c l; norm c r]).
    { unfold norm. cbn [flat map]. rewrite Nl. cbn [regroup map]. now rewrite Nl. }
    apply (good_simple (ECall fn None [l; r]) (tl ++ ([32] ++ codes op ++ [32]) ++ tr) (tsl ++ S_ x :: tsr)); cbn [lv]; auto; try lia.
    - cbn [Visit]. rewrite Un, Bn. cbn [List.length Nat.ltb Nat.leb]. rewrite Lg. fold bl. fold br. rewrite Vl. cbn [obind].
      rewrite Vr. reflexivity.
    - apply lexb_sep; try assumption. intros r0. left. cbn. tauto.
    - now apply ends_mid.
    - now apply start_app.
    - intros Sm. apply small_app in Sm. destruct Sm as [Sm1 Sm2]. apply small_cons in Sm2.
      specialize (Lvl Sm1). specialize (Lvr Sm2). rewrite Xn. pose proof (start_app tsl (S_ x :: tsr) Sl) as Sa.
      destruct T as [[Hq Hx]|[[Hq Hx]|[Hq Hx]]]; rewrite Hq in *.
      + apply level_rel; [lia|exact Sa|]. apply rel_op_ok; [exact Hx|apply Lvl|apply Lvr];
          [destruct bl|destruct br]; lia.
      + apply level_plus; [lia|exact Sa|]. apply plus_op_ok; [exact Hx|apply Lvl|apply Lvr];
          [destruct bl|destruct br]; lia.
      + apply level_times; [lia|exact Sa|]. apply times_op_ok; [exact Hx|apply Lvl|apply Lvr];
          [destruct bl|destruct br]; lia.
  Qed.

  (* ---- chains ---- *)
  Definition chain_ok (fn : string) (l : list expr) (ts : list token) : Prop :=
    (fn = "_&&_"%string -> and_ok c l ts) /\ (fn = "_||_"%string -> or_ok c l ts).
  Lemma operand_good fn a : logical fn = true -> printable c a -> good a ->
    exists t ts, nest (IsComplexOperatorWithRespectTo a fn) (Visit sd a) = Val t /\ lexb t ts /\ ends t /\ start_ok ts /\
      (List.length (operands fn a) <= List.length ts)%nat /\ (small ts -> chain_ok fn (operands fn a) ts).
  Proof.
    intros Lg P G. set (b := IsComplexOperatorWithRespectTo a fn). pose proof (nest_good b a G) as H. decomp H.
    assert (K : b = false -> lv a <= LookupPrecedence fn).
    { intros Hb. apply (wrt_level c a fn P); [|exact Hb]. destruct (logical_cases fn Lg) as [-> | ->]; vm_compute; discriminate. }
    assert (X : b = true -> operands fn a = [norm c a]).
    { intros Hb. unfold operands. rewrite (parts_other fn a (wrt_other a fn Hb)). reflexivity. }
    exists t, ts. repeat match goal with |- _ /\ _ => split end; try assumption; try apply E.
    - destruct b; [rewrite X by reflexivity; assumption|]. destruct (logical_cases fn Lg) as [-> | ->]; assumption.
    - intros Sm. specialize (Lv Sm). split; intros ->.
      + destruct b; [rewrite X by reflexivity|]; apply Lv; [lia|exact (K eq_refl)].
      + destruct b; [rewrite X by reflexivity|]; apply Lv; [lia|exact (K eq_refl)].
  Qed.
  Lemma chain_good fn op x : logical fn = true ->
    (forall rest ts, Lexes rest ts -> Lexes (([32] ++ codes op ++ [32]) ++ rest) (S_ x :: ts)) ->
    ((fn = "_&&_"%string /\ x = AndAnd) \/ (fn = "_||_"%string /\ x = OrOr)) ->
    forall args, args <> [] -> Forall (fun a => printable c a /\ good a) args ->
    exists t ts, join_out ([32] ++ codes op ++ [32]) (fun a => nest (IsComplexOperatorWithRespectTo a fn) (Visit sd a)) args = Val t /\
      lexb t ts /\ ends t /\ start_ok ts /\
      (List.length (map (regroup c) (flat_map (parts fn) (map flat args))) <= List.length ts)%nat /\
      (small ts -> chain_ok fn (map (regroup c) (flat_map (parts fn) (map flat args))) ts).
  Proof.
    intros Lg Lx Hx. set (sep := [32] ++ codes op ++ [32]) in *.
    set (f := fun a => nest (IsComplexOperatorWithRespectTo a fn) (Visit sd a)).
    induction args as [|a args IH]; [easy|]. intros _ F. apply Forall_cons_iff in F. destruct F as [[P G] F].
    destruct (operand_good fn a Lg P G) as (t & ts & V & L & E & S & Cn & Ck).
    cbn [map flat_map]. rewrite map_app. fold (operands fn a).
    change (join_out sep f (a :: args)) with
      (obind (f a) (fun t => match args with [] => Val t | _ => obind (join_out sep f args) (fun r => Val (t ++ sep ++ r)) end)).
    unfold f at 1. rewrite V. cbn [obind]. destruct args as [|b args].
    - exists t, ts. cbn [flat_map map]. rewrite app_nil_r. auto 10.
    - destruct (IH ltac:(discriminate) F) as (t' & ts' & V' & L' & E' & S' & Cn' & Ck'). rewrite V'. cbn [obind].
      exists (t ++ sep ++ t'), (ts ++ S_ x :: ts'). split; [reflexivity|].
      split; [apply lexb_sep; try assumption; intros r; left; cbn; tauto|].
      split; [now apply ends_mid|]. split; [now apply start_app|]. split.
      + rewrite !app_length. cbn [List.length]. rewrite !map_length in *. cbn [map flat_map] in *. lia.
      + intros Sm. apply small_app in Sm. destruct Sm as [Sm1 Sm2]. apply small_cons in Sm2.
        destruct (Ck Sm1) as [A1 O1]. destruct (Ck' Sm2) as [A2 O2].
        destruct Hx as [[-> ->]|[-> ->]]; split; intros Hf; try discriminate.
        * apply and_app; auto.
        * apply or_app; auto.
  Qed.
  Lemma logical_good fn args : logical fn = true -> (2 <= List.length args)%nat ->
    Forall (fun a => printable c a /\ good a) args -> good (ECall fn None args).
  Proof.
    intros Lg N F. destruct (logical_tables fn Lg) as (op & x & Un & Bn & Il & Lx & Hx).
    destruct (chain_good fn op x Lg Lx Hx args ltac:(destruct args; [cbn in N; lia|discriminate]) F)
      as (t & ts & V & L & E & S & Cn & Ck).
    set (ops := map (regroup c) (flat_map (parts fn) (map flat args))) in *.
    assert (Xn : norm c (ECall fn None args) = group c fn ops).
    { unfold norm. cbn [flat]. rewrite Lg. cbn [regroup]. rewrite Lg. reflexivity. }
    assert (No : ops <> []).
    { pose proof (printable_grouped c (ECall fn None args)) as Gr.
      destruct Gr as [_ Gr]; [constructor; auto; eapply Forall_impl; [|exact F]; cbn; intuition|].
      destruct (Gr fn Lg) as [G1 _]. cbn [flat] in G1. rewrite Lg in G1. cbn [parts] in G1. rewrite String.eqb_refl in G1.
      unfold ops. destruct (flat_map (parts fn) (map flat args)); [cbn in G1; lia|discriminate]. }
    assert (Xo : operands fn (ECall fn None args) = ops).
    { unfold operands. cbn [flat]. rewrite Lg. cbn [parts]. rewrite String.eqb_refl. reflexivity. }
    assert (Xp : forall fn', logical fn' = true -> fn' <> fn -> operands fn' (ECall fn None args) = [norm c (ECall fn None args)]).
    { intros fn' Lg' Nf. unfold operands, norm. cbn [flat]. rewrite Lg. cbn [parts]. destruct (String.eqb_spec fn fn'); [congruence|reflexivity]. }
    assert (1 <= List.length ts)%nat by (destruct ts; [destruct S|cbn; lia]).
    exists t, ts. split.
    { cbn [Visit]. rewrite Un, Bn. destruct (Nat.ltb_spec (List.length args) 2); [lia|]. rewrite Il. exact V. }
    split; [exact L|]. split; [exact E|]. split; [exact S|].
    destruct Hx as [[Hf _]|[Hf _]]; subst fn.
    - rewrite Xo, (Xp "_||_"%string) by (reflexivity || discriminate). split; [exact Cn|]. split; [cbn; lia|]. split.
      + intros Sm. rewrite Xn. apply level_and; [vm_compute; discriminate|exact S|apply Ck; auto|].
        apply group_balanced; [exact No|]. unfold small in Sm. lia.
      + intros H1. exfalso. vm_compute in H1. now apply H1.
    - rewrite Xo, (Xp "_&&_"%string) by (reflexivity || discriminate). split; [cbn; lia|]. split; [exact Cn|]. split.
      + intros Sm. rewrite Xn. apply level_or; [vm_compute; discriminate|exact S|apply Ck; auto|].
        apply group_balanced; [exact No|]. unfold small in Sm. lia.
      + intros H1. exfalso. vm_compute in H1. now apply H1.
  Qed.
  Lemma cond_good x y z : printable c x -> good x -> printable c y -> good y -> printable c z -> good z ->
    good (ECall "_?_:_" None [x; y; z]).
  Proof.
    intros Px Gx Py Gy Pz Gz.
    assert (A : forall a, printable c a -> good a -> exists t ts,
      nest (IsOperatorSamePrecedence "_?_:_" a || IsComplexOperator a) (Visit sd a) = Val t /\ lexb t ts /\ ends t /\ start_ok ts /\
      (small ts -> or_done c (norm c a) ts /\ expr_ok c (norm c a) ts)).
    { intros a P G. set (b := _ || _). pose proof (nest_good b a G) as H. decomp H. exists t, ts.
      repeat match goal with |- _ /\ _ => split end; try assumption; try apply E. intros Sm. specialize (Lv Sm).
      split; [|apply Lv]. apply Lv. destruct b eqn:Hb; [lia|]. apply orb_false_iff in Hb. destruct Hb as [_ Hb].
      pose proof (simple_level2 c a P Hb). lia. }
    destruct (A x Px Gx) as (tx & tsx & Vx & Lx & Ex & Sx & Kx).
    destruct (A y Py Gy) as (ty & tsy & Vy & Ly & Ey & Sy & Ky).
    destruct (A z Pz Gz) as (tz & tsz & Vz & Lz & Ez & Sz & Kz).
    apply (good_simple (ECall "_?_:_" None [x; y; z]) (tx ++ [32; 63; 32] ++ ty ++ [32; 58; 32] ++ tz)
             (tsx ++ S_ Question :: tsy ++ S_ Colon :: tsz)); try exact (eq_refl false).
    - change (Visit sd (ECall "_?_:_" None [x; y; z])) with
        (let part a := nest (IsOperatorSamePrecedence "_?_:_" a || IsComplexOperator a) (Visit sd a) in
         obind (part x) (fun tx => obind (part y) (fun ty => obind (part z) (fun tz =>
           Val (tx ++ [32; 63; 32] ++ ty ++ [32; 58; 32] ++ tz))))).
      cbv beta zeta. rewrite Vx. cbn [obind]. rewrite Vy. cbn [obind]. rewrite Vz. reflexivity.
    - apply lexb_sep; [exact Lx| |intros r; left; cbn; tauto|].
      { intros rest us H. cbn [app]. apply lx_space, lx_question, lx_space, H. }
      apply lexb_sep; [exact Ly| |intros r; left; cbn; tauto|exact Lz].
      intros rest us H. cbn [app]. apply lx_space, lx_colon, lx_space, H.
    - apply ends_mid; [exact Ex|]. now apply ends_mid.
    - now apply start_app.
    - intros Sm. apply small_app in Sm. destruct Sm as [Sm1 Sm]. apply small_cons in Sm. apply small_app in Sm.
      destruct Sm as [Sm2 Sm3]. apply small_cons in Sm3. apply level_expr; [reflexivity|].
      apply (cond_ok c (norm c x) (norm c y) (norm c z)); [apply Kx|apply Ky|apply Kz]; assumption.
    - intros H1. exfalso. apply Z.leb_le in H1. discriminate H1.
    - apply Z.leb_le. reflexivity.
  Qed.
End Main.
