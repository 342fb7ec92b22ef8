(* Lemmas about the parser: when the tokens of an expression, followed by others,
   are read back. *)
From Coq Require Import ZArith String Ascii List Bool Lia ZifyBool.
From Verif Require Import Base M_Overflow M_Number M_Attr M_Value M_Logic M_Expr M_Macro M_Balancer M_Namespace.
From Verif Require Import M_Lex M_Parse.
Import ListNotations.
Open Scope list_scope.
Open Scope Z_scope.

Definition stop (f : token -> bool) (rest : list token) : Prop :=
  match rest with t :: _ => f t = false | [] => True end.
Definition some_op (o : option string) : bool := match o with Some _ => true | None => false end.
Definition is_lparen (t : token) : bool := match t with S_ LParen => true | _ => false end.
Definition s_member (t : token) : bool := match t with S_ Dot | S_ LBracket | S_ LParen => true | _ => false end.
Definition s_times (t : token) : bool := s_member t || some_op (times_op t).
Definition s_plus (t : token) : bool := s_times t || some_op (plus_op t).
Definition s_rel (t : token) : bool := s_plus t || some_op (relation_op t).
Definition s_and (t : token) : bool := s_rel t || is_and t.
Definition s_or (t : token) : bool := s_and t || is_or t.
Definition s_expr (t : token) : bool := s_or t || match t with S_ Question => true | _ => false end.

Lemma stop_weaken (f g : token -> bool) : (forall t, g t = true -> f t = true) -> forall r, stop f r -> stop g r.
Proof.
  intros H [|t r]; [easy|]. cbn. intros F. destruct (g t) eqn:G; [|reflexivity]. rewrite (H t G) in F. discriminate.
Qed.
Ltac weaken := eapply stop_weaken; [|eassumption]; let t := fresh in intros t;
  unfold s_expr, s_or, s_and, s_rel, s_plus, s_times; destruct t as [[]| | | | | | | | | |]; reflexivity || discriminate.

Definition member_start (ts : list token) : Prop :=
  match ts with
  | [] => False
  | S_ Bang :: _ => False
  | S_ Minus :: TNumInt _ :: _ => True
  | S_ Minus :: TNumFloat _ :: _ => True
  | S_ Minus :: _ => False
  | _ => True
  end.
Definition start_ok (ts : list token) : Prop :=
  match ts with
  | [] => False
  | S_ (RParen | RBracket | RBrace | Comma | Question | Colon) :: _ => False
  | _ => True
  end.
Lemma member_start_app ts r : member_start ts -> member_start (ts ++ r).
Proof.
  destruct ts as [|t ts]; [easy|]. destruct t as [s| | | | | | | | | |]; try easy. destruct s; try easy.
  destruct ts as [|t ts]; [easy|]. destruct t; easy.
Qed.

Lemma f2_len {A B} (R : A -> B -> Prop) l l' : Forall2 R l l' -> List.length l = List.length l'.
Proof. induction 1; cbn; congruence. Qed.
Lemma f2_in {A B} (R : A -> B -> Prop) (P : B -> Prop) l l' : Forall2 R l l' -> (forall a b, R a b -> P b) ->
  forall b, In b l' -> P b.
Proof. intros H K. induction H as [|a b l l' Hab _ IH]; intros x Hx; [destruct Hx|]. destruct Hx as [<-|Hx]; eauto. Qed.

Section Levels.
  Variable c : config.
  Notation E n := (p_expr c n).

  Definition member_ok (x : expr) (ts : list token) : Prop :=
    member_start ts /\
    forall n rest R, (List.length ts <= S n)%nat -> stop is_lparen rest ->
      (forall m, (List.length rest < m)%nat -> p_suffix c (E n) m x rest = R) ->
      p_member c (E n) (ts ++ rest) = R.
  Definition unary_ok (x : expr) (ts : list token) : Prop :=
    forall n rest, (List.length ts <= S n)%nat -> stop s_member rest ->
      p_unary c (E n) (ts ++ rest) = Some (x, rest).
  Definition times_ok (x : expr) (ts : list token) : Prop :=
    forall n rest R, (List.length ts <= S n)%nat -> stop s_member rest ->
      (forall m, (List.length rest < m)%nat -> p_rest times_op (p_unary c (E n)) m x rest = R) ->
      p_times c (E n) (ts ++ rest) = R.
  Definition plus_ok (x : expr) (ts : list token) : Prop :=
    forall n rest R, (List.length ts <= S n)%nat -> stop s_times rest ->
      (forall m, (List.length rest < m)%nat -> p_rest plus_op (p_times c (E n)) m x rest = R) ->
      p_plus c (E n) (ts ++ rest) = R.
  Definition rel_ok (x : expr) (ts : list token) : Prop :=
    forall n rest R, (List.length ts <= S n)%nat -> stop s_plus rest ->
      (forall m, (List.length rest < m)%nat -> p_rest relation_op (p_plus c (E n)) m x rest = R) ->
      p_relation c (E n) (ts ++ rest) = R.
  Definition and_ok (l : list expr) (ts : list token) : Prop :=
    forall n acc rest R k, (List.length (ts ++ rest) < k)%nat -> (List.length ts <= S n)%nat -> stop s_rel rest ->
      (forall m, (List.length rest < m)%nat -> p_more is_and (p_relation c (E n)) m (acc ++ l) rest = R) ->
      match p_relation c (E n) (ts ++ rest) with
      | Some (e, r) => p_more is_and (p_relation c (E n)) k (acc ++ [e]) r
      | None => None
      end = R.
  Definition or_ok (l : list expr) (ts : list token) : Prop :=
    forall n acc rest R k, (List.length (ts ++ rest) < k)%nat -> (List.length ts <= S n)%nat -> stop s_and rest ->
      (forall m, (List.length rest < m)%nat -> p_more is_or (p_and c (E n)) m (acc ++ l) rest = R) ->
      match p_and c (E n) (ts ++ rest) with
      | Some (e, r) => p_more is_or (p_and c (E n)) k (acc ++ [e]) r
      | None => None
      end = R.
  Definition or_done (x : expr) (ts : list token) : Prop :=
    forall n rest, (List.length ts <= S n)%nat -> stop s_or rest ->
      p_or c (E n) (ts ++ rest) = Some (x, rest).
  Definition expr_ok (x : expr) (ts : list token) : Prop :=
    forall n rest, (List.length ts <= n)%nat -> stop s_expr rest -> E n (ts ++ rest) = Some (x, rest).

  (* ---- from one level to the next ---- *)
  Lemma p_suffix_stop F n x rest : stop s_member rest -> p_suffix c F (S n) x rest = Some (x, rest).
  Proof. destruct rest as [|[[]| | | | | | | | | |] rest]; try reflexivity; discriminate. Qed.
  Lemma p_rest_stop op F n x rest : stop (fun t => some_op (op t)) rest -> p_rest op F (S n) x rest = Some (x, rest).
  Proof. destruct rest as [|t rest]; [reflexivity|]. cbn. destruct (op t); [discriminate|reflexivity]. Qed.
  Lemma p_more_stop op F n l rest : stop op rest -> p_more op F (S n) l rest = Some (l, rest).
  Proof. destruct rest as [|t rest]; [reflexivity|]. cbn. now intros ->. Qed.
  Ltac from_S m Hm := destruct m as [|m]; [lia|].

  Lemma member_unary x ts : member_ok x ts -> unary_ok x ts.
  Proof.
    intros [S H] n rest L St.
    assert (X : p_member c (E n) (ts ++ rest) = Some (x, rest)).
    { apply H; [exact L| |].
      - weaken.
      - intros m Hm. from_S m Hm. now apply p_suffix_stop. }
    unfold p_unary. rewrite <- X.
    destruct ts as [|t ts]; [destruct S|]. destruct t as [s| | | | | | | | | |]; try reflexivity.
    destruct s; try reflexivity; [|destruct S].
    destruct ts as [|t ts]; [destruct S|]. destruct t; try destruct S; reflexivity.
  Qed.
  Lemma unary_times x ts : unary_ok x ts -> times_ok x ts.
  Proof.
    intros H n rest R L St K. unfold p_times, p_left. rewrite H by assumption. apply K. lia.
  Qed.
  Lemma times_plus x ts : times_ok x ts -> plus_ok x ts.
  Proof.
    intros H n rest R L St K. unfold p_plus, p_left.
    rewrite (H n rest (Some (x, rest))); [apply K; lia|exact L|weaken|].
    intros m Hm. from_S m Hm. apply p_rest_stop. weaken.
  Qed.
  Lemma plus_rel x ts : plus_ok x ts -> rel_ok x ts.
  Proof.
    intros H n rest R L St K. unfold p_relation, p_left.
    rewrite (H n rest (Some (x, rest))); [apply K; lia|exact L|weaken|].
    intros m Hm. from_S m Hm. apply p_rest_stop. weaken.
  Qed.
  Lemma rel_and x ts : rel_ok x ts -> and_ok [x] ts.
  Proof.
    intros H n acc rest R k Hk L St K. rewrite app_length in Hk.
    rewrite (H n rest (Some (x, rest))); [apply K; lia|exact L|weaken|].
    intros m Hm. from_S m Hm. apply p_rest_stop. weaken.
  Qed.
  Lemma and_or l x ts : and_ok l ts -> balanced c "_&&_" l = Some x -> or_ok [x] ts.
  Proof.
    intros H B n acc rest R k Hk L St K. rewrite app_length in Hk.
    assert (X : p_and c (E n) (ts ++ rest) = Some (x, rest)).
    { unfold p_and, p_logical, p_operands. rewrite (H n [] rest (Some (l, rest))); [now rewrite B|lia|exact L|weaken|].
      intros m Hm. from_S m Hm. apply p_more_stop. weaken. }
    rewrite X. apply K. lia.
  Qed.
  Lemma or_finish l x ts : or_ok l ts -> balanced c "_||_" l = Some x -> or_done x ts.
  Proof.
    intros H B n rest L St. unfold p_or, p_logical, p_operands. rewrite (H n [] rest (Some (l, rest))); [now rewrite B|lia|exact L|weaken|].
    intros m Hm. from_S m Hm. apply p_more_stop. weaken.
  Qed.
  Lemma or_expr x ts : ts <> [] -> or_done x ts -> expr_ok x ts.
  Proof.
    intros N H n rest L St. destruct n as [|n]; [destruct ts; [easy|cbn in L; lia]|].
    cbn [p_expr]. unfold p_conditional. rewrite (H n rest) by (try lia; weaken).
    destruct rest as [|[[]| | | | | | | | | |] rest]; try reflexivity. discriminate.
  Qed.

  (* ---- operators ---- *)
  Lemma not_ok x ts : member_ok x ts -> unary_ok (ECall "!_" None [x]) (S_ Bang :: ts).
  Proof.
    intros [S H] n rest L St. cbn [List.length] in L.
    assert (X : p_member c (E n) (ts ++ rest) = Some (x, rest)).
    { apply H; [lia|weaken|]. intros m Hm. from_S m Hm. now apply p_suffix_stop. }
    cbn [app p_unary]. unfold p_operators.
    assert (C : count_sym is_bang (S_ Bang :: ts ++ rest) = (1%nat, ts ++ rest)).
    { destruct ts as [|t ts]; [destruct S|]. destruct t as [s| | | | | | | | | |]; try reflexivity.
      destruct s; try reflexivity. destruct S. }
    rewrite C, X. reflexivity.
  Qed.
  (* the operand of a minus starts with no sign and no number *)
  Definition neg_start (ts : list token) : Prop :=
    match ts with S_ Minus :: _ | TNumInt _ :: _ | TNumFloat _ :: _ => False | _ => True end.
  Lemma neg_ok x ts : member_ok x ts -> neg_start ts -> unary_ok (ECall "-_" None [x]) (S_ Minus :: ts).
  Proof.
    intros [S H] N n rest L St. cbn [List.length] in L.
    assert (X : p_member c (E n) (ts ++ rest) = Some (x, rest)).
    { apply H; [lia|weaken|]. intros m Hm. from_S m Hm. now apply p_suffix_stop. }
    assert (C : count_sym is_minus (S_ Minus :: ts ++ rest) = (1%nat, ts ++ rest)).
    { destruct ts as [|t ts]; [destruct S|]. destruct t as [s| | | | | | | | | |]; try reflexivity.
      destruct s; try reflexivity. destruct N. }
    assert (Y : p_unary c (E n) (S_ Minus :: ts ++ rest) = p_operators c (E n) "-_" is_minus (S_ Minus :: ts ++ rest)).
    { destruct ts as [|t ts]; [destruct S|]. destruct t; try reflexivity; destruct N. }
    cbn [app]. rewrite Y. unfold p_operators. rewrite C, X. reflexivity.
  Qed.
  Lemma times_op_ok fn t x y ts us : times_op t = Some fn -> times_ok x ts -> unary_ok y us ->
    times_ok (ECall fn None [x; y]) (ts ++ t :: us).
  Proof.
    intros T Hx Hy n rest R L St K. rewrite app_length in L. cbn [List.length] in L. rewrite <- app_assoc. cbn [app].
    apply Hx; [lia|destruct t as [[]| | | | | | | | | |]; try discriminate; reflexivity|].
    intros m Hm. from_S m Hm. cbn [p_rest]. rewrite T, Hy by (try lia; assumption). apply K.
    rewrite app_length in Hm || idtac. cbn [List.length] in Hm. rewrite app_length in Hm. lia.
  Qed.
  Lemma plus_op_ok fn t x y ts us : plus_op t = Some fn -> plus_ok x ts -> times_ok y us ->
    plus_ok (ECall fn None [x; y]) (ts ++ t :: us).
  Proof.
    intros T Hx Hy n rest R L St K. rewrite app_length in L. cbn [List.length] in L. rewrite <- app_assoc. cbn [app].
    apply Hx; [lia|destruct t as [[]| | | | | | | | | |]; try discriminate; reflexivity|].
    intros m Hm. from_S m Hm. cbn [p_rest]. rewrite T. rewrite (Hy n rest (Some (y, rest))).
    - apply K. cbn [List.length] in Hm. rewrite app_length in Hm. lia.
    - lia.
    - weaken.
    - intros m' Hm'. from_S m' Hm'. apply p_rest_stop. weaken.
  Qed.
  Lemma rel_op_ok fn t x y ts us : relation_op t = Some fn -> rel_ok x ts -> plus_ok y us ->
    rel_ok (ECall fn None [x; y]) (ts ++ t :: us).
  Proof.
    intros T Hx Hy n rest R L St K. rewrite app_length in L. cbn [List.length] in L. rewrite <- app_assoc. cbn [app].
    apply Hx; [lia|destruct t as [[]| | | | | | | | | |]; try discriminate; reflexivity|].
    intros m Hm. from_S m Hm. cbn [p_rest]. rewrite T. rewrite (Hy n rest (Some (y, rest))).
    - apply K. cbn [List.length] in Hm. rewrite app_length in Hm. lia.
    - lia.
    - weaken.
    - intros m' Hm'. from_S m' Hm'. apply p_rest_stop. weaken.
  Qed.
  (* operands one after the other *)
  Lemma and_app l1 l2 ts us : and_ok l1 ts -> and_ok l2 us -> and_ok (l1 ++ l2) (ts ++ S_ AndAnd :: us).
  Proof.
    intros H1 H2 n acc rest R k Hk L St K. rewrite app_length in L. cbn [List.length] in L.
    rewrite <- app_assoc in *. cbn [app] in *. apply H1; [exact Hk|lia|reflexivity|].
    intros m Hm. from_S m Hm. cbn [p_more is_and]. cbn [List.length] in Hm.
    apply H2; [lia|lia|exact St|]. intros m' Hm'. rewrite <- app_assoc. now apply K.
  Qed.
  Lemma or_app l1 l2 ts us : or_ok l1 ts -> or_ok l2 us -> or_ok (l1 ++ l2) (ts ++ S_ OrOr :: us).
  Proof.
    intros H1 H2 n acc rest R k Hk L St K. rewrite app_length in L. cbn [List.length] in L.
    rewrite <- app_assoc in *. cbn [app] in *. apply H1; [exact Hk|lia|reflexivity|].
    intros m Hm. from_S m Hm. cbn [p_more is_or]. cbn [List.length] in Hm.
    apply H2; [lia|lia|exact St|]. intros m' Hm'. rewrite <- app_assoc. now apply K.
  Qed.
  Lemma cond_ok x y z tx ty tz : or_done x tx -> or_done y ty -> expr_ok z tz ->
    expr_ok (ECall "_?_:_" None [x; y; z]) (tx ++ S_ Question :: ty ++ S_ Colon :: tz).
  Proof.
    intros Hx Hy Hz n rest L St. rewrite app_length in L. cbn [List.length] in L. rewrite app_length in L. cbn [List.length] in L.
    destruct n as [|n]; [lia|]. cbn [p_expr]. unfold p_conditional.
    rewrite <- app_assoc. cbn [app]. rewrite Hx; [|lia|reflexivity].
    rewrite <- app_assoc. cbn [app]. rewrite Hy; [|lia|reflexivity]. rewrite Hz; [reflexivity|lia|exact St].
  Qed.

  (* ---- primaries ---- *)
  Definition primary_ok (x : expr) (ts : list token) : Prop :=
    member_start ts /\ forall n rest, (List.length ts <= S n)%nat -> stop is_lparen rest -> p_primary c (E n) (ts ++ rest) = Some (x, rest).
  Lemma primary_member x ts : primary_ok x ts -> member_ok x ts.
  Proof.
    intros [S H]. split; [exact S|]. intros n rest R L St K. unfold p_member. rewrite H by assumption. apply K. lia.
  Qed.
  Lemma paren_ok x ts : expr_ok x ts -> primary_ok x (S_ LParen :: ts ++ [S_ RParen]).
  Proof.
    intros H. split; [easy|]. intros n rest L St. cbn [List.length] in L. rewrite app_length in L. cbn [List.length] in L.
    cbn [app p_primary]. rewrite <- app_assoc. cbn [app]. now rewrite H by (try lia; reflexivity).
  Qed.
  Fixpoint commas (l : list (list token)) : list token :=
    match l with
    | [] => []
    | [a] => a
    | a :: l' => a ++ S_ Comma :: commas l'
    end.
  Lemma commas_length l a : In a l -> (List.length a <= List.length (commas l))%nat.
  Proof.
    induction l as [|b l IH]; [easy|]. intros [->|H].
    - destruct l; [reflexivity|]. cbn [commas]. rewrite app_length. lia.
    - specialize (IH H). destruct l; [destruct H|]. cbn [commas]. cbn [commas] in IH.
      rewrite app_length. cbn [List.length]. lia.
  Qed.
  Lemma p_args_ok n rest : forall xs tss m, xs <> [] -> Forall2 expr_ok xs tss ->
    Forall (fun ts => (List.length ts <= n)%nat) tss -> (List.length xs <= m)%nat ->
    p_args (E n) m (commas tss ++ S_ RParen :: rest) = Some (xs, rest).
  Proof.
    induction xs as [|x xs IH]; intros tss m N H L Hm; [easy|].
    inversion H as [|x' ts xs' tss' Hx Hxs]; subst. apply Forall_cons_iff in L. destruct L as [L1 L2].
    destruct m as [|m]; [cbn in Hm; lia|]. cbn [p_args List.length] in *. destruct tss' as [|us tss'].
    - inversion Hxs; subst. cbn [commas]. rewrite Hx by (try lia; reflexivity). reflexivity.
    - change (commas (ts :: us :: tss')) with (ts ++ S_ Comma :: commas (us :: tss')). rewrite <- app_assoc. cbn [app].
      rewrite Hx by (try lia; reflexivity). rewrite IH; try assumption; try lia; [reflexivity|].
      inversion Hxs; discriminate.
  Qed.
  Lemma Forall_len (n : nat) (tss : list (list token)) : (List.length (commas tss) <= n)%nat ->
    Forall (fun ts => (List.length ts <= n)%nat) tss.
  Proof. intros H. apply Forall_forall. intros a Ha. pose proof (commas_length tss a Ha). lia. Qed.
  Lemma commas_count tss : Forall start_ok tss -> (List.length tss <= List.length (commas tss))%nat.
  Proof.
    induction 1 as [|a l Ha Hl IH]; [reflexivity|]. assert (1 <= List.length a)%nat by (destruct a; [destruct Ha|cbn; lia]).
    destruct l; cbn [commas List.length] in *; [lia|]. rewrite app_length. cbn [List.length] in *. lia.
  Qed.
  Lemma commas_start tss : tss <> [] -> Forall start_ok tss -> forall r, start_ok (commas tss ++ r).
  Proof.
    intros N H r. destruct H as [|a l Ha Hl]; [easy|]. destruct a as [|t a]; [destruct Ha|].
    destruct l; cbn [commas app]; destruct t as [[]| | | | | | | | | |]; exact Ha.
  Qed.
  Lemma p_call_args_ok n rest xs tss : Forall2 expr_ok xs tss -> Forall start_ok tss ->
    (List.length (commas tss) <= n)%nat -> p_call_args (E n) (commas tss ++ S_ RParen :: rest) = Some (xs, rest).
  Proof.
    intros H S L. unfold p_call_args. destruct xs as [|x xs].
    - inversion H; subst. reflexivity.
    - assert (N : tss <> []) by (inversion H; discriminate).
      pose proof (commas_start tss N S (S_ RParen :: rest)) as St.
      pose proof (p_args_ok n rest (x :: xs) tss (List.length (commas tss ++ S_ RParen :: rest)) ltac:(discriminate) H
                    (Forall_len n tss L)) as P.
      pose proof (commas_count tss S) as C. pose proof (f2_len _ _ _ H) as LL. rewrite LL in P.
      rewrite app_length in P at 1. specialize (P ltac:(lia)).
      destruct (commas tss ++ S_ RParen :: rest) as [|t r] eqn:Eq; [destruct St|].
      destruct t as [[]| | | | | | | | | |]; try exact P. destruct St.
  Qed.

  (* ---- lists and maps ---- *)
  Definition mark_ts (o : bool) : list token := if o then [S_ Question] else [].
  Definition mark_ok (o : bool) : Prop := o = true -> c_optional c = true.
  Lemma p_mark_ok o ts r : mark_ok o -> start_ok ts -> p_mark c (mark_ts o ++ ts ++ r) = Some (o, ts ++ r).
  Proof.
    intros M S. destruct o; cbn [mark_ts app p_mark].
    - now rewrite M.
    - destruct ts as [|t ts]; [destruct S|]. destruct t as [[]| | | | | | | | | |]; try reflexivity. destruct S.
  Qed.
  Definition elem_ok (p : bool * expr) (us : list token) : Prop :=
    exists ts, us = mark_ts (fst p) ++ ts /\ expr_ok (snd p) ts /\ start_ok ts /\ mark_ok (fst p).
  Definition entry_ok (p : bool * (expr * expr)) (us : list token) : Prop :=
    exists tk tv, us = mark_ts (fst p) ++ tk ++ S_ Colon :: tv /\ expr_ok (fst (snd p)) tk /\ expr_ok (snd (snd p)) tv /\
      start_ok tk /\ mark_ok (fst p).
  (* a text that does not close the brackets at once *)
  Definition opens (ts : list token) : Prop :=
    match ts with S_ (RParen | RBracket | RBrace | Comma | Colon) :: _ => False | [] => False | _ => True end.
  Lemma mark_opens o ts r : start_ok ts -> opens (mark_ts o ++ ts ++ r).
  Proof. destruct o; [easy|]. destruct ts as [|t ts]; [easy|]. destruct t as [[]| | | | | | | | | |]; easy. Qed.
  Lemma elem_opens p us : elem_ok p us -> forall r, opens (us ++ r).
  Proof. intros [ts [-> [_ [S _]]]] r. rewrite <- app_assoc. now apply mark_opens. Qed.
  Lemma entry_opens p us : entry_ok p us -> forall r, opens (us ++ r).
  Proof.
    intros [tk [tv [-> [_ [_ [S _]]]]]] r. rewrite <- app_assoc. rewrite <- app_assoc. now apply mark_opens.
  Qed.
  Lemma commas_opens tss r : (forall us, In us tss -> forall r, opens (us ++ r)) -> tss <> [] -> opens (commas tss ++ r).
  Proof.
    intros H N. destruct tss as [|us tss]; [easy|]. destruct tss as [|vs tss].
    - apply H. now left.
    - change (commas (us :: vs :: tss)) with (us ++ S_ Comma :: commas (vs :: tss)). rewrite <- app_assoc. apply H. now left.
  Qed.
  Lemma p_elems_ok n rest : forall es tss m, es <> [] -> Forall2 elem_ok es tss ->
    Forall (fun ts => (List.length ts <= n)%nat) tss -> (List.length es <= m)%nat ->
    p_elems c (E n) m (commas tss ++ S_ RBracket :: rest) = Some (es, rest).
  Proof.
    induction es as [|[o x] es IH]; intros tss m N H L Hm; [easy|].
    inversion H as [|x' us xs' tss' Hx Hxs]; subst. apply Forall_cons_iff in L. destruct L as [L1 L2].
    destruct Hx as [ts [-> [Hx [Sx Mx]]]]. cbn [fst snd] in *. rewrite app_length in L1.
    destruct m as [|m]; [cbn in Hm; lia|]. cbn [p_elems List.length] in *. destruct tss' as [|vs tss'].
    - inversion Hxs; subst. cbn [commas]. rewrite <- app_assoc, p_mark_ok by assumption.
      rewrite Hx by (try lia; reflexivity). reflexivity.
    - change (commas ((mark_ts o ++ ts) :: vs :: tss')) with ((mark_ts o ++ ts) ++ S_ Comma :: commas (vs :: tss')).
      rewrite <- !app_assoc, p_mark_ok by assumption. cbn [app]. rewrite Hx by (try lia; reflexivity).
      assert (N' : es <> []) by (inversion Hxs; discriminate).
      specialize (IH (vs :: tss') m N' Hxs L2 ltac:(lia)). rewrite IH.
      assert (O : opens (commas (vs :: tss') ++ S_ RBracket :: rest)).
      { apply commas_opens; [|discriminate]. exact (f2_in _ (fun us => forall r, opens (us ++ r)) _ _ Hxs elem_opens). }
      destruct (commas (vs :: tss') ++ S_ RBracket :: rest) as [|t r]; [destruct O|].
      destruct t as [[]| | | | | | | | | |]; try reflexivity; destruct O.
  Qed.
  Lemma p_entries_ok n rest : forall es tss m, es <> [] -> Forall2 entry_ok es tss ->
    Forall (fun ts => (List.length ts <= n)%nat) tss -> (List.length es <= m)%nat ->
    p_entries c (E n) m (commas tss ++ S_ RBrace :: rest) = Some (es, rest).
  Proof.
    induction es as [|[o [k v]] es IH]; intros tss m N H L Hm; [easy|].
    inversion H as [|x' us xs' tss' Hx Hxs]; subst. apply Forall_cons_iff in L. destruct L as [L1 L2].
    destruct Hx as [tk [tv [-> [Hk [Hv [Sx Mx]]]]]]. cbn [fst snd] in *. rewrite !app_length in L1. cbn [List.length] in L1.
    destruct m as [|m]; [cbn in Hm; lia|]. cbn [p_entries List.length] in *. destruct tss' as [|vs tss'].
    - inversion Hxs; subst. cbn [commas]. rewrite <- !app_assoc, p_mark_ok by assumption.
      rewrite Hk by (try lia; reflexivity). cbn [app]. rewrite Hv by (try lia; reflexivity). reflexivity.
    - change (commas ((mark_ts o ++ tk ++ S_ Colon :: tv) :: vs :: tss'))
        with ((mark_ts o ++ tk ++ S_ Colon :: tv) ++ S_ Comma :: commas (vs :: tss')).
      rewrite <- !app_assoc, p_mark_ok by assumption. cbn [app]. rewrite Hk by (try lia; reflexivity).
      rewrite Hv by (try lia; reflexivity).
      assert (N' : es <> []) by (inversion Hxs; discriminate).
      specialize (IH (vs :: tss') m N' Hxs L2 ltac:(lia)). rewrite IH.
      assert (O : opens (commas (vs :: tss') ++ S_ RBrace :: rest)).
      { apply commas_opens; [|discriminate]. exact (f2_in _ (fun us => forall r, opens (us ++ r)) _ _ Hxs entry_opens). }
      destruct (commas (vs :: tss') ++ S_ RBrace :: rest) as [|t r]; [destruct O|].
      destruct t as [[]| | | | | | | | | |]; try reflexivity; destruct O.
  Qed.
  Lemma opens_nonempty ts : opens ts -> (1 <= List.length ts)%nat.
  Proof. destruct ts; cbn; [easy|lia]. Qed.
  Lemma commas_count' tss : (forall us, In us tss -> forall r, opens (us ++ r)) -> (List.length tss <= List.length (commas tss))%nat.
  Proof.
    induction tss as [|a l IH]; intros H; [reflexivity|].
    assert (1 <= List.length a)%nat by (rewrite <- (app_nil_r a); apply opens_nonempty, H; now left).
    assert (IH' : (List.length l <= List.length (commas l))%nat) by (apply IH; intros us Hu; apply H; now right).
    destruct l; cbn [commas List.length] in *; [lia|]. rewrite app_length. cbn [List.length] in *. lia.
  Qed.
  Lemma list_ok es tss : Forall2 elem_ok es tss -> primary_ok (EList es) (S_ LBracket :: commas tss ++ [S_ RBracket]).
  Proof.
    intros H. split; [easy|]. intros n rest L St. cbn [List.length] in L. rewrite app_length in L. cbn [List.length] in L.
    cbn [app p_primary]. rewrite <- app_assoc. cbn [app].
    assert (P : p_list c (E n) (commas tss ++ S_ RBracket :: rest) = Some (es, rest)); [|now rewrite P].
    unfold p_list. destruct es as [|e es].
    - inversion H; subst. reflexivity.
    - assert (N : tss <> []) by (inversion H; discriminate).
      assert (O : forall us, In us tss -> forall r, opens (us ++ r)).
      { exact (f2_in _ (fun us => forall r, opens (us ++ r)) _ _ H elem_opens). }
      pose proof (commas_opens tss (S_ RBracket :: rest) O N) as St'.
      pose proof (p_elems_ok n rest (e :: es) tss (List.length (commas tss ++ S_ RBracket :: rest)) ltac:(discriminate) H
                    (Forall_len n tss ltac:(lia))) as P.
      pose proof (commas_count' tss O) as C. pose proof (f2_len _ _ _ H) as LL. rewrite LL in P.
      rewrite app_length in P at 1. specialize (P ltac:(lia)).
      destruct (commas tss ++ S_ RBracket :: rest) as [|t r] eqn:Eq; [destruct St'|].
      destruct t as [[]| | | | | | | | | |]; try exact P; destruct St'.
  Qed.
  Lemma map_ok es tss : Forall2 entry_ok es tss -> primary_ok (EMap es) (S_ LBrace :: commas tss ++ [S_ RBrace]).
  Proof.
    intros H. split; [easy|]. intros n rest L St. cbn [List.length] in L. rewrite app_length in L. cbn [List.length] in L.
    cbn [app p_primary]. rewrite <- app_assoc. cbn [app].
    assert (P : p_map c (E n) (commas tss ++ S_ RBrace :: rest) = Some (es, rest)); [|now rewrite P].
    unfold p_map. destruct es as [|e es].
    - inversion H; subst. reflexivity.
    - assert (N : tss <> []) by (inversion H; discriminate).
      assert (O : forall us, In us tss -> forall r, opens (us ++ r)).
      { exact (f2_in _ (fun us => forall r, opens (us ++ r)) _ _ H entry_opens). }
      pose proof (commas_opens tss (S_ RBrace :: rest) O N) as St'.
      pose proof (p_entries_ok n rest (e :: es) tss (List.length (commas tss ++ S_ RBrace :: rest)) ltac:(discriminate) H
                    (Forall_len n tss ltac:(lia))) as P.
      pose proof (commas_count' tss O) as C. pose proof (f2_len _ _ _ H) as LL. rewrite LL in P.
      rewrite app_length in P at 1. specialize (P ltac:(lia)).
      destruct (commas tss ++ S_ RBrace :: rest) as [|t r] eqn:Eq; [destruct St'|].
      destruct t as [[]| | | | | | | | | |]; try exact P; destruct St'.
  Qed.

  (* ---- names and calls ---- *)
  Lemma ident_ok s : LexisIsReserved s = false -> primary_ok (EIdent s) [TId s].
  Proof.
    intros R. split; [easy|]. intros n rest L St. cbn [app].
    assert (X : p_primary c (E n) (TId s :: rest) = p_ident false s rest).
    { destruct rest as [|[[]| | | | | | | | | |] rest]; try reflexivity. discriminate. }
    rewrite X. unfold p_ident. now rewrite R.
  Qed.
  Lemma dot_ident_ok s : LexisIsReserved s = false -> primary_ok (EIdent (String "." s)) [S_ Dot; TId s].
  Proof.
    intros R. split; [easy|]. intros n rest L St. cbn [app].
    assert (X : p_primary c (E n) (S_ Dot :: TId s :: rest) = p_ident true s rest).
    { destruct rest as [|[[]| | | | | | | | | |] rest]; try reflexivity. discriminate. }
    rewrite X. unfold p_ident. now rewrite R.
  Qed.
  Lemma call_ok (dot : bool) s xs tss e : LexisIsReserved s = false ->
    Forall2 expr_ok xs tss -> Forall start_ok tss ->
    global_call c (if dot then String "." s else s) xs = Some e ->
    primary_ok e ((if dot then [S_ Dot] else []) ++ TId s :: S_ LParen :: commas tss ++ [S_ RParen]).
  Proof.
    intros R H S G. split; [now destruct dot|]. intros n rest L St.
    rewrite app_length in L. cbn [List.length] in L. rewrite app_length in L. cbn [List.length] in L.
    assert (X : p_primary c (E n) (((if dot then [S_ Dot] else []) ++ TId s :: S_ LParen :: commas tss ++ [S_ RParen]) ++ rest) =
                p_global_call c (E n) dot s (commas tss ++ S_ RParen :: rest)).
    { rewrite <- app_assoc. cbn [app]. rewrite <- app_assoc. now destruct dot. }
    rewrite X. unfold p_global_call. rewrite R, (p_call_args_ok n rest xs tss H S) by lia. rewrite G. reflexivity.
  Qed.

  (* ---- what follows a member ---- *)
  Definition field_ts (f : string) (ft : token) : Prop :=
    ft = TId f \/ (ft = TEsc f /\ c_quoted c = true).
  Lemma p_field_ok f ft r : field_ts f ft -> p_field c (ft :: r) = Some (f, r).
  Proof. intros [->|[-> Q]]; cbn [p_field]; [reflexivity|now rewrite Q]. Qed.
  Lemma select_ok x ts f ft : member_ok x ts -> field_ts f ft -> member_ok (ESelect x f false) (ts ++ [S_ Dot; ft]).
  Proof.
    intros [S H] F. split; [now apply member_start_app|]. intros n rest R L St K. rewrite app_length in L. cbn [List.length] in L.
    rewrite <- app_assoc. cbn [app]. apply H; [lia|reflexivity|].
    intros m Hm. from_S m Hm. cbn [List.length] in Hm.
    assert (X : p_suffix c (E n) (Datatypes.S m) x (S_ Dot :: ft :: rest) = p_suffix c (E n) m (ESelect x f false) rest).
    { cbn [p_suffix]. rewrite (p_field_ok f ft rest F). destruct F as [->|[-> Q]]; [|reflexivity].
      destruct rest as [|[[]| | | | | | | | | |] rest]; try reflexivity. discriminate. }
    rewrite X. apply K. lia.
  Qed.
  Lemma opt_select_ok x ts f ft : c_optional c = true -> member_ok x ts -> field_ts f ft ->
    member_ok (ECall "_?._" None [x; EConst (VString (codes f))]) (ts ++ [S_ Dot; S_ Question; ft]).
  Proof.
    intros O [S H] F. split; [now apply member_start_app|]. intros n rest R L St K. rewrite app_length in L. cbn [List.length] in L.
    rewrite <- app_assoc. cbn [app]. apply H; [lia|reflexivity|].
    intros m Hm. from_S m Hm. cbn [List.length] in Hm.
    cbn [p_suffix]. rewrite (p_field_ok f ft rest F), O. apply K. lia.
  Qed.
  Lemma index_ok x ts i us : member_ok x ts -> expr_ok i us -> start_ok us ->
    member_ok (ECall "_[_]" None [x; i]) (ts ++ S_ LBracket :: us ++ [S_ RBracket]).
  Proof.
    intros [S H] Hi Si. split; [now apply member_start_app|]. intros n rest R L St K.
    rewrite app_length in L. cbn [List.length] in L. rewrite app_length in L. cbn [List.length] in L.
    assert (1 <= List.length ts)%nat by (destruct ts; [destruct S|cbn; lia]).
    rewrite <- app_assoc. cbn [app]. rewrite <- app_assoc. cbn [app]. apply H; [lia|reflexivity|].
    intros m Hm. from_S m Hm. cbn [List.length] in Hm. rewrite app_length in Hm. cbn [List.length] in Hm.
    assert (X : p_suffix c (E n) (Datatypes.S m) x (S_ LBracket :: us ++ S_ RBracket :: rest) =
                match E n (us ++ S_ RBracket :: rest) with
                | Some (i, S_ RBracket :: r') => p_suffix c (E n) m (ECall "_[_]" None [x; i]) r'
                | _ => None
                end).
    { destruct us as [|t us]; [destruct Si|]. destruct t as [[]| | | | | | | | | |]; try reflexivity. destruct Si. }
    rewrite X, Hi by (try lia; reflexivity). apply K. lia.
  Qed.
  Lemma opt_index_ok x ts i us : c_optional c = true -> member_ok x ts -> expr_ok i us ->
    member_ok (ECall "_[?_]" None [x; i]) (ts ++ S_ LBracket :: S_ Question :: us ++ [S_ RBracket]).
  Proof.
    intros O [S H] Hi. split; [now apply member_start_app|]. intros n rest R L St K.
    rewrite app_length in L. cbn [List.length] in L. rewrite app_length in L. cbn [List.length] in L.
    rewrite <- app_assoc. cbn [app]. rewrite <- app_assoc. cbn [app]. apply H; [lia|reflexivity|].
    intros m Hm. from_S m Hm. cbn [List.length] in Hm. rewrite app_length in Hm. cbn [List.length] in Hm.
    cbn [p_suffix]. rewrite Hi by (try lia; reflexivity). rewrite O. apply K. lia.
  Qed.
  Lemma method_ok x ts fn xs tss e : member_ok x ts -> Forall2 expr_ok xs tss -> Forall start_ok tss ->
    receiver_call c fn x xs = Some e ->
    member_ok e (ts ++ S_ Dot :: TId fn :: S_ LParen :: commas tss ++ [S_ RParen]).
  Proof.
    intros [S H] Hx Sx G. split; [now apply member_start_app|]. intros n rest R L St K.
    rewrite app_length in L. cbn [List.length] in L. rewrite app_length in L. cbn [List.length] in L.
    rewrite <- app_assoc. cbn [app]. rewrite <- app_assoc. cbn [app]. apply H; [lia|reflexivity|].
    intros m Hm. from_S m Hm. cbn [List.length] in Hm. rewrite app_length in Hm. cbn [List.length] in Hm.
    cbn [p_suffix]. rewrite (p_call_args_ok n rest xs tss Hx Sx) by lia. rewrite G. apply K. lia.
  Qed.
End Levels.
