From Coq Require Import ZArith List Bool String Ascii Lia.
From Verif Require Import Base.
From Verif Require Import M_Signature S_Signature.
Import ListNotations.
Local Open Scope char_scope.
Open Scope list_scope.
Local Open Scope out_scope.

Lemma text_eqb_eq a : forall b, text_eqb a b = true <-> a = b.
Proof.
  induction a as [|x a IH]; intros [|y b]; cbn [text_eqb]; try (split; intros H; (reflexivity || discriminate)).
  rewrite andb_true_iff, Ascii.eqb_eq, IH. split; [intros [-> ->]; reflexivity|intros [= -> ->]; auto].
Qed.
Lemma text_eqb_neq a b : a <> b -> text_eqb a b = false.
Proof. intros H. destruct (text_eqb a b) eqn:E; [|reflexivity]. apply text_eqb_eq in E. contradiction. Qed.

Section Ind.
  Variable P : tspec -> Prop.
  Hypothesis Hun : P TUnset. Hypothesis Her : P TError. Hypothesis Hnu : P TNull. Hypothesis Hdy : P TDyn.
  Hypothesis Hpr : forall p, P (TPrim p). Hypothesis Hwk : forall w, P (TWkt w). Hypothesis Hwr : forall p, P (TWrap p).
  Hypothesis Hli : forall e, P e -> P (TList e).
  Hypothesis Hma : forall k v, P k -> P v -> P (TMap k v).
  Hypothesis Hfu : forall r args, P r -> Forall P args -> P (TFun r args).
  Hypothesis Hty : forall e, P e -> P (TType e).
  Hypothesis Hpa : forall n, P (TParam n).
  Hypothesis Hab : forall n l, Forall P l -> P (TAbstract n l).
  Hypothesis Hme : forall n, P (TMessage n).
  Fixpoint tspec_ind' (t : tspec) : P t :=
    match t with
    | TUnset => Hun | TError => Her | TNull => Hnu | TDyn => Hdy
    | TPrim p => Hpr p | TWkt w => Hwk w | TWrap p => Hwr p
    | TList e => Hli e (tspec_ind' e)
    | TMap k v => Hma k v (tspec_ind' k) (tspec_ind' v)
    | TFun r args => Hfu r args (tspec_ind' r)
        ((fix go l : Forall P l := match l with [] => Forall_nil _ | a :: l' => Forall_cons _ (tspec_ind' a) (go l') end) args)
    | TType e => Hty e (tspec_ind' e)
    | TParam n => Hpa n
    | TAbstract n l => Hab n l
        ((fix go l : Forall P l := match l with [] => Forall_nil _ | a :: l' => Forall_cons _ (tspec_ind' a) (go l') end) l)
    | TMessage n => Hme n
    end.
End Ind.

Lemma parts_here Q t : parts Q t -> Q t.
Proof. destruct t; cbn [parts]; tauto. Qed.
Lemma parts_list Q l :
  (fix go l := match l with [] => True | a :: l' => parts Q a /\ go l' end) l <-> Forall (parts Q) l.
Proof.
  induction l as [|a l IH]; [split; [constructor|exact (fun _ => I)]|].
  rewrite IH. split; [intros [H1 H2]; constructor; auto|intros H; inversion H; auto].
Qed.

Lemma Val_inj' {A} (a b : A) : Val a = Val b -> a = b.
Proof. congruence. Qed.
Lemma all_out_val {A} (l : list (out A)) m : all_out l = Val m <-> Forall2 (fun x a => x = Val a) l m.
Proof.
  revert m. induction l as [|x l IH]; intros m; cbn [all_out].
  - split; [intros H; apply Val_inj' in H; subst; constructor|intros H; inversion H; reflexivity].
  - split.
    + destruct x as [a|?|]; cbn [obind]; try discriminate. destruct (all_out l) as [m'|?|]; cbn [obind]; try discriminate.
      intros H. apply Val_inj' in H. subst m. constructor; [reflexivity|]. now apply IH.
    + intros H. inversion H as [|? a ? m' -> H2]; subst. apply IH in H2. rewrite H2. reflexivity.
Qed.

(* ---- scanning ---- *)
(* The text is read with backslashes complete and brackets balanced, from
   depth k; unescaped characters at depth 0 satisfy ok. *)
Fixpoint walk (ok : ascii -> bool) (s : text) (k : nat) (esc : bool) : option nat :=
  match s with
  | [] => if esc then None else Some k
  | c :: s' =>
      if esc then walk ok s' k false
      else if Ascii.eqb c "\" then walk ok s' k true
      else if Nat.eqb k 0 && negb (ok c) then None
      else if Ascii.eqb c "<" then walk ok s' (S k) false
      else if Ascii.eqb c ">" then match k with O => None | S n => walk ok s' n false end
      else walk ok s' k false
  end.

Lemma walk_app ok a b : forall k e j, walk ok a k e = Some j -> walk ok (a ++ b) k e = walk ok b j false.
Proof.
  induction a as [|c a IH]; intros k e j; cbn [walk app].
  - destruct e; [discriminate|]. now intros [= ->].
  - destruct e; [apply IH|]. destruct (Ascii.eqb c "\"); [apply IH|].
    destruct (Nat.eqb k 0 && negb (ok c)); [discriminate|].
    destruct (Ascii.eqb c "<"); [apply IH|]. destruct (Ascii.eqb c ">"); [destruct k; [discriminate|]|]; apply IH.
Qed.
Lemma walk_deeper ok ok' a : forall k e j, walk ok a k e = Some j -> walk ok' a (S k) e = Some (S j).
Proof.
  induction a as [|c a IH]; intros k e j; cbn [walk].
  - destruct e; [discriminate|]. now intros [= ->].
  - destruct e; [apply IH|]. destruct (Ascii.eqb c "\"); [apply IH|].
    change (Nat.eqb (S k) 0) with false. cbn [andb].
    destruct (Nat.eqb k 0 && negb (ok c)); [discriminate|].
    destruct (Ascii.eqb c "<"); [apply IH|]. destruct (Ascii.eqb c ">"); [destruct k; [discriminate|]|]; apply IH.
Qed.
Lemma walk_deeper_n ok ok' a n : walk ok a 0 false = Some 0%nat -> walk ok' a (S n) false = Some (S n).
Proof.
  intros H. induction n as [|n IH]; [eapply walk_deeper; eauto|]. eapply walk_deeper. exact IH.
Qed.
Lemma walk_weaken (ok ok' : ascii -> bool) a : (forall c, ok c = true -> ok' c = true) ->
  forall k e j, walk ok a k e = Some j -> walk ok' a k e = Some j.
Proof.
  intros Hw. induction a as [|c a IH]; intros k e j; cbn [walk]; auto.
  destruct e; [apply IH|]. destruct (Ascii.eqb c "\"); [apply IH|].
  destruct (Nat.eqb k 0); cbn [andb].
  - destruct (ok c) eqn:E; [|discriminate]. rewrite (Hw c E). cbn [negb].
    destruct (Ascii.eqb c "<"); [apply IH|]. destruct (Ascii.eqb c ">"); [destruct k; [discriminate|]|]; apply IH.
  - destruct (Ascii.eqb c "<"); [apply IH|]. destruct (Ascii.eqb c ">"); [destruct k; [discriminate|]|]; apply IH.
Qed.

Lemma find_walk ok target lst s : (forall c, ok c = true -> Ascii.eqb c target = false) ->
  forall rest k n e j i f, walk ok s k e = Some j ->
  find_loop target lst (s ++ rest) i (k + n) e f = find_loop target lst rest (i + List.length s) (j + n) false f.
Proof.
  intros Hok. induction s as [|c s IH]; intros rest k n e j i f; cbn [walk app List.length].
  - destruct e; [discriminate|]. intros [= ->]. now rewrite Nat.add_0_r.
  - intros H. rewrite <- Nat.add_succ_comm. cbn [find_loop].
    destruct e; [now apply IH|]. destruct (Ascii.eqb c "\"); [now apply IH|].
    assert (E : Nat.eqb k 0 && negb (ok c) = false /\
      (if Ascii.eqb c target && Nat.eqb (k + n) 0 && (lst || match f with None => true | Some _ => false end)
       then Some i else f) = f).
    { destruct (Nat.eqb k 0 && negb (ok c)) eqn:E1; [discriminate|]. split; [reflexivity|].
      destruct (Nat.eqb_spec (k + n) 0) as [E2|E2]; [|now rewrite andb_false_r].
      assert (k = 0%nat) by lia. subst k. cbn in E1. destruct (ok c) eqn:Eo; [|discriminate].
      rewrite (Hok c Eo). reflexivity. }
    destruct E as [E1 E2]. rewrite E1 in H. rewrite E2.
    destruct (Ascii.eqb c "<"); [now apply (IH rest (S k))|].
    destruct (Ascii.eqb c ">"); [|now apply IH].
    destruct k as [|k]; [discriminate|]. cbn [Nat.add]. now apply IH.
Qed.
Lemma find_keep ok target s : forall n e i f, walk ok s n e = Some 0%nat ->
  find_loop target false s i n e (Some f) = Val (Some f).
Proof.
  induction s as [|c s IH]; intros n e i f; cbn [walk find_loop].
  - destruct e; [discriminate|]. intros [= ->]. reflexivity.
  - destruct e; [apply IH|]. destruct (Ascii.eqb c "\"); [apply IH|].
    destruct (Nat.eqb n 0 && negb (ok c)); [discriminate|].
    cbn [orb]. rewrite andb_false_r.
    destruct (Ascii.eqb c "<"); [apply IH|]. destruct (Ascii.eqb c ">"); [|apply IH].
    destruct n; [discriminate|apply IH].
Qed.
Lemma split_walk ok d s : (forall c, ok c = true -> Ascii.eqb c d = false) ->
  forall rest k n e j cur, walk ok s k e = Some j ->
  split_loop d (s ++ rest) (k + n) e cur = split_loop d rest (j + n) false (rev s ++ cur).
Proof.
  intros Hok. induction s as [|c s IH]; intros rest k n e j cur; cbn [walk app rev].
  - destruct e; [discriminate|]. now intros [= ->].
  - intros H. rewrite <- app_assoc. cbn [app]. cbn [split_loop].
    destruct e; [now apply IH|]. destruct (Ascii.eqb c "\"); [now apply IH|].
    assert (E : Nat.eqb k 0 && negb (ok c) = false /\ Ascii.eqb c d && Nat.eqb (k + n) 0 = false).
    { destruct (Nat.eqb k 0 && negb (ok c)) eqn:E1; [discriminate|]. split; [reflexivity|].
      destruct (Nat.eqb_spec (k + n) 0) as [E2|E2]; [|apply andb_false_r].
      assert (k = 0%nat) by lia. subst k. cbn in E1. destruct (ok c) eqn:Eo; [|discriminate].
      rewrite (Hok c Eo). reflexivity. }
    destruct E as [E1 E2]. rewrite E1 in H. rewrite E2.
    destruct (Ascii.eqb c "<"); [now apply (IH rest (S k))|].
    destruct (Ascii.eqb c ">"); [|now apply IH].
    destruct k as [|k]; [discriminate|]. cbn [Nat.add]. now apply IH.
Qed.

(* ---- escaped names ---- *)
Lemma unescape_escaped b n : Unescape (escaped b n) = n.
Proof.
  unfold Unescape. induction n as [|c n IH]; [reflexivity|]. cbn [escaped].
  destruct (needs_escape b c) eqn:E.
  - cbn [unescape_loop]. rewrite Ascii.eqb_refl. now rewrite IH.
  - cbn [unescape_loop]. destruct (Ascii.eqb_spec c "\") as [->|]; [discriminate E|]. now rewrite IH.
Qed.
Definition okE (b : bool) (c : ascii) : bool := negb (needs_escape b c) .
Lemma walk_escaped b n : forall k, walk (okE b) (escaped b n) k false = Some k.
Proof.
  induction n as [|c n IH]; intros k; [reflexivity|]. cbn [escaped].
  destruct (needs_escape b c) eqn:E.
  - cbn [walk]. rewrite Ascii.eqb_refl. apply IH.
  - cbn [walk]. destruct (Ascii.eqb_spec c "\") as [->|]; [discriminate E|].
    unfold okE at 1. rewrite E. rewrite andb_false_r.
    destruct (Ascii.eqb_spec c "<") as [->|]; [discriminate E|].
    destruct (Ascii.eqb_spec c ">") as [->|]; [discriminate E|]. apply IH.
Qed.

(* ---- printed types ---- *)
(* at the top level: no comma and no parenthesis *)
Definition okT (c : ascii) : bool := negb (Ascii.eqb c "," || Ascii.eqb c "(" || Ascii.eqb c ")").
Lemma okE_T b c : okE b c = true -> okT c = true.
Proof.
  unfold okE, okT. destruct (Ascii.eqb_spec c ",") as [->|]; [discriminate|].
  destruct (Ascii.eqb_spec c "(") as [->|]; [discriminate|].
  destruct (Ascii.eqb_spec c ")") as [->|]; [discriminate|]. reflexivity.
Qed.
Definition flat (d : text) : Prop := walk okT d 0 false = Some 0%nat.
Lemma flat_deep d n : flat d -> walk okT d (S n) false = Some (S n).
Proof. apply walk_deeper_n. Qed.
Lemma flat_escaped b n : flat (escaped b n).
Proof. unfold flat. eapply walk_weaken; [apply okE_T|apply walk_escaped]. Qed.
Lemma separated_cons d d' ds : separated (d :: d' :: ds) = d ++ "," :: separated (d' :: ds).
Proof. reflexivity. Qed.
Lemma walk_separated ds n : Forall flat ds -> walk okT (separated ds) (S n) false = Some (S n).
Proof.
  induction 1 as [|d ds Hd Hds IH]; [reflexivity|].
  destruct ds as [|d' ds]; [now apply flat_deep|]. rewrite separated_cons.
  rewrite (walk_app _ _ _ _ _ (S n)); [|now apply flat_deep]. exact IH.
Qed.
Lemma flat_angle n ds : flat n -> Forall flat ds -> flat (n ++ "<" :: separated ds ++ [">"]).
Proof.
  intros Hn Hds. unfold flat. rewrite (walk_app _ _ _ _ _ 0%nat Hn). cbn [walk].
  change (Ascii.eqb "<" "\") with false. cbv iota. change (Nat.eqb 0 0 && negb (okT "<")) with false. cbv iota.
  change (Ascii.eqb "<" "<") with true. cbv iota.
  rewrite (walk_app _ _ _ _ _ 1%nat (walk_separated ds 0 Hds)). reflexivity.
Qed.

(* printing, with the brackets in one form *)
Definition words (t : tspec) : option text :=
  match t with
  | TNull => Some (lit "null") | TDyn => Some (lit "dyn")
  | TPrim p => prim_word p | TWkt w => wkt_word w | TWrap p => wrapper_word p
  | _ => None
  end.
Definition describe_dyn (t : tspec) : out text := if is_specified t then AppendTypeDesc t else Val (lit "dyn").

Lemma all_out_forall {A} (P : A -> Prop) l m : Forall (fun x => forall a, x = Val a -> P a) l ->
  all_out l = Val m -> Forall P m.
Proof.
  intros H Hm. apply all_out_val in Hm. induction Hm as [|x a l m E _ IH]; [constructor|].
  inversion H; subst. constructor; auto.
Qed.
Lemma flat_print t : forall d, AppendTypeDesc t = Val d -> flat d.
Proof.
  induction t using tspec_ind'; intros d; cbn [AppendTypeDesc]; try discriminate.
  - intros E. apply Val_inj' in E. subst d. reflexivity.
  - intros E. apply Val_inj' in E. subst d. reflexivity.
  - destruct p; cbn; try discriminate; intros E; apply Val_inj' in E; subst d; reflexivity.
  - destruct w; cbn; try discriminate; intros E; apply Val_inj' in E; subst d; reflexivity.
  - destruct p; cbn; try discriminate; intros E; apply Val_inj' in E; subst d; reflexivity.
  - assert (Hd : forall d, describe_dyn t = Val d -> flat d).
    { unfold describe_dyn. intros d0. destruct (is_specified t); [apply IHt|]. intros E. apply Val_inj' in E. now subst. }
    fold (describe_dyn t). destruct (describe_dyn t) as [e|?|]; cbn [obind]; try discriminate. intros E. apply Val_inj' in E. subst d.
    apply (flat_angle (lit "list") [e]); [reflexivity|]. auto.
  - assert (Hd1 : forall d, describe_dyn t1 = Val d -> flat d).
    { unfold describe_dyn. intros d0. destruct (is_specified t1); [apply IHt1|]. intros E. apply Val_inj' in E. now subst. }
    assert (Hd2 : forall d, describe_dyn t2 = Val d -> flat d).
    { unfold describe_dyn. intros d0. destruct (is_specified t2); [apply IHt2|]. intros E. apply Val_inj' in E. now subst. }
    fold (describe_dyn t1). fold (describe_dyn t2).
    destruct (describe_dyn t1) as [e1|?|]; cbn [obind]; try discriminate.
    destruct (describe_dyn t2) as [e2|?|]; cbn [obind]; try discriminate. intros E. apply Val_inj' in E. subst d.
    pose proof (flat_angle (lit "map") [e1; e2] eq_refl) as G. cbn [separated] in G. rewrite <- app_assoc in G. cbn [app] in G.
    apply G; auto.
  - assert (Hd : forall d, describe_dyn t = Val d -> flat d).
    { unfold describe_dyn. intros d0. destruct (is_specified t); [apply IHt|]. intros E. apply Val_inj' in E. now subst. }
    fold (describe_dyn t). destruct (describe_dyn t) as [e|?|]; cbn [obind]; try discriminate.
    destruct (all_out (map AppendTypeDesc args)) as [ds|?|] eqn:Ea; cbn [obind]; try discriminate.
    intros E. apply Val_inj' in E. subst d. apply (flat_angle (lit "function") (e :: ds)); [reflexivity|].
    constructor; [auto|]. eapply all_out_forall; [|exact Ea]. rewrite Forall_map. exact H.
  - destruct (AppendTypeDesc t) as [e|?|]; cbn [obind]; try discriminate. intros E. apply Val_inj' in E. subst d.
    apply (flat_angle (lit "type") [e]); [reflexivity|]. auto.
  - intros E. apply Val_inj' in E. subst d. apply (flat_escaped true n).
  - destruct (all_out (map AppendTypeDesc l)) as [ds|?|] eqn:Ea; cbn [obind]; try discriminate.
    intros E. apply Val_inj' in E. subst d.
    assert (Hds : Forall flat ds). { eapply all_out_forall; [|exact Ea]. rewrite Forall_map. exact H. }
    destruct ds as [|e ds]; [rewrite app_nil_r; apply flat_escaped|]. apply flat_angle; [apply flat_escaped|exact Hds].
  - intros E. apply Val_inj' in E. subst d. apply flat_escaped.
Qed.

(* ---- parsing what was printed ---- *)
Lemma split_walk0 ok d s rest cur : (forall c, ok c = true -> Ascii.eqb c d = false) -> walk ok s 0 false = Some 0%nat ->
  split_loop d (s ++ rest) 0 false cur = split_loop d rest 0 false (rev s ++ cur).
Proof. intros H1 H2. exact (split_walk ok d s H1 rest 0 0 false 0 cur H2). Qed.
Lemma find_walk0 ok target lst s rest i f : (forall c, ok c = true -> Ascii.eqb c target = false) ->
  walk ok s 0 false = Some 0%nat ->
  find_loop target lst (s ++ rest) i 0 false f = find_loop target lst rest (i + List.length s) 0 false f.
Proof. intros H1 H2. exact (find_walk ok target lst s H1 rest 0 0 false 0 i f H2). Qed.
Lemma split_separated ds : ds <> [] -> Forall flat ds -> SplitTypeList (separated ds) = Val ds.
Proof.
  assert (Hok : forall c, okT c = true -> Ascii.eqb c "," = false).
  { intros c. unfold okT. now destruct (Ascii.eqb c ","). }
  intros Hne H. induction H as [|d ds Hd Hds IH]; [contradiction|]. clear Hne. unfold SplitTypeList in *.
  destruct ds as [|d' ds].
  - cbn [separated]. rewrite <- (app_nil_r d) at 1.
    rewrite (split_walk0 okT "," d [] [] Hok Hd). cbn [split_loop].
    rewrite app_nil_r, rev_involutive. reflexivity.
  - rewrite separated_cons.
    rewrite (split_walk0 okT "," d _ [] Hok Hd). cbn [split_loop].
    change (Ascii.eqb "," "\") with false. change (Ascii.eqb "," ",") with true. cbn [andb Nat.eqb].
    rewrite IH; [|discriminate]. cbn [obind]. rewrite app_nil_r, rev_involutive. reflexivity.
Qed.

Definition okL (c : ascii) : bool := negb (Ascii.eqb c "<").
Definition not_param (s : text) : Prop := match s with [] => False | c :: _ => c <> "~" end.
Lemma parse_step fuel s : not_param s -> ParseTypeSignature (S fuel) s =
  (less <- FindTopLevelChar s "<" false ;;
   match less with
   | None => make_type (Unescape s) []
   | Some i =>
       if negb (Ascii.eqb (last s "000") ">") then Err (sig_error "Invalid type signature: missing closing >")
       else
         pieces <- SplitTypeList (firstn (List.length s - i - 2) (skipn (S i) s)) ;;
         params <- all_out (map (ParseTypeSignature fuel) pieces) ;;
         make_type (Unescape (firstn i s)) params
   end).
Proof.
  destruct s as [|[[] [] [] [] [] [] [] []] s]; cbn [not_param]; intros H; try contradiction; try reflexivity.
Qed.
Lemma find_less n rest : walk okL n 0 false = Some 0%nat ->
  FindTopLevelChar (n ++ rest) "<" false = find_loop "<" false rest (List.length n) 0 false None.
Proof.
  intros H. unfold FindTopLevelChar.
  assert (Hok : forall c, okL c = true -> Ascii.eqb c "<" = false) by (intros c; unfold okL; now destruct (Ascii.eqb c "<")).
  exact (find_walk okL "<" false n Hok rest 0 0 false 0 0 None H).
Qed.
Lemma parse_name fuel n : not_param n -> walk okL n 0 false = Some 0%nat ->
  ParseTypeSignature (S fuel) n = make_type (Unescape n) [].
Proof.
  intros Hn H. rewrite (parse_step _ _ Hn). rewrite <- (app_nil_r n) at 1. rewrite (find_less n [] H). reflexivity.
Qed.
Lemma last_snoc {A} (l : list A) x d : last (l ++ [x]) d = x.
Proof. apply last_last. Qed.
Lemma parse_angle fuel n ds : not_param n -> walk okL n 0 false = Some 0%nat -> ds <> [] -> Forall flat ds ->
  ParseTypeSignature (S fuel) (n ++ "<" :: separated ds ++ [">"]) =
  (params <- all_out (map (ParseTypeSignature fuel) ds) ;; make_type (Unescape n) params).
Proof.
  intros Hn H Hne Hds. set (body := separated ds).
  assert (Hs : not_param (n ++ "<" :: body ++ [">"])) by (destruct n; [contradiction|exact Hn]).
  rewrite (parse_step _ _ Hs). rewrite (find_less n _ H). cbn [find_loop].
  change (Ascii.eqb "<" "\") with false. change (Ascii.eqb "<" "<") with true. cbn [andb Nat.eqb orb].
  rewrite (find_keep okT "<").
  2: { rewrite (walk_app _ _ _ _ _ 1%nat (walk_separated ds 0 Hds)). reflexivity. }
  cbn [obind].
  assert (El : last (n ++ "<" :: body ++ [">"]) "000" = ">").
  { change (n ++ "<" :: body ++ [">"]) with (n ++ ("<" :: body) ++ [">"]). rewrite app_assoc. apply last_last. }
  rewrite El. change (negb (Ascii.eqb ">" ">")) with false. cbv iota.
  assert (E1 : skipn (S (List.length n)) (n ++ "<" :: body ++ [">"]) = body ++ [">"]).
  { rewrite skipn_app, skipn_all2 by lia. replace (S (List.length n) - List.length n)%nat with 1%nat by lia. reflexivity. }
  assert (E2 : firstn (List.length (n ++ "<" :: body ++ [">"]) - List.length n - 2) (body ++ [">"]) = body).
  { rewrite !app_length. cbn [List.length]. rewrite app_length. cbn [List.length].
    replace (List.length n + S (List.length body + 1) - List.length n - 2)%nat with (List.length body) by lia.
    rewrite firstn_app, Nat.sub_diag. cbn [firstn]. now rewrite app_nil_r, firstn_all. }
  assert (E3 : firstn (List.length n) (n ++ "<" :: body ++ [">"]) = n).
  { rewrite firstn_app, Nat.sub_diag. cbn [firstn]. now rewrite app_nil_r, firstn_all. }
  rewrite E1, E2, E3. unfold body. rewrite (split_separated ds Hne Hds). reflexivity.
Qed.

Lemma escaped_head b n : n <> [] -> not_param (escaped b n).
Proof.
  destruct n as [|c n]; [contradiction|]. intros _. cbn [escaped].
  destruct (needs_escape b c) eqn:E; cbn [not_param]; [discriminate|]. intros ->. discriminate E.
Qed.
Lemma okE_L b c : okE b c = true -> okL c = true.
Proof. unfold okE, okL. destruct (Ascii.eqb_spec c "<") as [->|]; [discriminate|reflexivity]. Qed.
Lemma walk_escaped_L b n : walk okL (escaped b n) 0 false = Some 0%nat.
Proof. eapply walk_weaken; [apply okE_L|apply walk_escaped]. Qed.

(* dots *)
Lemma dotdot_false n : (forall a b, n <> a ++ ["."; "."] ++ b) -> contains_dotdot n = false.
Proof.
  induction n as [|c n IH]; intros H; [reflexivity|].
  assert (IH' : contains_dotdot n = false).
  { apply IH. intros a b E. apply (H (c :: a) b). cbn. now rewrite E. }
  destruct c as [[] [] [] [] [] [] [] []]; cbn [contains_dotdot]; try exact IH'.
  destruct n as [|d n]; [reflexivity|].
  destruct d as [[] [] [] [] [] [] [] []]; try exact IH'.
  exfalso. apply (H [] n). reflexivity.
Qed.
Lemma dotdot_true n : contains_dotdot n = false -> forall a b, n <> a ++ ["."; "."] ++ b.
Proof.
  intros H a b ->. revert H. induction a as [|c a IH]; [discriminate|].
  change ((c :: a) ++ ["."; "."] ++ b) with (c :: a ++ ["."; "."] ++ b). intros H. apply IH.
  set (w := ["."; "."] ++ b) in *. clearbody w. clear IH. destruct c as [[] [] [] [] [] [] [] []]; try exact H.
  cbn [contains_dotdot] in H.
  destruct (a ++ w) as [|d r] eqn:E; [reflexivity|].
  destruct d as [[] [] [] [] [] [] [] []]; try exact H. discriminate H.
Qed.
Lemma table_none n : Forall (fun w => n <> lit w) reserved -> ParseBuiltinOrWrapper n = None.
Proof.
  intros H. unfold ParseBuiltinOrWrapper, builtin_table. cbn [table_find].
  repeat match goal with
  | |- context [text_eqb n (lit ?w)] =>
      rewrite (text_eqb_neq n (lit w)) by (rewrite Forall_forall in H; apply H; cbn; tauto)
  end. reflexivity.
Qed.
Lemma make_abstract n l : type_name n -> make_type n l = Val (TAbstract n l).
Proof.
  intros (Hne & Hdd & Hr). unfold make_type. rewrite (table_none n Hr).
  rewrite !text_eqb_neq by (rewrite Forall_forall in Hr; apply Hr; cbn; tauto).
  rewrite (dotdot_false n Hdd). now destruct n.
Qed.

Lemma canonical_unset t : canonical t = TUnset -> t = TUnset.
Proof. destruct t; cbn; congruence. Qed.
Lemma or_dyn_canonical t : is_specified t = true -> or_dyn (canonical t) = canonical t.
Proof.
  intros H. destruct (canonical t) eqn:E; try reflexivity. apply canonical_unset in E. subst t. discriminate H.
Qed.
Lemma separated_length ds d : In d ds -> (List.length d <= List.length (separated ds))%nat.
Proof.
  induction ds as [|e ds IH]; [intros []|]. destruct ds as [|e' ds].
  - intros [->|[]]. auto.
  - rewrite separated_cons, app_length. cbn [List.length]. intros [->|H]; [lia|]. specialize (IH H). unfold text in *. lia.
Qed.

Definition reads (t : tspec) (d : text) : Prop :=
  forall fuel, (List.length d < fuel)%nat -> ParseTypeSignature fuel d = Val t.
Lemma reads_list ts ds fuel : Forall2 reads ts ds -> (List.length (separated ds) < fuel)%nat ->
  all_out (map (ParseTypeSignature fuel) ds) = Val ts.
Proof.
  intros H Hf. apply all_out_val.
  assert (Hd : forall d, In d ds -> (List.length d < fuel)%nat).
  { intros d Hd. pose proof (separated_length ds d Hd). lia. }
  clear Hf. induction H as [|t d ts ds Ht _ IH]; [constructor|].
  cbn [map]. constructor; [apply Ht, Hd; now left|]. apply IH. intros d' H'. apply Hd. now right.
Qed.
Lemma reads_angle n ts ds t : not_param n -> walk okL n 0 false = Some 0%nat -> ds <> [] -> Forall flat ds ->
  Forall2 reads ts ds -> make_type (Unescape n) ts = Val t -> reads t (n ++ "<" :: separated ds ++ [">"]).
Proof.
  intros Hn Hw Hne Hf Hr Hm fuel Hl. destruct fuel as [|fuel]; [lia|]. rewrite parse_angle by assumption.
  rewrite (reads_list ts ds fuel Hr); [exact Hm|].
  rewrite app_length in Hl. cbn [List.length] in Hl. rewrite app_length in Hl. cbn [List.length] in Hl. lia.
Qed.
Lemma reads_all args ds : Forall (fun t => forall d, well_named t -> AppendTypeDesc t = Val d -> reads (canonical t) d) args ->
  Forall well_named args -> all_out (map AppendTypeDesc args) = Val ds -> Forall2 reads (map canonical args) ds.
Proof.
  intros H Hw Hd. apply all_out_val in Hd. revert ds Hd. induction H as [|t args Ht _ IH]; intros ds Hd; cbn [map] in *.
  - inversion Hd. constructor.
  - inversion Hw; subst. inversion Hd; subst. constructor; auto.
Qed.
Lemma flat_all args ds : all_out (map AppendTypeDesc args) = Val ds -> Forall flat ds.
Proof.
  intros H. eapply all_out_forall; [|exact H]. rewrite Forall_map. apply Forall_forall. intros t _. apply flat_print.
Qed.
Lemma reads_word w t : not_param (lit w) -> walk okL (lit w) 0 false = Some 0%nat ->
  make_type (Unescape (lit w)) [] = Val t -> reads t (lit w).
Proof. intros H1 H2 H3 [|fuel] Hl; [lia|]. now rewrite parse_name. Qed.
Lemma reads_dyn : reads TDyn (lit "dyn").
Proof. apply reads_word; [discriminate|reflexivity|reflexivity]. Qed.
Lemma reads_describe t d : (forall d, well_named t -> AppendTypeDesc t = Val d -> reads (canonical t) d) ->
  well_named t -> describe_dyn t = Val d -> reads (or_dyn (canonical t)) d /\ flat d.
Proof.
  intros H Hw. unfold describe_dyn. destruct (is_specified t) eqn:E.
  - intros Hd. rewrite (or_dyn_canonical t E). split; [auto|]. eapply flat_print; eauto.
  - destruct t; try discriminate E. intros Hd. apply Val_inj' in Hd. subst d. split; [apply reads_dyn|reflexivity].
Qed.

Lemma parse_print t : forall d, well_named t -> AppendTypeDesc t = Val d -> reads (canonical t) d.
Proof.
  induction t using tspec_ind'; intros d Hw; cbn [AppendTypeDesc canonical]; try discriminate.
  - intros E. apply Val_inj' in E. subst d. apply reads_word; [discriminate|reflexivity|reflexivity].
  - intros E. apply Val_inj' in E. subst d. apply reads_dyn.
  - destruct p; cbn [word prim_word]; try discriminate; intros E; apply Val_inj' in E; subst d;
      (apply reads_word; [discriminate|reflexivity|reflexivity]).
  - destruct w; cbn [word wkt_word]; try discriminate; intros E; apply Val_inj' in E; subst d;
      (apply reads_word; [discriminate|reflexivity|reflexivity]).
  - destruct p; cbn [word wrapper_word]; try discriminate; intros E; apply Val_inj' in E; subst d;
      (apply reads_word; [discriminate|reflexivity|reflexivity]).
  - destruct Hw as [_ Hw]. fold (describe_dyn t).
    destruct (describe_dyn t) as [e|?|] eqn:Ed; cbn [obind]; try discriminate. intros E. apply Val_inj' in E. subst d.
    destruct (reads_describe t e IHt Hw Ed) as [H1 H2].
    apply (reads_angle (lit "list") [or_dyn (canonical t)] [e]); auto; try discriminate; reflexivity.
  - destruct Hw as [_ [Hw1 Hw2]]. fold (describe_dyn t1). fold (describe_dyn t2).
    destruct (describe_dyn t1) as [e1|?|] eqn:E1; cbn [obind]; try discriminate.
    destruct (describe_dyn t2) as [e2|?|] eqn:E2; cbn [obind]; try discriminate. intros E. apply Val_inj' in E. subst d.
    destruct (reads_describe t1 e1 IHt1 Hw1 E1) as [H1 H2]. destruct (reads_describe t2 e2 IHt2 Hw2 E2) as [H3 H4].
    pose proof (reads_angle (lit "map") [or_dyn (canonical t1); or_dyn (canonical t2)] [e1; e2]
       (TMap (or_dyn (canonical t1)) (or_dyn (canonical t2)))) as G.
    cbn [separated] in G. rewrite <- app_assoc in G. cbn [app] in G.
    apply G; auto; try discriminate; reflexivity.
  - destruct Hw as [_ [Hw1 Hw2]]. apply parts_list in Hw2. fold (describe_dyn t).
    destruct (describe_dyn t) as [e|?|] eqn:Ed; cbn [obind]; try discriminate.
    destruct (all_out (map AppendTypeDesc args)) as [ds|?|] eqn:Ea; cbn [obind]; try discriminate.
    intros E. apply Val_inj' in E. subst d. destruct (reads_describe t e IHt Hw1 Ed) as [H1 H2].
    apply (reads_angle (lit "function") (or_dyn (canonical t) :: map canonical args) (e :: ds)); try discriminate; try reflexivity.
    + constructor; [exact H2|]. eapply flat_all; eauto.
    + constructor; [exact H1|]. apply reads_all; auto.
  - destruct Hw as [_ Hw]. destruct (AppendTypeDesc t) as [e|?|] eqn:Ed; cbn [obind]; try discriminate.
    intros E. apply Val_inj' in E. subst d.
    apply (reads_angle (lit "type") [canonical t] [e]); auto; try discriminate; try reflexivity.
    constructor; [|constructor]. eapply flat_print; eauto.
  - destruct Hw as [Hn _]. intros E. apply Val_inj' in E. subst d. intros [|fuel] Hl; [cbn in Hl; lia|].
    cbn [ParseTypeSignature].
    assert (H1 : FindTopLevelChar (escaped true n) "<" false = Val None).
    { rewrite <- (app_nil_r (escaped true n)). rewrite find_less by apply walk_escaped_L. reflexivity. }
    assert (H2 : FindTopLevelChar (escaped true n) "," false = Val None).
    { rewrite <- (app_nil_r (escaped true n)). unfold FindTopLevelChar.
      assert (Hok : forall c, okE true c = true -> Ascii.eqb c "," = false)
        by (intros c; unfold okE; destruct (Ascii.eqb_spec c ",") as [->|]; [discriminate|reflexivity]).
      rewrite (find_walk0 (okE true) "," false _ [] 0 None Hok (walk_escaped true n 0)). reflexivity. }
    pose proof (escaped_head true n Hn) as Hh.
    destruct (escaped true n) as [|c r] eqn:Ee; [contradiction|].
    rewrite H1, H2. cbn [obind]. rewrite <- Ee, unescape_escaped. reflexivity.
  - destruct Hw as [Hn Hw]. apply parts_list in Hw.
    destruct (all_out (map AppendTypeDesc l)) as [ds|?|] eqn:Ea; cbn [obind]; try discriminate.
    intros E. apply Val_inj' in E. subst d. pose proof (reads_all _ _ H Hw Ea) as Hr.
    assert (Hne : n <> []) by apply Hn.
    destruct ds as [|e ds].
    + inversion Hr as [Hl|]. rewrite app_nil_r. intros [|fuel] Hf; [lia|].
      rewrite parse_name; [|now apply escaped_head|apply walk_escaped_L]. rewrite unescape_escaped. now apply make_abstract.
    + apply (reads_angle (escaped false n) (map canonical l)); auto.
      * now apply escaped_head.
      * apply walk_escaped_L.
      * discriminate.
      * eapply flat_all; eauto.
      * rewrite unescape_escaped. now apply make_abstract.
  - destruct Hw as [Hn _]. intros E. apply Val_inj' in E. subst d. intros [|fuel] Hf; [lia|].
    rewrite parse_name; [|apply escaped_head, Hn|apply walk_escaped_L]. rewrite unescape_escaped. now apply make_abstract.
Qed.

(* ---- overloads ---- *)
Definition okA (c : ascii) : bool := true.
Lemma walk_separated_top ds : Forall flat ds -> walk okA (separated ds) 0 false = Some 0%nat.
Proof.
  induction 1 as [|d ds Hd Hds IH]; [reflexivity|].
  assert (Hd' : walk okA d 0 false = Some 0%nat) by (eapply walk_weaken; [|exact Hd]; reflexivity).
  destruct ds as [|d' ds]; [exact Hd'|]. rewrite separated_cons.
  rewrite (walk_app _ _ _ _ _ 0%nat Hd'). exact IH.
Qed.
Lemma find_any target lst s : forall rest k n e j i f, walk okA s k e = Some j ->
  exists f', find_loop target lst (s ++ rest) i (k + n) e f = find_loop target lst rest (i + List.length s) (j + n) false f'.
Proof.
  induction s as [|c s IH]; intros rest k n e j i f; cbn [walk app List.length].
  - destruct e; [discriminate|]. intros [= ->]. exists f. now rewrite Nat.add_0_r.
  - intros H. rewrite <- Nat.add_succ_comm. cbn [find_loop].
    destruct e; [now apply IH|]. destruct (Ascii.eqb c "\"); [now apply IH|].
    change (negb (okA c)) with false in H. rewrite andb_false_r in H.
    destruct (Ascii.eqb c "<"); [now apply (IH rest (S k))|].
    destruct (Ascii.eqb c ">"); [|now apply IH].
    destruct k as [|k]; [discriminate|]. cbn [Nat.add]. now apply IH.
Qed.

Lemma parse_function_stripped s : ParseFunctionSignature s = parse_stripped (StripUnescapedWhitespace s).
Proof. reflexivity. Qed.

Definition okP (c : ascii) : bool := negb (Ascii.eqb c "(").
Lemma okT_P c : okT c = true -> okP c = true.
Proof. unfold okT, okP. destruct (Ascii.eqb c "("); [rewrite orb_true_r; discriminate|reflexivity]. Qed.
Lemma okE_P b c : okE b c = true -> okP c = true.
Proof. intros H. eapply okT_P, okE_T; eauto. Qed.
Lemma reads_nonempty t d : reads t d -> d <> [].
Proof. intros H ->. specialize (H 1%nat ltac:(cbn; lia)). discriminate H. Qed.
Lemma reads_type t d : reads t d -> ParseType d = Val t.
Proof. intros H. apply H. lia. Qed.
Lemma reads_types ts ds : Forall2 reads ts ds -> all_out (map ParseType ds) = Val ts.
Proof. intros H. apply all_out_val. induction H; cbn [map]; constructor; auto using reads_type. Qed.

Lemma parse_call P ts ds : walk okP P 0 false = Some 0%nat -> Forall flat ds -> Forall2 reads ts ds ->
  parse_stripped (P ++ "(" :: separated ds ++ [")"]) =
  (dot <- FindTopLevelChar P "." true ;;
   recv <- match dot with Some d => r <- ParseType (firstn d P) ;; Val [r] | None => Val [] end ;;
   let name := Unescape match dot with Some d => skipn (S d) P | None => P end in
   match name with
   | [] => Err (sig_error "Invalid function signature: empty function name")
   | _ => Val (mkParsed name match dot with Some _ => true | None => false end (recv ++ ts))
   end).
Proof.
  intros HP Hf Hr. set (body := separated ds).
  assert (Hs : exists c r, P ++ "(" :: body ++ [")"] = c :: r) by (destruct P; eexists; eexists; reflexivity).
  destruct Hs as (c & r & Hs). unfold parse_stripped. rewrite Hs. rewrite <- Hs.
  assert (Hok : forall c, okP c = true -> Ascii.eqb c "(" = false) by (intros x; unfold okP; now destruct (Ascii.eqb x "(")).
  unfold FindTopLevelChar at 1. rewrite (find_walk0 okP "(" false P _ 0 None Hok HP). cbn [find_loop].
  change (Ascii.eqb "(" "\") with false. change (Ascii.eqb "(" "(") with true. cbn [andb Nat.eqb orb].
  change (Ascii.eqb "(" "<") with false. change (Ascii.eqb "(" ">") with false. cbv iota.
  rewrite (find_keep okA "(").
  2: { rewrite (walk_app _ _ _ _ _ 0%nat (walk_separated_top ds Hf)). reflexivity. }
  cbn [obind Nat.add].
  assert (El : last (P ++ "(" :: body ++ [")"]) "000" = ")").
  { change (P ++ "(" :: body ++ [")"]) with (P ++ ("(" :: body) ++ [")"]). rewrite app_assoc. apply last_last. }
  rewrite El. change (negb (Ascii.eqb ")" ")")) with false. cbv iota.
  assert (E1 : skipn (S (List.length P)) (P ++ "(" :: body ++ [")"]) = body ++ [")"]).
  { rewrite skipn_app, skipn_all2 by lia. replace (S (List.length P) - List.length P)%nat with 1%nat by lia. reflexivity. }
  assert (E2 : firstn (List.length (P ++ "(" :: body ++ [")"]) - List.length P - 2) (body ++ [")"]) = body).
  { rewrite !app_length. cbn [List.length]. rewrite app_length. cbn [List.length].
    replace (List.length P + S (List.length body + 1) - List.length P - 2)%nat with (List.length body) by lia.
    rewrite firstn_app, Nat.sub_diag. cbn [firstn]. now rewrite app_nil_r, firstn_all. }
  assert (E3 : firstn (List.length P) (P ++ "(" :: body ++ [")"]) = P).
  { rewrite firstn_app, Nat.sub_diag. cbn [firstn]. now rewrite app_nil_r, firstn_all. }
  rewrite E1, E2, E3.
  assert (Eb : (match body with [] => Val [] | _ :: _ => pieces <- SplitTypeList body ;; all_out (map ParseType pieces) end) = Val ts).
  { unfold body. inversion Hr as [|t d ts' ds' H1 H2]; subst; [reflexivity|].
    rewrite split_separated by (try discriminate; assumption). cbn [obind].
    assert (Hne : separated (d :: ds') <> []).
    { destruct ds'; [exact (reads_nonempty _ _ H1)|]. rewrite separated_cons. destruct d; discriminate. }
    destruct (separated (d :: ds')); [contradiction|]. now apply reads_types. }
  rewrite Eb. reflexivity.
Qed.

Lemma find_dot_none n : FindTopLevelChar (escaped true n) "." true = Val None.
Proof.
  unfold FindTopLevelChar. rewrite <- (app_nil_r (escaped true n)).
  assert (Hok : forall c, okE true c = true -> Ascii.eqb c "." = false)
    by (intros c; unfold okE; destruct (Ascii.eqb_spec c ".") as [->|]; [discriminate|reflexivity]).
  rewrite (find_walk0 (okE true) "." true _ [] 0 None Hok (walk_escaped true n 0)). reflexivity.
Qed.
Lemma find_dot_last d n : flat d -> FindTopLevelChar (d ++ "." :: escaped true n) "." true = Val (Some (List.length d)).
Proof.
  intros Hd. unfold FindTopLevelChar.
  assert (Hd' : walk okA d 0 false = Some 0%nat) by (eapply walk_weaken; [|exact Hd]; reflexivity).
  destruct (find_any "." true d ("." :: escaped true n) 0 0 false 0 0 None Hd') as [f E]. cbn [Nat.add] in E. rewrite E.
  cbn [find_loop]. change (Ascii.eqb "." "\") with false. change (Ascii.eqb "." ".") with true. cbn [andb Nat.eqb orb].
  change (Ascii.eqb "." "<") with false. change (Ascii.eqb "." ">") with false. cbv iota.
  rewrite <- (app_nil_r (escaped true n)).
  assert (Hok : forall c, okE true c = true -> Ascii.eqb c "." = false)
    by (intros c; unfold okE; destruct (Ascii.eqb_spec c ".") as [->|]; [discriminate|reflexivity]).
  rewrite (find_walk0 (okE true) "." true _ [] _ _ Hok (walk_escaped true n 0)). reflexivity.
Qed.

Lemma parse_overload f args m s : f <> [] -> Forall well_named args -> MakeOverloadSignature f args m = Val s ->
  parse_stripped s = Val (mkParsed f m (map canonical args)).
Proof.
  intros Hf Hw. assert (Hall : forall l, Forall (fun t => forall d, well_named t -> AppendTypeDesc t = Val d -> reads (canonical t) d) l)
    by (intros l; apply Forall_forall; intros t _; apply parse_print).
  assert (Hfn : forall f, f <> [] -> escaped true f <> []) by (intros [|c g]; [contradiction|]; cbn [escaped]; destruct (needs_escape true c); discriminate).
  unfold MakeOverloadSignature. destruct m.
  - destruct args as [|t args]; [discriminate|]. inversion Hw as [|? ? Hw1 Hw2]; subst.
    destruct (AppendTypeDesc t) as [d|?|] eqn:Ed; cbn [obind]; try discriminate.
    destruct (all_out (map AppendTypeDesc args)) as [ds|?|] eqn:Ea; cbn [obind]; try discriminate.
    intros E. apply Val_inj' in E. subst s. pose proof (flat_print _ _ Ed) as Hd.
    assert (HP : walk okP (d ++ "." :: escaped true f) 0 false = Some 0%nat).
    { rewrite (walk_app _ _ _ _ _ 0%nat); [|eapply walk_weaken; [apply okT_P|exact Hd]].
      change (walk okP (escaped true f) 0 false = Some 0%nat).
      eapply walk_weaken; [apply (okE_P true)|]. apply (walk_escaped true f 0). }
    pose proof (parse_call (d ++ "." :: escaped true f) (map canonical args) ds HP (flat_all _ _ Ea) (reads_all _ _ (Hall _) Hw2 Ea)) as G.
    rewrite <- app_assoc in G. cbn [app] in G. rewrite G. rewrite find_dot_last by exact Hd. cbn [obind].
    rewrite firstn_app, Nat.sub_diag, firstn_all. cbn [firstn]. rewrite app_nil_r.
    rewrite (reads_type (canonical t)) by now apply parse_print. cbn [obind].
    rewrite skipn_app, skipn_all2 by lia. replace (S (List.length d) - List.length d)%nat with 1%nat by lia.
    cbn [skipn app]. rewrite unescape_escaped. destruct f; [contradiction|]. reflexivity.
  - destruct (all_out (map AppendTypeDesc args)) as [ds|?|] eqn:Ea; cbn [obind]; try discriminate.
    intros E. apply Val_inj' in E. subst s.
    assert (HP : walk okP (escaped true f) 0 false = Some 0%nat) by (eapply walk_weaken; [apply (okE_P true)|apply walk_escaped]).
    rewrite (parse_call (escaped true f) (map canonical args) ds HP (flat_all _ _ Ea) (reads_all _ _ (Hall _) Hw Ea)).
    rewrite find_dot_none. cbn [obind]. rewrite unescape_escaped. destruct f; [contradiction|]. reflexivity.
Qed.

(* ---- white space ---- *)
Definition sp_free (s : text) : Prop := Forall (fun c => is_space c = false) s.
Lemma strip_free s : sp_free s -> StripUnescapedWhitespace s = s.
Proof.
  unfold StripUnescapedWhitespace. generalize false. intros e H. revert e.
  induction H as [|c s Hc _ IH]; intros e; [reflexivity|]. cbn [strip_loop].
  destruct e; [now rewrite IH|]. destruct (Ascii.eqb c "\"); [now rewrite IH|]. rewrite Hc. now rewrite IH.
Qed.
Lemma spaceless_free n : spaceless n -> sp_free n.
Proof.
  intros H. eapply Forall_impl; [|exact H]. intros c (H1 & H2 & H3 & H4).
  destruct c as [[] [] [] [] [] [] [] []]; try reflexivity; contradiction.
Qed.
Lemma sp_escaped b n : sp_free n -> sp_free (escaped b n).
Proof.
  induction 1 as [|c n Hc _ IH]; cbn [escaped]; [constructor|].
  destruct (needs_escape b c); repeat (constructor; auto).
Qed.
Lemma sp_lit w : forallb (fun c => negb (is_space c)) (lit w) = true -> sp_free (lit w).
Proof.
  rewrite forallb_forall. intros H. apply Forall_forall. intros c Hc. specialize (H c Hc). now destruct (is_space c).
Qed.
Lemma sp_app a b : sp_free a -> sp_free b -> sp_free (a ++ b).
Proof. intros. apply Forall_app. auto. Qed.
Lemma sp_cons c a : is_space c = false -> sp_free a -> sp_free (c :: a).
Proof. intros. constructor; auto. Qed.
Lemma sp_separated ds : Forall sp_free ds -> sp_free (separated ds).
Proof.
  induction 1 as [|d ds Hd _ IH]; [constructor|]. destruct ds as [|d' ds]; [exact Hd|]. rewrite separated_cons.
  apply sp_app; [exact Hd|]. apply sp_cons; [reflexivity|exact IH].
Qed.
Lemma sp_print : forall t d, spaceless_names t -> AppendTypeDesc t = Val d -> sp_free d.
Proof.
  assert (Hdesc : forall t d, (forall d, spaceless_names t -> AppendTypeDesc t = Val d -> sp_free d) -> spaceless_names t ->
     describe_dyn t = Val d -> sp_free d).
  { intros t d H Hs. unfold describe_dyn. destruct (is_specified t); [auto|]. intros E. apply Val_inj' in E. subst d.
    now apply sp_lit. }
  assert (Hl : forall l ds, Forall (fun t => forall d, spaceless_names t -> AppendTypeDesc t = Val d -> sp_free d) l ->
     Forall spaceless_names l -> all_out (map AppendTypeDesc l) = Val ds -> Forall sp_free ds).
  { intros l ds H Hs. apply all_out_forall. rewrite Forall_map. apply Forall_forall. intros t Ht d.
    rewrite Forall_forall in H, Hs. exact (H t Ht d (Hs t Ht)). }
  intros t. induction t using tspec_ind'; intros d Hw; cbn [AppendTypeDesc]; try discriminate.
  - intros E. apply Val_inj' in E. subst d. now apply sp_lit.
  - intros E. apply Val_inj' in E. subst d. now apply sp_lit.
  - destruct p; cbn [word prim_word]; try discriminate; intros E; apply Val_inj' in E; subst d; now apply sp_lit.
  - destruct w; cbn [word wkt_word]; try discriminate; intros E; apply Val_inj' in E; subst d; now apply sp_lit.
  - destruct p; cbn [word wrapper_word]; try discriminate; intros E; apply Val_inj' in E; subst d; now apply sp_lit.
  - destruct Hw as [_ Hw]. fold (describe_dyn t). destruct (describe_dyn t) as [e|?|] eqn:Ed; cbn [obind]; try discriminate.
    intros E. apply Val_inj' in E. subst d. apply sp_app; [now apply sp_lit|].
    apply sp_app; [eapply Hdesc; eauto|now repeat constructor].
  - destruct Hw as [_ [Hw1 Hw2]]. fold (describe_dyn t1). fold (describe_dyn t2).
    destruct (describe_dyn t1) as [e1|?|] eqn:E1; cbn [obind]; try discriminate.
    destruct (describe_dyn t2) as [e2|?|] eqn:E2; cbn [obind]; try discriminate. intros E. apply Val_inj' in E. subst d.
    apply sp_app; [now apply sp_lit|]. apply sp_app; [eapply (Hdesc t1); eauto|]. apply sp_cons; [reflexivity|].
    apply sp_app; [eapply (Hdesc t2); eauto|now repeat constructor].
  - destruct Hw as [_ [Hw1 Hw2]]. apply parts_list in Hw2. fold (describe_dyn t).
    destruct (describe_dyn t) as [e|?|] eqn:Ed; cbn [obind]; try discriminate.
    destruct (all_out (map AppendTypeDesc args)) as [ds|?|] eqn:Ea; cbn [obind]; try discriminate.
    intros E. apply Val_inj' in E. subst d.
    apply sp_app; [now apply sp_lit|]. apply sp_app; [|now repeat constructor]. apply sp_separated.
    constructor; [eapply (Hdesc t); eauto|]. eapply Hl; eauto.
  - destruct Hw as [_ Hw]. destruct (AppendTypeDesc t) as [e|?|] eqn:Ed; cbn [obind]; try discriminate.
    intros E. apply Val_inj' in E. subst d. apply sp_app; [now apply sp_lit|].
    apply sp_app; [eapply IHt; eauto|now repeat constructor].
  - destruct Hw as [Hn _]. intros E. apply Val_inj' in E. subst d. apply sp_cons; [reflexivity|].
    apply sp_escaped. now apply spaceless_free.
  - destruct Hw as [Hn Hw]. apply parts_list in Hw.
    destruct (all_out (map AppendTypeDesc l)) as [ds|?|] eqn:Ea; cbn [obind]; try discriminate.
    intros E. apply Val_inj' in E. subst d. apply sp_app; [now apply sp_escaped, spaceless_free|].
    pose proof (Hl l ds H Hw Ea) as Hds. destruct ds as [|e ds]; [constructor|].
    apply sp_cons; [reflexivity|]. apply sp_app; [now apply sp_separated|now repeat constructor].
  - destruct Hw as [Hn _]. intros E. apply Val_inj' in E. subst d. now apply sp_escaped, spaceless_free.
Qed.
Lemma sp_overload f args m s : spaceless f -> Forall spaceless_names args -> MakeOverloadSignature f args m = Val s -> sp_free s.
Proof.
  intros Hf Hs. assert (Hl : forall l ds, Forall spaceless_names l -> all_out (map AppendTypeDesc l) = Val ds -> sp_free (separated ds)).
  { intros l ds H E. apply sp_separated. eapply all_out_forall; [|exact E]. rewrite Forall_map. eapply Forall_impl; [|exact H].
    intros t Ht d. now apply sp_print. }
  assert (He : sp_free (escaped true f)) by now apply sp_escaped, spaceless_free.
  unfold MakeOverloadSignature. destruct m.
  - destruct args as [|t args]; [discriminate|]. inversion Hs as [|? ? H1 H2]; subst.
    destruct (AppendTypeDesc t) as [d|?|] eqn:Ed; cbn [obind]; try discriminate.
    destruct (all_out (map AppendTypeDesc args)) as [ds|?|] eqn:Ea; cbn [obind]; try discriminate.
    intros E. apply Val_inj' in E. subst s.
    apply sp_app; [eapply sp_print; eauto|]. apply sp_cons; [reflexivity|]. apply sp_app; [exact He|].
    apply sp_cons; [reflexivity|]. apply sp_app; [eapply Hl; eauto|now repeat constructor].
  - destruct (all_out (map AppendTypeDesc args)) as [ds|?|] eqn:Ea; cbn [obind]; try discriminate.
    intros E. apply Val_inj' in E. subst s. apply sp_app; [exact He|].
    apply sp_cons; [reflexivity|]. apply sp_app; [eapply Hl; eauto|now repeat constructor].
Qed.

(* ---- the parser always answers ---- *)
Lemma find_total target lst s : forall i n e f, find_loop target lst s i n e f <> UB.
Proof.
  induction s as [|c s IH]; intros i n e f; cbn [find_loop]; [destruct n; discriminate|].
  destruct e; [apply IH|]. destruct (Ascii.eqb c "\"); [apply IH|].
  destruct (Ascii.eqb c "<"); [apply IH|]. destruct (Ascii.eqb c ">"); [destruct n; [discriminate|]|]; apply IH.
Qed.
Lemma split_total d s : forall n e cur, split_loop d s n e cur <> UB.
Proof.
  induction s as [|c s IH]; intros n e cur; cbn [split_loop]; [destruct n; discriminate|].
  destruct e; [apply IH|]. destruct (Ascii.eqb c "\"); [apply IH|].
  destruct (Ascii.eqb c d && Nat.eqb n 0).
  { specialize (IH n false []). destruct (split_loop d s n false []); cbn [obind]; congruence. }
  destruct (Ascii.eqb c "<"); [apply IH|]. destruct (Ascii.eqb c ">"); [destruct n; [discriminate|]|]; apply IH.
Qed.
Lemma split_length d s : forall n e cur l, split_loop d s n e cur = Val l ->
  Forall (fun x => (List.length x <= List.length cur + List.length s)%nat) l.
Proof.
  induction s as [|c s IH]; intros n e cur l; cbn [split_loop List.length].
  - destruct n; [|discriminate]. intros H. apply Val_inj' in H. subst l. constructor; [|constructor]. rewrite rev_length. lia.
  - assert (Hc : forall n' e', split_loop d s n' e' (c :: cur) = Val l ->
       Forall (fun x => (List.length x <= List.length cur + S (List.length s))%nat) l).
    { intros n' e' H. apply IH in H. eapply Forall_impl; [|exact H]. cbn [List.length]. intros x Hx. lia. }
    destruct e; [apply Hc|]. destruct (Ascii.eqb c "\"); [apply Hc|].
    destruct (Ascii.eqb c d && Nat.eqb n 0).
    { destruct (split_loop d s n false []) as [r|?|] eqn:E; cbn [obind]; try discriminate. intros H. apply Val_inj' in H. subst l.
      constructor; [rewrite rev_length; lia|]. apply IH in E. eapply Forall_impl; [|exact E]. cbn [List.length]. intros x Hx. lia. }
    destruct (Ascii.eqb c "<"); [apply Hc|]. destruct (Ascii.eqb c ">"); [destruct n; [discriminate|]|]; apply Hc.
Qed.
Lemma make_total name params : make_type name params <> UB.
Proof.
  unfold make_type. destruct (ParseBuiltinOrWrapper name), params as [|p1 [|p2 [|p3 ps]]]; cbn [List.length]; try discriminate;
  repeat match goal with |- context [if ?b then _ else _] => destruct b end; discriminate.
Qed.
Lemma all_out_total {A} (l : list (out A)) : Forall (fun x => x <> UB) l -> all_out l <> UB.
Proof.
  induction 1 as [|x l Hx _ IH]; cbn [all_out]; [discriminate|].
  destruct x; cbn [obind]; try congruence. destruct (all_out l); cbn [obind]; congruence.
Qed.
Lemma parse_total : forall fuel s, (List.length s < fuel)%nat -> ParseTypeSignature fuel s <> UB.
Proof.
  induction fuel as [|fuel IH]; intros s Hs; [lia|].
  destruct s as [|c s]; [discriminate|].
  destruct (Ascii.eqb_spec c "~") as [->|Hc].
  - cbn [ParseTypeSignature]. destruct s as [|c' s]; [discriminate|].
    unfold FindTopLevelChar. pose proof (find_total "<" false (c' :: s) 0 0 false None) as H1.
    pose proof (find_total "," false (c' :: s) 0 0 false None) as H2.
    destruct (find_loop "<" false (c' :: s) 0 0 false None) as [r1|?|]; cbn [obind]; try congruence.
    destruct (find_loop "," false (c' :: s) 0 0 false None) as [r2|?|]; cbn [obind]; try congruence.
    destruct r1, r2; discriminate.
  - rewrite parse_step by exact Hc. unfold FindTopLevelChar.
    pose proof (find_total "<" false (c :: s) 0 0 false None) as H1.
    destruct (find_loop "<" false (c :: s) 0 0 false None) as [r1|?|] eqn:E; cbn [obind]; try congruence.
    destruct r1 as [i|]; [|apply make_total]. destruct (negb _); [discriminate|].
    set (body := firstn _ _). unfold SplitTypeList. pose proof (split_total "," body 0 false []) as H2.
    destruct (split_loop "," body 0 false []) as [l|?|] eqn:El; cbn [obind]; try congruence.
    assert (H3 : all_out (map (ParseTypeSignature fuel) l) <> UB).
    { apply all_out_total. rewrite Forall_map. apply split_length in El. eapply Forall_impl; [|exact El].
      intros x Hx. apply IH. cbn [List.length] in Hx, Hs.
      assert (List.length body <= List.length s)%nat; [|lia].
      unfold body. rewrite firstn_length, skipn_length. cbn [List.length]. lia. }
    destruct (all_out (map (ParseTypeSignature fuel) l)); cbn [obind]; try congruence. apply make_total.
Qed.
Lemma parse_type_total s : ParseType s <> UB.
Proof. apply parse_total. lia. Qed.
Lemma parse_function_total s : parse_stripped s <> UB.
Proof.
  unfold parse_stripped. destruct s as [|c s]; [discriminate|]. unfold FindTopLevelChar.
  pose proof (find_total "(" false (c :: s) 0 0 false None) as H1.
  destruct (find_loop "(" false (c :: s) 0 0 false None) as [[p|]|?|]; cbn [obind]; try congruence.
  destruct (negb _); [discriminate|]. set (prefix := firstn p _). set (body := firstn _ _).
  pose proof (find_total "." true prefix 0 0 false None) as H2.
  destruct (find_loop "." true prefix 0 0 false None) as [dot|?|]; cbn [obind]; try congruence.
  assert (Hb : (match body with [] => Val [] | _ :: _ => pieces <- SplitTypeList body ;; all_out (map ParseType pieces) end) <> UB).
  { destruct body as [|c' body']; [discriminate|]. set (b := c' :: body'). unfold SplitTypeList.
    pose proof (split_total "," b 0 false []) as H3.
    destruct (split_loop "," b 0 false []); cbn [obind]; try congruence.
    apply all_out_total. rewrite Forall_map. apply Forall_forall. intros x _. apply parse_type_total. }
  destruct dot as [d|]; cbn [obind].
  - pose proof (parse_type_total (firstn d prefix)) as H3. destruct (ParseType (firstn d prefix)); cbn [obind]; try congruence.
    destruct (Unescape _); [discriminate|]. destruct (match body with [] => _ | _ => _ end); cbn [obind]; congruence.
  - destruct (Unescape _); [discriminate|]. destruct (match body with [] => _ | _ => _ end); cbn [obind]; congruence.
Qed.

(* ---- what the parser returns ---- *)
Definition good (t : tspec) : Prop := well_named t /\ canonical t = t /\ exists d, AppendTypeDesc t = Val d.
Lemma good_dyn : good TDyn.
Proof. split; [split; exact I|]. split; [reflexivity|]. now exists (lit "dyn"). Qed.
Lemma good_specified t : good t -> is_specified t = true /\ or_dyn t = t.
Proof. intros (_ & _ & d & H). destruct t; try discriminate H; split; reflexivity. Qed.
Lemma good_describe t : good t -> exists d, describe_dyn t = Val d.
Proof. intros H. unfold describe_dyn. rewrite (proj1 (good_specified t H)). apply H. Qed.
Lemma good_all l : Forall good l ->
  Forall well_named l /\ map canonical l = l /\ exists ds, all_out (map AppendTypeDesc l) = Val ds.
Proof.
  induction 1 as [|t l (H1 & H2 & d & H3) _ (I1 & I2 & ds & I3)]; cbn [map all_out].
  - repeat split; [constructor|]. now exists [].
  - repeat split; [now constructor|congruence|]. rewrite H3, I3. now exists (d :: ds).
Qed.
Lemma good_list e : good e -> good (TList e).
Proof.
  intros H. destruct (good_describe e H) as [d Hd]. destruct (good_specified e H) as [_ Ho]. destruct H as (H1 & H2 & _).
  split; [split; [exact I|exact H1]|]. split; [cbn [canonical]; congruence|].
  cbn [AppendTypeDesc]. fold (describe_dyn e). rewrite Hd. eexists. reflexivity.
Qed.
Lemma good_map k v : good k -> good v -> good (TMap k v).
Proof.
  intros H G. destruct (good_describe k H) as [d Hd]. destruct (good_specified k H) as [_ Ho]. destruct H as (H1 & H2 & _).
  destruct (good_describe v G) as [d' Gd]. destruct (good_specified v G) as [_ Go]. destruct G as (G1 & G2 & _).
  split; [split; [exact I|split; assumption]|]. split; [cbn [canonical]; congruence|].
  cbn [AppendTypeDesc]. fold (describe_dyn k). fold (describe_dyn v). rewrite Hd, Gd. eexists. reflexivity.
Qed.
Lemma good_fun r l : good r -> Forall good l -> good (TFun r l).
Proof.
  intros H G. destruct (good_describe r H) as [d Hd]. destruct (good_specified r H) as [_ Ho]. destruct H as (H1 & H2 & _).
  destruct (good_all l G) as (G1 & G2 & ds & G3).
  split; [split; [exact I|split; [exact H1|now apply parts_list]]|]. split; [cbn [canonical]; congruence|].
  cbn [AppendTypeDesc]. fold (describe_dyn r). rewrite Hd, G3. eexists. reflexivity.
Qed.
Lemma good_type e : good e -> good (TType e).
Proof.
  intros (H1 & H2 & d & H3). split; [split; [exact I|exact H1]|]. split; [cbn [canonical]; congruence|].
  cbn [AppendTypeDesc]. rewrite H3. eexists. reflexivity.
Qed.
Lemma good_abstract n l : type_name n -> Forall good l -> good (TAbstract n l).
Proof.
  intros Hn G. destruct (good_all l G) as (G1 & G2 & ds & G3).
  split; [split; [exact Hn|now apply parts_list]|]. split; [cbn [canonical]; congruence|].
  cbn [AppendTypeDesc]. rewrite G3. eexists. reflexivity.
Qed.
Lemma good_builtin n t : ParseBuiltinOrWrapper n = Some t -> good t.
Proof.
  unfold ParseBuiltinOrWrapper, builtin_table. cbn [table_find].
  repeat match goal with |- (if ?b then _ else _) = _ -> _ => destruct b end; try discriminate; intros [= <-];
    repeat first [apply good_list | apply good_map | (split; [split; exact I|]; split; [reflexivity|eexists; reflexivity])].
Qed.
Lemma unreserved n : ParseBuiltinOrWrapper n = None -> text_eqb n (lit "type") = false -> text_eqb n (lit "list") = false ->
  text_eqb n (lit "map") = false -> text_eqb n (lit "function") = false -> Forall (fun w => n <> lit w) reserved.
Proof.
  unfold ParseBuiltinOrWrapper, builtin_table. cbn [table_find].
  assert (Hn : forall w, text_eqb n (lit w) = false -> n <> lit w).
  { intros w H ->. rewrite (proj2 (text_eqb_eq (lit w) (lit w)) eq_refl) in H. discriminate H. }
  repeat match goal with |- (if ?b then _ else _) = _ -> _ => let E := fresh "E" in destruct b eqn:E; [discriminate|apply Hn in E] end.
  intros _ H1 H2 H3 H4. apply Hn in H1, H2, H3, H4. unfold reserved. repeat (constructor; [assumption|]). constructor.
Qed.
Lemma good_make n params t : Forall good params -> make_type n params = Val t -> good t.
Proof.
  intros Hp. unfold make_type. destruct (ParseBuiltinOrWrapper n) as [b|] eqn:Eb.
  { destruct params; [|discriminate]. intros H. apply Val_inj' in H. subst b. eapply good_builtin; eauto. }
  assert (Hnth : forall i, good (nth_or_dyn params i)).
  { intros i. unfold nth_or_dyn. destruct (nth_in_or_default i params TDyn) as [H| ->]; [|apply good_dyn].
    rewrite Forall_forall in Hp. auto. }
  destruct (text_eqb n (lit "type")) eqn:E1.
  { destruct (Nat.ltb _ _); [discriminate|]. intros H. apply Val_inj' in H. subst t. now apply good_type. }
  destruct (text_eqb n (lit "list")) eqn:E2.
  { destruct (Nat.ltb _ _); [discriminate|]. intros H. apply Val_inj' in H. subst t. now apply good_list. }
  destruct (text_eqb n (lit "map")) eqn:E3.
  { intros H. assert (Ht : t = TMap (nth_or_dyn params 0) (nth_or_dyn params 1)).
    { destruct params as [|? [|? [|? ?]]]; try discriminate H; apply Val_inj' in H; now symmetry. }
    subst t. now apply good_map. }
  destruct (text_eqb n (lit "function")) eqn:E4.
  { intros H. apply Val_inj' in H. subst t. apply good_fun; [apply Hnth|]. destruct Hp; [constructor|assumption]. }
  destruct n as [|c n]; [discriminate|]. destruct (contains_dotdot (c :: n)) eqn:E5; [discriminate|].
  intros H. apply Val_inj' in H. subst t. apply good_abstract; [|exact Hp].
  split; [discriminate|]. split; [now apply dotdot_true|]. now apply unreserved.
Qed.
Lemma unescape_nonempty c s : Unescape (c :: s) <> [].
Proof.
  unfold Unescape. cbn [unescape_loop]. destruct (Ascii.eqb c "\"); [|discriminate].
  destruct s; cbn [unescape_loop]; discriminate.
Qed.
Lemma parse_good : forall fuel s t, ParseTypeSignature fuel s = Val t -> good t.
Proof.
  induction fuel as [|fuel IH]; intros s t; [discriminate|].
  destruct s as [|c s]; [discriminate|].
  destruct (Ascii.eqb_spec c "~") as [->|Hc].
  - cbn [ParseTypeSignature]. destruct s as [|c' s]; [discriminate|].
    destruct (FindTopLevelChar (c' :: s) "<" false) as [r1|?|]; cbn [obind]; try discriminate.
    destruct (FindTopLevelChar (c' :: s) "," false) as [r2|?|]; cbn [obind]; try discriminate.
    destruct r1, r2; try discriminate. intros H. apply Val_inj' in H. subst t.
    split; [split; [apply unescape_nonempty|exact I]|]. split; [reflexivity|]. eexists. reflexivity.
  - rewrite parse_step by exact Hc.
    destruct (FindTopLevelChar (c :: s) "<" false) as [r1|?|]; cbn [obind]; try discriminate.
    destruct r1 as [i|]; [|apply good_make; constructor]. destruct (negb _); [discriminate|].
    destruct (SplitTypeList _) as [l|?|]; cbn [obind]; try discriminate.
    destruct (all_out (map (ParseTypeSignature fuel) l)) as [ps|?|] eqn:Ep; cbn [obind]; try discriminate.
    apply good_make. eapply all_out_forall; [|exact Ep]. rewrite Forall_map. apply Forall_forall. intros x _ a. apply IH.
Qed.
Lemma parse_function_good s o : parse_stripped s = Val o ->
  po_name o <> [] /\ Forall good (po_args o) /\ (po_member o = true -> po_args o <> []).
Proof.
  unfold parse_stripped. destruct s as [|c s]; [discriminate|].
  destruct (FindTopLevelChar (c :: s) "(" false) as [[p|]|?|]; cbn [obind]; try discriminate.
  destruct (negb _); [discriminate|]. set (prefix := firstn p _). set (body := firstn _ _).
  destruct (FindTopLevelChar prefix "." true) as [dot|?|]; cbn [obind]; try discriminate.
  set (args := match body with [] => _ | _ => _ end).
  assert (Ha : forall l, args = Val l -> Forall good l).
  { intros l. unfold args. destruct body as [|c' b]; [intros H; apply Val_inj' in H; subst l; constructor|].
    destruct (SplitTypeList _) as [ps|?|]; cbn [obind]; try discriminate. apply all_out_forall.
    rewrite Forall_map. apply Forall_forall. intros x _ a. apply parse_good. }
  set (name := Unescape _).
  destruct dot as [d|]; cbn [obind].
  - destruct (ParseType (firstn d prefix)) as [r|?|] eqn:Er; cbn [obind]; try discriminate.
    destruct name as [|n0 name']; [discriminate|]. destruct args as [l|?|]; cbn [obind]; try discriminate.
    intros H. apply Val_inj' in H. subst o. cbn. split; [discriminate|]. split; [|discriminate].
    constructor; [eapply parse_good; exact Er|auto].
  - destruct name as [|n0 name']; [discriminate|]. destruct args as [l|?|]; cbn [obind]; try discriminate.
    intros H. apply Val_inj' in H. subst o. cbn. split; [discriminate|]. split; [auto|discriminate].
Qed.
