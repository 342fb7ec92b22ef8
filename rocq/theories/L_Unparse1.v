(* Lemmas for the round trip of the unparser: grouping, names, constants. *)
From Coq Require Import ZArith String Ascii List Bool Lia ZifyBool.
From Verif Require Import Base M_Overflow M_Number M_Utf8 S_Utf8 L_Utf8 M_Strings L_Strings M_Attr M_Value M_Logic M_Expr
  M_Macro M_Balancer M_Namespace P_Str.
From Verif Require P_Balance.
From Verif Require Import M_Lex M_Parse M_Unparse S_Unparse L_Lex L_LexStr L_Parse.
Import ListNotations.
Open Scope list_scope.
Open Scope Z_scope.

(* ---- induction over printable expressions ---- *)
Section Ind.
  Variable c : config.
  Variable P : expr -> Prop.
  Hypothesis Hconst : forall v, const_ok v -> P (EConst v).
  Hypothesis Hident : forall n, name_ok n -> P (EIdent n).
  Hypothesis Hselect : forall o f, printable c o -> P o -> unary o = false -> field_ok c f -> P (ESelect o f false).
  Hypothesis Hhas : forall o f, c_macros c = true -> printable c o -> P o -> operator_call o = false -> field_ok c f -> P (ESelect o f true).
  Hypothesis Hnot : forall a, printable c a -> P a -> unary a = false -> P (ECall "!_" None [a]).
  Hypothesis Hneg : forall a, printable c a -> P a -> unary a = false -> leading_number a = false -> P (ECall "-_" None [a]).
  Hypothesis Hbinary : forall fn l r, In fn binary_names -> printable c l -> P l -> printable c r -> P r -> P (ECall fn None [l; r]).
  Hypothesis Hlogical : forall fn args, logical fn = true -> (2 <= List.length args)%nat ->
    Forall (fun a => printable c a /\ P a) args -> P (ECall fn None args).
  Hypothesis Hcond : forall x y z, printable c x -> P x -> printable c y -> P y -> printable c z -> P z -> P (ECall "_?_:_" None [x; y; z]).
  Hypothesis Hindex : forall a i, printable c a -> P a -> unary a = false -> printable c i -> P i -> P (ECall "_[_]" None [a; i]).
  Hypothesis Hopt_index : forall a i, c_optional c = true -> printable c a -> P a -> unary a = false -> printable c i -> P i -> P (ECall "_[?_]" None [a; i]).
  Hypothesis Hopt_select : forall a f, c_optional c = true -> printable c a -> P a -> unary a = false -> field_ok c f ->
    P (ECall "_?._" None [a; EConst (VString (codes f))]).
  Hypothesis Hcall : forall fn args, name_ok fn -> fn <> "_in_"%string -> global_macro fn (List.length args) = false ->
    Forall (fun a => printable c a /\ P a) args -> P (ECall fn None args).
  Hypothesis Hmethod : forall fn t args, is_word fn = true -> keyword fn = false -> fn <> "_in_"%string ->
    receiver_macro fn (List.length args) = false -> printable c t -> P t -> unary t = false ->
    Forall (fun a => printable c a /\ P a) args -> P (ECall fn (Some t) args).
  Hypothesis Hlist : forall l, Forall (fun p => marks_ok c (fst p) /\ printable c (snd p) /\ P (snd p)) l -> P (EList l).
  Hypothesis Hmap : forall l, Forall (fun p => marks_ok c (fst p) /\ (printable c (fst (snd p)) /\ P (fst (snd p))) /\
    (printable c (snd (snd p)) /\ P (snd (snd p)))) l -> P (EMap l).
  Hypothesis Hall : forall x range p, c_macros c = true -> variable_ok x -> printable c range -> P range -> unary range = false ->
    printable c p -> P p -> P (all_comp accu_name x "" range p).
  Hypothesis Hexists : forall x range p, c_macros c = true -> variable_ok x -> printable c range -> P range -> unary range = false ->
    printable c p -> P p -> P (exists_comp accu_name x "" range p).
  Hypothesis Hexists_one : forall x range p, c_macros c = true -> variable_ok x -> printable c range -> P range -> unary range = false ->
    printable c p -> P p -> P (exists_one_comp accu_name x "" range p).
  Hypothesis Hmap2 : forall x range f, c_macros c = true -> variable_ok x -> printable c range -> P range -> unary range = false ->
    printable c f -> P f -> P (map_comp accu_name x "" range f).
  Hypothesis Hmap3 : forall x range p f, c_macros c = true -> variable_ok x -> printable c range -> P range -> unary range = false ->
    printable c p -> P p -> printable c f -> P f -> P (map_filter_comp accu_name x "" range p f).
  Lemma printable_ind' : forall e, printable c e -> P e.
  Proof.
    fix IH 2. intros e H.
    assert (L : forall l, Forall (printable c) l -> Forall (fun a => printable c a /\ P a) l).
    { fix G 2. intros l F. destruct F as [|a l Ha Hl]; constructor; [split; [exact Ha|exact (IH a Ha)]|exact (G l Hl)]. }
    destruct H as [v Hv|n Hn|o f Ho U F|o f M Ho U F|a Ha U|a Ha U N|fn l r I Hl Hr|fn args Lg N F|x y z Hx Hy Hz
      |a i Ha U Hi|a i O Ha U Hi|a f O Ha U F|fn args Nm Nin G F|fn t args W K Nin R Ht U F|l F|l F
      |x range p M V Hr U Hp|x range p M V Hr U Hp|x range p M V Hr U Hp|x range p M V Hr U Hp|x range p f M V Hr U Hp Hf].
    - exact (Hconst v Hv).
    - exact (Hident n Hn).
    - exact (Hselect o f Ho (IH o Ho) U F).
    - exact (Hhas o f M Ho (IH o Ho) U F).
    - exact (Hnot a Ha (IH a Ha) U).
    - exact (Hneg a Ha (IH a Ha) U N).
    - exact (Hbinary fn l r I Hl (IH l Hl) Hr (IH r Hr)).
    - exact (Hlogical fn args Lg N (L args F)).
    - exact (Hcond x y z Hx (IH x Hx) Hy (IH y Hy) Hz (IH z Hz)).
    - exact (Hindex a i Ha (IH a Ha) U Hi (IH i Hi)).
    - exact (Hopt_index a i O Ha (IH a Ha) U Hi (IH i Hi)).
    - exact (Hopt_select a f O Ha (IH a Ha) U F).
    - exact (Hcall fn args Nm Nin G (L args F)).
    - exact (Hmethod fn t args W K Nin R Ht (IH t Ht) U (L args F)).
    - apply Hlist. revert l F. fix G 2. intros l F. destruct F as [|a l [Hm Ha] Hl]; constructor; [|exact (G l Hl)].
      split; [exact Hm|]. split; [exact Ha|exact (IH (snd a) Ha)].
    - apply Hmap. revert l F. fix G 2. intros l F. destruct F as [|a l [Hm [Hk Hv]] Hl]; constructor; [|exact (G l Hl)].
      split; [exact Hm|]. split; (split; [assumption|]); [exact (IH _ Hk)|exact (IH _ Hv)].
    - exact (Hall x range p M V Hr (IH _ Hr) U Hp (IH _ Hp)).
    - exact (Hexists x range p M V Hr (IH _ Hr) U Hp (IH _ Hp)).
    - exact (Hexists_one x range p M V Hr (IH _ Hr) U Hp (IH _ Hp)).
    - exact (Hmap2 x range p M V Hr (IH _ Hr) U Hp (IH _ Hp)).
    - exact (Hmap3 x range p f M V Hr (IH _ Hr) U Hp (IH _ Hp) Hf (IH _ Hf)).
  Qed.
End Ind.

(* ---- grouping ---- *)
Definition group (c : config) (fn : string) (l : list expr) : expr :=
  if Z.of_nat (List.length l) <=? 2 ^ 30
  then match balanced c fn l with Some x => x | None => ECall fn None l end
  else ECall fn None l.
Fixpoint regroup (c : config) (e : expr) : expr :=
  match e with
  | EConst _ | EIdent _ => e
  | ESelect o f t => ESelect (regroup c o) f t
  | ECall fn None args =>
      if logical fn then group c fn (map (regroup c) args) else ECall fn None (map (regroup c) args)
  | ECall fn (Some t) args => ECall fn (Some (regroup c t)) (map (regroup c) args)
  | EList l => EList (map (fun p => match p with (o, a) => (o, regroup c a) end) l)
  | EMap l => EMap (map (fun p => match p with (o, (k, v)) => (o, (regroup c k, regroup c v)) end) l)
  | EComp x y a range init cond step result =>
      EComp x y a (regroup c range) (regroup c init) (regroup c cond)
        (match step with
         | ECall fn None [u; p] => ECall fn None [regroup c u; regroup c p]
         | _ => regroup c step
         end) (regroup c result)
  end.
Definition norm (c : config) (e : expr) : expr := regroup c (flat e).

Lemma balanced_single c fn x : balanced c fn [x] = Some x.
Proof. unfold balanced. cbn [map]. destruct (c_variadic c); reflexivity. Qed.
Lemma balanced_some c fn l : l <> [] -> Z.of_nat (List.length l) <= 2 ^ 30 -> exists x, balanced c fn l = Some x.
Proof.
  intros N L. destruct l as [|first rest]; [easy|]. unfold balanced. cbn [List.length] in L. destruct (c_variadic c).
  - destruct rest as [|y rest]; [eexists; reflexivity|]. cbn [map]. rewrite P_Balance.C33_variadic. eexists. reflexivity.
  - destruct (P_Balance.C33_tree fn first (map (fun e => (0, e)) rest)) as [t [-> _]]; [rewrite map_length; lia|].
    eexists. reflexivity.
Qed.
Lemma group_balanced c fn l : l <> [] -> Z.of_nat (List.length l) <= 2 ^ 30 -> balanced c fn l = Some (group c fn l).
Proof. intros N L. unfold group. destruct (Z.leb_spec (Z.of_nat (List.length l)) (2 ^ 30)); [|lia]. destruct (balanced_some c fn l N L) as [x ->]. reflexivity. Qed.

Lemma flat_tree fn t : logical fn = true -> P_Balance.binary fn t ->
  parts fn (flat (erase t)) = flat_map (fun x => parts fn (flat x)) (P_Balance.operands (P_Balance.tokens t)) /\
  match t with PTerm _ => True | PCall _ _ _ => flat (erase t) = ECall fn None (parts fn (flat (erase t))) end.
Proof.
  intros Lg B. revert t B. apply P_Balance.binary_ind.
  - intros e. split; [|exact I]. cbn. now rewrite app_nil_r.
  - intros id a b [Ha _] [Hb _]. rewrite P_Balance.tokens_call, P_Balance.operands_app.
    change (P_Balance.operands (inr id :: P_Balance.tokens b)) with (P_Balance.operands (P_Balance.tokens b)).
    rewrite flat_map_app, <- Ha, <- Hb. cbn [erase map flat flat_map]. rewrite Lg, app_nil_r.
    cbn [parts]. rewrite String.eqb_refl. split; reflexivity.
Qed.
Lemma chain_operands first rest : P_Balance.operands (P_Balance.chain_tokens first (map (fun e => (0, e)) rest)) = first :: rest.
Proof.
  unfold P_Balance.chain_tokens, P_Balance.operands. cbn [flat_map app]. f_equal. induction rest as [|x rest IH]; [reflexivity|].
  cbn [map flat_map app fst snd]. now rewrite IH.
Qed.
(* two or more operands that are no fn-chains themselves *)
Lemma flat_group c fn l : logical fn = true -> (2 <= List.length l)%nat ->
  flat (group c fn l) = ECall fn None (flat_map (fun x => parts fn (flat x)) l).
Proof.
  intros Lg N.
  assert (D : flat (ECall fn None l) = ECall fn None (flat_map (fun x => parts fn (flat x)) l)).
  { cbn [flat]. rewrite Lg. f_equal. rewrite !flat_map_concat_map, map_map. reflexivity. }
  unfold group. destruct (Z.leb_spec (Z.of_nat (List.length l)) (2 ^ 30)) as [Hl|]; [|exact D].
  destruct (balanced c fn l) as [x|] eqn:B; [|exact D].
  unfold balanced in B. destruct l as [|first [|y rest]]; [cbn in N; lia..|].
  destruct (c_variadic c) eqn:V.
  - cbn [map] in B. rewrite P_Balance.C33_variadic in B. injection B as <-. rewrite <- D. cbn [erase map fst snd].
    do 3 f_equal. f_equal. f_equal. rewrite !map_map. cbn [erase snd]. apply map_id.
  - destruct (balance_chain false fn first (map (fun e => (0, e)) (y :: rest))) as [t|s|] eqn:Bt; try discriminate.
    injection B as <-.
    destruct (P_Balance.C33_tree fn first (map (fun e => (0, e)) (y :: rest))) as [t' [Bt' [Tk [Bn _]]]].
    { rewrite map_length. cbn [List.length] in *. lia. }
    rewrite Bt in Bt'. injection Bt' as <-.
    destruct (flat_tree fn t Lg Bn) as [Hp Hs]. rewrite Tk, chain_operands in Hp.
    destruct t as [e0|id f args].
    + exfalso. cbn in Tk. discriminate.
    + rewrite Hs, Hp. reflexivity.
Qed.

(* what a printable expression means for grouping *)
Definition grouped (c : config) (e : expr) : Prop :=
  flat (norm c e) = flat e /\
  (forall fn, logical fn = true ->
     (1 <= List.length (parts fn (flat e)))%nat /\
     Forall (fun x => flat (regroup c x) = x /\ parts fn x = [x]) (parts fn (flat e))).
Lemma grouped_simple c e : flat (norm c e) = flat e -> (forall fn, logical fn = true -> parts fn (flat e) = [flat e]) -> grouped c e.
Proof.
  intros H P. split; [exact H|]. intros fn Lg. rewrite (P fn Lg). split; [cbn; lia|].
  constructor; [|constructor]. split; [exact H|exact (P fn Lg)].
Qed.
Definition lv (e : expr) : Z := match e with ECall fn _ _ => LookupPrecedence fn | _ => 0 end.
Lemma logical_cases fn : logical fn = true -> fn = "_&&_"%string \/ fn = "_||_"%string.
Proof. unfold logical. intros H. apply orb_true_iff in H. destruct H as [H|H]; apply String.eqb_eq in H; auto. Qed.
Lemma parts_other fn e : lv e <> LookupPrecedence fn -> parts fn (flat e) = [flat e].
Proof.
  intros H. destruct e as [v|n|o f t|g [t|] args|l|l|x y a r i co s re]; try reflexivity.
  cbn [flat parts lv] in *. destruct (String.eqb_spec g fn) as [->|_]; [congruence|reflexivity].
Qed.
Lemma not_logical_parts e : match e with ECall fn None _ => logical fn = false | _ => True end ->
  forall fn, logical fn = true -> parts fn (flat e) = [flat e].
Proof.
  intros H fn Lg. destruct e as [v|n|o f t|g [t|] args|l|l|x y a r i co s re]; try reflexivity.
  cbn [flat parts] in *. destruct (String.eqb_spec g fn) as [->|_]; [congruence|reflexivity].
Qed.
Lemma map_flat_norm c l : Forall (fun a => grouped c a) l -> map flat (map (regroup c) (map flat l)) = map flat l.
Proof. induction 1 as [|a l [Ha _] _ IH]; [reflexivity|]. cbn [map]. unfold norm in Ha. now rewrite Ha, IH. Qed.
Lemma name_not_logical fn : name_ok fn -> logical fn = false.
Proof.
  intros [H|[n [-> _]]]; [|reflexivity]. destruct (logical fn) eqn:L; [|reflexivity].
  destruct (logical_cases fn L) as [-> | ->]; discriminate.
Qed.
Lemma binary_not_logical fn : In fn binary_names -> logical fn = false.
Proof. intros H. cbn in H. repeat (destruct H as [<-|H]; [reflexivity|]). destruct H. Qed.
Lemma printable_grouped c : forall e, printable c e -> grouped c e.
Proof.
  apply printable_ind'.
  - intros v _. now apply grouped_simple.
  - intros n _. now apply grouped_simple.
  - intros o f _ [H _] _ _. apply grouped_simple; [|now apply not_logical_parts]. unfold norm in *. cbn [flat regroup]. now rewrite H.
  - intros o f _ _ [H _] _ _. apply grouped_simple; [|now apply not_logical_parts]. unfold norm in *. cbn [flat regroup]. now rewrite H.
  - intros a _ [H _] _. apply grouped_simple; [|now apply not_logical_parts]. unfold norm in *. cbn. now rewrite H.
  - intros a _ [H _] _ _. apply grouped_simple; [|now apply not_logical_parts]. unfold norm in *. cbn. now rewrite H.
  - intros fn l r I _ [Hl _] _ [Hr _]. pose proof (binary_not_logical fn I) as N.
    apply grouped_simple; [|now apply not_logical_parts]. unfold norm in *. cbn [flat map]. rewrite N. cbn [regroup map]. rewrite N.
    cbn [flat map]. rewrite N. now rewrite Hl, Hr.
  - intros fn args Lg N F.
    assert (X : (List.length args <= List.length (flat_map (parts fn) (map flat args)))%nat /\
                Forall (fun x => flat (regroup c x) = x /\ parts fn x = [x]) (flat_map (parts fn) (map flat args))).
    { clear N. induction F as [|a l [_ [_ Ha]] _ [IHn IHf]]; [split; [reflexivity|constructor]|].
      cbn [map flat_map List.length]. destruct (Ha fn Lg) as [L1 F1]. rewrite app_length. split; [lia|].
      apply Forall_app. now split. }
    destruct X as [Ln Fx].
    assert (E : flat (norm c (ECall fn None args)) = flat (ECall fn None args)).
    { unfold norm. cbn [flat]. rewrite Lg. cbn [regroup]. rewrite Lg. rewrite flat_group by (rewrite ?map_length; assumption || lia).
      f_equal. clear Ln. induction Fx as [|x l [H1 H2] _ IH]; [reflexivity|]. cbn [map flat_map]. now rewrite H1, H2, IH. }
    split; [exact E|]. intros fn' Lg'. cbn [flat]. rewrite Lg. cbn [parts]. destruct (String.eqb_spec fn fn') as [<-|Nf].
    + split; [lia|exact Fx].
    + split; [cbn; lia|]. constructor; [|constructor]. split.
      * unfold norm in E. cbn [flat] in E. rewrite Lg in E. exact E.
      * cbn [parts]. destruct (String.eqb_spec fn fn'); [easy|reflexivity].
  - intros x y z _ [Hx _] _ [Hy _] _ [Hz _]. apply grouped_simple; [|now apply not_logical_parts]. unfold norm in *. cbn. now rewrite Hx, Hy, Hz.
  - intros a i _ [Ha _] _ _ [Hi _]. apply grouped_simple; [|now apply not_logical_parts]. unfold norm in *. cbn. now rewrite Ha, Hi.
  - intros a i _ _ [Ha _] _ _ [Hi _]. apply grouped_simple; [|now apply not_logical_parts]. unfold norm in *. cbn. now rewrite Ha, Hi.
  - intros a f _ _ [Ha _] _ _. apply grouped_simple; [|now apply not_logical_parts]. unfold norm in *. cbn. now rewrite Ha.
  - intros fn args Nm _ _ F. pose proof (name_not_logical fn Nm) as N.
    apply grouped_simple; [|now apply not_logical_parts]. unfold norm in *. cbn [flat]. rewrite N. cbn [regroup]. rewrite N.
    cbn [flat]. rewrite N. rewrite map_flat_norm; [reflexivity|]. eapply Forall_impl; [|exact F]. cbn; intuition.
  - intros fn t args W _ _ _ _ [Ht _] _ F. apply grouped_simple; [|now apply not_logical_parts]. unfold norm in *. cbn [flat regroup].
    rewrite Ht. rewrite map_flat_norm; [reflexivity|]. eapply Forall_impl; [|exact F]. cbn; intuition.
  - intros l F. apply grouped_simple; [|now apply not_logical_parts]. unfold norm. cbn [flat regroup]. f_equal.
    induction F as [|[o a] l [_ [_ [Ha _]]] _ IH]; [reflexivity|]. cbn [map]. rewrite IH. unfold norm in Ha. cbn [snd] in Ha. now rewrite Ha.
  - intros l F. apply grouped_simple; [|now apply not_logical_parts]. unfold norm. cbn [flat regroup]. f_equal.
    induction F as [|[o [k v]] l [_ [[_ [Hk _]] [_ [Hv _]]]] _ IH]; [reflexivity|]. cbn [map]. rewrite IH.
    unfold norm in Hk, Hv. cbn [snd fst] in Hk, Hv. now rewrite Hk, Hv.
  - intros x range p _ _ _ [Hr _] _ _ [Hp _]. apply grouped_simple; [|now apply not_logical_parts]. unfold norm in *.
    unfold all_comp, NewCall, NewAccuIdent, NewBoolConst. cbn. now rewrite Hr, Hp.
  - intros x range p _ _ _ [Hr _] _ _ [Hp _]. apply grouped_simple; [|now apply not_logical_parts]. unfold norm in *.
    unfold exists_comp, NewCall, NewAccuIdent, NewBoolConst. cbn. now rewrite Hr, Hp.
  - intros x range p _ _ _ [Hr _] _ _ [Hp _]. apply grouped_simple; [|now apply not_logical_parts]. unfold norm in *.
    unfold exists_one_comp, NewCall, NewAccuIdent, NewBoolConst, NewIntConst. cbn. now rewrite Hr, Hp.
  - intros x range p _ _ _ [Hr _] _ _ [Hp _]. apply grouped_simple; [|now apply not_logical_parts]. unfold norm in *.
    unfold map_comp, NewCall, NewAccuIdent, NewBoolConst, NewList. cbn. now rewrite Hr, Hp.
  - intros x range p f _ _ _ [Hr _] _ _ [Hp _] _ [Hf _]. apply grouped_simple; [|now apply not_logical_parts]. unfold norm in *.
    unfold map_filter_comp, NewCall, NewAccuIdent, NewBoolConst, NewList. cbn. now rewrite Hr, Hp, Hf.
Qed.
