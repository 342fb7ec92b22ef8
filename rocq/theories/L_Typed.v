(* Well-typed expressions evaluate without type errors. *)
From Coq Require Import String List Bool NArith ZArith Ascii Lia Permutation.
From Verif Require Import Base M_Overflow M_Number M_Attr M_Value M_Logic M_Expr M_Plan M_Machine
  S_Arith S_Num S_Value S_Eval L_Value S_Macro M_Infer S_Infer M_Checker S_Checker.
From Verif Require Import S_Typed.
From Verif Require L_Meaning.
Import ListNotations.
Local Open Scope string_scope.
Open Scope list_scope.
Open Scope Z_scope.
Local Open Scope out_scope.

(* ---- errors that are not type errors ---- *)
Lemma no_overload_code fn : st_code (no_matching_overload fn) = kUnknown.
Proof. reflexivity. Qed.
Ltac no_type_error :=
  intros [(?fn & ?Hf & ?E)|[?E|[?E|[?E|?E]]]]; try discriminate;
  try (apply (f_equal st_msg) in E; cbn in E; destruct (String.eqb fn ""); discriminate).
Lemma fine_no_such_key : ~ type_error no_such_key.
Proof. no_type_error. Qed.
Lemma fine_invalid_key : ~ type_error invalid_map_key.
Proof. no_type_error. Qed.
Lemma fine_duplicate : ~ type_error duplicate_key.
Proof. no_type_error. Qed.
Lemma fine_range : ~ type_error index_range_error.
Proof. no_type_error. Qed.
Lemma fine_no_value x : ~ type_error (no_value_error x).
Proof.
  no_type_error.
Qed.
Lemma append_inj a b c : String.append a b = String.append a c -> b = c.
Proof. induction a as [|x a IH]; cbn; [auto|]. intros [= H]. auto. Qed.
Lemma fine_in : ~ type_error (no_matching_overload "@in").
Proof.
  intros [(fn & Hf & E)|[E|[E|[E|E]]]]; try discriminate.
  injection E as E. destruct (String.eqb fn "") eqn:F.
  - apply String.eqb_eq in F. subst fn. discriminate.
  - apply Hf. symmetry. change (String.append "No matching overloads found : " "@in" =
      String.append "No matching overloads found : " fn) in E. apply append_inj in E. exact E.
Qed.
#[global] Hint Resolve fine_no_such_key fine_invalid_key fine_duplicate fine_range fine_no_value fine_in : fine.

Section Typed.
Variables (D : decls) (C : config) (R : registry).
Hypothesis H : conforms D C R.
Notation opt := (o_optional_types (cf_opts C)).
Notation good := (good opt).
Notation has_type := (has_type opt).

Let unk_off : unk C = false. Proof. apply H. Qed.

(* a value good for t: of the type, or an error *)
Definition goodv (t : ty) (v : value) : Prop := has_type t v \/ exists st, v = VError st /\ ~ type_error st.
Lemma good_val t v tr : good t (Val (v, tr)) <-> goodv t v.
Proof. reflexivity. Qed.
Lemma good_pair t p : goodv t (fst p) -> good t (Val p).
Proof. destruct p. auto. Qed.
Lemma goodv_err t st : ~ type_error st -> goodv t (VError st).
Proof. right. eauto. Qed.
Lemma good_bind t u o f : good t o -> (forall x, goodv t (fst x) -> good u (f x)) -> good u (obind o f).
Proof.
  destruct o as [[v tr]|st|]; cbn [obind]; intros G K; [apply K, G | exact G | exact G].
Qed.
Lemma type_not_error t v : has_type t v -> is_error v = false.
Proof. intros [V _]. destruct v; try reflexivity. destruct V as [[] _]. Qed.
Lemma type_not_unknown t v : has_type t v -> is_unknown v = false.
Proof. intros [V _]. destruct v; try reflexivity. destruct V as [[] _]. Qed.
Lemma goodv_cases t v : goodv t v -> (is_error v = false /\ has_type t v) \/
  (is_error v = true /\ exists st, v = VError st /\ ~ type_error st).
Proof.
  intros [T|(st & -> & N)]; [left | right; split; eauto]. split; [eapply type_not_error, T | exact T].
Qed.

Lemma type_bool v : has_type (TPrim PBool) v <-> exists b, v = VBool b.
Proof. split; [intros [_ T]; exact T|]. intros [b ->]. split; [split; exact I | exists b; reflexivity]. Qed.
Lemma good_bool b : goodv (TPrim PBool) (VBool b).
Proof. left. apply type_bool. eauto. Qed.
Hint Resolve good_bool : fine.

(* ---- operators ---- *)
Lemma calculate_good op a b : goodv (TPrim PBool) a -> goodv (TPrim PBool) b ->
  goodv (TPrim PBool) (Calculate false op a b).
Proof.
  intros [A|(sa & -> & Na)] [B|(sb & -> & Nb)];
    try (apply type_bool in A; destruct A as [x ->]); try (apply type_bool in B; destruct B as [y ->]);
    unfold Calculate; cbn; destruct op; cbn;
    try (destruct x); try (destruct y); cbn; auto using goodv_err with fine.
Qed.
Lemma logic_good op a b : good (TPrim PBool) a -> good (TPrim PBool) b ->
  good (TPrim PBool) (logic_outcome C op a b).
Proof.
  intros A B. unfold logic_outcome. eapply good_bind; [exact A|]. intros x Hx.
  destruct (sc C && M_Logic.decides op (fst x))%bool.
  - destruct x as [v tr]. exact Hx.
  - eapply good_bind; [exact B|]. intros y Hy. rewrite unk_off. apply good_val. apply calculate_good; auto.
Qed.
Lemma chain_good op l : forall a, good (TPrim PBool) a -> Forall (good (TPrim PBool)) l ->
  good (TPrim PBool) (fold_left (logic_outcome C op) l a).
Proof.
  induction l as [|b l IH]; intros a A F; [exact A|]. apply Forall_cons_iff in F. destruct F as [B F].
  apply IH; [apply logic_good; auto | exact F].
Qed.

Lemma sequence_good ts os : Forall2 good ts os ->
  match sequence os with
  | Val vs => Forall2 goodv ts (map fst vs)
  | Err st => ~ type_error st
  | UB => False
  end.
Proof.
  induction 1 as [|t o ts os Ho _ IH]; [constructor|]. cbn [sequence].
  destruct o as [[v tr]|st|]; cbn [obind]; [|exact Ho | exact Ho].
  destruct (sequence os) as [vs|st|]; cbn [obind]; [|exact IH | exact IH].
  cbn [map fst]. constructor; [exact Ho | exact IH].
Qed.
Lemma seq_bind t ts os f : Forall2 good ts os ->
  (forall vs, Forall2 goodv ts (map fst vs) -> good t (f vs)) -> good t (obind (sequence os) f).
Proof.
  intros S K. apply sequence_good in S. destruct (sequence os) as [vs|st|]; cbn [obind]; auto.
Qed.

Lemma cond_good t c a b : good (TPrim PBool) c -> good t a -> good t b ->
  good t (x <- c ;;
        if sc C then
          match BoolCheck x with
          | Some r => Val r
          | None => if is_true (fst x) then a else b
          end
        else y <- a ;; z <- b ;; Val (TernaryStep C x y z)).
Proof.
  intros Hc A B. eapply good_bind; [exact Hc|]. intros [v tr] Hv. cbn [fst] in *. destruct (sc C).
  - unfold BoolCheck. cbn [fst]. destruct Hv as [T|(st & -> & N)].
    + apply type_bool in T. destruct T as [x ->]. destruct x; cbn [is_true]; auto.
    + apply good_val, goodv_err, N.
  - eapply good_bind; [exact A|]. intros y Hy. eapply good_bind; [exact B|]. intros z Hz.
    unfold TernaryStep. cbn [fst]. rewrite unk_off. cbn [andb orb].
    destruct Hv as [T|(st & -> & N)]; [apply type_bool in T; destruct T as [x ->]|]; cbn [is_error].
    + destruct x; apply good_val; auto.
    + apply good_val, goodv_err, N.
Qed.

Lemma optional_cases t v : has_type (optional_of t) v -> opt = true /\
  (v = VOptional None \/ exists x, v = VOptional (Some x) /\ has_type t x).
Proof.
  intros [V T]. cbn [of_type optional_of] in T. destruct T as (_ & O & [-> | (x & -> & T)]).
  - split; [exact O | left; reflexivity].
  - split; [exact O|]. right. exists x. split; [reflexivity|]. split; [apply V | exact T].
Qed.
Lemma optional_some t x : opt = true -> has_type t x -> has_type (optional_of t) (VOptional (Some x)).
Proof.
  intros O [V T]. split; [split; [exact I | exact V]|]. cbn. split; [reflexivity|]. split; [exact O|]. eauto.
Qed.
Lemma optional_none t : opt = true -> has_type (optional_of t) (VOptional None).
Proof. intros O. split; [split; exact I|]. cbn. auto. Qed.

Lemma or_good t (k : bool) a b : good (optional_of t) a -> good (if k then t else optional_of t) b ->
  good (if k then t else optional_of t)
    (x <- a ;;
        match (if sc C then OptionalJump k x else None) with
        | Some r => Val r
        | None => y <- b ;; Val (EvalOptionalOr k x y)
        end).
Proof.
  intros A B. eapply good_bind; [exact A|]. intros [v tr] Hv. cbn [fst] in Hv.
  destruct Hv as [T|(st & -> & N)].
  - destruct (optional_cases _ _ T) as [O [-> | (x & -> & Tx)]].
    + destruct (sc C); cbn [OptionalJump fst];
        (eapply good_bind; [exact B|]; intros [w tw] Hw; unfold EvalOptionalOr; cbn [fst] in *; apply good_pair;
         destruct Hw as [Tw|(st & -> & N)]; [|destruct k; apply goodv_err, N]; destruct k; cbn [fst snd];
         [destruct w; left; exact Tw|]; destruct (optional_cases _ _ Tw) as [_ [-> | (y & -> & Ty)]];
         left; exact Tw).
    + destruct (sc C); cbn [OptionalJump fst];
        [|eapply good_bind; [exact B|]; intros [w tw] Hw; unfold EvalOptionalOr; cbn [fst snd] in *];
        apply good_pair; destruct k; left; assumption.
  - destruct (sc C); cbn [OptionalJump fst];
      [|eapply good_bind; [exact B|]; intros [w tw] Hw; unfold EvalOptionalOr; cbn [fst snd] in *];
      apply good_pair; apply goodv_err, N.
Qed.

(* ---- containers ---- *)
Lemma type_list t v : has_type (TList t) v <-> exists l, v = VList l /\ Forall (has_type t) l.
Proof.
  split.
  - intros [V (l & -> & F)]. exists l. split; [reflexivity|]. apply everywhere_list in V. destruct V as [_ V].
    rewrite Forall_forall in *. intros x Hx. split; [apply V, Hx | apply F, Hx].
  - intros (l & -> & F). split.
    + apply everywhere_list. split; [exact I|]. eapply Forall_impl; [|exact F]. intros x Hx. apply Hx.
    + exists l. split; [reflexivity|]. eapply Forall_impl; [|exact F]. intros x Hx. apply Hx.
Qed.
Definition entry_typed (k t : ty) (p : mkey * value) : Prop :=
  of_type opt k (value_of_key (fst p)) /\ has_type t (snd p).
Lemma type_map k t v : has_type (TMap k t) v <-> exists m, v = VMap m /\ node_ok (VMap m) /\
  Forall (entry_typed k t) m.
Proof.
  split.
  - intros [V (m & -> & F)]. exists m. split; [reflexivity|]. apply everywhere_map in V. destruct V as [N V].
    split; [exact N|]. rewrite Forall_forall in *. intros x Hx. destruct (F x Hx) as [F1 F2].
    split; [exact F1|]. split; [apply V, Hx | exact F2].
  - intros (m & -> & N & F). split.
    + apply everywhere_map. split; [exact N|]. eapply Forall_impl; [|exact F]. intros x Hx. apply Hx.
    + exists m. split; [reflexivity|]. eapply Forall_impl; [|exact F]. intros x Hx. split; apply Hx.
Qed.
Lemma entries_find k t m key v : Forall (entry_typed k t) m -> find_key key m = Some v -> has_type t v.
Proof.
  induction 1 as [|[k' w] m [_ T] _ IH]; [discriminate|]. cbn [find_key].
  destruct (key_eqb k' key); [intros [= <-]; exact T | exact IH].
Qed.

Lemma index_list_good t a b : goodv (TList t) (fst a) -> goodv (TPrim PInt) (fst b) -> good t (IndexStep C a b).
Proof.
  intros A B. unfold IndexStep. rewrite unk_off. cbn [andb]. unfold unknown_exact. rewrite unk_off. cbn [andb].
  destruct A as [T|(st & E & N)].
  - apply type_list in T. destruct T as (l & E & F). rewrite E. rewrite (cf_hetero _ _ _ H).
    destruct B as [[_ (i & Ei)]|(st & Ei & N)]; rewrite Ei; cbn [PerformLookup obind].
    + unfold LookupInContainer, LookupInList. cbn [NumberFromValue LosslessConvertibleToInt AsInt obind].
      destruct ((i <? 0) || _)%bool eqn:X; cbn [obind]; [apply good_val, goodv_err, fine_range|].
      apply orb_false_iff in X. destruct X as [X1 X2]. apply Z.ltb_ge in X1. apply Z.leb_gt in X2.
      destruct (nth_error l (Z.to_nat i)) as [v|] eqn:Nv.
      * apply good_val. left. rewrite Forall_forall in F. apply F. eapply nth_error_In, Nv.
      * apply nth_error_None in Nv. lia.
    + apply good_val, goodv_err, N.
  - rewrite E. cbn [PerformLookup obind]. apply good_val, goodv_err, N.
Qed.

Lemma index_map_good k t a b : goodv (TMap k t) (fst a) -> goodv k (fst b) -> good t (IndexStep C a b).
Proof.
  intros A B. unfold IndexStep. rewrite unk_off. cbn [andb]. unfold unknown_exact. rewrite unk_off. cbn [andb].
  destruct A as [T|(st & E & N)].
  - pose proof T as [V _]. apply type_map in T. destruct T as (m & E & No & F). rewrite E in *.
    rewrite (cf_hetero _ _ _ H).
    destruct B as [[Vk _]|(st & Ei & N)].
    + assert (Q : PerformLookup true opt (VMap m) (fst b) = LookupInMap true m (fst b)).
      { destruct (fst b); try reflexivity. destruct Vk as [[] _]. }
      rewrite Q.
      assert (L : lookup_kind (fst b) \/ LookupInMap true m (fst b) = Val (VError invalid_map_key)).
      { destruct (fst b); try (left; exact I); right; reflexivity. }
      destruct L as [L|L]; [|rewrite L; cbn [obind]; apply good_val, goodv_err, fine_invalid_key].
      assert (Nk : node_ok (fst b)). { destruct (fst b); destruct Vk; auto. }
      destruct (LookupInMap_ok m (fst b) L Nk V) as [(k' & v & Hi & _ & -> & _)|[_ ->]]; cbn [obind]; apply good_val.
      * left. rewrite Forall_forall in F. destruct (F _ Hi) as [_ Tv]. exact Tv.
      * apply goodv_err, fine_no_such_key.
    + rewrite Ei. cbn [PerformLookup obind]. apply good_val, goodv_err, N.
  - rewrite E. cbn [PerformLookup obind]. apply good_val, goodv_err, N.
Qed.

Lemma equality_good t n a b : goodv t (fst a) -> goodv t (fst b) -> good (TPrim PBool) (EqualityStep C n a b).
Proof.
  intros A B. unfold EqualityStep.
  destruct (goodv_cases _ _ A) as [[-> TA]|[-> (st & E & N)]]; [|apply good_val; rewrite E; apply goodv_err, N].
  destruct (goodv_cases _ _ B) as [[-> TB]|[-> (st & E & N)]]; [|apply good_val; rewrite E; apply goodv_err, N].
  unfold pair_unknowns. rewrite unk_off. unfold EvaluateEquality.
  rewrite (type_not_error _ _ TA), (type_not_error _ _ TB). unfold ValueEqualImpl.
  destruct (EqualImpl_total (fst a) (fst b) (proj1 TA) (proj1 TB)) as [r ->]. cbn [obind]. apply good_val.
  unfold equality_result. apply good_bool.
Qed.

Lemma in_list_good t a b : goodv t (fst a) -> goodv (TList t) (fst b) -> good (TPrim PBool) (InStep C a b).
Proof.
  intros A B. unfold InStep.
  destruct (goodv_cases _ _ A) as [[-> TA]|[-> (st & E & N)]]; [|apply good_val; rewrite E; apply goodv_err, N].
  destruct (goodv_cases _ _ B) as [[-> TB]|[-> (st & E & N)]]; [|apply good_val; rewrite E; apply goodv_err, N].
  unfold pair_unknowns. rewrite unk_off. unfold EvaluateIn.
  rewrite (type_not_error _ _ TA), (type_not_error _ _ TB).
  apply type_list in TB. destruct TB as (l & -> & _). cbn [obind]. apply good_val, good_bool.
Qed.
Lemma in_map_good k t a b : goodv k (fst a) -> goodv (TMap k t) (fst b) -> good (TPrim PBool) (InStep C a b).
Proof.
  intros A B. unfold InStep.
  destruct (goodv_cases _ _ A) as [[-> TA]|[-> (st & E & N)]]; [|apply good_val; rewrite E; apply goodv_err, N].
  destruct (goodv_cases _ _ B) as [[-> TB]|[-> (st & E & N)]]; [|apply good_val; rewrite E; apply goodv_err, N].
  unfold pair_unknowns. rewrite unk_off. unfold EvaluateIn.
  rewrite (type_not_error _ _ TA), (type_not_error _ _ TB).
  apply type_map in TB. destruct TB as (m & -> & [_ Ko] & _).
  assert (L : lookup_kind (fst a) \/ EvaluateInMap (fst a) m = Val (VError (no_matching_overload "@in"))).
  { destruct (fst a); try (left; exact I); right; reflexivity. }
  destruct L as [L|L]; [|rewrite L; cbn [obind]; apply good_val, goodv_err, fine_in].
  assert (Nk : node_ok (fst a)). { destruct TA as [Vk _]. destruct (fst a); destruct Vk; auto. }
  destruct (EvaluateInMap_ok m (fst a) L Nk Ko) as (r & -> & _). cbn [obind]. apply good_val, good_bool.
Qed.

Lemma not_good a : goodv (TPrim PBool) (fst a) -> good (TPrim PBool) (Val (NotStepT C a)).
Proof.
  intros A. unfold NotStepT, NotStep, unknown_partial. rewrite unk_off. cbn [andb].
  destruct A as [T|(st & -> & N)].
  - apply type_bool in T. destruct T as [b ->]. apply good_val, good_bool.
  - apply good_val, goodv_err, N.
Qed.
Lemma nsf_good a : goodv (TPrim PBool) (fst a) -> good (TPrim PBool) (Val (NotStrictlyFalseStepT a)).
Proof.
  intros A. unfold NotStrictlyFalseStepT. destruct a as [v tr]. cbn [fst] in *.
  destruct A as [T|(st & -> & N)].
  - apply type_bool in T. destruct T as [b ->]. apply good_val, good_bool.
  - apply good_val, good_bool.
Qed.

Lemma select_good t u f a : goodv t (fst a) -> member D t f u -> good u (SelectStep C f false a).
Proof.
  intros A M. destruct a as [v tr]. cbn [fst] in A. unfold SelectStep. rewrite unk_off.
  destruct A as [T|(st & -> & N)]; [|apply good_val, goodv_err, N].
  inversion M; subst; [|destruct T as [_ []]|destruct T as [_ []]].
  apply type_map in T. destruct T as (m & -> & _ & F). unfold unknown_exact. rewrite unk_off. cbn [andb].
  apply good_val. unfold MapGet. cbn [key_of_value].
  destruct (find_key _ m) as [w|] eqn:E; [left; eapply entries_find; eauto | apply goodv_err, fine_no_such_key].
Qed.
Lemma has_good t u f a : goodv t (fst a) -> member D t f u -> good (TPrim PBool) (SelectStep C f true a).
Proof.
  intros A M. destruct a as [v tr]. cbn [fst] in A. unfold SelectStep. rewrite unk_off.
  destruct A as [T|(st & -> & N)]; [|apply good_val, goodv_err, N].
  inversion M; subst; [|destruct T as [_ []]|destruct T as [_ []]].
  apply type_map in T. destruct T as (m & -> & _ & F). unfold unknown_exact. rewrite unk_off. cbn [andb].
  apply good_val. apply good_bool.
Qed.
Lemma select_optional_good t u f a : goodv (optional_of t) (fst a) -> member D t f u ->
  good (optional_of u) (SelectStep C f false a).
Proof.
  intros A M. destruct a as [v tr]. cbn [fst] in A. unfold SelectStep. rewrite unk_off.
  destruct A as [T|(st & -> & N)]; [|apply good_val, goodv_err, N].
  destruct (optional_cases _ _ T) as [O [-> | (x & -> & Tx)]]; pose proof (optional_none u O) as Z1;
    pose proof (fun x => optional_some u x O) as Z2; revert Z1 Z2; rewrite O; intros Z1 Z2;
    unfold unknown_exact; rewrite unk_off; cbn [andb].
  - red. left. exact Z1.
  - inversion M; subst; [|destruct Tx as [_ []]|destruct Tx as [_ []]].
    apply type_map in Tx. destruct Tx as (m & -> & _ & F). red. left. unfold MapFind. cbn [key_of_value].
    destruct (find_key _ m) as [w|] eqn:E; [|exact Z1].
    apply Z2. pose proof (entries_find _ _ _ _ _ F E) as Q. rewrite O in Q. exact Q.
Qed.
Lemma has_optional_good t u f a : goodv (optional_of t) (fst a) -> member D t f u ->
  good (TPrim PBool) (SelectStep C f true a).
Proof.
  intros A M. destruct a as [v tr]. cbn [fst] in A. unfold SelectStep. rewrite unk_off.
  destruct A as [T|(st & -> & N)]; [|apply good_val, goodv_err, N].
  assert (Z : forall b, S_Typed.has_type true (TPrim PBool) (VBool b)).
  { intros b. split; [split; exact I | exists b; reflexivity]. }
  destruct (optional_cases _ _ T) as [O [-> | (x & -> & Tx)]]; rewrite O;
    unfold unknown_exact; rewrite unk_off; cbn [andb].
  - red. left. apply Z.
  - inversion M; subst; [|destruct Tx as [_ []]|destruct Tx as [_ []]].
    apply type_map in Tx. destruct Tx as (m & -> & _ & F). red. left. apply Z.
Qed.

(* ---- literals ---- *)
Lemma no_errors ts vs : Forall2 goodv ts vs -> find is_error vs = None -> Forall2 has_type ts vs.
Proof.
  induction 1 as [|t v ts vs G _ IH]; [constructor|]. cbn [find]. destruct (is_error v) eqn:E; [discriminate|].
  intros F. constructor; [|auto]. destruct G as [T|(st & -> & _)]; [exact T | discriminate].
Qed.
Lemma an_error ts vs e : Forall2 goodv ts vs -> find is_error vs = Some e -> exists st, e = VError st /\ ~ type_error st.
Proof.
  induction 1 as [|t v ts vs G _ IH]; [discriminate|]. cbn [find]. destruct (is_error v) eqn:E.
  - intros [= ->]. destruct G as [T|G]; [|exact G]. apply type_not_error in T. congruence.
  - exact IH.
Qed.

Lemma list_add_good t l v : has_type t v -> ListAdd l v = Val (l ++ [v]).
Proof. intros [V _]. unfold ListAdd, CheckListElement. destruct v; try reflexivity; destruct V as [[] _]. Qed.

Lemma list_loop_good t opts vs : forall l,
  Forall2 has_type (map (fun o : bool => if o then optional_of t else t) opts) vs ->
  Forall (has_type t) l -> good (TList t) (r <- list_loop opts vs l ;; Val (r, None)).
Proof.
  revert vs. induction opts as [|o opts IH]; intros vs l F L; inversion F; subst; cbn [list_loop].
  - cbn [obind]. apply good_val. left. apply type_list. eauto.
  - destruct o.
    + destruct (optional_cases _ _ H2) as [O [-> | (x & -> & Tx)]].
      * apply IH; auto.
      * rewrite (list_add_good t l x Tx). cbn [obind].
        assert (Q : good (TList t) (r <- list_loop opts l' (l ++ [x]) ;; Val (r, None))).
        { apply IH; [assumption|]. apply Forall_app. split; auto. }
        destruct x; try exact Q. destruct Tx as [[[] _] _].
    + rewrite (list_add_good t l y H2). cbn [obind]. apply IH; [assumption|]. apply Forall_app. split; auto.
Qed.

Lemma list_step_good t opts vs :
  Forall2 goodv (map (fun o : bool => if o then optional_of t else t) opts) (map fst vs) ->
  good (TList t) (ListStep C opts vs).
Proof.
  intros F. unfold ListStep. destruct (find is_error (map fst vs)) as [e|] eqn:E.
  - destruct (an_error _ _ _ F E) as (st & -> & N). apply good_val, goodv_err, N.
  - unfold literal_unknowns. rewrite unk_off. apply list_loop_good; [|constructor].
    apply no_errors; auto.
Qed.

Lemma key_back k key : key_of_value k = Some key -> value_of_key key = k.
Proof. destruct k; intros [= <-]; reflexivity. Qed.

Lemma map_put_good k t m a v : node_ok (VMap m) -> Forall (entry_typed k t) m -> has_type k a -> has_type t v ->
  match MapPut m a v with
  | Val m' => node_ok (VMap m') /\ Forall (entry_typed k t) m'
  | Err st => ~ type_error st
  | UB => False
  end.
Proof.
  intros No F Ta Tv. destruct (MapPut m a v) as [m'|st|] eqn:E.
  - apply MapPut_val in E. destruct E as (key & Ek & _ & _ & Ni & ->). destruct No as [Nd Ko]. split; [split|].
    + rewrite map_app. cbn [map fst]. eapply Permutation_NoDup; [apply Permutation_cons_append|]. constructor; assumption.
    + rewrite map_app. apply Forall_app. split; [exact Ko|]. repeat constructor. cbn [fst].
      destruct Ta as [Va _]. destruct a; try discriminate; injection Ek as <-; destruct Va as [Va _]; exact Va.
    + apply Forall_app. split; [exact F|]. repeat constructor; cbn [fst snd].
      * rewrite (key_back _ _ Ek). apply Ta.
      * apply Tv.
      * apply Tv.
  - unfold MapPut in E. pose proof (type_not_error _ _ Ta) as Ea. pose proof (type_not_error _ _ Tv) as Ev.
    pose proof (type_not_unknown _ _ Tv) as Eu.
    assert (K : (exists key, CheckMapKey a = Val key) \/ CheckMapKey a = Err invalid_map_key).
    { destruct a; try discriminate; cbn; eauto. }
    destruct K as [[key K]|K]; rewrite K in E; cbn [obind] in E; [|injection E as <-; apply fine_invalid_key].
    assert (K2 : CheckMapValue v = Val tt) by (destruct v; try reflexivity; discriminate).
    rewrite K2 in E. cbn [obind] in E. destruct (find_key key m); [injection E as <-; apply fine_duplicate | discriminate].
  - now apply MapPut_out in E.
Qed.

Lemma reorder_good k t m : node_ok (VMap m) -> Forall (entry_typed k t) m -> has_type (TMap k t) (VMap (cf_reorder C m)).
Proof.
  intros [Nd Ko] F. pose proof (cf_order _ _ _ H m) as P. apply type_map. exists (cf_reorder C m).
  split; [reflexivity|]. split; [split|].
  - eapply Permutation_NoDup; [apply Permutation_map, Permutation_sym, P | exact Nd].
  - eapply Permutation_Forall; [apply Permutation_map, Permutation_sym, P | exact Ko].
  - eapply Permutation_Forall; [apply Permutation_sym, P | exact F].
Qed.

Lemma map_loop_good k t opts : forall vs m,
  Forall2 has_type (flat_map (fun o : bool => [k; if o then optional_of t else t]) opts) vs ->
  node_ok (VMap m) -> Forall (entry_typed k t) m ->
  good (TMap k t) (r <- map_loop (cf_reorder C) opts vs m ;; Val (r, None)).
Proof.
  induction opts as [|o opts IH]; intros vs m F No Fm; cbn [flat_map app] in F.
  - inversion F; subst. cbn [map_loop obind]. apply good_val. left. apply reorder_good; auto.
  - inversion F as [|? a ? ? Ta F']; subst. inversion F' as [|? v ? vs' Tv F'']; subst. clear F F'.
    cbn [map_loop].
    pose proof (type_not_error _ _ Ta) as Ea.
    assert (K : (exists key, CheckMapKey a = Val key) \/ CheckMapKey a = Err invalid_map_key).
    { destruct a; try discriminate; cbn; eauto. }
    destruct K as [[key K]|K]; rewrite K; [|cbn [obind]; apply good_val, goodv_err, fine_invalid_key].
    assert (S : forall w, has_type t w ->
       good (TMap k t) (r <- (m' <- MapPut m a w ;; map_loop (cf_reorder C) opts vs' m') ;; Val (r, None))).
    { intros w Tw. pose proof (map_put_good k t m a w No Fm Ta Tw) as P.
      destruct (MapPut m a w) as [m'|st|]; cbn [obind]; [|exact P | exact P].
      destruct P as [No' Fm']. apply IH; auto. }
    destruct o.
    + destruct (optional_cases _ _ Tv) as [O [-> | (x & -> & Tx)]]; [apply IH; auto|].
      specialize (S x Tx). destruct x; try exact S. destruct Tx as [[[] _] _].
    + apply S, Tv.
Qed.
Lemma map_step_good k t opts vs :
  Forall2 goodv (flat_map (fun o : bool => [k; if o then optional_of t else t]) opts) (map fst vs) ->
  good (TMap k t) (MapStep C opts vs).
Proof.
  intros F. unfold MapStep. destruct (find is_error (map fst vs)) as [e|] eqn:E.
  - destruct (an_error _ _ _ F E) as (st & -> & N). apply good_val, goodv_err, N.
  - unfold literal_unknowns. rewrite unk_off. apply map_loop_good; [|split; constructor|constructor].
    apply no_errors; auto.
Qed.

(* ---- calls ---- *)
Lemma find_error_none vs : find is_error vs = None -> forall v, In v vs -> is_error v = false.
Proof. intros F v Hv. eapply find_none in F; eauto. Qed.
Lemma types_no_error ts vs : Forall2 has_type ts vs -> existsb (fun a => is_unknown a || is_error a)%bool vs = false.
Proof.
  induction 1 as [|t v ts vs T _ IH]; [reflexivity|]. cbn [existsb].
  now rewrite (type_not_error _ _ T), (type_not_unknown _ _ T), IH.
Qed.

Lemma function_good fn ovls o s rcv os : d_funcs D fn = Some ovls -> In o ovls -> ~ In fn operators ->
  od_member o = rcv -> Forall2 good (map (tsub s) (od_args o)) os ->
  good (tsub s (od_result o))
    (obind (sequence os) (apply_op C (OCall fn rcv (FindStaticOverloadsByArity R fn rcv (length os))))).
Proof.
  intros Df Ho Nop Hr F. eapply seq_bind; [exact F|]. intros vs Hvs.
  assert (L : length (map fst vs) = length os).
  { apply Forall2_length in F. apply Forall2_length in Hvs. congruence. }
  cbn [apply_op]. unfold CallFunction, call_args. rewrite unk_off.
  destruct (find is_error (map fst vs)) as [e|] eqn:E.
  - assert (A : accepted (FindStaticOverloadsByArity R fn rcv (length os)) (map fst vs) = None).
    { unfold accepted. destruct (ResolveStatic _ _) as [f|] eqn:Rs; [|reflexivity].
      unfold ResolveStatic in Rs. apply find_some in Rs. destruct Rs as [Rs _].
      unfold FindStaticOverloadsByArity, named in Rs. apply filter_In in Rs. destruct Rs as [Rs _].
      apply filter_In in Rs. destruct Rs as [Rs Rn]. apply String.eqb_eq in Rn.
      unfold ShouldAcceptOverload.
      assert (X : existsb (fun a => is_unknown a || is_error a)%bool (map fst vs) = true).
      { apply existsb_exists. apply find_some in E. exists e. split; [apply E|]. destruct E as [_ ->]. apply orb_true_r. }
      rewrite X. rewrite (cf_strict _ _ _ H fn) with (o := f); auto. rewrite Df. discriminate. }
    rewrite A. cbn [obind]. unfold NoOverloadResult. rewrite E. apply good_val.
    destruct (an_error _ _ _ Hvs E) as (st & -> & N). apply goodv_err, N.
  - assert (T : Forall2 has_type (map (tsub s) (od_args o)) (map fst vs)) by (apply no_errors; auto).
    destruct (cf_functions _ _ _ H fn ovls o s (map fst vs) Df Ho Nop T) as (f & Rf & G).
    unfold accepted. rewrite <- L. rewrite <- Hr. rewrite Rf. unfold ShouldAcceptOverload.
    rewrite (types_no_error _ _ T). exact G.
Qed.

Lemma op1 t u op a : good t a -> (forall x, goodv t (fst x) -> good u (apply_op C op [x])) ->
  good u (obind (sequence [a]) (apply_op C op)).
Proof.
  intros A K. eapply (seq_bind u [t]); [repeat constructor; exact A|]. intros vs F.
  destruct vs as [|x [|? ?]]; cbn [map] in F; inversion F as [|? ? ? ? F1 F2]; subst; [|inversion F2]. auto.
Qed.
Lemma op2 t1 t2 u op a b : good t1 a -> good t2 b ->
  (forall x y, goodv t1 (fst x) -> goodv t2 (fst y) -> good u (apply_op C op [x; y])) ->
  good u (obind (sequence [a; b]) (apply_op C op)).
Proof.
  intros A B K. eapply (seq_bind u [t1; t2]); [repeat constructor; assumption|]. intros vs F.
  destruct vs as [|x [|y [|? ?]]]; cbn [map] in F; inversion F as [|? ? ? ? F1 F2]; subst;
    inversion F2 as [|? ? ? ? F3 F4]; subst; [|inversion F4]. auto.
Qed.

Lemma standard_inv fn o : standard fn o ->
  exists o', In o' (match std_funcs fn with Some l => l | None => opt_ovls fn end) /\
    od_args o = od_args o' /\ od_result o = od_result o' /\ od_member o = od_member o'.
Proof. auto. Qed.

Ltac std_case S :=
  let o' := fresh "o'" in let Hi := fresh "Hi" in let Ea := fresh "Ea" in let Er := fresh "Er" in let Em := fresh "Em" in
  destruct S as (o' & Hi & Ea & Er & Em); vm_compute in Hi;
  repeat match goal with
         | X : _ \/ _ |- _ => destruct X as [X | X]
         | X : False |- _ => destruct X
         end;
  match goal with X : ?a = o' |- _ => subst o' end;
  cbn [od_args od_result od_member] in Ea, Er, Em.

Lemma call_good fn rcv os ovls o s : d_funcs D fn = Some ovls -> In o ovls -> od_member o = rcv ->
  Forall2 good (map (tsub s) (od_args o)) os -> good (tsub s (od_result o)) (call_outcome C R fn rcv os).
Proof.
  intros Df Ho Hr F.
  assert (Dec : In fn operators \/ ~ In fn operators).
  { destruct (in_dec string_dec fn operators); auto. }
  destruct Dec as [Op | Nop].
  2: { assert (E : forall x, In x operators -> String.eqb fn x = false).
       { intros x Hx. apply String.eqb_neq. intros ->. auto. }
       pose proof (function_good fn ovls o s rcv os Df Ho Nop Hr F) as G.
       unfold call_outcome. cbv zeta. unfold is_nsf_name, is_in_name.
       rewrite (E "_&&_"), (E "_||_"), (E "_?_:_"), (E "_[_]"), (E "or"), (E "orValue"), (E "@not_strictly_false"),
         (E "__not_strictly_false__"), (E "!_"), (E "@in"), (E "_in_"), (E "in"), (E "_==_"), (E "_!=_");
         try (cbn; tauto).
       rewrite !andb_false_r. exact G. }
  pose proof (cf_operators _ _ _ H fn ovls o Op Df Ho) as S.
  pose proof (cf_builtins _ _ _ H) as B. pose proof (cf_hetero _ _ _ H) as He.
  pose proof (cf_equality _ _ _ H) as Eq.
  assert (Opt : (fn = "or" \/ fn = "orValue") -> opt = true).
  { intros X. destruct opt eqn:O; [reflexivity|]. destruct (cf_optional_operators _ _ _ H O) as [O1 O2].
    destruct X; subst fn; congruence. }
  cbn [In operators] in Op.
  repeat match type of Op with _ \/ _ => destruct Op as [Op | Op] end; try (now destruct Op); subst fn;
    std_case S; subst rcv; rewrite Em; rewrite Ea in F; rewrite Er; clear Ea Er Em; cbn [map tsub] in F;
    repeat match goal with X : Forall2 _ (_ :: _) _ |- _ => inversion X; clear X; subst end;
    match goal with X : Forall2 _ [] _ |- _ => inversion X; clear X; subst end.
  - (* && *) apply (chain_good OpAnd [y0] y); auto.
  - (* || *) apply (chain_good OpOr [y0] y); auto.
  - (* ?: *) apply cond_good; auto.
  - apply (op2 (TList (tsub s (TParam "A"))) (TPrim PInt)); auto. intros. eapply index_list_good; eauto.
  - eapply (op2 (TMap _ _)); eauto. intros. eapply index_map_good; eauto.
  - assert (Q : good (TPrim PBool) (obind (sequence [y]) (apply_op C ONotStrictlyFalse))).
    { eapply op1; [eassumption|]. intros. apply nsf_good; auto. }
    unfold call_outcome. rewrite B. cbn. rewrite !andb_false_r. exact Q.
  - assert (Q : good (TPrim PBool) (obind (sequence [y]) (apply_op C ONotStrictlyFalse))).
    { eapply op1; [eassumption|]. intros. apply nsf_good; auto. }
    unfold call_outcome. rewrite B. cbn. rewrite !andb_false_r. exact Q.
  - assert (Q : good (TPrim PBool) (obind (sequence [y]) (apply_op C ONot))).
    { eapply op1; [eassumption|]. intros. apply not_good; auto. }
    unfold call_outcome. rewrite B. cbn. rewrite !andb_false_r. exact Q.
  - assert (Q : good (TPrim PBool) (obind (sequence [y; y0]) (apply_op C OIn))).
    { eapply (op2 _ (TList _)); eauto. intros. eapply in_list_good; eauto. }
    unfold call_outcome. rewrite B, He. cbn. rewrite !andb_false_r. exact Q.
  - assert (Q : good (TPrim PBool) (obind (sequence [y; y0]) (apply_op C OIn))).
    { eapply (op2 _ (TMap _ _)); eauto. intros. eapply in_map_good; eauto. }
    unfold call_outcome. rewrite B, He. cbn. rewrite !andb_false_r. exact Q.
  - assert (Q : good (TPrim PBool) (obind (sequence [y; y0]) (apply_op C OIn))).
    { eapply (op2 _ (TList _)); eauto. intros. eapply in_list_good; eauto. }
    unfold call_outcome. rewrite B, He. cbn. rewrite !andb_false_r. exact Q.
  - assert (Q : good (TPrim PBool) (obind (sequence [y; y0]) (apply_op C OIn))).
    { eapply (op2 _ (TMap _ _)); eauto. intros. eapply in_map_good; eauto. }
    unfold call_outcome. rewrite B, He. cbn. rewrite !andb_false_r. exact Q.
  - assert (Q : good (TPrim PBool) (obind (sequence [y; y0]) (apply_op C OIn))).
    { eapply (op2 _ (TList _)); eauto. intros. eapply in_list_good; eauto. }
    unfold call_outcome. rewrite B, He. cbn. rewrite !andb_false_r. exact Q.
  - assert (Q : good (TPrim PBool) (obind (sequence [y; y0]) (apply_op C OIn))).
    { eapply (op2 _ (TMap _ _)); eauto. intros. eapply in_map_good; eauto. }
    unfold call_outcome. rewrite B, He. cbn. rewrite !andb_false_r. exact Q.
  - assert (Q : good (TPrim PBool) (obind (sequence [y; y0]) (apply_op C (OEqual false)))).
    { eapply op2; eauto. intros. eapply equality_good; eauto. }
    unfold call_outcome. rewrite B, He, Eq. cbn. rewrite !andb_false_r. exact Q.
  - assert (Q : good (TPrim PBool) (obind (sequence [y; y0]) (apply_op C (OEqual true)))).
    { eapply op2; eauto. intros. eapply equality_good; eauto. }
    unfold call_outcome. rewrite B, He, Eq. cbn. rewrite !andb_false_r. exact Q.
  - pose proof (or_good (tsub s (TParam "A")) false y y0) as Q. specialize (Q H2 H3). revert Q. unfold call_outcome.
    rewrite (Opt (or_introl eq_refl)). intros Q. exact Q.
  - pose proof (or_good (tsub s (TParam "A")) true y y0) as Q. specialize (Q H2 H3). revert Q. unfold call_outcome.
    rewrite (Opt (or_intror eq_refl)). intros Q. exact Q.
Qed.

(* ---- variables ---- *)
Definition env_typed (G : scope) (rho : env) : Prop :=
  (forall x t, scope_find G x = Some t -> exists o, rho x = Some o /\ good t o) /\
  (forall x, scope_find G x = None -> rho x = None).
Lemma env_empty : env_typed [] no_locals.
Proof. split; [discriminate | reflexivity]. Qed.
Lemma env_bind G rho x t o : env_typed G rho -> good t o -> env_typed ((x, t) :: G) (bind_local x o rho).
Proof.
  intros [E1 E2] Go. split; intros z; cbn [scope_find]; unfold bind_local; destruct (String.eqb x z) eqn:Xz.
  - intros t' [= <-]. eauto.
  - apply E1.
  - discriminate.
  - apply E2.
Qed.

Lemma lookup_good x T s : d_vars D x = Some T -> good (tsub s T) (LookupIdent C x).
Proof.
  intros Dx. pose proof (cf_variables _ _ _ H x T Dx) as V. unfold LookupIdent. cbv zeta.
  unfold unknown_exact. rewrite unk_off. cbn [andb].
  destruct (cf_vars C x) as [[v|]|st|]; cbn [obind].
  - apply good_val. left. apply V.
  - apply good_val, goodv_err, fine_no_value.
  - exact V.
  - exact V.
Qed.
Lemma literal_good v t : literal v t -> value_ok v -> has_type t v.
Proof. intros L V. split; [exact V|]. destruct L; cbn; eauto. Qed.

(* ---- loops ---- *)
Definition item_typed (x x2 : string) (tr : ty) (is_map : bool) (kv : value * value) : Prop :=
  match tr with
  | TList e => is_map = false /\ has_type (TPrim PInt) (fst kv) /\ has_type e (snd kv)
  | TMap k v => is_map = true /\ has_type k (fst kv) /\ has_type v (snd kv)
  | _ => False
  end.
Lemma index_good i : has_type (TPrim PInt) (index_value i).
Proof.
  split; [|eexists; reflexivity]. split; [|exact I]. cbn [node_ok]. unfold in_int64.
  pose proof (Z.mod_pos_bound (i + 2 ^ 63) (2 ^ 64) eq_refl). change int64_min with (- 2 ^ 63)%Z; change int64_max with (2 ^ 63 - 1)%Z.
  apply andb_true_iff. split; apply Z.leb_le; lia.
Qed.
Lemma list_items_good e l : forall i, Forall (has_type e) l ->
  Forall (fun kv => has_type (TPrim PInt) (fst kv) /\ has_type e (snd kv)) (list_items i l).
Proof.
  induction l as [|v l IH]; intros i F; cbn [list_items]; [constructor|].
  apply Forall_cons_iff in F. destruct F as [F1 F2]. constructor; [|apply IH, F2].
  split; [apply index_good | exact F1].
Qed.
Lemma key_value_ok k : key_ok k -> value_ok (value_of_key k).
Proof. destruct k; cbn; intros K; repeat split; exact K. Qed.
Lemma map_items_good k v m : node_ok (VMap m) -> Forall (entry_typed k v) m ->
  Forall (fun kv => has_type k (fst kv) /\ has_type v (snd kv)) (map_items m).
Proof.
  intros [_ Ko] F. unfold map_items. rewrite Forall_forall in *. intros kv Hkv. apply in_map_iff in Hkv.
  destruct Hkv as ([key w] & <- & Hi). cbn [fst snd]. destruct (F _ Hi) as [F1 F2]. split; [|exact F2].
  split; [|exact F1]. apply key_value_ok, Ko. apply in_map_iff. exists (key, w). auto.
Qed.

Lemma loop_env_good G rho x x2 y tr its ta is_map t kv accu :
  env_typed G rho -> iterates x x2 tr its -> item_typed x x2 tr is_map kv -> goodv ta (fst accu) ->
  env_typed (its ++ (y, ta) :: G) (loop_env C x x2 y is_map t kv accu rho).
Proof.
  intros E It Ty A. unfold loop_env, iter_one, iter_two. rewrite unk_off.
  destruct It as [e E2 | k v E2 | e E2 | k v E2]; destruct Ty as (-> & T1 & T2);
    try (apply String.eqb_eq in E2; rewrite E2); try (apply String.eqb_neq in E2; rewrite E2);
    cbn [fst snd app]; repeat apply env_bind; auto;
    try (apply good_pair; exact A); apply good_val; left; assumption.
Qed.

Lemma eval_loop_good t ta cond step res items :
  (forall kv accu, In kv items -> goodv ta (fst accu) -> good (TPrim PBool) (cond kv accu)) ->
  (forall kv accu, In kv items -> goodv ta (fst accu) -> good ta (step kv accu)) ->
  (forall accu, goodv ta (fst accu) -> good t (res accu)) ->
  forall accu, goodv ta (fst accu) -> good t (eval_loop (sc C) cond step res items accu).
Proof.
  intros Hc Hs Hr. induction items as [|kv items IH]; intros accu A; cbn [eval_loop]; [apply Hr, A|].
  eapply good_bind; [apply Hc; [left; reflexivity | exact A]|]. intros c Gc. unfold loop_condition.
  destruct Gc as [T|(st & E & N)].
  - apply type_bool in T. destruct T as [b E]. rewrite E. destruct (negb b && sc C)%bool; [apply Hr, A|].
    eapply good_bind; [apply Hs; [left; reflexivity | exact A]|]. intros a Ga. apply IH; [| |exact Ga].
    + intros kv' accu' Hin. apply Hc. right. exact Hin.
    + intros kv' accu' Hin. apply Hs. right. exact Hin.
  - rewrite E. apply good_pair. rewrite E. apply goodv_err, N.
Qed.

Lemma comp_good G rho x x2 y range init cond step res tr its ta t :
  env_typed G rho -> iterates x x2 tr its ->
  good tr (meaning C R range rho) ->
  good ta (meaning C R init rho) ->
  (forall rho', env_typed (its ++ (y, ta) :: G) rho' -> good (TPrim PBool) (meaning C R cond rho')) ->
  (forall rho', env_typed (its ++ (y, ta) :: G) rho' -> good ta (meaning C R step rho')) ->
  (forall rho', env_typed ((y, ta) :: G) rho' -> good t (meaning C R res rho')) ->
  good t (meaning C R (EComp x x2 y range init cond step res) rho).
Proof.
  intros E It Gr Gi Gc Gs Gb. cbn [meaning]. destruct (IsBind x x2 range cond).
  - apply Gb. apply env_bind; auto.
  - eapply good_bind; [exact Gr|]. intros r Hr.
    assert (L : forall is_map items, Forall (item_typed x x2 tr is_map) items ->
      good t (i <- meaning C R init rho ;;
            eval_loop (sc C)
              (fun kv accu => meaning C R cond (loop_env C x x2 y is_map (snd r) kv accu rho))
              (fun kv accu => meaning C R step (loop_env C x x2 y is_map (snd r) kv accu rho))
              (fun accu => meaning C R res (bind_local y (Val accu) rho))
              items i)).
    { intros is_map items F. rewrite Forall_forall in F. eapply good_bind; [exact Gi|]. intros i Hi.
      apply eval_loop_good with (ta := ta).
      - intros kv accu Hin Ha. apply Gc. eapply loop_env_good; eauto.
      - intros kv accu Hin Ha. apply Gs. eapply loop_env_good; eauto.
      - intros accu Ha. apply Gb. apply env_bind; [exact E | apply good_pair, Ha].
      - exact Hi. }
    unfold comp_init. destruct Hr as [T|(st & Er & N)]; [|rewrite Er; apply good_pair; rewrite Er; apply goodv_err, N].
    unfold unknown_partial. rewrite unk_off. cbn [andb].
    assert (Tl : forall e, tr = TList e -> exists l, fst r = VList l /\
               Forall (item_typed x x2 tr false) (list_items 0 l)).
    { intros e ->. apply type_list in T. destruct T as (l & El & Fl). exists l. split; [exact El|].
      eapply Forall_impl; [|apply list_items_good, Fl]. intros kv [K1 K2]. cbn. auto. }
    assert (Tm : forall k v, tr = TMap k v -> exists m, fst r = VMap m /\
               Forall (item_typed x x2 tr true) (map_items m)).
    { intros k v ->. apply type_map in T. destruct T as (m & Em & Nm & Fm). exists m. split; [exact Em|].
      eapply Forall_impl; [|apply map_items_good; [exact Nm | exact Fm]]. intros kv [K1 K2]. cbn. auto. }
    clear T. destruct It as [e _ | k v _ | e _ | k v _];
      [destruct (Tl e eq_refl) as (l & -> & F) | destruct (Tm k v eq_refl) as (l & -> & F)
      |destruct (Tl e eq_refl) as (l & -> & F) | destruct (Tm k v eq_refl) as (l & -> & F)];
      apply L; exact F.
Qed.

(* ---- expressions ---- *)
Lemma constants_part e a : In a (parts_of e) -> constants_ok e -> constants_ok a.
Proof. intros Ha K v Hv. apply K. eapply part_inside; eauto. Qed.
Lemma ident_plain rho x : (forall r, x <> String "."%char r) ->
  meaning C R (EIdent x) rho = match rho x with Some o => o | None => LookupIdent C x end.
Proof.
  intros N. cbn [meaning]. destruct x as [|[[] [] [] [] [] [] [] []] r]; try reflexivity.
  exfalso. eapply N. reflexivity.
Qed.

Lemma operands_good G rho (es : list expr) ts : env_typed G rho ->
  Forall (fun e => constants_ok e -> forall G rho t, env_typed G rho -> wt D G e t -> good t (meaning C R e rho)) es ->
  (forall a, In a es -> constants_ok a) ->
  Forall2 (wt D G) es ts -> Forall2 good ts (map (fun a => meaning C R a rho) es).
Proof.
  intros E I Kp F. induction F as [|e t es ts We _ IH]; cbn [map]; [constructor|].
  apply Forall_cons_iff in I. destruct I as [I1 I2]. constructor.
  - eapply I1; eauto. apply Kp. left. reflexivity.
  - apply IH; auto. intros a Ha. apply Kp. right. exact Ha.
Qed.
Lemma logical_good fn rcv os ovls o s q qs ts : fn = "_&&_" \/ fn = "_||_" ->
  d_funcs D fn = Some ovls -> In o ovls -> od_member o = rcv -> od_args o = q :: qs ->
  (2 <= length ts)%nat -> Forall (eq (tsub s q)) ts -> Forall2 good ts os ->
  good (tsub s (od_result o)) (call_outcome C R fn rcv os).
Proof.
  intros Hf Df Ho Hr Hq L Fe F.
  assert (Op : In fn operators) by (destruct Hf; subst fn; cbn; auto).
  pose proof (cf_operators _ _ _ H fn ovls o Op Df Ho) as S.
  assert (A : q = TPrim PBool /\ od_result o = TPrim PBool).
  { destruct Hf; subst fn; std_case S; rewrite Hq in Ea; injection Ea as -> _; auto. }
  destruct A as [-> ->]. cbn [tsub] in *.
  assert (F' : Forall (good (TPrim PBool)) os).
  { clear - F Fe. induction F as [|t o ts os G _ IH]; [constructor|]. apply Forall_cons_iff in Fe.
    destruct Fe as [<- Fe]. constructor; auto. }
  apply Forall2_length in F. destruct os as [|a os]; [cbn in F; lia|].
  apply Forall_cons_iff in F'. destruct F' as [A F'].
  destruct Hf; subst fn; [apply (chain_good OpAnd os a) | apply (chain_good OpOr os a)]; auto.
Qed.

Theorem sound e : constants_ok e -> forall G rho t, env_typed G rho -> wt D G e t -> good t (meaning C R e rho).
Proof.
  induction e using L_Meaning.expr_ind'; intros K G rho ty0 E W; inversion W; subst; clear W.
  - cbn [meaning]. apply good_val. left. apply literal_good; [assumption|]. apply K. constructor.
  - rewrite ident_plain by assumption. destruct E as [E1 _].
    match goal with X : scope_find _ _ = Some _ |- _ => destruct (E1 _ _ X) as (o & -> & Go) end. exact Go.
  - rewrite ident_plain by assumption. destruct E as [_ E2].
    match goal with X : scope_find _ _ = None |- _ => rewrite (E2 _ X) end. apply lookup_good. assumption.
  - cbn [meaning]. apply lookup_good. assumption.
  - cbn [meaning]. eapply good_bind; [eapply IHe; eauto; eapply constants_part; eauto; left; reflexivity|].
    intros x Hx. eapply select_good; eauto.
  - cbn [meaning]. eapply good_bind; [eapply IHe; eauto; eapply constants_part; eauto; left; reflexivity|].
    intros x Hx. eapply has_good; eauto.
  - cbn [meaning]. eapply good_bind; [eapply IHe; eauto; eapply constants_part; eauto; left; reflexivity|].
    intros x Hx. eapply select_optional_good; eauto.
  - cbn [meaning]. eapply good_bind; [eapply IHe; eauto; eapply constants_part; eauto; left; reflexivity|].
    intros x Hx. eapply has_optional_good; eauto.
  - assert (F : Forall2 good (map (tsub s) (od_args o))
        (map (fun a => meaning C R a rho) (match t with None => args | Some t0 => t0 :: args end))).
    { apply operands_good with (G := G); auto; [destruct t; [constructor|]; auto|].
      intros a Ha. eapply constants_part; [|exact K]. exact Ha. }
    cbn [meaning]. replace (_ ++ _) with (map (fun a => meaning C R a rho) (match t with None => args | Some t0 => t0 :: args end))
      by (destruct t; reflexivity).
    eapply call_good; eauto.
  - assert (F : Forall2 good ts
        (map (fun a => meaning C R a rho) (match t with None => args | Some t0 => t0 :: args end))).
    { apply operands_good with (G := G); auto; [destruct t; [constructor|]; auto|].
      intros a Ha. eapply constants_part; [|exact K]. exact Ha. }
    cbn [meaning]. replace (_ ++ _) with (map (fun a => meaning C R a rho) (match t with None => args | Some t0 => t0 :: args end))
      by (destruct t; reflexivity).
    eapply logical_good; eauto.
  - cbn [meaning].
    eapply (seq_bind _ (map (fun o : bool => if o then optional_of t else t) (map fst l)));
      [|intros vs Hvs; apply list_step_good; exact Hvs].
    assert (Kl : forall p, In p l -> constants_ok (snd p)).
    { intros p Hp. eapply constants_part; [|exact K]. cbn. now apply in_map. }
    clear K. induction l as [|p l IH]; [constructor|]. cbn [map].
    repeat match goal with X : Forall _ (_ :: _) |- _ => apply Forall_cons_iff in X; destruct X end.
    constructor; [|apply IH; auto; intros q Hq; apply Kl; right; exact Hq].
    match goal with X : constants_ok _ -> _ |- _ => eapply X; eauto end. apply Kl. left. reflexivity.
  - cbn [meaning].
    eapply (seq_bind _ (flat_map (fun o : bool => [k; if o then optional_of v else v]) (map fst l)));
      [|intros vs Hvs; apply map_step_good; exact Hvs].
    assert (Kl : forall p, In p l -> constants_ok (fst (snd p)) /\ constants_ok (snd (snd p))).
    { intros p Hp. split; (eapply constants_part; [|exact K]); cbn; apply in_flat_map; exists p; cbn; auto. }
    clear K. induction l as [|p l IH]; [constructor|]. cbn [map flat_map app].
    repeat match goal with X : Forall _ (_ :: _) |- _ => apply Forall_cons_iff in X; destruct X end.
    destruct (Kl p (or_introl eq_refl)) as [K1 K2].
    repeat match goal with X : _ /\ _ |- _ => destruct X end.
    constructor; [eauto|]. constructor; [eauto|].
    apply IH; auto. intros q Hq. apply Kl. right. exact Hq.
  - assert (Kp : forall a, In a [e1; e2; e3; e4; e5] -> constants_ok a).
    { intros a Ha. eapply constants_part; [|exact K]. exact Ha. }
    eapply comp_good; eauto.
    + eapply IHe1; eauto. apply Kp. cbn; auto.
    + eapply IHe2; eauto. apply Kp. cbn; auto.
    + intros rho' E'. eapply IHe3; eauto. apply Kp. cbn; auto.
    + intros rho' E'. eapply IHe4; eauto. apply Kp. cbn; auto.
    + intros rho' E'. eapply IHe5; eauto. apply Kp. cbn; auto 10.
Qed.
End Typed.
