(* C129: configurations of environments. *)
From Coq Require Import String List ZArith Bool Arith Lia.
From Verif Require Import Base.
From Verif Require Import M_Config S_Config.
Import ListNotations.
Open Scope list_scope.

Lemma extension_loop l name version : NoDup (map ext_name l) ->
  match add_extension_loop l name version with
  | None => forall v, ~ In (mkExtension name v) l
  | Some true => In (mkExtension name version) l
  | Some false => exists v, v <> version /\ In (mkExtension name v) l
  end.
Proof.
  induction l as [|[n v] l IH]; intros nd; [cbn; auto|]. inversion nd; subst. cbn. destruct (String.eqb_spec n name) as [->|ne].
  - destruct (Z.eqb_spec v version) as [->|nv]; [auto|]. exists v. auto.
  - specialize (IH ltac:(assumption)). destruct (add_extension_loop l name version) as [[|]|]; [auto|destruct IH as (w & a & b); eauto|].
    intros w [e|i]; [congruence|exact (IH w i)].
Qed.
Lemma mixed_doubly l : mixed l = true <-> doubly l.
Proof.
  unfold mixed, doubly. rewrite existsb_exists. split.
  - intros ([f o] & i & h). apply andb_prop in h as [h n]. cbn in *. exists f, o. apply negb_true_iff, String.eqb_neq in n. split; [exact n|]. split; [|exact i].
    apply existsb_exists in h as (x & ix & ex). apply String.eqb_eq in ex. subst x. apply in_map_iff in ix as ([a b] & <- & iy). apply filter_In in iy as [iy ey].
    cbn in *. apply String.eqb_eq in ey. subst b. exact iy.
  - intros (f & o & n & i0 & i). exists (f, o). split; [exact i|]. apply andb_true_intro. split; [|apply negb_true_iff, String.eqb_neq, n].
    apply existsb_exists. exists f. split; [|apply String.eqb_refl]. apply in_map_iff. exists (f, ""%string). split; [reflexivity|]. apply filter_In. auto.
Qed.
Lemma nonempty_spec {A} (l : list A) : nonempty l = true <-> l <> [].
Proof. destruct l; cbn; split; congruence. Qed.
Definition consistent (c : Config) : Prop :=
  NoDup (map ext_name (extensions c)) /\ NoDup (map var_name (variables c)) /\ ~ conflicting (standard c)
  /\ Forall (fun v => of_type (var_value v) (var_type v)) (variables c).
Lemma pair_in l f o : contains_pair l f o = true <-> In (f, o) l.
Proof.
  unfold contains_pair. rewrite existsb_exists. split.
  - intros ([a b] & i & h). apply andb_prop in h as [x y]. cbn in *. apply String.eqb_eq in x, y. subst. exact i.
  - intros i. exists (f, o). split; [exact i|]. cbn. now rewrite !String.eqb_refl.
Qed.
Lemma type_name k t : has_value k && negb (String.eqb (ConstantKindToTypeName k) t) = false <-> of_type k t.
Proof. destruct k; cbn [has_value andb ConstantKindToTypeName of_type]; [tauto|..]; rewrite negb_false_iff, String.eqb_eq; split; congruence. Qed.

(* what a call does, in a consistent configuration *)
Lemma apply_spec c k : consistent c -> exists o, apply c k = o /\
  ((accepts c k /\ exists c', o = Val c' /\ consistent c'
     /\ match k with
        | AddExtension n v => (extensions c' = extensions c \/ extensions c' = extensions c ++ [mkExtension n v]) /\ In (mkExtension n v) (extensions c')
            /\ standard c' = standard c /\ variables c' = variables c /\ functions c' = functions c
        | SetStandard s => c' = mkConfig (extensions c) s (variables c) (functions c)
        | AddVariable v => c' = mkConfig (extensions c) (standard c) (variables c ++ [v]) (functions c)
        | AddFunction f => c' = mkConfig (extensions c) (standard c) (variables c) (functions c ++ [f])
        end)
   \/ (~ accepts c k /\ exists s, o = Err s)).
Proof.
  assert (snoc : forall (l : list string) x, NoDup l -> ~ In x l -> NoDup (l ++ [x])).
  { intros l x nd ni. apply NoDup_rev in nd. rewrite <- (rev_involutive (l ++ [x])). apply NoDup_rev. rewrite rev_app_distr. cbn. constructor; [rewrite <- in_rev; exact ni|exact nd]. }
  intros (ne & nv & st & ty). eexists. split; [reflexivity|]. destruct k as [n v|s|v|f]; cbn [apply accepts].
  - unfold AddExtensionConfig. pose proof (extension_loop (extensions c) n v ne) as h. destruct (add_extension_loop _ _ _) as [[|]|].
    + left. split.
      * intros w i. revert i h ne. clear. induction (extensions c) as [|x l IH]; [intros []|]. cbn. intros i h nd. inversion nd as [|? ? ni nd']; subst.
        destruct i as [->|i], h as [e|h]; try congruence; auto; exfalso; apply ni; subst; cbn;
          [apply (in_map ext_name) in h; exact h|apply (in_map ext_name) in i; exact i].
      * exists c. split; [reflexivity|]. split; [repeat split; assumption|]. auto.
    + right. split; [|unfold already; eauto]. destruct h as (w & nw & i). intros a. apply nw, a, i.
    + left. split; [intros w i; destruct (h w i)|]. eexists. split; [reflexivity|]. split.
      * split; cbn; [|auto]. rewrite map_app. apply snoc; [exact ne|]. intros i. apply in_map_iff in i as ([a b] & e & i). cbn in e. subst a. exact (h b i).
      * cbn. split; [auto|]. split; [apply in_or_app; right; left; reflexivity|auto].
  - unfold SetStandardLibraryConfig, conflicting.
    destruct (nonempty (included_macros s) && nonempty (excluded_macros s)) eqn:e1.
    { right. split; [|unfold invalid; eauto]. apply andb_prop in e1 as [a b]. apply nonempty_spec in a, b. tauto. }
    destruct (nonempty (included_functions s) && nonempty (excluded_functions s)) eqn:e2.
    { right. split; [|unfold invalid; eauto]. apply andb_prop in e2 as [a b]. apply nonempty_spec in a, b. tauto. }
    destruct (mixed (included_functions s)) eqn:e3; [right; split; [apply mixed_doubly in e3; tauto|unfold invalid; eauto]|].
    destruct (mixed (excluded_functions s)) eqn:e4; [right; split; [apply mixed_doubly in e4; tauto|unfold invalid; eauto]|].
    assert (nc : ~ conflicting s).
    { intros [[a b]|[[a b]|[a|a]]].
      - apply nonempty_spec in a, b. rewrite a, b in e1. discriminate.
      - apply nonempty_spec in a, b. rewrite a, b in e2. discriminate.
      - apply mixed_doubly in a. congruence.
      - apply mixed_doubly in a. congruence. }
    left. split; [exact nc|]. eexists. split; [reflexivity|]. split; [split; cbn; auto|reflexivity].
  - unfold AddVariableConfig. destruct (existsb _ (variables c)) eqn:e.
    { right. split; [|unfold already; eauto]. apply existsb_exists in e as (x & ix & ex). apply String.eqb_eq in ex. intros [a _]. exact (a x ix ex). }
    assert (fresh : forall x, In x (variables c) -> var_name x <> var_name v).
    { intros x ix ex. assert (y : existsb (fun x => String.eqb (var_name x) (var_name v)) (variables c) = true); [|congruence].
      apply existsb_exists. exists x. split; [exact ix|]. now apply String.eqb_eq. }
    destruct (has_value (var_value v) && _) eqn:e2.
    { right. split; [|unfold invalid; eauto]. intros [_ a]. apply type_name in a. congruence. }
    apply type_name in e2. left. split; [auto|]. eexists. split; [reflexivity|]. split; [|reflexivity]. split; cbn; [exact ne|]. split; [|split; [exact st|]].
    + rewrite map_app. apply snoc; [exact nv|]. intros i. apply in_map_iff in i as (x & ex & ix). exact (fresh x ix ex).
    + apply Forall_app. auto.
  - unfold AddFunctionConfig. destruct (existsb _ _) eqn:e.
    + right. split; [|unfold invalid; eauto]. apply existsb_exists in e as (o & io & eo). apply andb_prop in eo as [m p]. apply Nat.eqb_eq in p. intros a. exact (a o io m p).
    + left. split; [|eexists; split; [reflexivity|]; split; [split; cbn; auto|reflexivity]].
      intros o io m p. assert (y : existsb (fun o => is_member_function o && Nat.eqb (parameters o) 0) (overload_configs f) = true); [|congruence].
      apply existsb_exists. exists o. rewrite m, p. auto.
Qed.
Lemma new_consistent : consistent new_config.
Proof.
  repeat split; try constructor. intros [[a _]|[[a _]|[(f & o & _ & i & _)|(f & o & _ & i & _)]]]; cbn in *; tauto.
Qed.
Lemma configured_snoc ks k : configured (ks ++ [k]) = match apply (configured ks) k with Val c' => c' | _ => configured ks end.
Proof. unfold configured. rewrite fold_left_app. reflexivity. Qed.
Lemma configured_consistent ks : consistent (configured ks).
Proof.
  induction ks as [|k ks IH] using rev_ind; [exact new_consistent|]. rewrite configured_snoc.
  destruct (apply_spec _ k IH) as (o & -> & [(_ & c' & -> & h & _)|(_ & s & ->)]); assumption.
Qed.

(** After any calls, a call is accepted just if it fits, and then adds just what it says; else
    it fails and changes nothing. *)
Theorem C129_accepts : forall ks k, let c := configured ks in
  (accepts c k <-> exists c', apply c k = Val c') /\ (apply c k <> UB)
  /\ configured (ks ++ [k]) = match apply c k with Val c' => c' | _ => c end
  /\ forall c', apply c k = Val c' ->
     match k with
     | AddExtension n v => (forall x, In x (extensions c') <-> In x (extensions c) \/ x = mkExtension n v)
         /\ standard c' = standard c /\ variables c' = variables c /\ functions c' = functions c
     | SetStandard s => c' = mkConfig (extensions c) s (variables c) (functions c)
     | AddVariable v => c' = mkConfig (extensions c) (standard c) (variables c ++ [v]) (functions c)
     | AddFunction f => c' = mkConfig (extensions c) (standard c) (variables c) (functions c ++ [f])
     end.
Proof.
  intros ks k c. destruct (apply_spec c k (configured_consistent ks)) as (o & e & h). rewrite e.
  split; [|split; [|split]].
  - destruct h as [(a & c' & -> & _)|(a & s & ->)]; split; intros x; eauto; [contradiction|destruct x; discriminate].
  - destruct h as [(a & c' & -> & _)|(a & s & ->)]; discriminate.
  - rewrite configured_snoc. fold c. rewrite e. reflexivity.
  - intros c' ->. destruct h as [(a & c2 & e2 & _ & h)|(a & s & e2)]; [|discriminate]. injection e2 as <-.
    destruct k; try exact h. destruct h as (ext & i & rest). split; [|exact rest]. intros x. destruct ext as [ex|ex]; rewrite ex in *.
    + split; [auto|]. intros [| ->]; assumption.
    + rewrite in_app_iff. cbn. split; intros [y|y]; auto; [destruct y as [y|[]]; auto].
Qed.
Print Assumptions C129_accepts.

(** Each extension is there in one version, each variable once and with a value of its type,
    and the standard library is not limited in two ways. *)
Theorem C129_consistent : forall ks, let c := configured ks in
  (forall n v v', In (mkExtension n v) (extensions c) -> In (mkExtension n v') (extensions c) -> v = v')
  /\ NoDup (map var_name (variables c)) /\ (forall v, In v (variables c) -> of_type (var_value v) (var_type v)) /\ ~ conflicting (standard c).
Proof.
  intros ks c. destruct (configured_consistent ks) as (a & b & d & e). fold c in a, b, d, e. split; [|split; [exact b|split; [apply Forall_forall, e|exact d]]].
  intros n v v' i i'. revert a i i'. clear. induction (extensions c) as [|x l IH]; [intros _ []|]. cbn. intros nd i h. inversion nd as [|? ? ni nd']; subst.
  destruct i as [->|i], h as [e|h]; try congruence; auto; exfalso; apply ni; subst; cbn; [apply (in_map ext_name) in h; exact h|apply (in_map ext_name) in i; exact i].
Qed.
Print Assumptions C129_consistent.

(** The compiler has those overloads and macros of the standard library that the limits leave. *)
Theorem C129_subset : forall ks f id signature macro, let s := standard (configured ks) in
  (ShouldIncludeFunction s f id signature = true <->
     ~ listed (excluded_functions s) f id signature /\ (included_functions s = [] \/ listed (included_functions s) f id signature))
  /\ (ShouldIncludeMacro s macro = true <->
     disable_macros s = false /\ ~ In macro (excluded_macros s) /\ (included_macros s = [] \/ In macro (included_macros s))).
Proof.
  intros ks f id signature macro s. clearbody s.
  assert (li : forall l, contains_pair l f id || contains_pair l f "" || by_signature l f signature = true <-> listed l f id signature).
  { intros l. unfold listed. rewrite !orb_true_iff, !pair_in. unfold by_signature. destruct signature as [x|].
    - rewrite pair_in. split; [intros [[|]|]; eauto|]. intros [|[|(y & [= <-] & i)]]; auto.
    - split; [intros [[|]|]; [auto|auto|discriminate]|]. intros [|[|(y & e & _)]]; auto. discriminate. }
  split.
  - unfold ShouldIncludeFunction. destruct (excluded_functions s) as [|x xl] eqn:ex, (included_functions s) as [|y yl] eqn:ey; cbn [nonempty negb andb].
    + split; [intros _; split; [|auto]|auto]. unfold listed. cbn. intros [[]|[[]|(z & _ & [])]].
    + rewrite li. split; [intros h; split; [|auto]; unfold listed; cbn; intros [[]|[[]|(z & _ & [])]]|]. intros [_ [|]]; [discriminate|assumption].
    + destruct (_ || _ || _) eqn:e; [apply li in e; split; [discriminate|]; tauto|]. split; [|auto]. intros _. split; [|auto]. intros h. apply li in h. congruence.
    + destruct (contains_pair (x :: xl) f id || _ || _) eqn:e; [apply li in e; split; [discriminate|]; tauto|].
      rewrite li. split; [intros h; split; [|auto]; intros h'; apply li in h'; congruence|]. intros [_ [|]]; [discriminate|assumption].
  - assert (ci : forall l, contains l macro = true <-> In macro l).
    { intros l. unfold contains. rewrite existsb_exists. split; [intros (z & i & e); apply String.eqb_eq in e; subst z; exact i|]. intros i. exists macro. split; [exact i|apply String.eqb_refl]. }
    unfold ShouldIncludeMacro. destruct (disable_macros s); [split; [discriminate|intros [? _]; discriminate]|].
    destruct (contains (excluded_macros s) macro) eqn:e; [apply ci in e; split; [discriminate|tauto]|].
    assert (ne : ~ In macro (excluded_macros s)) by (intros i; apply ci in i; congruence).
    destruct (included_macros s) as [|y yl] eqn:ey; cbn [nonempty andb]; [tauto|]. destruct (contains (y :: yl) macro) eqn:e2; cbn [negb].
    + apply ci in e2. tauto.
    + split; [discriminate|]. intros (_ & _ & [|i]); [discriminate|]. apply ci in i. congruence.
Qed.
Print Assumptions C129_subset.
Local Open Scope string_scope.
Example C129_example :
  let s := mkStandard false false [] ["has"] [("size", ""); ("_+_", "add_int64")] [] in
  let c := configured [AddExtension "math" 1; AddExtension "math" 2; SetStandard s; SetStandard (mkStandard false false [] [] [("f", ""); ("f", "g")] []);
                       AddVariable (mkVariable "x" "int" KInt); AddVariable (mkVariable "x" "int" KUnset); AddVariable (mkVariable "y" "int" KUint)] in
  c = mkConfig [mkExtension "math" 1] s [mkVariable "x" "int" KInt] []
  /\ ShouldIncludeFunction (standard c) "_+_" "add_int64" None = true /\ ShouldIncludeFunction (standard c) "_+_" "add_string" (Some "_+_(string,string)") = false.
Proof. vm_compute. auto. Qed.
