(* C128: the table of enum values. *)
From Coq Require Import String Ascii List ZArith Bool Permutation Lia Arith Compare_dec.
From Verif Require Import M_EnumTable S_EnumTable.
Import ListNotations.
Open Scope list_scope.

Lemma key_split n n' m m' : dotless m -> dotless m' -> (n ++ "." ++ m = n' ++ "." ++ m')%string -> n = n' /\ m = m'.
Proof.
  intros d d'. assert (dot : forall n m, In "."%char (list_ascii_of_string (n ++ "." ++ m))).
  { induction n0 as [|c n0 IH]; intros x; [left; reflexivity|right; apply IH]. }
  revert n'. induction n as [|c n IH]; intros [|c' n'] e; cbn in e.
  - injection e as ->. auto.
  - injection e as _ e. destruct d. rewrite e. apply (dot n' m').
  - injection e as _ e. destruct d'. rewrite <- e. apply (dot n m).
  - injection e as -> e. destruct (IH n' e) as [-> ->]. auto.
Qed.

(** ** Building *)
Definition entries (e : string * Enumerators) : Table := map (fun m => ((fst e ++ "." ++ fst m)%string, snd m)) (snd e).
Lemma build_entries order : build_table order = rev (flat_map entries order).
Proof.
  unfold build_table. assert (g : forall t, fold_left (fun t e => fold_left (fun t m => ((fst e ++ "." ++ fst m)%string, snd m) :: t) (snd e) t) order t = rev (flat_map entries order) ++ t).
  { induction order as [|e order IH]; intros t; [reflexivity|]. cbn [fold_left flat_map]. rewrite IH, rev_app_distr, <- app_assoc. f_equal.
    destruct e as [n0 l]. unfold entries. cbn [fst snd]. revert t. induction l as [|m l IHl]; intros t; [reflexivity|]. cbn [fold_left map rev]. rewrite IHl, <- app_assoc. reflexivity. }
  rewrite g, app_nil_r. reflexivity.
Qed.
Lemma find_app {A} (f : A -> bool) l l' : find f (l ++ l') = match find f l with Some x => Some x | None => find f l' end.
Proof. induction l as [|x l IH]; [reflexivity|]. cbn. destruct (f x); auto. Qed.
Lemma find_entries n' es n m : dotless m -> Forall (fun m => dotless (fst m)) es ->
  option_map snd (find (fun e => String.eqb (fst e) (n ++ "." ++ m)) (rev (entries (n', es)))) = if String.eqb n n' then number m es else None.
Proof.
  intros d de. unfold entries, number. cbn [fst snd]. rewrite <- map_rev. apply Forall_rev in de. induction de as [|[x v] l dx de IH].
  - cbn. destruct (String.eqb n n'); reflexivity.
  - cbn [map find fst snd]. destruct (String.eqb_spec (n' ++ "." ++ x) (n ++ "." ++ m)) as [e|ne].
    + apply key_split in e as [-> ->]; auto. rewrite !String.eqb_refl. reflexivity.
    + rewrite IH. destruct (String.eqb_spec n n') as [->|]; [|reflexivity]. destruct (String.eqb_spec x m) as [->|]; [contradiction|reflexivity].
Qed.
Definition enum_of (types : EnumTypes) (n : string) : option Enumerators := option_map snd (find (fun e => String.eqb n (fst e)) types).
Definition tidy_types (types : EnumTypes) : Prop := NoDup (map fst types) /\ Forall (fun e => Forall (fun m => dotless (fst m)) (snd e)) types.
Lemma build_find order n m : tidy_types order -> dotless m ->
  table_find (build_table order) (n ++ "." ++ m) = match enum_of order n with Some es => number m es | None => None end.
Proof.
  intros [nd de] d. rewrite build_entries. unfold table_find, enum_of. induction order as [|[n' es] order IH]; [reflexivity|].
  inversion nd as [|? ? ni nd']; inversion de as [|? ? d1 de']; subst. specialize (IH nd' de').
  cbn [flat_map]. rewrite rev_app_distr, find_app. cbn [find fst].
  destruct (find _ (rev (flat_map entries order))) as [x|] eqn:ef; cbn [option_map] in IH |- *.
  - destruct (String.eqb_spec n n') as [->|nn]; [|exact IH]. exfalso.
    destruct (find (fun e => String.eqb n' (fst e)) order) as [y|] eqn:ey; [|discriminate].
    apply find_some in ey as [iy ey]. apply String.eqb_eq in ey. apply ni. cbn. rewrite ey. apply in_map, iy.
  - transitivity (if String.eqb n n' then number m es else None); [exact (find_entries n' es n m d d1)|]. destruct (String.eqb n n'); [reflexivity|exact IH].
Qed.
Lemma enum_of_perm l l' n : NoDup (map fst l) -> Permutation l l' -> enum_of l' n = enum_of l n.
Proof.
  intros nd p. unfold enum_of. induction p as [|x l l' p IH|x y l|l l2 l3 p1 IH1 p2 IH2].
  - reflexivity.
  - inversion nd; subst. cbn. destruct (String.eqb n (fst x)); [reflexivity|]. apply IH; assumption.
  - cbn. destruct (String.eqb_spec n (fst x)), (String.eqb_spec n (fst y)); try reflexivity.
    exfalso. inversion nd as [|? ? ni ?]; subst. apply ni. left. congruence.
  - rewrite IH2, IH1; auto. eapply Permutation_NoDup; [apply Permutation_map, p1|exact nd].
Qed.
Lemma tidy_perm l l' : Permutation l l' -> tidy_types l -> tidy_types l'.
Proof.
  intros p [a b]. split; [eapply Permutation_NoDup; [apply Permutation_map, p|exact a]|]. rewrite Forall_forall in *. intros x ix. apply b. eapply Permutation_in; [symmetry; exact p|exact ix].
Qed.

(** ** The invariant *)
Definition current (es : list event) (t : Table) : Prop := forall n m, dotless m ->
  table_find t (n ++ "." ++ m) = match last_registered es n with Some l => number m l | None => None end.
Record good (es : list event) (g : registry) : Prop := {
  good_tidy : tidy_types (enum_types g);
  good_types : forall n, last_registered es n = match pending g with
    | Some (n', l) => if String.eqb n n' then Some l else enum_of (enum_types g) n
    | None => enum_of (enum_types g) n end;
  good_pending : match pending g with Some (_, l) => Forall (fun m => dotless (fst m)) l /\ enum_value_table g = None | None => True end;
  good_table : forall o t, enum_value_table g = Some (o, t) -> current es t
}.
Lemma enum_of_filter n' l n : enum_of (filter (fun e => negb (String.eqb (fst e) n')) l) n = if String.eqb n n' then None else enum_of l n.
Proof.
  unfold enum_of. induction l as [|x l IH]; [cbn; destruct (String.eqb n n'); reflexivity|]. cbn [filter find].
  destruct (String.eqb_spec (fst x) n') as [e|ne]; cbn [negb find].
  - rewrite IH. destruct (String.eqb_spec n n') as [|nn]; [reflexivity|]. destruct (String.eqb_spec n (fst x)); [congruence|reflexivity].
  - destruct (String.eqb_spec n (fst x)) as [->|]; [destruct (String.eqb_spec (fst x) n'); [contradiction|reflexivity]|exact IH].
Qed.
Lemma last_snoc es e n : last_registered (es ++ [e]) n = match e with Reset n' l => if String.eqb n n' then Some l else last_registered es n | _ => last_registered es n end.
Proof. unfold last_registered. rewrite rev_app_distr. destruct e; reflexivity. Qed.
Lemma schedule_good es g : schedule es g -> good es g.
Proof.
  intros h. induction h as [|es g e h IH al wn].
  - split; cbn; try easy.
    + split; [constructor; [easy|constructor]|]. constructor; [|constructor]. constructor; [|constructor]. intros i. cbn in i. intuition discriminate.
    + intros n. unfold last_registered, enum_of. cbn. destruct (String.eqb n _); reflexivity.
  - destruct IH as [gt gy gp gb].
    assert (cu : (forall n l, e <> Reset n l) -> forall t, current es t -> current (es ++ [e]) t).
    { intros ne t c n m d. rewrite (c n m d), last_snoc. destruct e; try reflexivity. destruct (ne n0 es0 eq_refl). }
    destruct e as [n l| | |i|i order]; cbn [step allowed well_named] in *.
    + destruct al as [pn _]. rewrite pn in gy. split; cbn; [exact gt| |split; [exact wn|reflexivity]|discriminate].
      intros x. rewrite last_snoc, gy. reflexivity.
    + destruct (pending g) as [[n l]|] eqn:ep.
      * destruct gp as [dl nt]. split; cbn.
        { destruct gt as [nd de]. split.
          - cbn. constructor.
            + intros i. apply in_map_iff in i as (x & ex & ix). apply filter_In in ix as [_ ix]. rewrite ex, String.eqb_refl in ix. discriminate.
            + clear -nd. induction (enum_types g) as [|x q IH]; [constructor|]. inversion nd as [|? ? ni nd']; subst. cbn. destruct (negb _); [|auto]. cbn. constructor; [|auto].
              intros i. apply ni. apply in_map_iff in i as (y & ey & iy). apply filter_In in iy as [iy _]. rewrite <- ey. apply in_map, iy.
          - constructor; [exact dl|]. rewrite Forall_forall in *. intros x ix. apply filter_In in ix as [ix _]. auto. }
        { intros x. rewrite last_snoc, gy. unfold set_enum. unfold enum_of at 2. cbn [find fst]. destruct (String.eqb x n) eqn:ex; [reflexivity|].
          pose proof (enum_of_filter n (enum_types g) x) as f. rewrite ex in f. symmetry. exact f. }
        { exact I. }
        { rewrite nt. discriminate. }
      * split; [exact gt| |rewrite ep; exact I|intros o t et; apply cu; [discriminate|exact (gb o t et)]].
        intros x. rewrite last_snoc, ep. apply gy.
    + split; cbn; [exact gt| |exact gp|intros o t et; apply cu; [discriminate|exact (gb o t et)]]. intros x. rewrite last_snoc. apply gy.
    + assert (k : good (es ++ [Peek i]) g).
      { split; [exact gt| |exact gp|intros o t et; apply cu; [discriminate|exact (gb o t et)]]. intros x. rewrite last_snoc. apply gy. }
      destruct (nth_error (readers g) i) as [[| |]|]; try exact k. destruct k. split; assumption.
    + destruct al as [pn pm]. assert (k : good (es ++ [Lock i order]) g).
      { split; [exact gt| |exact gp|intros o t et; apply cu; [discriminate|exact (gb o t et)]]. intros x. rewrite last_snoc. apply gy. }
      destruct (nth_error (readers g) i) as [[| |]|]; try exact k.
      destruct (enum_value_table g) as [[o t]|] eqn:et; [destruct k as [k1 k2 k3 k4]; split; cbn; try assumption; rewrite <- et in *; assumption|].
      destruct k as [k1 k2 k3 k4]. split; cbn; [exact k1|exact k2|rewrite pn; exact I|]. intros o t [= <- <-] n m d.
      rewrite k2, pn. symmetry in pm. rewrite (build_find order n m (tidy_perm _ _ pm gt) d). now rewrite (enum_of_perm _ _ n (proj1 gt) pm).
Qed.

Lemma nth_set i r l r0 : nth_error l i = Some r0 -> nth_error (set_reader i r l) i = Some r.
Proof.
  intros e. unfold set_reader. apply nth_error_split in e as (a & b & -> & <-). rewrite firstn_app, skipn_app, firstn_all, skipn_all, Nat.sub_diag.
  cbn. rewrite app_nil_r, nth_error_app2, Nat.sub_diag by lia. reflexivity.
Qed.

Lemma nth_other j i r l : i <> j -> nth_error (set_reader j r l) i = nth_error l i.
Proof.
  intros ne. unfold set_reader. destruct (le_lt_dec (List.length l) j) as [le|lt].
  - rewrite skipn_all2, app_nil_r, firstn_all2 by lia. reflexivity.
  - destruct (nth_error l j) as [x|] eqn:e; [|apply nth_error_None in e; lia]. apply nth_error_split in e as (a & b & -> & <-).
    rewrite firstn_app, skipn_app, firstn_all, skipn_all, Nat.sub_diag. cbn. rewrite app_nil_r.
    destruct (le_lt_dec (List.length a) i) as [le|lt'].
    + rewrite !nth_error_app2 by lia. destruct (i - List.length a) eqn:ed; [lia|reflexivity].
    + rewrite !nth_error_app1 by lia. reflexivity.
Qed.

(** A call that returns gives, for each enum and enumerator, the number it was last registered
    with, and nothing for the others; for any number of threads in any order. *)
Theorem C128_table_partial : forall es g e i o t, schedule es g -> allowed g e -> well_named e ->
  nth_error (readers g) i = Some Reading \/ nth_error (readers g) i = Some Wanting ->
  nth_error (readers (step g e)) i = Some (Got o t) ->
  forall n m, dotless m -> table_find t (n ++ "." ++ m) = match last_registered es n with Some l => number m l | None => None end.
Proof.
  intros es g e i o t h al wn b a.
  assert (gd : good (es ++ [e]) (step g e)) by (apply schedule_good; constructor; assumption).
  assert (ff : e <> Write /\ (forall n l, e <> Reset n l) /\ enum_value_table (step g e) = Some (o, t)).
  { assert (same : forall x, x = nth_error (readers g) i -> x = Some (Got o t) -> False) by (intros x -> e2; destruct b; congruence).
    destruct e as [n l| | |j|j order]; cbn [step] in a |- *.
    - destruct (same _ eq_refl a).
    - destruct (pending g) as [[? ?]|]; destruct (same _ eq_refl a).
    - cbn in a. rewrite nth_error_app1 in a; [destruct (same _ eq_refl a)|]. apply nth_error_Some. destruct b; congruence.
    - split; [discriminate|split; [discriminate|]]. destruct (nth_error (readers g) j) as [[| |]|] eqn:ej; try (destruct (same _ eq_refl a)). cbn in a |- *.
      destruct (Nat.eq_dec i j) as [->|ne].
      + rewrite (nth_set _ _ _ _ ej) in a. destruct (enum_value_table g) as [[? ?]|]; congruence.
      + rewrite (nth_other j i _ _ ne) in a. destruct (same _ eq_refl a).
    - split; [discriminate|split; [discriminate|]]. destruct (nth_error (readers g) j) as [[| |]|] eqn:ej; try (destruct (same _ eq_refl a)).
      destruct (Nat.eq_dec i j) as [->|ne].
      + destruct (enum_value_table g) as [[? ?]|] eqn:et; cbn in a |- *; rewrite (nth_set _ _ _ _ ej) in a; congruence.
      + destruct (enum_value_table g) as [[? ?]|] eqn:et; cbn in a; rewrite (nth_other j i _ _ ne) in a; destruct (same _ eq_refl a). }
  destruct ff as (_ & nr & et). intros n m d. rewrite (good_table _ _ gd o t et n m d), last_snoc. destruct e; try reflexivity. destruct (nr n0 es0 eq_refl).
Qed.
Print Assumptions C128_table_partial.
Definition ex_enum : string * Enumerators := ("a.E", [("ONE", 1%Z); ("TWO", 2%Z)])%string.
Definition ex_events : list event :=
  [Reset (fst ex_enum) (snd ex_enum); Write; Call; Call; Peek 0; Peek 1; Lock 1 [null_value; ex_enum]; Lock 0 [ex_enum; null_value]].
Example C128_table_example : schedule ex_events (run ex_events new_registry)
  /\ exists t, nth_error (readers (run ex_events new_registry)) 0 = Some (Got 0 t) /\ nth_error (readers (run ex_events new_registry)) 1 = Some (Got 0 t)
     /\ table_find t "a.E.TWO" = Some 2%Z.
Proof.
  split; [|eexists; split; [reflexivity|split; reflexivity]].
  assert (snoc : forall es e g, schedule es g -> allowed g e -> well_named e -> schedule (es ++ [e]) (step g e)) by (intros; constructor; assumption).
  assert (h0 := schedule_new).
  assert (h1 := snoc _ (Reset (fst ex_enum) (snd ex_enum)) _ h0 (conj eq_refl (Forall_nil _)) ltac:(repeat constructor; intros i; cbn in i; intuition discriminate)).
  assert (h2 := snoc _ Write _ h1 I I). assert (h3 := snoc _ Call _ h2 eq_refl I). assert (h4 := snoc _ Call _ h3 eq_refl I).
  assert (h5 := snoc _ (Peek 0) _ h4 eq_refl I). assert (h6 := snoc _ (Peek 1) _ h5 eq_refl I).
  assert (h7 := snoc _ (Lock 1 [null_value; ex_enum]) _ h6 (conj eq_refl (perm_swap _ _ _)) I).
  exact (snoc _ (Lock 0 [ex_enum; null_value]) _ h7 (conj eq_refl (Permutation_refl _)) I).
Qed.

(** Calls with no registration in between share one table, and what was returned stays as it
    is, whatever happens later and whatever the schedule is. *)
Lemma step_got g e : (forall n l, e <> Reset n l) ->
  (forall x, enum_value_table g = Some x -> enum_value_table (step g e) = Some x)
  /\ forall i o t, nth_error (readers (step g e)) i = Some (Got o t) -> nth_error (readers g) i = Some (Got o t) \/ enum_value_table (step g e) = Some (o, t).
Proof.
  intros nr. destruct e as [n l| | |j|j order]; cbn [step].
  - destruct (nr n l eq_refl).
  - destruct (pending g) as [[? ?]|]; cbn; auto.
  - cbn. split; [auto|]. intros i o t h. left. destruct (lt_dec i (List.length (readers g))) as [lt|ge]; [rewrite nth_error_app1 in h by lia; exact h|].
    rewrite nth_error_app2 in h by lia. destruct (i - List.length (readers g)) as [|k]; [discriminate|destruct k; discriminate].
  - destruct (nth_error (readers g) j) as [[| |]|] eqn:ej; auto. cbn. split; [auto|]. intros i o t h. destruct (Nat.eq_dec i j) as [->|ne].
    + rewrite (nth_set _ _ _ _ ej) in h. right. destruct (enum_value_table g) as [[? ?]|]; congruence.
    + rewrite nth_other in h by exact ne. auto.
  - destruct (nth_error (readers g) j) as [[| |]|] eqn:ej; auto. destruct (enum_value_table g) as [[o1 t1]|] eqn:et; cbn; (split; [congruence|]); intros i o t h;
      (destruct (Nat.eq_dec i j) as [->|ne]; [rewrite (nth_set _ _ _ _ ej) in h; right; congruence|rewrite nth_other in h by exact ne; auto]).
Qed.
Lemma step_kept g e i o t : nth_error (readers g) i = Some (Got o t) -> nth_error (readers (step g e)) i = Some (Got o t).
Proof.
  intros h. destruct e as [n l| | |j|j order]; cbn [step].
  - exact h.
  - destruct (pending g) as [[? ?]|]; exact h.
  - cbn. rewrite nth_error_app1; [exact h|]. apply nth_error_Some. congruence.
  - destruct (nth_error (readers g) j) as [[| |]|] eqn:ej; try exact h. cbn. rewrite nth_other; [exact h|]. intros ->. congruence.
  - destruct (nth_error (readers g) j) as [[| |]|] eqn:ej; try exact h. destruct (enum_value_table g) as [[? ?]|]; cbn; (rewrite nth_other; [exact h|]; intros ->; congruence).
Qed.
Theorem C128_shared : forall l g,
  (forall i o t, nth_error (readers g) i = Some (Got o t) -> nth_error (readers (run l g)) i = Some (Got o t))
  /\ ((forall n es, ~ In (Reset n es) l) ->
      forall i j o t o' t', ~ (exists x y, nth_error (readers g) i = Some (Got x y)) -> ~ (exists x y, nth_error (readers g) j = Some (Got x y)) ->
      nth_error (readers (run l g)) i = Some (Got o t) -> nth_error (readers (run l g)) j = Some (Got o' t') -> o = o' /\ t = t').
Proof.
  intros l g. split.
  - intros i o t. unfold run. revert g. induction l as [|e l IH]; intros g h; [exact h|]. cbn. apply IH, step_kept, h.
  - intros nr i j o t o' t' ni nj hi hj.
    assert (g0 : forall i o t, nth_error (readers (run l g)) i = Some (Got o t) -> nth_error (readers g) i = Some (Got o t) \/ enum_value_table (run l g) = Some (o, t)).
    { clear -nr. induction l as [|e l IH] using rev_ind; [auto|]. intros i o t h. unfold run in *. rewrite fold_left_app in *. cbn [fold_left] in *.
      destruct (step_got (fold_left step l g) e) as [kt kg]; [intros n es ->; apply (nr n es), in_or_app; right; left; reflexivity|].
      destruct (kg i o t h) as [h'|h']; [|auto]. destruct (IH ltac:(intros n es ix; apply (nr n es), in_or_app; auto) i o t h') as [|h2]; auto. }
    destruct (g0 i o t hi) as [x|x]; [destruct ni; eauto|]. destruct (g0 j o' t' hj) as [y|y]; [destruct nj; eauto|]. rewrite x in y. injection y as <- <-. auto.
Qed.
Print Assumptions C128_shared.

(** A call that overlaps with a registration can leave a table without the new enum behind,
    which all later calls are then given. *)
Theorem C128_overlap_refuted : exists es i o t, pending (run es new_registry) = None /\ Forall well_named es
  /\ last_registered es "a.E" = Some [("ONE"%string, 1%Z)]
  /\ nth_error (readers (run (es ++ [Call; Peek i]) new_registry)) i = Some (Got o t) /\ table_find t "a.E.ONE" = None.
Proof.
  exists [Reset "a.E" [("ONE", 1%Z)]; Call; Peek 0; Lock 0 [null_value]; Write]%string, 1, 0. eexists. split; [reflexivity|].
  split; [repeat constructor; intros i; cbn in i; intuition discriminate|]. repeat split.
Qed.
Print Assumptions C128_overlap_refuted.

(** Where names of enumerators have dots, the value of a name can depend on the order of the
    hash map. *)
Theorem C128_dots_refuted : exists (types order : EnumTypes) key, Permutation order types
  /\ table_find (build_table types) key = Some 1%Z /\ table_find (build_table order) key = Some 2%Z.
Proof.
  exists [("a.b", [("c", 2%Z)]); ("a", [("b.c", 1%Z)])]%string, [("a", [("b.c", 1%Z)]); ("a.b", [("c", 2%Z)])]%string, "a.b.c"%string.
  split; [apply perm_swap|split; reflexivity].
Qed.
Print Assumptions C128_dots_refuted.
