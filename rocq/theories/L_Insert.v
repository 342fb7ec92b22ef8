(* Lemmas on the macros that build maps, and on the optional macros. *)
From Coq Require Import ZArith List Bool String Ascii Lia Permutation.
From Verif Require Import Base M_Overflow M_Number M_Attr M_Value M_Logic M_Expr M_Machine M_Registry
  M_Macro S_Func S_Eval S_Macro L_Value L_Seval L_Core L_Meaning L_Func P_Func L_Macro.
Import ListNotations.
Open Scope list_scope.
Open Scope Z_scope.
Local Open Scope out_scope.

Definition collide (m new : entries) : bool :=
  existsb (fun k => existsb (fun k' => key_eqb k k') (map fst m)) (map fst new).
Lemma in_existsb k l : existsb (fun k' => key_eqb k k') l = true <-> In k l.
Proof.
  rewrite existsb_exists. split.
  - intros (k' & H & E). apply key_eqb_eq in E. now subst.
  - intros H. exists k. split; [exact H|]. apply key_eqb_refl.
Qed.
Lemma collide_spec m new : collide m new = true <-> exists k, In k (map fst m) /\ In k (map fst new).
Proof.
  unfold collide. rewrite existsb_exists. split; intros (k & H & E).
  - apply in_existsb in E. eauto.
  - exists k. split; auto. now apply in_existsb.
Qed.
Lemma collide_perm m m' new : Permutation m m' -> collide m new = collide m' new.
Proof.
  intros P. apply eq_true_iff_eq. rewrite !collide_spec.
  assert (H : forall k, In k (map fst m) <-> In k (map fst m')).
  { intros k. split; apply Permutation_in, Permutation_map; [|apply Permutation_sym]; exact P. }
  split; intros (k & H1 & H2); exists k; split; auto; apply H; auto.
Qed.

Definition entries_ok (m : entries) : Prop := NoDup (map fst m) /\ Forall plain (map snd m).
Lemma check_key k : CheckMapKey (value_of_key k) = Val k.
Proof. destruct k; reflexivity. Qed.
Lemma check_val v : plain v -> CheckMapValue v = Val tt.
Proof. intros [H1 H2]. destruct v; try discriminate; reflexivity. Qed.
Lemma put_new new : entries_ok new -> forall base,
  MapPutAll base (map_items_of new) = if collide base new then Err duplicate_key else Val (base ++ new).
Proof.
  induction new as [|[k v] new IH]; intros [Hn Hp] base.
  - cbn. now rewrite app_nil_r.
  - cbn [map fst snd] in Hn, Hp. apply NoDup_cons_iff in Hn. apply Forall_cons_iff in Hp.
    destruct Hn as [Hk Hn], Hp as [Hv Hp]. cbn [map_items_of map fst snd MapPutAll].
    unfold MapPut. rewrite check_key. cbn [obind]. rewrite (check_val _ Hv). cbn [obind].
    destruct (find_key k base) eqn:F.
    + cbn [obind]. assert (E : collide base ((k, v) :: new) = true); [|now rewrite E].
      apply collide_spec. exists k. split; [|left; reflexivity].
      destruct (in_dec key_dec k (map fst base)) as [H|H]; [exact H|].
      apply find_key_none in H. congruence.
    + cbn [obind]. apply find_key_none in F. fold (map_items_of new). rewrite IH by (split; auto).
      assert (E : collide (base ++ [(k, v)]) new = collide base ((k, v) :: new)).
      { apply eq_true_iff_eq. rewrite !collide_spec. split; intros (q & H1 & H2); exists q.
        - rewrite map_app in H1. apply in_app_or in H1. cbn [map fst] in *. destruct H1 as [H1|[<-|[]]].
          + split; [auto|now right].
          + easy.
        - cbn [map fst] in H2. destruct H2 as [<-|H2]; [easy|]. split; auto. rewrite map_app.
          apply in_or_app. now left. }
      rewrite E, <- app_assoc. reflexivity.
Qed.
Lemma put_app a : forall m b, MapPutAll m (a ++ b) = (m' <- MapPutAll m a ;; MapPutAll m' b).
Proof.
  induction a as [|[k v] a IH]; intros m b; cbn [app MapPutAll]; [reflexivity|].
  destruct (MapPut m k v); cbn [obind]; auto.
Qed.
Lemma put_both m new : entries_ok m -> entries_ok new ->
  put_all [] (map_items_of m ++ map_items_of new) =
  if collide m new then Err duplicate_key else Val (m ++ new).
Proof.
  intros Hm Hn. unfold put_all. rewrite put_app, (put_new m Hm).
  assert (E : collide [] m = false).
  { destruct (collide [] m) eqn:E; auto. apply collide_spec in E. destruct E as (k & [] & _). }
  rewrite E. cbn [obind app]. now apply put_new.
Qed.

Definition insert (reorder : entries -> entries) (a : value) (part : status + entries) : value :=
  match a with
  | VMap m =>
      match part with
      | inl s => VError s
      | inr new => if collide m new then VError duplicate_key else VMap (reorder (m ++ new))
      end
  | v => v
  end.
Definition map_ok' (_ : nat) (a : value) : Prop :=
  match a with VMap m => entries_ok m | VError _ => True | _ => False end.
Definition part_ok (part : status + entries) : Prop :=
  match part with inl _ => True | inr new => entries_ok new end.

Section Insert.
  Variable reorder : entries -> entries.
  Hypothesis Hreorder : forall m, Permutation (reorder m) m.
  Lemma entries_ok_perm m m' : Permutation m m' -> entries_ok m -> entries_ok m'.
  Proof.
    intros P [H1 H2]. split.
    - eapply Permutation_NoDup; [|exact H1]. now apply Permutation_map.
    - rewrite Forall_forall in *. intros v Hv. apply H2. eapply Permutation_in; [|exact Hv].
      apply Permutation_map. now apply Permutation_sym.
  Qed.
  Lemma entries_ok_app m new : entries_ok m -> entries_ok new -> collide m new = false -> entries_ok (m ++ new).
  Proof.
    intros [H1 H2] [H3 H4] Hc. split.
    - rewrite map_app. assert (D : forall k, In k (map fst m) -> ~ In k (map fst new)).
      { intros k Ha Hb. assert (collide m new = true) by (apply collide_spec; eauto). congruence. }
      clear - H1 H3 D. induction (map fst m) as [|k l IH]; cbn [app]; auto.
      apply NoDup_cons_iff in H1. constructor.
      + intros Hin. apply in_app_or in Hin. destruct Hin as [Hin|Hin]; [tauto|]. apply (D k); [now left|exact Hin].
      + apply IH; [tauto|]. intros q Hq. apply D. now right.
    - rewrite map_app. now apply Forall_app.
  Qed.
  Lemma insert_ok a part n : map_ok' n a -> part_ok part -> map_ok' n (insert reorder a part).
  Proof.
    destruct a; cbn; auto. destruct part as [s|new]; cbn; auto.
    intros Hm Hn. destruct (collide m new) eqn:E; cbn; auto.
    eapply entries_ok_perm; [apply Permutation_sym, Hreorder|]. now apply entries_ok_app.
  Qed.
  Lemma insert_fold_error parts s : fold_left (insert reorder) parts (VError s) = VError s.
  Proof. induction parts; auto. Qed.
  Lemma insert_fold parts : forall m m0, Permutation m m0 ->
    match collect m0 parts with
    | inl m1 => exists m', fold_left (insert reorder) parts (VMap m) = VMap m' /\ Permutation m' m1
    | inr s => fold_left (insert reorder) parts (VMap m) = VError s
    end.
  Proof.
    induction parts as [|part parts IH]; intros m m0 P; cbn [collect fold_left].
    - eauto.
    - destruct part as [s|new]; cbn [insert].
      + apply insert_fold_error.
      + fold (collide m0 new). rewrite (collide_perm _ _ new P).
        destruct (collide m0 new); [apply insert_fold_error|].
        apply IH. eapply Permutation_trans; [apply Hreorder|]. now apply Permutation_app_tail.
  Qed.
  Lemma insert_collected parts : is_collected parts (fold_left (insert reorder) parts (VMap [])).
  Proof.
    unfold is_collected. pose proof (insert_fold parts [] [] (Permutation_refl _)) as H.
    destruct (collect [] parts); auto.
  Qed.
End Insert.

(* a fold whose steps are guarded by conditions *)
Lemma guarded_fold {D} C (next : value -> D -> value) :
  (forall s d, next (VError s) d = VError s) -> forall pfs a,
  fold_left (fun a pf => cond_value C (fst pf) (next a (snd pf)) a) pfs a =
  match find no_bool (rev (map fst pfs)) with
  | Some v => as_error (condition_name C) v
  | None => fold_left next (map snd (filter (fun q => is_true (fst q)) pfs)) a
  end.
Proof.
  intros Hn. induction pfs as [|[p f] pfs IH] using rev_ind; intros a; [reflexivity|].
  rewrite fold_left_app, IH, map_app, rev_app_distr, filter_app, map_app, fold_left_app.
  cbn [fold_left map rev app find filter fst snd]. unfold cond_value.
  destruct p as [|[]| | | | | | | | | | | | |]; cbn [no_bool as_error is_true map fold_left]; auto.
  destruct (find no_bool (rev (map fst pfs))) as [v|]; [destruct v; apply Hn|]. reflexivity.
Qed.

Lemma reached_strict R n o0 : reached R -> In o0 R -> ov_name o0 = n -> ov_strict o0 = true ->
  forall o, In o R -> ov_name o = n -> ov_strict o = true.
Proof.
  intros (h & E) H0 Hn0 Hs0 o Ho Hn. destruct (ov_strict o) eqn:Es; [reflexivity|]. exfalso.
  assert (Ht : tidy (attempts h [])) by (apply attempts_tidy; constructor).
  assert (G : o = o0).
  { rewrite E in Ho, H0. unfold static_overloads in Ho, H0. apply in_map_iff in Ho, H0.
    destruct Ho as (eo & <- & Ho), H0 as (eq & <- & Hq). apply filter_In in Ho, Hq. f_equal.
    destruct (tidy_all _ Ht eo eq (proj1 Ho) (proj1 Hq)) as [H|H]; [exact H|]. elim H. right.
    split; [congruence|auto]. }
  congruence.
Qed.

Section MapLoops.
  Variable C : config.
  Variable R : registry.
  Hypothesis Hu : o_unknowns (cf_opts C) = false.
  Variables x x2 y : string.
  Hypothesis Hy : reserved y.
  Hypothesis Hx : x <> y.
  Hypothesis Hx2 : x2 <> y.
  Variable rho : env.
  Variable reorder : entries -> entries.
  Hypothesis Hins : standard_insert R reorder.

  Lemma insert_call l : call_outcome C R "cel.@mapInsert" false (map (@Val vt) l) =
    apply_op C (OCall "cel.@mapInsert" false
                  (FindStaticOverloadsByArity R "cel.@mapInsert" false (List.length l))) l.
  Proof.
    unfold call_outcome. change (String.eqb "cel.@mapInsert" _) with false at 1 2 3 4. cbn beta iota.
    change (String.eqb "cel.@mapInsert" "or") with false. change (String.eqb "cel.@mapInsert" "orValue") with false.
    change (is_nsf_name "cel.@mapInsert") with false. change (String.eqb "cel.@mapInsert" "!_") with false.
    change (is_in_name "cel.@mapInsert") with false. change (String.eqb "cel.@mapInsert" "_==_") with false.
    change (String.eqb "cel.@mapInsert" "_!=_") with false.
    rewrite ?andb_false_r. rewrite map_length.
    assert (E : sequence (map (@Val vt) l) = Val l); [|rewrite E; reflexivity].
    induction l as [|v l IH]; [reflexivity|]. cbn [map sequence obind]. rewrite IH. reflexivity.
  Qed.
  Lemma insert_input l : call_args (o_unknowns (cf_opts C)) (cf_pats C) l = map fst l.
  Proof. unfold call_args. now rewrite Hu. Qed.
  Lemma insert_strict o : In o R -> ov_name o = "cel.@mapInsert"%string -> ov_strict o = true.
  Proof.
    destruct Hins as (Hr & H1 & _). apply (reached_strict R _ (map_insert reorder)); auto.
  Qed.
  Lemma insert_error before s after (l : list vt) : map fst l = before ++ VError s :: after ->
    forallb (fun v => negb (is_error v)) before = true ->
    call_outcome C R "cel.@mapInsert" false (map (@Val vt) l) = Val (VError s, None).
  Proof.
    intros E Hb. rewrite insert_call. destruct Hins as (Hr & _).
    destruct (C27_one_call C R "cel.@mapInsert" false l Hr) as (G & _).
    rewrite insert_input in G. apply (G before s after E Hb). apply insert_strict.
  Qed.

  Lemma insert_entry a ta kv k tk f tf part n :
    key_of_value kv <> None -> k = kv -> entry_part kv f part -> map_ok' n a ->
    exists t, call_outcome C R "cel.@mapInsert" false [@Val vt (a, ta); @Val vt (k, tk); @Val vt (f, tf)] =
              Val (insert reorder a part, t).
  Proof.
    intros Hk -> Hp Ha. exists None.
    change [@Val vt (a, ta); @Val vt (kv, tk); @Val vt (f, tf)] with (map (@Val vt) [(a, ta); (kv, tk); (f, tf)]).
    assert (Hkp : plain kv) by (destruct kv; try (now elim Hk); split; reflexivity).
    destruct a; try now destruct Ha.
    2: { apply (insert_error [] s [kv; f]); reflexivity. }
    destruct (is_error f) eqn:Ef.
    { destruct f; try discriminate. cbn in Hp. subst part. apply (insert_error [VMap m; kv] s []); [reflexivity|].
      cbn. destruct Hkp as [-> _]. reflexivity. }
    assert (Hf : is_unknown f = false /\ exists key, key_of_value kv = Some key /\ part = inr [(key, f)])
      by (destruct f; try discriminate; exact Hp).
    clear Hp. destruct Hf as (Hfu & key & Ek & ->).
    rewrite insert_call. destruct Hins as (Hr & H1 & _ & Hperm).
    destruct (C27_one_call C R "cel.@mapInsert" false [(VMap m, ta); (kv, tk); (f, tf)] Hr) as (_ & G & _).
    rewrite insert_input in G. cbn [map fst List.length] in G.
    destruct (G (map_insert reorder) H1) as [E _]; [| |etransitivity; [exact E|]].
    - split; [reflexivity|]. split; [reflexivity|]. constructor; [now right|]. constructor; [now left|].
      constructor; [now left|constructor].
    - intros _ v [<-|[<-|[<-|[]]]]; auto.
    - cbn [map_insert ov_impl MapInsertKeyValue].
      assert (Ev : [(kv, f)] = map_items_of [(key, f)]).
      { cbn. f_equal. f_equal. destruct kv; try discriminate; injection Ek as <-; reflexivity. }
      rewrite Ev, put_both.
      + cbn [insert]. destruct (collide m [(key, f)]); reflexivity.
      + exact Ha.
      + split; cbn; [constructor; [intros []|constructor]|constructor; [split; auto|constructor]].
  Qed.
  Lemma insert_map a ta f tf part n : map_part f part -> map_ok' n a ->
    exists t, call_outcome C R "cel.@mapInsert" false [@Val vt (a, ta); @Val vt (f, tf)] =
              Val (insert reorder a part, t).
  Proof.
    intros Hp Ha. exists None.
    change [@Val vt (a, ta); @Val vt (f, tf)] with (map (@Val vt) [(a, ta); (f, tf)]).
    destruct a; try now destruct Ha.
    2: { apply (insert_error [] s [f]); reflexivity. }
    destruct f; try now destruct Hp.
    2: { cbn in Hp. subst part. apply (insert_error [VMap m] s []); reflexivity. }
    destruct Hp as (Hn & Hpl & ->).
    rewrite insert_call. destruct Hins as (Hr & _ & H1 & Hperm).
    destruct (C27_one_call C R "cel.@mapInsert" false [(VMap m, ta); (VMap m0, tf)] Hr) as (_ & G & _).
    rewrite insert_input in G. cbn [map fst List.length] in G.
    destruct (G (map_insert_map reorder) H1) as [E _]; [| |etransitivity; [exact E|]].
    - split; [reflexivity|]. split; [reflexivity|]. constructor; [now right|]. constructor; [now right|constructor].
    - intros _ v [<-|[<-|[]]]; auto.
    - cbn [map_insert_map ov_impl MapInsertMap]. rewrite put_both.
      + cbn [insert]. destruct (collide m m0); reflexivity.
      + exact Ha.
      + split; auto.
  Qed.

  (* entry: the arguments after the accumulator *)
  Variable entry : list expr.
  Variable b : bool.
  Variable rel : value * value -> status + entries -> Prop.
  Hypothesis Hentry : forall t kv part a ta n, rel kv part -> map_ok' n a ->
    exists t', meaning C R (NewCall "cel.@mapInsert" (EIdent y :: entry)) (loop_env C x x2 y b t kv (a, ta) rho) =
               Val (insert reorder a part, t').
  Hypothesis Hpart : forall kv part, rel kv part -> part_ok part.

  Lemma transform_loop t items parts : Forall2 rel items parts -> forall res sh,
    exists t', eval_loop sh (fun _ _ => Val (VBool true, None))
      (fun kv accu => meaning C R (NewCall "cel.@mapInsert" (EIdent y :: entry))
                        (loop_env C x x2 y b t kv accu rho))
      res items (VMap [], None) = res (fold_left (insert reorder) parts (VMap []), t').
  Proof.
    intros H res sh. apply (true_loop (insert reorder) map_ok' rel); auto.
    - intros kv part a ta n Hr Ha. eapply Hentry; eauto.
    - intros kv part a n Hr Ha. apply insert_ok; eauto. apply Hins.
    - cbn. split; constructor.
  Qed.
  Lemma transform_filter_loop p t items ps parts : free y p = false ->
    each_yields C R p x x2 b items rho ps -> no_unknowns ps -> Forall2 rel items parts -> forall res sh,
    exists t', eval_loop sh (fun _ _ => Val (VBool true, None))
      (fun kv accu => meaning C R (NewCall "_?_:_" [p; NewCall "cel.@mapInsert" (EIdent y :: entry); EIdent y])
                        (loop_env C x x2 y b t kv accu rho))
      res items (VMap [], None) =
      res (match find no_bool (rev ps) with
           | Some v => as_error (condition_name C) v
           | None => fold_left (insert reorder) (kept ps parts) (VMap [])
           end, t').
  Proof.
    intros Hf H1 Hn H2 res sh.
    assert (Hlen : List.length ps = List.length parts).
    { rewrite <- (forall2_len _ _ _ H1). apply (forall2_len _ _ _ H2). }
    assert (Ec : map fst (combine ps parts) = ps).
    { clear - Hlen. revert parts Hlen. induction ps as [|p ps IH]; intros [|f fs] Hl; try discriminate; [reflexivity|].
      cbn [combine map fst]. f_equal. apply IH. now injection Hl. }
    pose proof (guarded_fold C (insert reorder) (fun _ _ => eq_refl) (combine ps parts) (VMap [])) as E.
    rewrite Ec in E. unfold kept. rewrite <- E. clear E.
    apply (true_loop (fun a pf => cond_value C (fst pf) (insert reorder a (snd pf)) a) map_ok'
             (fun kv pf => (is_unknown (fst pf) = false /\ yields C R p (in_scope x x2 b kv rho) (fst pf)) /\
                           rel kv (snd pf))).
    - intros kv [pv part] a ta n ((Hnp & tp & Hp) & Hrel) Ha. cbn [fst snd] in *.
      rewrite meaning_call. cbn [map]. rewrite (body_in C R Hu x x2 y Hy Hx Hx2 rho p) by auto.
      rewrite Hp, (accu_in C R x x2 y Hy Hx Hx2 rho).
      destruct (Hentry t kv part a ta _ Hrel Ha) as (t1 & E1). rewrite E1.
      apply cond_outcome; auto.
    - intros kv [pv part] a n ((Hnp & _) & Hrel) Ha. cbn [fst snd] in *.
      assert (Hi : map_ok' n (insert reorder a part)) by (apply insert_ok; eauto; apply Hins).
      unfold cond_value.
      destruct pv as [|[]| | | | | | | | | | | | |]; cbn [as_error]; try exact I; try discriminate; auto.
    - clear Hlen Ec. revert ps parts H1 Hn H2. induction items as [|kv items IH]; intros ps fs H1 Hn1 H2;
        inversion H1; subst; inversion H2; subst; cbn [combine]; constructor.
      + apply Forall_cons_iff in Hn1. cbn [fst snd]. tauto.
      + apply Forall_cons_iff in Hn1. apply IH; tauto.
    - cbn. split; constructor.
  Qed.
End MapLoops.

Lemma iteration_keys rv b items : iteration rv = Some (b, items) ->
  Forall (fun kv => key_of_value (fst kv) <> None) items.
Proof.
  destruct rv; try discriminate; intros [= <- <-].
  - generalize 0. induction l as [|v l IH]; intros i; constructor; auto. discriminate.
  - unfold map_items. induction m as [|[k v] m IH]; constructor; auto. destruct k; discriminate.
Qed.
Lemma meaning_name C R x r a : x <> ""%string -> (forall s, x <> String "."%char s) -> r x = Some a ->
  meaning C R (EIdent x) r = a.
Proof.
  intros H1 H2 E. destruct x as [|c s]; [easy|]. cbn [meaning]. rewrite E.
  destruct c as [[] [] [] [] [] [] [] []]; try reflexivity. now destruct (H2 s).
Qed.

Section MapComps.
  Variable C : config.
  Variable R : registry.
  Hypothesis Hu : o_unknowns (cf_opts C) = false.
  Hypothesis Hb : builtin_logic C.
  Variables x x2 y : string.
  Hypothesis Hy : reserved y.
  Hypothesis Hx : x <> y.
  Hypothesis Hx2 : x2 <> y.
  Variable rho : env.
  Variables (range : expr) (rv : value) (b : bool) (items : list (value * value)).
  Hypothesis Hr : yields C R range rho rv.
  Hypothesis Hi : iteration rv = Some (b, items).
  Variable reorder : entries -> entries.
  Hypothesis Hins : standard_insert R reorder.
  Variables (entry : list expr) (rel : value * value -> status + entries -> Prop).
  Hypothesis Hentry : forall t kv part a ta n, rel kv part -> map_ok' n a ->
    exists t', meaning C R (NewCall "cel.@mapInsert" (EIdent y :: entry)) (loop_env C x x2 y b t kv (a, ta) rho) =
               Val (insert reorder a part, t').
  Hypothesis Hpart : forall kv part, rel kv part -> part_ok part.
  Hypothesis Hempty : Permutation (cf_reorder C []) [].

  Lemma empty_map : meaning C R (EMap []) rho = Val (VMap [], None).
  Proof.
    cbn. unfold MapStep. cbn. unfold literal_unknowns, unk. rewrite Hu. cbn.
    apply Permutation_sym, Permutation_nil in Hempty. now rewrite Hempty.
  Qed.
  Lemma transform_yields parts : Forall2 rel items parts ->
    exists v, yields C R (transform_map_comp y x x2 range entry) rho v /\ is_collected parts v.
  Proof.
    intros Hp. exists (fold_left (insert reorder) parts (VMap [])). split; [|apply insert_collected, Hins].
    apply (comp_yields C R Hu x x2 y rho range rv b items Hr Hi _ _ _ _ (VMap [], None));
      [reflexivity|apply empty_map|].
    intros t.
    destruct (transform_loop C R x x2 y rho reorder Hins entry b rel Hentry Hpart t items parts Hp
                (fun accu => meaning C R (EIdent y) (bind_local y (Val accu) rho)) (sc C)) as (t' & E).
    exists t'. etransitivity; [exact E|]. apply (accu_out C R x x2 y Hy Hx Hx2).
  Qed.
  Lemma transform_filter_yields p ps parts : free y p = false ->
    each_yields C R p x x2 b items rho ps -> no_unknowns ps -> Forall2 rel items parts ->
    exists v, yields C R (transform_map_filter_comp y x x2 range p entry) rho v /\
      match find no_bool (rev ps) with
      | Some q => v = as_error (condition_name C) q
      | None => is_collected (kept ps parts) v
      end.
  Proof.
    intros Hf H1 Hn Hp.
    exists (match find no_bool (rev ps) with
            | Some v => as_error (condition_name C) v
            | None => fold_left (insert reorder) (kept ps parts) (VMap [])
            end).
    split; [|destruct (find no_bool (rev ps)); [reflexivity|apply insert_collected, Hins]].
    apply (comp_yields C R Hu x x2 y rho range rv b items Hr Hi _ _ _ _ (VMap [], None));
      [reflexivity|apply empty_map|].
    intros t.
    destruct (transform_filter_loop C R Hu x x2 y Hy Hx Hx2 rho reorder Hins entry b rel Hentry Hpart p t items ps
                parts Hf H1 Hn Hp
                (fun accu => meaning C R (EIdent y) (bind_local y (Val accu) rho)) (sc C)) as (t' & E).
    exists t'. etransitivity; [exact E|]. apply (accu_out C R x x2 y Hy Hx Hx2).
  Qed.
End MapComps.

(* the two kinds of entries *)
Section Entries.
  Variable C : config.
  Variable R : registry.
  Hypothesis Hu : o_unknowns (cf_opts C) = false.
  Variables x x2 y : string.
  Hypothesis Hy : reserved y.
  Hypothesis Hx : x <> y.
  Hypothesis Hx2 : x2 <> y.
  Hypothesis Hxx2 : x <> x2.
  Hypothesis Hxs : x <> ""%string /\ forall s, x <> String "."%char s.
  Hypothesis Hx2e : x2 <> ""%string.
  Variable rho : env.
  Variable reorder : entries -> entries.
  Hypothesis Hins : standard_insert R reorder.
  Variable b : bool.
  Variable f : expr.
  Hypothesis Hf : free y f = false.

  Definition key_rel (kv : value * value) (part : status + entries) : Prop :=
    key_of_value (fst kv) <> None /\
    exists fv, yields C R f (in_scope x x2 b kv rho) fv /\ entry_part (fst kv) fv part.
  Definition map_rel (kv : value * value) (part : status + entries) : Prop :=
    exists fv, yields C R f (in_scope x x2 b kv rho) fv /\ map_part fv part.
  Lemma key_entry t kv part a ta n : key_rel kv part -> map_ok' n a ->
    exists t', meaning C R (NewCall "cel.@mapInsert" [EIdent y; EIdent x; f]) (loop_env C x x2 y b t kv (a, ta) rho) =
               Val (insert reorder a part, t').
  Proof.
    intros (Hk & fv & (tf & Hfv) & Hp) Ha. rewrite meaning_call. cbn [map].
    rewrite (accu_in C R x x2 y Hy Hx Hx2 rho), (body_in C R Hu x x2 y Hy Hx Hx2 rho f) by auto. rewrite Hfv.
    rewrite (body_in C R Hu x x2 y Hy Hx Hx2 rho (EIdent x)) by (cbn; now apply String.eqb_neq).
    rewrite (meaning_name C R x _ (Val (fst kv, None))).
    - eapply insert_entry; eauto.
    - apply Hxs.
    - apply Hxs.
    - unfold in_scope. apply String.eqb_neq in Hx2e. rewrite Hx2e. unfold bind_local. now rewrite String.eqb_refl.
  Qed.
  Lemma key_part kv part : key_rel kv part -> part_ok part.
  Proof.
    intros (Hk & fv & _ & Hp). destruct fv; cbn in Hp; try (subst; exact I);
      destruct Hp as (Hn & key & _ & ->); try discriminate Hn;
      (split; cbn; [constructor; [intros []|constructor]|constructor; [split; auto|constructor]]).
  Qed.
  Lemma map_entry t kv part a ta n : map_rel kv part -> map_ok' n a ->
    exists t', meaning C R (NewCall "cel.@mapInsert" [EIdent y; f]) (loop_env C x x2 y b t kv (a, ta) rho) =
               Val (insert reorder a part, t').
  Proof.
    intros (fv & (tf & Hfv) & Hp) Ha. rewrite meaning_call. cbn [map].
    rewrite (accu_in C R x x2 y Hy Hx Hx2 rho), (body_in C R Hu x x2 y Hy Hx Hx2 rho f) by auto. rewrite Hfv.
    eapply insert_map; eauto.
  Qed.
  Lemma map_part_ok kv part : map_rel kv part -> part_ok part.
  Proof.
    intros (fv & _ & Hp). destruct fv; cbn in Hp; try easy; [|now subst].
    destruct Hp as (H1 & H2 & ->). split; auto.
  Qed.
End Entries.
