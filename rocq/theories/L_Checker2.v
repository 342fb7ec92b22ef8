(* Soundness of the type checker on expressions whose types are static. *)
From Coq Require Import String List Bool NArith ZArith Ascii Lia Wf_nat Inverse_Image.
From Verif Require Import Base M_Value M_Expr S_Macro.
From Verif Require L_Meaning.
From Verif Require Import M_Infer S_Infer L_Infer L_Infer2 L_Unify L_Unify2 L_Fresh L_Literal.
From Verif Require Import M_Checker S_Checker L_Checker.
Import ListNotations.
Local Open Scope string_scope.
Open Scope list_scope.
Local Open Scope nat_scope.

(* ---- scopes ---- *)
Definition gsub (s : string -> ty) (G : scope) : scope := map (fun p => (fst p, tsub s (snd p))) G.
Definition scope_fit (c : context) (G : scope) : Prop := Forall (fun p => fit c (snd p)) G.

Lemma scope_find_gsub s G x : scope_find (gsub s G) x = option_map (tsub s) (scope_find G x).
Proof.
  induction G as [|[y t] G IH]; [reflexivity|]. cbn. destruct (String.eqb y x); [reflexivity | exact IH].
Qed.
Lemma scope_find_fit c G x t : scope_fit c G -> scope_find G x = Some t -> fit c t.
Proof.
  induction 1 as [|[y u] G H _ IH]; cbn; [discriminate|].
  destruct (String.eqb y x); [intros [= <-]; exact H | exact IH].
Qed.
Lemma scope_fit_step c c' G : step c c' -> scope_fit c G -> scope_fit c' G.
Proof. intros S. apply Forall_impl. intros p. apply fit_step, S. Qed.

(* ---- weakening ---- *)
Lemma wt_free D e : forall G G' t, wt D G e t ->
  (forall x, free x e = true -> scope_find G x = scope_find G' x) -> wt D G' e t.
Proof.
  induction e using L_Meaning.expr_ind'; intros G G' u W Hf.
  - inversion W; subst. constructor. assumption.
  - assert (Hx : scope_find G x = scope_find G' x) by (apply Hf; cbn [free]; apply String.eqb_refl).
    inversion W; subst; [apply wt_local; congruence | apply wt_global; congruence | apply wt_root; assumption].
  - assert (IH : forall t, wt D G e t -> wt D G' e t) by (intros; eapply IHe; eauto).
    inversion W; subst; [eapply wt_select | eapply wt_has | eapply wt_select_optional | eapply wt_has_optional]; eauto.
  - assert (IH : forall ts, Forall2 (wt D G) (match t with None => args | Some t => t :: args end) ts ->
                            Forall2 (wt D G') (match t with None => args | Some t => t :: args end) ts).
    { assert (Ha : forall ts, Forall2 (wt D G) args ts -> Forall2 (wt D G') args ts).
      { assert (Hf' : forall x, (fix go l := match l with [] => false | a :: l' => free x a || go l' end) args = true ->
                        scope_find G x = scope_find G' x).
        { intros x Hx. apply Hf. cbn [free]. rewrite Hx. apply orb_true_r. }
        clear Hf H W. induction H0 as [|a l Ha _ IHl]; intros ts F; inversion F; subst; constructor.
        - eapply Ha; [eassumption|]. intros x Hx. apply Hf'. now rewrite Hx.
        - apply IHl; [|assumption]. intros x Hx. apply Hf'. rewrite Hx. apply orb_true_r. }
      destruct t as [a|]; [|exact Ha]. intros ts F. inversion F; subst. constructor; [|apply Ha; assumption].
      eapply H; [eassumption|]. intros x Hx. apply Hf. cbn [free]. now rewrite Hx. }
    inversion W; subst; [eapply wt_call | eapply wt_logical]; eauto.
  - inversion W; subst. constructor. clear W. revert H2 Hf. induction H as [|[o a] l Ha _ IHl]; intros F Hf.
    + constructor.
    + inversion F; subst. constructor.
      * cbn [fst snd] in *. eapply Ha; [eassumption|]. intros x Hx. apply Hf. cbn [free]. now rewrite Hx.
      * apply IHl; [assumption|]. intros x Hx. apply Hf. cbn [free] in *. rewrite Hx. apply orb_true_r.
  - inversion W; subst. constructor.
    match goal with F : Forall (fun p => wt D G _ _ /\ _) l |- _ => revert F end. clear W. revert Hf.
    induction H as [|[o [a b]] l Ha _ IHl]; intros Hf F.
    + constructor.
    + destruct (Forall_inv F) as [W1 W2]. apply Forall_inv_tail in F. cbn [fst snd] in *.
      destruct Ha as [H1 H2]. constructor.
      * cbn [fst snd] in *. split.
        -- eapply H1; [eassumption|]. intros x Hx. apply Hf. cbn [free]. now rewrite Hx.
        -- eapply H2; [eassumption|]. intros x Hx. apply Hf. cbn [free]. rewrite Hx. now rewrite !orb_true_r.
      * apply IHl; [|assumption]. intros x Hx. apply Hf. cbn [free] in *. rewrite Hx. apply orb_true_r.
  - inversion W; subst.
    assert (Hy : forall z, free z e5 = true ->
              scope_find ((y, ta) :: G) z = scope_find ((y, ta) :: G') z).
    { intros z Hz. cbn [scope_find]. destruct (String.eqb y z) eqn:E; [reflexivity|].
      apply Hf. cbn [free]. rewrite Hz, E. cbn. now rewrite !orb_true_r. }
    assert (Hi : forall z, free z e3 || free z e4 = true ->
              scope_find (its ++ (y, ta) :: G) z = scope_find (its ++ (y, ta) :: G') z).
    { intros z Hz.
      assert (K : String.eqb x z || negb (String.eqb x2 "") && String.eqb x2 z || String.eqb y z = false ->
                  scope_find G z = scope_find G' z).
      { intros E. apply Hf. cbn [free]. rewrite Hz, E. cbn. now rewrite !orb_true_r. }
      match goal with I : iterates _ _ _ _ |- _ => inversion I; subst end; cbn [app scope_find];
        destruct (String.eqb x z) eqn:E1; try reflexivity;
        try (apply String.eqb_neq in H; rewrite H in K);
        try (destruct (String.eqb x2 z) eqn:E2; [reflexivity|]);
        (destruct (String.eqb y z) eqn:E3; [reflexivity|]); apply K; reflexivity. }
    eapply wt_comp with (tr := tr) (its := its) (ta := ta).
    + eapply IHe1; [eassumption|]. intros z Hz. apply Hf. cbn [free]. now rewrite Hz.
    + eassumption.
    + eapply IHe2; [eassumption|]. intros z Hz. apply Hf. cbn [free]. rewrite Hz. now rewrite !orb_true_r.
    + eapply IHe3; [eassumption|]. intros z Hz. apply Hi. now rewrite Hz.
    + eapply IHe4; [eassumption|]. intros z Hz. apply Hi. rewrite Hz. apply orb_true_r.
    + eapply IHe5; [eassumption|]. intros z Hz. apply Hy, Hz.
Qed.

(* ---- the hypotheses, apart from the types of loops ---- *)
Definition stat (D : decls) (e : expr) (n : ttree) : Prop :=
  (forall a m, recorded e n a m -> plain (tt_type m)) /\
  (forall x m T, recorded e n (EIdent x) m -> d_vars D (snd (split_root x)) = Some T -> declarable T) /\
  (forall fn target args m ovls, recorded e n (ECall fn target args) m ->
     fn <> "_?._" /\
     (d_funcs D fn = Some ovls ->
      forall o, In o ovls -> declarable (od_result o) /\ Forall declarable (od_args o))) /\
  (forall a f test m, recorded e n (ESelect a f test) m ->
     forall t k, m = Node t [k] ->
     forall v, tt_type k <> TParam v /\ tt_type k <> optional_of (TParam v)) /\
  (forall x x2 y r i c s body m, recorded e n (EComp x x2 y r i c s body) m ->
     free x c = false /\ free x2 c = false).
Definition loops (s : string -> ty) (e : expr) (n : ttree) : Prop :=
  forall x x2 y r i c st body m, recorded e n (EComp x x2 y r i c st body) m ->
  forall t nr ni nc ns nb, m = Node t [nr; ni; nc; ns; nb] ->
    tsub s (tt_type nc) = TPrim PBool /\ tsub s (tt_type ns) = tsub s (tt_type ni).

Lemma nth_forall2 {A B} (Q : A -> B -> Prop) l : forall l', length l' = length l ->
  (forall i a b, nth_error l i = Some a -> nth_error l' i = Some b -> Q a b) -> Forall2 Q l l'.
Proof.
  induction l as [|a l IH]; intros [|b l'] Hl H; try discriminate; constructor.
  - apply (H 0); reflexivity.
  - apply IH; [cbn in Hl; lia|]. intros i x y. apply (H (S i)).
Qed.
Lemma stat_part D e t ns i a m : stat D e (Node t ns) ->
  nth_error (parts_of e) i = Some a -> nth_error ns i = Some m -> stat D a m.
Proof.
  intros (H1 & H2 & H3 & H4 & H5) Ha Hm.
  assert (R : forall b k, recorded a m b k -> recorded e (Node t ns) b k).
  { intros b k Hk. eapply recorded_part; eauto. }
  split; [|split; [|split; [|split]]].
  - intros b k Hk. eapply H1, R, Hk.
  - intros x k T Hk. eapply H2, R, Hk.
  - intros fn target args k ovls Hk. eapply H3, R, Hk.
  - intros b f test k Hk. eapply H4, R, Hk.
  - intros x x2 y r j c s body k Hk. eapply H5, R, Hk.
Qed.
Lemma stat_parts D e t ns : stat D e (Node t ns) -> length ns = length (parts_of e) ->
  Forall2 (stat D) (parts_of e) ns.
Proof. intros H Hl. apply nth_forall2; [exact Hl|]. intros. eapply stat_part; eauto. Qed.
Lemma loops_parts s e t ns : loops s e (Node t ns) -> length ns = length (parts_of e) ->
  Forall2 (loops s) (parts_of e) ns.
Proof.
  intros H Hl. apply nth_forall2; [exact Hl|]. intros i a m Ha Hm x x2 y r j c st b k Hk.
  eapply H. eapply recorded_part; eauto.
Qed.
Lemma stat_plain D e n : stat D e n -> plain (tt_type n).
Proof. intros (H & _). eapply H. constructor. Qed.

(* ---- the induction ---- *)
Section Main.
Variables (fuel : nat) (D : decls).
Hypothesis fields : fields_ground D.

Definition sound (e : expr) : Prop := forall c G n c', ok c -> scope_fit c G ->
  check fuel D c G e = Some (n, 0, c') -> stat D e n ->
  step c c' /\ fit c' (tt_type n) /\
  forall s, respects s (cx_bindings c') -> loops s e n -> wt D (gsub s G) e (tsub s (tt_type n)).

Definition check_each (G : scope) :=
  check_all (fun c a => single (check fuel D c G a)).

Lemma check_all_nil {A} f c : @check_all A f c [] = Some ([], 0, c).
Proof. reflexivity. Qed.
Lemma check_all_cons {A} f c x l : @check_all A f c (x :: l) =
  match f c x with
  | None => None
  | Some (ns, m, c1) =>
      match check_all f c1 l with
      | None => None
      | Some (ns', m', c2) => Some (ns ++ ns', m + m', c2)
      end
  end.
Proof. reflexivity. Qed.

Lemma check_each_length G l : forall c ns m c',
  check_each G c l = Some (ns, m, c') -> length ns = length l.
Proof.
  unfold check_each. induction l as [|a l IH]; intros c ns m c' E.
  - inversion E; reflexivity.
  - rewrite check_all_cons in E. unfold single in E at 1.
    destruct (check fuel D c G a) as [[[n k] c1]|]; [|discriminate].
    destruct (check_all _ c1 l) as [[[ns' k'] c2]|] eqn:El; [|discriminate].
    inversion E; subst. cbn. f_equal. eapply IH, El.
Qed.

Lemma check_each_sound G l : Forall sound l -> forall c ns c', ok c -> scope_fit c G ->
  check_each G c l = Some (ns, 0, c') -> Forall2 (stat D) l ns ->
  step c c' /\ (forall t, In t (map tt_type ns) -> fit c' t) /\
  forall s, respects s (cx_bindings c') -> Forall2 (loops s) l ns ->
    Forall2 (wt D (gsub s G)) l (map (tsub s) (map tt_type ns)).
Proof.
  unfold check_each. induction 1 as [|a l Ha _ IH]; intros c ns c' O F E St.
  - inversion E; subst. split; [apply step_refl, O|]. split; [intros t []|]. constructor.
  - rewrite check_all_cons in E. unfold single in E at 1.
    destruct (check fuel D c G a) as [[[n k] c1]|] eqn:Ea; [|discriminate].
    destruct (check_all _ c1 l) as [[[ns' k'] c2]|] eqn:El; [|discriminate].
    inversion E; subst. assert (k = 0 /\ k' = 0) as [-> ->] by lia. cbn [app] in *.
    inversion St; subst.
    destruct (Ha _ _ _ _ O F Ea) as (S1 & F1 & W1); [assumption|].
    destruct (IH _ _ _ (step_ok _ _ S1) (scope_fit_step _ _ _ S1 F) El) as (S2 & F2 & W2); [assumption|].
    split; [eapply step_trans; eauto|]. split.
    + cbn [map]. intros t [<-|Ht]; [eapply fit_step; eauto | auto].
    + intros s R L. inversion L; subst. cbn [map]. constructor; [|apply W2; assumption].
      apply W1; [|assumption]. apply (proj2 (proj2 S2)), R.
Qed.

Lemma check_entries G ents : forall c,
  check_all (fun c (p : bool * (expr * expr)) =>
              match check fuel D c G (fst (snd p)) with
              | None => None
              | Some (nk, m, c1) =>
                  match check fuel D c1 G (snd (snd p)) with
                  | None => None
                  | Some (nv, m', c2) => Some ([nk; nv], m + m', c2)
                  end
              end) c ents
  = check_each G c (flat_map (fun p => [fst (snd p); snd (snd p)]) ents).
Proof.
  unfold check_each. induction ents as [|p l IH]; intros c; [reflexivity|].
  cbn [flat_map app]. rewrite !check_all_cons. unfold single at 1.
  destruct (check fuel D c G (fst (snd p))) as [[[nk m] c1]|]; [|reflexivity].
  rewrite check_all_cons. unfold single at 1.
  destruct (check fuel D c1 G (snd (snd p))) as [[[nv m'] c2]|]; [|reflexivity].
  rewrite IH. destruct (check_all _ c2 _) as [[[ns k] c3]|]; [|reflexivity].
  cbn [app]. do 3 f_equal. lia.
Qed.

Lemma check_elems G (elems : list (bool * expr)) : forall c,
  check_all (fun c p => single (check fuel D c G (snd p))) c elems = check_each G c (map snd elems).
Proof.
  unfold check_each. induction elems as [|p l IH]; intros c; [reflexivity|].
  cbn [map]. rewrite !check_all_cons. destruct (single _) as [[[ns m] c1]|]; [|reflexivity].
  now rewrite IH.
Qed.

Lemma as_optional_spec t h : as_optional t = Some h -> t = optional_of h.
Proof.
  destruct t; try discriminate. destruct ps as [|p [|]]; try discriminate. cbn.
  destruct (String.eqb name "optional_type") eqn:E; [|discriminate].
  apply String.eqb_eq in E. subst. intros [= ->]. reflexivity.
Qed.
Lemma fit_optional c t : fit c t -> fit c (optional_of t).
Proof. intros F. apply fit_opaque. intros u [<-|[]]. exact F. Qed.
Lemma fit_optional_inv c t : fit c (optional_of t) -> fit c t.
Proof. intros F. apply (fit_opaque_inv _ _ _ F). left. reflexivity. Qed.

Lemma tsub_ground s t : ground t -> tsub s t = t.
Proof.
  intros H. rewrite (tsub_ext s TParam).
  - induction t as [t IH] using (well_founded_induction (wf_inverse_image _ _ _ tsize lt_wf)).
    assert (HL : forall l, (forall u, In u l -> In u (params t)) -> map (tsub TParam) l = l).
    { intros l Hl. rewrite <- (map_id l) at 2. apply map_ext_in. intros u Hu. apply IH.
      - apply tsize_param, Hl, Hu.
      - eapply ground_params; [exact H | apply Hl, Hu]. }
    destruct t; cbn [tsub]; auto; try (f_equal; apply HL; auto; fail).
    + f_equal. apply IH; [cbn; lia|]. eapply ground_params; [exact H | left; reflexivity].
    + f_equal; (apply IH; [cbn; lia|]); (eapply ground_params; [exact H|]); cbn; auto.
  - intros n M. exfalso. apply (H n M).
Qed.
Lemma fit_ground c t : plain t -> ground t -> fit c t.
Proof. intros P G. split; [exact P|]. intros n M. exfalso. apply (G n M). Qed.

Lemma field_sound c t f u c' : ok c -> fit c t -> (forall v, t <> TParam v) ->
  field_type fuel D c t f = Some (Some u, c') ->
  c' = c /\ (plain u -> fit c u) /\ forall s, member D (tsub s t) f (tsub s u).
Proof.
  intros O F N E. destruct t; try (destruct F; contradiction); try discriminate E.
  - cbn in E. destruct (d_fields D name f) as [T|] eqn:Ef; [|discriminate].
    pose proof (fields _ _ _ Ef) as Gr.
    assert (Hn : (forall m, T <> TEnum m) -> Some (Some T, c) = Some (Some u, c') ->
       c' = c /\ (plain u -> fit c u) /\ forall s, member D (tsub s (TStruct name)) f (tsub s u)).
    { intros NE [= <- <-]. split; [reflexivity|]. split; [intros P; apply fit_ground; assumption|].
      intros s. rewrite (tsub_ground s T Gr). cbn [tsub]. apply member_field; assumption. }
    destruct T; try (apply Hn; [discriminate | exact E]).
    inversion E; subst. split; [reflexivity|]. split; [intros _; apply fit_atom; cbn; auto|].
    intros s. cbn. eapply member_enum, Ef.
  - exfalso. apply (N name). reflexivity.
  - inversion E; subst. destruct (fit_map_inv _ _ _ F) as [_ Fv]. split; [reflexivity|].
    split; [auto|]. intros s. cbn. constructor.
Qed.

Lemma fully_loop_type c t u : ok c -> fit c t ->
  fully_substitute fuel (cx_bindings c) false t = Some u ->
  fit c u /\ forall s, respects s (cx_bindings c) -> tsub s u = tsub s t.
Proof. intros. eapply fully_fit; eauto. Qed.

Lemma iter_sound c x x2 t its : fit c t -> iter_scope x x2 t = (its, 0) ->
  scope_fit c its /\ forall s, iterates x x2 (tsub s t) (gsub s its).
Proof.
  intros F E. unfold iter_scope in E. destruct (String.eqb x2 "") eqn:E2.
  - apply String.eqb_eq in E2. subst x2.
    destruct t; try discriminate; try (destruct F; contradiction); inversion E; subst.
    + split; [repeat constructor; apply (fit_list_inv _ _ F)|]. intros s. cbn. constructor. reflexivity.
    + split; [repeat constructor; apply (fit_map_inv _ _ _ F)|]. intros s. cbn. constructor. reflexivity.
  - apply String.eqb_neq in E2.
    destruct t; try discriminate; try (destruct F; contradiction); inversion E; subst.
    + split.
      * constructor; [apply fit_atom; cbn; auto|]. repeat constructor; apply (fit_list_inv _ _ F).
      * intros s. cbn. constructor. assumption.
    + destruct (fit_map_inv _ _ _ F) as [F1 F2]. split.
      * constructor; [exact F1|]. constructor; [exact F2 | constructor].
      * intros s. cbn. constructor. assumption.
Qed.
Lemma iterates_find x x2 t its z : iterates x x2 t its -> z <> x -> (x2 <> "" -> z <> x2) ->
  forall G, scope_find (its ++ G) z = scope_find G z.
Proof.
  intros I N1 N2 G. assert (E1 : String.eqb x z = false) by (apply String.eqb_neq; congruence).
  inversion I; subst; cbn [app scope_find]; rewrite E1; try reflexivity;
    (assert (E2 : String.eqb x2 z = false) by (apply String.eqb_neq; intros ->; apply N2; auto));
    now rewrite E2.
Qed.

Lemma call_shape_find fn k rcv ovls : call_shape D fn k rcv = Some ovls -> d_funcs D fn = Some ovls.
Proof.
  unfold call_shape. destruct (d_funcs D fn) as [l|]; [|discriminate].
  destruct (existsb _ l); [congruence | discriminate].
Qed.

Lemma call_sound c fn rcv args t c' G target es s :
  ok c -> (forall x, In x args -> fit c x) ->
  (forall ovls, d_funcs D fn = Some ovls -> forall o, In o ovls -> decl_ok o) ->
  call_type fuel D c fn rcv args = Some (t, 0, c') -> plain t ->
  rcv = (match target with None => false | Some _ => true end) ->
  step c c' /\ fit c' t /\
  (respects s (cx_bindings c') ->
   Forall2 (wt D G) (match target with None => es | Some a => a :: es end) (map (tsub s) args) ->
   wt D G (ECall fn target es) (tsub s t)).
Proof.
  intros O F Dk E P Er. unfold call_type in E.
  destruct (call_shape D fn (length args) rcv) as [ovls|] eqn:Es; [|inversion E].
  apply call_shape_find in Es.
  destruct (resolve_overload fuel c fn ovls args rcv) as [[[[t' os]|] c1]|] eqn:Ev; try discriminate.
  inversion E; subst t' c1.
  destruct (resolve_overload_post _ _ _ _ _ _ _ _ _ O F (Dk _ Es) Ev P) as (S & Ft & M).
  split; [exact S|]. split; [exact Ft|]. intros R W. destruct (M s R) as (o & r & Ho & Hm & Hl & Ha & Ht).
  rewrite Ht. destruct (is_logical fn (length args)) eqn:Lo.
  - unfold is_logical in Lo. apply andb_true_iff in Lo. destruct Lo as [L1 L2].
    apply Nat.leb_le in L2.
    destruct (od_args o) as [|q qs] eqn:Eo; [subst args; cbn in L2; lia|].
    eapply wt_logical with (ovls := ovls) (o := o) (q := q) (qs := qs) (ts := map (tsub s) args); eauto.
    + apply orb_true_iff in L1. destruct L1 as [L1|L1]; apply String.eqb_eq in L1; auto.
    + now rewrite map_length.
    + apply Forall_map. eapply Forall_impl; [|exact Ha]. intros a Ea. cbv beta in *. congruence.
  - eapply wt_call with (ovls := ovls) (o := o) (ts := map (tsub s) args); eauto.
Qed.

Lemma parts_lists G c ns m c' l : check_each G c l = Some (ns, m, c') -> length ns = length l.
Proof. apply check_each_length. Qed.

Lemma held_fit c l ts : held_types l = (ts, 0) -> (forall p, In p l -> fit c (snd p)) ->
  forall t, In t ts -> fit c t.
Proof.
  revert ts. induction l as [|[o t] l IH]; cbn; intros ts E H u Hu.
  - inversion E; subst. destruct Hu.
  - destruct (held_types l) as [ts' n]. assert (Ht : fit c t) by apply (H (o, t) (or_introl eq_refl)).
    destruct o.
    + destruct (as_optional t) as [h|] eqn:Eo; [|inversion E]. inversion E; subst.
      destruct Hu as [<-|Hu]; [apply as_optional_spec in Eo; subst; apply fit_optional_inv, Ht|].
      eapply IH; eauto.
    + inversion E; subst. destruct Hu as [<-|Hu]; [exact Ht|]. eapply IH; eauto.
Qed.
Lemma held_types_spec s u l ts : held_types l = (ts, 0) -> (forall t, In t ts -> tsub s t = u) ->
  forall p, In p l -> tsub s (snd p) = if fst p then optional_of u else u.
Proof.
  revert ts. induction l as [|[o t] l IH]; cbn; intros ts E H p Hp; [destruct Hp|].
  destruct (held_types l) as [ts' n]. destruct o.
  - destruct (as_optional t) as [h|] eqn:Eo; [|inversion E]. inversion E; subst.
    destruct Hp as [<-|Hp].
    + apply as_optional_spec in Eo. subst. cbn. rewrite (H h); [reflexivity | left; reflexivity].
    + apply (IH ts'); auto. intros w Hw. apply H. right. exact Hw.
  - inversion E; subst. destruct Hp as [<-|Hp].
    + cbn. apply H. left. reflexivity.
    + apply (IH ts'); auto. intros w Hw. apply H. right. exact Hw.
Qed.

Lemma entry_types_in l : forall ks vs, entry_types l = (ks, vs) ->
  forall t, In t (ks ++ vs) -> In t (map tt_type l).
Proof.
  induction l as [l IH] using (well_founded_induction (wf_inverse_image _ _ _ (@length ttree) lt_wf)).
  intros ks vs E t Ht. destruct l as [|a [|b l]]; cbn in E; try (inversion E; subst; destruct Ht; fail).
  destruct (entry_types l) as [ks' vs'] eqn:El. inversion E; subst.
  specialize (IH l ltac:(cbn; lia) _ _ El t). cbn [map]. cbn in Ht. destruct Ht as [<-|Ht]; [left; reflexivity|].
  right. apply in_app_or in Ht. destruct Ht as [Ht|[<-|Ht]].
  - right. apply IH, in_or_app. auto.
  - left. reflexivity.
  - right. apply IH, in_or_app. auto.
Qed.

Lemma sound_check e : sound e.
Proof.
  induction e using L_Meaning.expr_ind'; intros c G n c' O FG E St.
  - (* constants *)
    cbn [check] in E. destruct (const_type v) as [t m] eqn:Ev. inversion E; subst.
    pose proof (stat_plain _ _ _ St) as P. cbn [tt_type] in *. split; [apply step_refl, O|].
    destruct v; inversion Ev; subst; try contradiction;
      (split; [apply fit_atom; cbn; auto|]); intros sb _ _; cbn; repeat constructor.
  - (* identifiers *)
    cbn [check] in E. destruct (ident_type D c G x) as [[t m] c1] eqn:Ei. inversion E; subst.
    pose proof (stat_plain _ _ _ St) as P. cbn [tt_type] in *.
    destruct St as (_ & Hv & _). pose proof (fun T => Hv x _ T (recorded_here _ _)) as Hv'. clear Hv. rename Hv' into Hv.
    unfold ident_type in Ei. destruct (split_root x) as [root y] eqn:Ex.
    assert (Hx : if root then x = String "."%char y else y = x /\ forall r, x <> String "."%char r).
    { clear - Ex. unfold split_root in Ex. destruct x as [|ch rest]; [inversion Ex; split; congruence|].
      destruct (ascii_dec ch "."%char) as [->|Hn]; [inversion Ex; subst; reflexivity|].
      assert (Ex' : (false, String ch rest) = (root, y)).
      { rewrite <- Ex. destruct ch as [[] [] [] [] [] [] [] []]; try reflexivity; destruct Hn; reflexivity. }
      inversion Ex'; subst. split; [reflexivity|]. congruence. }
    assert (Glob : match d_vars D y with
                   | Some t => let '(t', c', _) := instantiate c [] t in (t', 0, c')
                   | None => (TError, 1, c)
                   end = (t, 0, c') ->
        step c c' /\ fit c' t /\ forall s, exists T r, d_vars D y = Some T /\ tsub s t = tsub r T).
    { cbn [snd] in Hv. destruct (d_vars D y) as [T|] eqn:Ed; [|intros [=]].
      destruct (instantiate c [] T) as [[t' c2] m'] eqn:En. intros [= <- <-].
      destruct (instantiate_post T c [] t' c2 m' O) as (S1 & _ & _ & F1 & T1); auto.
      { intros k v; discriminate. }
      split; [exact S1|]. split; [exact F1|]. intros s. exists T, (fun n => tsub s (im_sub m' n)).
      split; [reflexivity|]. rewrite (T1 m') by (intros k v; auto). apply tsub_tsub. }
    destruct root.
    + subst x. destruct (Glob Ei) as (S1 & F1 & W). split; [exact S1|]. split; [exact F1|].
      intros s _ _. destruct (W s) as (T & r & Hd & ->). apply wt_root. exact Hd.
    + destruct Hx as [-> Hx]. destruct (scope_find G x) as [T|] eqn:Eg.
      * destruct (instantiate c [] T) as [[t' c2] m'] eqn:En. inversion Ei; subst.
        pose proof (scope_find_fit _ _ _ _ FG Eg) as FT.
        destruct (instantiate_own T _ _ _ _ _ (fit_type_vars _ _ O FT) (proj1 FT) En P) as (-> & -> & _).
        split; [apply step_refl, O|]. split; [exact FT|]. intros s _ _. apply wt_local; [exact Hx|].
        rewrite scope_find_gsub, Eg. reflexivity.
      * destruct (Glob Ei) as (S1 & F1 & W). split; [exact S1|]. split; [exact F1|].
        intros s _ _. destruct (W s) as (T & r & Hd & ->). apply wt_global; [exact Hx| |exact Hd].
        rewrite scope_find_gsub, Eg. reflexivity.
  - (* selects *)
    cbn [check] in E. destruct (check fuel D c G e) as [[[k m1] c1]|] eqn:Ek; [|discriminate].
    unfold finish in E. destruct (select_type fuel D c1 (tt_type k) f t) as [[[u m2] c2]|] eqn:Es; [|discriminate].
    injection E as En Em Ec. subst n c2. assert (m1 = 0 /\ m2 = 0) as [-> ->] by lia. clear Em.
    pose proof (stat_parts _ _ _ _ St eq_refl) as Sp. inversion Sp; subst. clear Sp.
    destruct (IHe _ _ _ _ O FG Ek) as (S1 & F1 & W1); [assumption|].
    pose proof (stat_plain _ _ _ St) as P. cbn [tt_type] in P |- *.
    destruct St as (_ & _ & _ & Hs & _). specialize (Hs _ _ _ _ (recorded_here _ _) _ _ eq_refl).
    unfold select_type in Es. destruct (as_optional (tt_type k)) as [h|] eqn:Eo.
    + apply as_optional_spec in Eo. rewrite Eo in *.
      destruct (field_type fuel D c1 h f) as [[o cf]|] eqn:Ef; [|discriminate]. destruct o as [w|]; [|discriminate].
      cbn [option_map] in Es. inversion Es; subst.
      destruct (field_sound _ _ _ _ _ (step_ok _ _ S1) (fit_optional_inv _ _ F1)
                  (fun v Hv => proj2 (Hs v) (f_equal optional_of Hv)) Ef) as (-> & Fw & Mw).
      split; [exact S1|].
      assert (W : forall s, respects s (cx_bindings c1) -> loops s (ESelect e f t) (Node (if t then TPrim PBool else optional_of w) [k]) ->
                wt D (gsub s G) e (optional_of (tsub s h))).
      { intros s R L. specialize (W1 s R). apply W1.
        pose proof (loops_parts _ _ _ _ L eq_refl) as Lp. inversion Lp; subst. assumption. }
      destruct t; (split; [first [apply fit_atom; cbn; auto; fail | apply fit_optional, Fw; apply P]|]); intros s R L.
      * eapply wt_has_optional; [apply W; assumption | apply Mw].
      * cbn [tsub map optional_of]. eapply wt_select_optional; [apply W; assumption | apply Mw].
    + destruct (field_type fuel D c1 (tt_type k) f) as [[o cf]|] eqn:Ef; [|discriminate]. destruct o as [w|]; [|discriminate].
      inversion Es; subst.
      destruct (field_sound _ _ _ _ _ (step_ok _ _ S1) F1 (fun v => proj1 (Hs v)) Ef) as (-> & Fw & Mw).
      split; [exact S1|].
      assert (W : forall s, respects s (cx_bindings c1) -> loops s (ESelect e f t) (Node (if t then TPrim PBool else w) [k]) ->
                wt D (gsub s G) e (tsub s (tt_type k))).
      { intros s R L. apply W1; [exact R|].
        pose proof (loops_parts _ _ _ _ L eq_refl) as Lp. inversion Lp; subst. assumption. }
      destruct t; (split; [first [apply fit_atom; cbn; auto; fail | apply Fw; apply P]|]); intros s R L.
      * eapply wt_has; [apply W; assumption | apply Mw].
      * eapply wt_select; [apply W; assumption | apply Mw].
  - (* calls *)
    cbn [check] in E. fold (check_each G) in E.
    assert (Fn : fn <> "_?._") by (destruct St as (_ & _ & Hc & _); apply (Hc _ _ _ _ [] (recorded_here _ _))).
    apply String.eqb_neq in Fn. rewrite Fn in E.
    assert (Dk : forall ovls, d_funcs D fn = Some ovls -> forall o, In o ovls -> decl_ok o).
    { destruct St as (_ & _ & Hc & _). intros ovls. apply (Hc _ _ _ _ ovls (recorded_here _ _)). }
    set (rcv := match t with None => false | Some _ => true end) in *.
    (* the operands in either order *)
    match type of E with match ?x with _ => _ end = _ => destruct x as [[[parts m1] c1]|] eqn:Ep; [|discriminate] end.
    unfold finish in E. destruct (call_type fuel D c1 fn rcv (map tt_type parts)) as [[[u m2] c2]|] eqn:Ev; [|discriminate].
    injection E as En Em Ec. subst n c2. assert (m1 = 0 /\ m2 = 0) as [-> ->] by lia. clear Em.
    pose proof (stat_plain _ _ _ St) as P. cbn [tt_type] in P |- *.
    assert (Ops : step c c1 /\ (forall x, In x (map tt_type parts) -> fit c1 x) /\ length parts = length (parts_of (ECall fn t args)) /\
       forall s, respects s (cx_bindings c1) -> Forall2 (loops s) (parts_of (ECall fn t args)) parts ->
         Forall2 (wt D (gsub s G)) (parts_of (ECall fn t args)) (map (tsub s) (map tt_type parts))).
    { destruct t as [tg|].
      - assert (Both : exists tn us ca k1 k2, parts = tn :: us /\ k1 = 0 /\ k2 = 0 /\
           ((check fuel D c G tg = Some (tn, k1, ca) /\ check_each G ca args = Some (us, k2, c1)) \/
            (check_each G c args = Some (us, k2, ca) /\ check fuel D ca G tg = Some (tn, k1, c1)))).
        { destruct (is_chain tg).
          - destruct (check_each G c args) as [[[us k2] ca]|] eqn:E1; [|discriminate].
            destruct (check fuel D ca G tg) as [[[tn k1] cb]|] eqn:E2; [|discriminate]. cbn in Ep.
            injection Ep as E3 E4 E5. exists tn, us, ca, k1, k2.
            split; [congruence|]. split; [lia|]. split; [lia|]. right. split; congruence.
          - destruct (check fuel D c G tg) as [[[tn k1] ca]|] eqn:E2; [|discriminate]. cbn in Ep.
            destruct (check_each G ca args) as [[[us k2] cb]|] eqn:E1; [|discriminate].
            injection Ep as E3 E4 E5. exists tn, us, ca, k1, k2.
            split; [congruence|]. split; [lia|]. split; [lia|]. left. split; congruence. }
        destruct Both as (tn & us & ca & k1 & k2 & -> & -> & -> & Both).
        assert (Len : length us = length args).
        { destruct Both as [[_ B]|[B _]]; eapply check_each_length, B. }
        cbn [parts_of length]. pose proof (stat_parts _ _ _ _ St (f_equal S Len)) as Sp.
        cbn [parts_of] in Sp. inversion Sp; subst.
        destruct Both as [[B1 B2]|[B1 B2]].
        + destruct (H _ _ _ _ O FG B1) as (S1 & F1 & W1); [assumption|].
          destruct (check_each_sound _ _ H0 _ _ _ (step_ok _ _ S1) (scope_fit_step _ _ _ S1 FG) B2) as (S2 & F2 & W2); [assumption|].
          split; [eapply step_trans; eauto|]. split; [|split; [congruence|]].
          * cbn [map]. intros x [<-|Hx]; [eapply fit_step; eauto | auto].
          * intros s R L. inversion L; subst. cbn [map]. constructor; [|apply W2; assumption].
            apply W1; [apply (proj2 (proj2 S2)), R | assumption].
        + destruct (check_each_sound _ _ H0 _ _ _ O FG B1) as (S1 & F1 & W1); [assumption|].
          destruct (H _ _ _ _ (step_ok _ _ S1) (scope_fit_step _ _ _ S1 FG) B2) as (S2 & F2 & W2); [assumption|].
          split; [eapply step_trans; eauto|]. split; [|split; [congruence|]].
          * cbn [map]. intros x [<-|Hx]; [assumption | eapply fit_step; eauto].
          * intros s R L. inversion L; subst. cbn [map]. constructor; [apply W2; assumption|].
            apply W1; [apply (proj2 (proj2 S2)), R | assumption].
      - cbn in Ep. destruct (check_each G c args) as [[[us k2] ca]|] eqn:E1; [|discriminate].
        inversion Ep; subst. pose proof (check_each_length _ _ _ _ _ _ E1) as Len.
        pose proof (stat_parts _ _ _ _ St Len) as Sp. cbn [parts_of] in *.
        destruct (check_each_sound _ _ H0 _ _ _ O FG E1 Sp) as (S1 & F1 & W1). auto 10. }
    destruct Ops as (S1 & F1 & Len & W1).
    destruct (call_sound c1 fn rcv (map tt_type parts) u c' G t args TParam (step_ok _ _ S1) F1 Dk Ev P eq_refl) as (S2 & F2 & _).
    split; [eapply step_trans; eauto|]. split; [exact F2|]. intros s R L.
    destruct (call_sound c1 fn rcv (map tt_type parts) u c' (gsub s G) t args s (step_ok _ _ S1) F1 Dk Ev P eq_refl) as (_ & _ & W).
    apply W; [exact R|]. apply W1; [apply (proj2 (proj2 S2)), R|].
    apply (loops_parts _ _ _ _ L Len).
  - (* list literals *)
    cbn [check] in E. rewrite check_elems in E.
    destruct (check_each G c (map snd l)) as [[[ns m1] c1]|] eqn:El; [|discriminate].
    destruct (held_types (combine (map fst l) (map tt_type ns))) as [ts m2] eqn:Eh.
    destruct (list_literal_type fuel c1 ts) as [[t c2]|] eqn:Et; [|discriminate].
    injection E as En Em Ec. subst n c2. assert (m1 = 0 /\ m2 = 0) as [-> ->] by lia. clear Em.
    pose proof (check_each_length _ _ _ _ _ _ El) as Len.
    pose proof (stat_parts _ _ _ _ St Len) as Sp. cbn [parts_of] in Sp.
    assert (Hs : Forall sound (map snd l)) by (apply Forall_map; exact H).
    destruct (check_each_sound _ _ Hs _ _ _ O FG El Sp) as (S1 & F1 & W1).
    pose proof (stat_plain _ _ _ St) as P. cbn [tt_type] in P |- *.
    assert (Fh : forall x, In x ts -> fit c1 x).
    { eapply held_fit; [exact Eh|]. intros [o x] Hp. apply in_combine_r in Hp. apply F1, Hp. }
    destruct (list_literal_post _ _ _ _ _ (step_ok _ _ S1) Fh Et P) as (S2 & F2 & e & -> & T2).
    split; [eapply step_trans; eauto|]. split; [exact F2|]. intros s R L. cbn [tsub]. constructor.
    specialize (W1 s (proj2 (proj2 S2) s R) (loops_parts _ _ _ _ L Len)).
    pose proof (held_types_spec s (tsub s e) _ _ Eh (T2 s R)) as Hh.
    rewrite map_length in Len. clear - W1 Hh Len. revert ns Len W1 Hh.
    induction l as [|[o a] l IH]; intros [|k ns] Len W1 Hh; try discriminate; [constructor|].
    cbn [map snd fst combine] in *. inversion W1; subst. constructor.
    + pose proof (Hh (o, tt_type k) (or_introl eq_refl)) as Hk. cbn [fst snd] in *. rewrite <- Hk. assumption.
    + apply (IH ns); auto. intros p Hp. apply Hh. right. exact Hp.
  - (* map literals *)
    cbn [check] in E. rewrite check_entries in E.
    destruct (check_each G c _) as [[[ns m1] c1]|] eqn:El; [|discriminate].
    destruct (entry_types ns) as [ks vs] eqn:Ee.
    destruct (held_types (combine (map fst l) vs)) as [ts m2] eqn:Eh.
    destruct (map_literal_type fuel c1 ks ts) as [[t c2]|] eqn:Et; [|discriminate].
    injection E as En Em Ec. subst n c2. assert (m1 = 0 /\ m2 = 0) as [-> ->] by lia. clear Em.
    pose proof (check_each_length _ _ _ _ _ _ El) as Len.
    pose proof (stat_parts _ _ _ _ St Len) as Sp. cbn [parts_of] in Sp.
    assert (Hs : Forall sound (flat_map (fun p : bool * (expr * expr) => [fst (snd p); snd (snd p)]) l)).
    { clear - H. induction H as [|p l [H1 H2] _ IH]; cbn [flat_map app]; auto. }
    destruct (check_each_sound _ _ Hs _ _ _ O FG El Sp) as (S1 & F1 & W1).
    pose proof (stat_plain _ _ _ St) as P. cbn [tt_type] in P |- *.
    pose proof (entry_types_in _ _ _ Ee) as Hin.
    assert (Fh : forall x, In x (ks ++ ts) -> fit c1 x).
    { intros x Hx. apply in_app_or in Hx. destruct Hx as [Hx|Hx]; [apply F1, Hin, in_or_app; auto|].
      revert x Hx. eapply held_fit; [exact Eh|]. intros [o x] Hp. apply in_combine_r in Hp.
      apply F1, Hin, in_or_app. auto. }
    destruct (map_literal_post _ _ _ _ _ _ (step_ok _ _ S1) Fh Et P) as (S2 & F2 & a & b & -> & T2).
    split; [eapply step_trans; eauto|]. split; [exact F2|]. intros s R L. cbn [tsub]. constructor.
    specialize (W1 s (proj2 (proj2 S2) s R) (loops_parts _ _ _ _ L Len)).
    destruct (T2 s R) as [Tk Tv].
    pose proof (held_types_spec s (tsub s b) _ _ Eh Tv) as Hh.
    clear - W1 Hh Tk Ee Len. revert ns ks vs Len W1 Hh Tk Ee.
    induction l as [|[o [x y]] l IH]; intros ns ks vs Len W1 Hh Tk Ee; [constructor|].
    destruct ns as [|nk [|nv ns]]; try discriminate.
    cbn [entry_types] in Ee. destruct (entry_types ns) as [ks' vs'] eqn:Ee'. inversion Ee; subst.
    cbn [map fst snd combine flat_map app length] in *. inversion W1; subst.
    match goal with W : Forall2 _ (_ :: _) _ |- _ => inversion W; subst end. constructor.
    + cbn [fst snd]. split.
      * rewrite <- (Tk (tt_type nk) (or_introl eq_refl)). assumption.
      * pose proof (Hh (o, tt_type nv) (or_introl eq_refl)) as Hk. cbn [fst snd] in *. rewrite <- Hk. assumption.
    + apply (IH ns ks' vs'); [congruence | assumption | intros p Hp; apply Hh; right; exact Hp | intros p Hp; apply Tk; right; exact Hp | assumption].
  - (* comprehensions *)
    cbn [check] in E.
    destruct (check fuel D c G e1) as [[[nr m1] c1]|] eqn:E1; [|discriminate].
    destruct (iter_scope x x2 (tt_type nr)) as [its m2] eqn:Ei.
    destruct (check fuel D c1 G e2) as [[[ni m3] c2]|] eqn:E2; [|discriminate].
    destruct (check fuel D c2 _ e3) as [[[nc m4] c3]|] eqn:E3; [|discriminate].
    destruct (check fuel D c3 _ e4) as [[[nst m5] c4]|] eqn:E4; [|discriminate].
    destruct (check fuel D c4 _ e5) as [[[nb m6] c5]|] eqn:E5; [|discriminate].
    destruct (fully_substitute fuel (cx_bindings c5) false (tt_type nb)) as [u|] eqn:Ef; [|discriminate].
    injection E as En Em Ec. subst n c5.
    assert (m1 = 0 /\ m2 = 0 /\ m3 = 0 /\ m4 = 0 /\ m5 = 0 /\ m6 = 0) as (-> & -> & -> & -> & -> & ->) by lia. clear Em.
    pose proof (stat_parts _ _ _ _ St eq_refl) as Sp. cbn [parts_of] in Sp.
    repeat match goal with H : Forall2 (stat D) (_ :: _) _ |- _ => inversion H; subst; clear H end.
    destruct (IHe1 _ _ _ _ O FG E1) as (S1 & F1 & W1); [assumption|].
    destruct (iter_sound _ _ _ _ _ F1 Ei) as [Fi It].
    destruct (IHe2 _ _ _ _ (step_ok _ _ S1) (scope_fit_step _ _ _ S1 FG) E2) as (S2 & F2 & W2); [assumption|].
    assert (FA : scope_fit c2 ((y, tt_type ni) :: G)).
    { constructor; [exact F2|]. eapply scope_fit_step; [exact S2|]. eapply scope_fit_step; eauto. }
    destruct (IHe3 _ _ _ _ (step_ok _ _ S2) FA E3) as (S3 & F3 & W3); [assumption|].
    assert (FB : scope_fit c3 (its ++ (y, tt_type ni) :: G)).
    { apply Forall_app. split.
      - eapply scope_fit_step; [exact S3|]. eapply scope_fit_step; eauto.
      - eapply scope_fit_step; [exact S3 | exact FA]. }
    destruct (IHe4 _ _ _ _ (step_ok _ _ S3) FB E4) as (S4 & F4 & W4); [assumption|].
    destruct (IHe5 _ _ _ _ (step_ok _ _ S4) (scope_fit_step _ _ _ S4 (scope_fit_step _ _ _ S3 FA)) E5) as (S5 & F5 & W5); [assumption|].
    destruct (fully_fit _ _ (step_ok _ _ S5) _ _ F5 Ef) as [Fu Tu].
    pose proof (step_trans _ _ _ S4 S5) as S45. pose proof (step_trans _ _ _ S3 S45) as S35.
    pose proof (step_trans _ _ _ S2 S35) as S25. pose proof (step_trans _ _ _ S1 S25) as S15.
    split; [exact S15|]. split; [exact Fu|]. cbn [tt_type]. intros s R L.
    destruct St as (_ & _ & _ & _ & Hf). destruct (Hf _ _ _ _ _ _ _ _ _ (recorded_here _ _)) as [Hf1 Hf2].
    destruct (L _ _ _ _ _ _ _ _ _ (recorded_here _ _) _ _ _ _ _ _ eq_refl) as [Lc Ls].
    pose proof (loops_parts _ _ _ _ L eq_refl) as Lp. cbn [parts_of] in Lp.
    repeat match goal with H : Forall2 (loops s) (_ :: _) _ |- _ => inversion H; subst; clear H end.
    rewrite (Tu s R).
    assert (App : gsub s (its ++ (y, tt_type ni) :: G) = gsub s its ++ (y, tsub s (tt_type ni)) :: gsub s G).
    { unfold gsub. rewrite map_app. reflexivity. }
    eapply wt_comp with (tr := tsub s (tt_type nr)) (its := gsub s its) (ta := tsub s (tt_type ni)).
    + apply W1; [apply (proj2 (proj2 S25)), R | assumption].
    + apply It.
    + apply W2; [apply (proj2 (proj2 S35)), R | assumption].
    + rewrite <- Lc. eapply wt_free; [apply W3; [apply (proj2 (proj2 S45)), R | assumption]|].
      intros z Hz. symmetry. eapply iterates_find; [apply It| |]; congruence.
    + rewrite <- App, <- Ls. apply W4; [apply (proj2 (proj2 S5)), R | assumption].
    + apply W5; assumption.
Qed.
End Main.
