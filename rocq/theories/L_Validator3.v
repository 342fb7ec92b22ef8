(* Lemmas on the validator of homogeneous literals. *)
From Coq Require Import ZArith String List Bool Lia.
From Verif Require Import Base M_Overflow M_Number M_Value M_Ast S_Ast L_Ast L_Ast2 L_Ast3 M_AstProto S_AstProto L_AstProto3.
From Verif Require Import M_Civil M_Convert.
From Verif Require Import M_Validator S_Validator L_Validator.
Import ListNotations.
Open Scope list_scope.
Open Scope Z_scope.

(** ** The equivalence of types *)
Lemma plain_eq a : forall b, type_eq a b = true -> type_eq (plain a) (plain b) = true.
Proof.
  induction a as [a IH] using type_ind. intros b E.
  assert (M : forall o o', In o (members a) -> teq o o' = true -> teq (option_map plain o) (option_map plain o') = true).
  { intros o o' Ho. destruct o as [t|]; cbn.
    - intros H. destruct o' as [t'|]; cbn in *; [now apply (IH t)|]. specialize (IH t Ho SUnset H). exact IH.
    - destruct o' as [t'|]; cbn; [|easy]. destruct t'; easy. }
  destruct a as [| | |p|p|w|e|k v|r l|n|n|o| |n l]; destruct b as [| | |p'|p'|w'|e'|k' v'|r' l'|n'|n'|o'| |n' l']; try exact E; try discriminate E.
  - cbn [plain]. rewrite eq_list in *. apply M; [now left|exact E].
  - cbn [plain]. rewrite eq_map in *. apply andb_prop in E as [E1 E2]. apply andb_true_intro. split; apply M; cbn; auto.
  - cbn [plain type_eq] in *. apply andb_prop in E as [E1 E2]. apply andb_true_intro. split; [exact E1|]. apply all2_iff in E2. apply all2_iff.
    assert (IHl : forall t, In t l -> forall b, type_eq t b = true -> type_eq (plain t) (plain b) = true).
    { intros t Ht. apply IH. cbn. now apply in_map. }
    clear -E2 IHl. induction E2 as [|x y l l' Exy F IHF]; cbn; constructor; [apply IHl; [now left|exact Exy]|apply IHF; intros; apply IHl; [now right|assumption]].
Qed.
Definition equiv_member (x y : option TypeSpec) : bool :=
  match x with
  | Some t => TypeEquiv t (read_type y)
  | None => match read_type y with SUnset | SError => true | _ => false end
  end.
Fixpoint equiv_all (l l' : list TypeSpec) : bool :=
  match l, l' with x :: l, y :: l' => if TypeEquiv x y then equiv_all l l' else false | _, _ => true end.
Lemma equiv_unfold a b : TypeEquiv a b =
  if type_eq a b then true
  else
    match a, b with
    | SError, _ | _, SError => true
    | SWrapper p, SPrimitive q | SPrimitive p, SWrapper q => Primitive_beq p q
    | SList x, SList y => equiv_member x y
    | SMap k v, SMap k' v' => equiv_member k k' && equiv_member v v'
    | SAbstract n l, SAbstract n' l' => if String.eqb n n' && Nat.eqb (length l) (length l') then equiv_all l l' else false
    | _, _ => false
    end.
Proof. destruct a; reflexivity. Qed.
Definition flawless_part (o : option TypeSpec) : bool := match o with Some t => flawless t | None => true end.
Lemma flawless_list e : flawless (SList e) = flawless_part e. Proof. reflexivity. Qed.
Lemma flawless_map k v : flawless (SMap k v) = flawless_part k && flawless_part v. Proof. reflexivity. Qed.
Lemma equiv_alike a : forall b, flawless a = true -> flawless b = true -> TypeEquiv a b = type_eq (plain a) (plain b).
Proof.
  induction a as [a IH] using type_ind. intros b FA FB. rewrite equiv_unfold.
  destruct (type_eq a b) eqn:E; [symmetry; now apply plain_eq|].
  assert (M : forall o o', In o (members a) -> flawless_part o = true -> flawless_part o' = true -> equiv_member o o' = teq (option_map plain o) (option_map plain o')).
  { intros o o' Ho A B. destruct o as [t|]; cbn.
    - rewrite (IH t Ho (read_type o') A) by (destruct o'; [exact B|reflexivity]). now destruct o'.
    - destruct o' as [[]|]; cbn in *; try reflexivity; discriminate B. }
  destruct a as [| | |p|p|w|e|k v|r l|n|n|o| |n l]; destruct b as [| | |p'|p'|w'|e'|k' v'|r' l'|n'|n'|o'| |n' l'];
    try discriminate FA; try discriminate FB; try reflexivity; try (symmetry; exact E); try discriminate E.
  - rewrite flawless_list in FA, FB. cbn [plain]. rewrite eq_list. apply M; [now left|assumption|assumption].
  - rewrite flawless_map in FA, FB. apply andb_prop in FA as [A1 A2], FB as [B1 B2]. cbn [plain]. rewrite eq_map. f_equal; apply M; cbn; auto.
  - cbn [flawless] in FA, FB. cbn [plain type_eq]. destruct (String.eqb n n'); [|reflexivity]. cbn [andb].
    assert (IHl : forall t, In t l -> forall b, flawless t = true -> flawless b = true -> TypeEquiv t b = type_eq (plain t) (plain b)).
    { intros t Ht. apply IH. cbn. now apply in_map. }
    clear -FA FB IHl. revert l' FB. induction l as [|x l IHL]; intros [|y l'] FB; cbn; try reflexivity.
    cbn in FA, FB. apply andb_prop in FA as [A1 A2], FB as [B1 B2].
    rewrite IHl by (try (now left); assumption). specialize (IHL A2 (fun t Ht => IHl t (or_intror Ht)) l' B2).
    destruct (type_eq (plain x) (plain y)).
    + exact IHL.
    + now destruct (Nat.eqb (length l) (length l')).
Qed.
Lemma alike_refl a : alike a a. Proof. apply type_eq_refl. Qed.
Lemma alike_sym a b : alike a b -> alike b a. Proof. apply type_eq_sym. Qed.
Lemma alike_trans a b c : alike a b -> alike b c -> alike a c. Proof. apply type_eq_trans. Qed.

(** ** Above a literal *)
Lemma exempt_up_says md exempt par above fuel : chain md par above -> (length above <= fuel)%nat ->
  exists b, exempt_up fuel md exempt par = Val b /\ (b = true <-> in_call_of exempt above).
Proof.
  intros C. revert fuel. induction C as [|i n above N K C IH]; intros fuel L.
  - exists false. split; [now destruct fuel|]. split; [discriminate|]. intros (? & ? & ? & ? & [] & _).
  - destruct fuel as [|fuel]; [cbn in L; lia|]. cbn [exempt_up]. unfold at_index. rewrite N. cbn [obind].
    destruct (match n_expr n with Call _ f _ _ => existsb (String.eqb f) exempt | _ => false end) eqn:B.
    + exists true. split; [reflexivity|]. split; [intros _|reflexivity]. destruct (n_expr n) as [| | | |ci f t args| | | |]; try discriminate.
      apply existsb_exists in B as (g & G & Eg). apply String.eqb_eq in Eg as <-. exists ci, f, t, args. split; [now left|exact G].
    + destruct (IH fuel) as (b & Eb & Hb); [cbn in L; lia|]. exists b. split; [exact Eb|]. rewrite Hb. split.
      * intros (ci & f & t & args & I & G). exists ci, f, t, args. split; [now right|exact G].
      * intros (ci & f & t & args & [I|I] & G); [|exists ci, f, t, args; auto]. rewrite I in B.
        assert (existsb (String.eqb f) exempt = true) by (apply existsb_exists; exists f; split; [exact G|apply String.eqb_refl]). congruence.
Qed.

(** ** The types of the elements *)
Section Types.
  Variable md : metadata.
  Variable types : list (Z * TypeSpec).
  Notation c := (mkContext md types).
  Hypothesis unique : NoDup (map fst types).
  Hypothesis filled : forall id ps, In (id, SAbstract "optional_type" ps) types -> ps <> [].
  Hypothesis sound : forall id t, In (id, t) types -> flawless t = true.
  Lemma GetType_in m id t : GetType id m = Some t -> In (id, t) m.
  Proof. induction m as [|[i u] m IH]; cbn; [discriminate|]. destruct (Z.eqb_spec id i) as [->|]; [intros [= ->]; now left|]. auto. Qed.
  Lemma GetType_none m id : GetType id m = None -> forall t, ~ In (id, t) m.
  Proof.
    induction m as [|[i u] m IH]; cbn; [intros _ t []|]. destruct (Z.eqb_spec id i) as [->|Ne]; [discriminate|].
    intros E t [[= -> _]|H]; [now apply Ne|]. now apply (IH E t).
  Qed.
  Lemma GetType_unique m id t : NoDup (map fst m) -> In (id, t) m -> GetType id m = Some t.
  Proof.
    induction m as [|[i u] m IH]; cbn; [easy|]. intros Nd [[= -> ->]|H]; [now rewrite Z.eqb_refl|]. inversion Nd as [|? ? Ni Nd']; subst.
    destruct (Z.eqb_spec id i) as [->|]; [|now apply IH]. exfalso. apply Ni. apply in_map_iff. exists (i, t). auto.
  Qed.
  Lemma typed id : has_type types id (GetTypeOrDyn c id).
  Proof. unfold has_type, GetTypeOrDyn. cbn [c_types]. destruct (GetType id types) eqn:E; [left; now apply GetType_in|right; split; [now apply GetType_none|reflexivity]]. Qed.
  Lemma typed_fun id t : has_type types id t -> t = GetTypeOrDyn c id.
  Proof.
    unfold has_type, GetTypeOrDyn. cbn [c_types]. intros [H|[H ->]]; [now rewrite (GetType_unique types id t unique H)|].
    destruct (GetType id types) eqn:E; [|reflexivity]. apply GetType_in in E. now apply H in E.
  Qed.
  Lemma typed_sound id t : has_type types id t -> flawless t = true.
  Proof. intros [H|[_ ->]]; [eapply sound, H|reflexivity]. Qed.
  Lemma unwrapped id o : exists t, unwrap_optional o (GetTypeOrDyn c id) = Val t /\ element_type types id o t /\ flawless t = true /\
    forall t', element_type types id o t' -> t' = t.
  Proof.
    pose proof (typed id) as T. pose proof (typed_sound _ _ T) as Fl. pose proof (fun t => typed_fun id t) as U.
    assert (Plain : (o = false \/ forall ps, GetTypeOrDyn c id <> SAbstract "optional_type" ps) -> exists t, Val (GetTypeOrDyn c id) = Val t /\ element_type types id o t /\ flawless t = true /\
      forall t', element_type types id o t' -> t' = t).
    { intros H. exists (GetTypeOrDyn c id). split; [reflexivity|]. split; [right; auto|]. split; [exact Fl|].
      intros t' [(rest & -> & T')|[T' _]]; [|now apply U]. apply U in T'. destruct H as [|H]; [discriminate|]. symmetry in T'. now apply H in T'. }
    unfold unwrap_optional. destruct (GetTypeOrDyn c id) as [| | | | | | | | | | | | |n ps] eqn:G; try (apply Plain; right; discriminate).
    destruct o; cbn [andb]; [|apply Plain; now left]. destruct (String.eqb_spec n "optional_type") as [->|Ne]; [|apply Plain; right; intros ps' [= -> _]; now apply Ne].
    destruct ps as [|p rest].
    - exfalso. destruct T as [T|[_ T]]; [|discriminate]. now apply filled in T.
    - exists p. split; [reflexivity|]. split; [left; exists rest; auto|]. split.
      + cbn in Fl. now apply andb_prop in Fl as [Fl _].
      + intros t' [(rest' & _ & T')|[T' [|H]]]; [apply U in T'; congruence|discriminate|]. apply U in T'. now apply H in T'.
  Qed.

  (* every element is like the expected type; a report is at an element *)
  Lemma elements_say l : forall expected, (forall x, expected = Some x -> flawless x = true) ->
    exists r, check_elements c expected l = Val r /\
      (r = None <-> (forall x, expected = Some x -> forall a o t, In (a, o) l -> element_type types (id_of a) o t -> alike x t) /\ even_list types l) /\
      (forall y, r = Some y -> i_error y = true /\ exists a o, In (a, o) l /\ i_at y = Some (id_of a)).
  Proof.
    induction l as [|[a o] l IH]; intros expected Fe.
    - exists None. split; [reflexivity|]. split; [|discriminate]. split; [intros _|reflexivity]. split; [intros ? ? ? ? ? []|]. intros ? ? ? ? ? ? [].
    - cbn [check_elements]. change (expr_id (read a)) with (id_of a). destruct (unwrapped (id_of a) o) as (t & -> & T & Ft & Ut). cbn [obind].
      assert (Cons : even_list types ((a, o) :: l) <-> (forall b ob u, In (b, ob) l -> element_type types (id_of b) ob u -> alike t u) /\ even_list types l).
      { split.
        - intros H. split; [intros b ob u Hb Hu; exact (H a o b ob t u (or_introl eq_refl) (or_intror Hb) T Hu)|].
          intros b ob d od s u Hb Hd. now apply H; right.
        - intros [H1 H2] b ob d od s u [[= <- <-]|Hb] [[= <- <-]|Hd] Hs Hu.
          + rewrite (Ut _ Hs), (Ut _ Hu). apply alike_refl.
          + rewrite (Ut _ Hs). eapply H1; eauto.
          + rewrite (Ut _ Hu). apply alike_sym. eapply H1; eauto.
          + eapply H2; [exact Hb|exact Hd|exact Hs|exact Hu]. }
      destruct expected as [x|].
      + rewrite (equiv_alike x t (Fe x eq_refl) Ft). destruct (type_eq (plain x) (plain t)) eqn:E.
        * destruct (IH (Some x) Fe) as (r & Er & Hr & Rep). exists r. split; [exact Er|]. split.
          -- rewrite Hr, Cons. split.
             ++ intros [H1 H2]. split; [|split; [|exact H2]].
                ** intros x' [= <-] b ob u [[= <- <-]|Hb] Hu; [rewrite (Ut _ Hu); exact E|]. eapply H1; eauto.
                ** intros b ob u Hb Hu. apply alike_trans with x; [apply alike_sym; exact E|]. eapply H1; eauto.
             ++ intros [H1 [_ H2]]. split; [|exact H2]. intros x' [= <-] b ob u Hb Hu. eapply H1; eauto. now right.
          -- intros y Ey. destruct (Rep y Ey) as [R1 (b & ob & Hb & Hi)]. split; [exact R1|]. exists b, ob. split; [now right|exact Hi].
        * eexists. split; [reflexivity|]. split.
          -- split; [discriminate|]. intros [H _]. specialize (H x eq_refl a o t (or_introl eq_refl) T). unfold alike in H. congruence.
          -- intros y [= <-]. split; [reflexivity|]. exists a, o. split; [now left|reflexivity].
      + destruct (IH (Some t)) as (r & Er & Hr & Rep); [now intros ? [= <-]|]. exists r. split; [exact Er|]. split.
        * rewrite Hr, Cons. split.
          -- intros [H1 H2]. split; [discriminate|]. split; [|exact H2]. intros b ob u Hb Hu. eapply H1; eauto.
          -- intros [_ [H1 H2]]. split; [|exact H2]. intros x' [= <-] b ob u Hb Hu. eapply H1; eauto.
        * intros y Ey. destruct (Rep y Ey) as [R1 (b & ob & Hb & Hi)]. split; [exact R1|]. exists b, ob. split; [now right|exact Hi].
  Qed.
  Lemma entries_say l : forall expected, (forall x y, expected = Some (x, y) -> flawless x = true /\ flawless y = true) ->
    exists r, check_entries c expected l = Val r /\
      (r = None <-> (forall x y, expected = Some (x, y) -> forall i k v o, In (i, k, v, o) l ->
            (forall t, has_type types (id_of k) t -> alike x t) /\ (forall t, element_type types (id_of v) o t -> alike y t)) /\ even_map types l) /\
      (forall y, r = Some y -> i_error y = true /\ exists i k v o, In (i, k, v, o) l /\ (i_at y = Some (id_of k) \/ i_at y = Some (id_of v))).
  Proof.
    induction l as [|[[[i k] v] o] l IH]; intros expected Fe.
    - exists None. split; [reflexivity|]. split; [|discriminate]. split; [intros _|reflexivity]. split; [intros ? ? ? ? ? ? ? []|]. intros ? ? ? ? ? ? ? ? [].
    - cbn [check_entries]. change (expr_id (read k)) with (id_of k). change (expr_id (read v)) with (id_of v).
      set (kt := GetTypeOrDyn c (id_of k)).
      assert (Tk : has_type types (id_of k) kt) by apply typed. assert (Uk : forall t, has_type types (id_of k) t -> t = kt) by (intros t; apply typed_fun).
      assert (Fk : flawless kt = true) by now apply typed_sound with (id_of k).
      destruct (unwrapped (id_of v) o) as (t & -> & T & Ft & Ut). cbn [obind].
      assert (Cons : even_map types ((i, k, v, o) :: l) <->
        (forall i' k' v' o', In (i', k', v', o') l -> (forall u, has_type types (id_of k') u -> alike kt u) /\ (forall u, element_type types (id_of v') o' u -> alike t u)) /\ even_map types l).
      { split.
        - intros H. split.
          + intros i' k' v' o' Hb. destruct (H i k v o i' k' v' o' (or_introl eq_refl) (or_intror Hb)) as [A B]. split; [intros u Hu; now apply A|intros u Hu; now apply B].
          + intros i' k' v' o' i2 k2 v2 o2 Hb Hd. now apply (H i' k' v' o' i2 k2 v2 o2); right.
        - intros [H1 H2] i' k' v' o' i2 k2 v2 o2 [[= <- <- <- <-]|Hb] [[= <- <- <- <-]|Hd].
          + split; intros s u Hs Hu; [rewrite (Uk _ Hs), (Uk _ Hu)|rewrite (Ut _ Hs), (Ut _ Hu)]; apply alike_refl.
          + destruct (H1 _ _ _ _ Hd) as [A B]. split; intros s u Hs Hu; [rewrite (Uk _ Hs); now apply A|rewrite (Ut _ Hs); now apply B].
          + destruct (H1 _ _ _ _ Hb) as [A B]. split; intros s u Hs Hu; [rewrite (Uk _ Hu); apply alike_sym; now apply A|rewrite (Ut _ Hu); apply alike_sym; now apply B].
          + exact (H2 _ _ _ _ _ _ _ _ Hb Hd). }
      destruct expected as [[x y]|].
      + destruct (Fe x y eq_refl) as [Fx Fy]. rewrite (equiv_alike x kt Fx Fk), (equiv_alike y t Fy Ft).
        destruct (type_eq (plain x) (plain kt)) eqn:E1; cbn [negb]; [destruct (type_eq (plain y) (plain t)) eqn:E2; cbn [negb]|].
        * destruct (IH (Some (x, y)) Fe) as (r & Er & Hr & Rep). exists r. split; [exact Er|]. split.
          -- rewrite Hr, Cons. split.
             ++ intros [H1 H2]. split; [|split; [|exact H2]].
                ** intros x' y' [= <- <-] i' k' v' o' [[= <- <- <- <-]|Hb]; [|eapply H1; eauto].
                   split; intros u Hu; [rewrite (Uk _ Hu); exact E1|rewrite (Ut _ Hu); exact E2].
                ** intros i' k' v' o' Hb. destruct (H1 x y eq_refl _ _ _ _ Hb) as [A B].
                   split; intros u Hu; [apply alike_trans with x; [apply alike_sym; exact E1|now apply A]|apply alike_trans with y; [apply alike_sym; exact E2|now apply B]].
             ++ intros [H1 [_ H2]]. split; [|exact H2]. intros x' y' [= <- <-] i' k' v' o' Hb. apply (H1 x y eq_refl i' k' v' o'). now right.
          -- intros z Ez. destruct (Rep z Ez) as [R1 (i' & k' & v' & o' & Hb & Hi)]. split; [exact R1|]. exists i', k', v', o'. split; [now right|exact Hi].
        * eexists. split; [reflexivity|]. split.
          -- split; [discriminate|]. intros [H _]. destruct (H x y eq_refl i k v o (or_introl eq_refl)) as [_ H']. specialize (H' t T). unfold alike in H'. congruence.
          -- intros z [= <-]. split; [reflexivity|]. exists i, k, v, o. split; [now left|right; reflexivity].
        * eexists. split; [reflexivity|]. split.
          -- split; [discriminate|]. intros [H _]. destruct (H x y eq_refl i k v o (or_introl eq_refl)) as [H' _]. specialize (H' kt Tk). unfold alike in H'. congruence.
          -- intros z [= <-]. split; [reflexivity|]. exists i, k, v, o. split; [now left|left; reflexivity].
      + destruct (IH (Some (kt, t))) as (r & Er & Hr & Rep); [now intros ? ? [= <- <-]|]. exists r. split; [exact Er|]. split.
        * rewrite Hr, Cons. split.
          -- intros [H1 H2]. split; [discriminate|]. split; [|exact H2]. intros i' k' v' o' Hb. exact (H1 kt t eq_refl i' k' v' o' Hb).
          -- intros [_ [H1 H2]]. split; [|exact H2]. intros x' y' [= <- <-] i' k' v' o' Hb. exact (H1 i' k' v' o' Hb).
        * intros z Ez. destruct (Rep z Ez) as [R1 (i' & k' & v' & o' & Hb & Hi)]. split; [exact R1|]. exists i', k', v', o'. split; [now right|exact Hi].
  Qed.
End Types.
