(* The type checker terminates. *)
From Coq Require Import String List Bool NArith ZArith Ascii Lia.
From Verif Require Import Base M_Overflow M_Number M_Attr M_Value M_Logic M_Expr S_Macro M_Infer S_Infer
  L_Infer L_Infer2.
From Verif Require L_Meaning.
From Verif Require Import M_Checker S_Checker.
Import ListNotations.
Local Open Scope string_scope.
Open Scope list_scope.
Local Open Scope nat_scope.

(* f, given enough fuel, has the result r *)
Definition eventually {A} (f : nat -> option A) (r : A) : Prop :=
  exists k, forall k', k <= k' -> f k' = Some r.

Lemma eventually_ret {A} (r : A) : eventually (fun _ => Some r) r.
Proof. exists 0. auto. Qed.
Lemma eventually_bind {A B} (f : nat -> option A) (g : nat -> A -> option B) a b :
  eventually f a -> eventually (fun k => g k a) b ->
  eventually (fun k => match f k with None => None | Some x => g k x end) b.
Proof.
  intros [k H] [l J]. exists (Nat.max k l). intros k' Hk. rewrite H by lia. apply J. lia.
Qed.
Lemma eventually_ext {A} (f g : nat -> option A) r : (forall k, f k = g k) -> eventually f r -> eventually g r.
Proof. intros E [k H]. exists k. intros k' Hk. rewrite <- E. auto. Qed.

Lemma new_type_var_inv c v c' : inv c -> new_type_var c = (v, c') -> inv c'.
Proof. intros I E. eapply inv_same; [exact I | eapply new_type_var_same, E]. Qed.

Lemma is_assignable_ev c f t : inv c -> exists r c', inv c' /\ eventually (fun k => is_assignable k c f t) (r, c').
Proof.
  intros I. destruct (is_assignable_total c f t I) as (k & [r c'] & H). exists r, c'.
  split; [eapply is_assignable_inv; eauto|]. exists k. intros. eapply is_assignable_mono; eauto.
Qed.

Lemma field_type_ev D c t f : inv c ->
  exists o c', inv c' /\ eventually (fun k => field_type k D c t f) (o, c').
Proof.
  intros I. destruct t; try (eexists _, _; split; [exact I | apply eventually_ret]).
  destruct (is_assignable_ev c TDyn (TParam name) I) as (r & c' & I' & H).
  exists (if r then Some TDyn else None), c'. split; [exact I'|]. unfold field_type.
  destruct H as [k H]. exists k. intros k' Hk. rewrite (H k' Hk). now destruct r.
Qed.

Lemma select_type_ev D c t f b : inv c ->
  exists u m c', inv c' /\ eventually (fun k => select_type k D c t f b) (u, m, c').
Proof.
  intros I. unfold select_type. destruct (as_optional t) as [h|].
  - destruct (field_type_ev D c h f I) as (o & c' & I' & [k H]).
    destruct o as [u|]; eexists _, _, c'; (split; [exact I'|]); exists k; intros k' Hk; rewrite (H k' Hk); reflexivity.
  - destruct (field_type_ev D c t f I) as (o & c' & I' & [k H]).
    destruct o as [u|]; eexists _, _, c'; (split; [exact I'|]); exists k; intros k' Hk; rewrite (H k' Hk); reflexivity.
Qed.

Lemma opt_select_ev D c args ts : inv c ->
  exists u m c', inv c' /\ eventually (fun k => opt_select_type k D c args ts) (u, m, c').
Proof.
  intros I. unfold opt_select_type.
  destruct args as [|a [|b [|x args]]]; try (eexists _, _, _; split; [exact I | apply eventually_ret]);
    destruct b as [v| | | | | |]; try (eexists _, _, _; split; [exact I | apply eventually_ret]);
    destruct v; try (eexists _, _, _; split; [exact I | apply eventually_ret]);
    destruct ts as [|t [|t2 [|x ts]]]; try (eexists _, _, _; split; [exact I | apply eventually_ret]).
  set (h := match as_optional t with Some h => h | None => t end).
  match goal with |- context [field_type _ D c h ?f] => destruct (field_type_ev D c h f I) as (o & c' & I' & [k H]) end.
  destruct o as [u|]; eexists _, _, c'; (split; [exact I'|]); exists k; intros k' Hk; rewrite (H k' Hk); reflexivity.
Qed.

Lemma call_type_ev D c fn r args : inv c ->
  exists u m c', inv c' /\ eventually (fun k => call_type k D c fn r args) (u, m, c').
Proof.
  intros I. unfold call_type. destruct (call_shape D fn (length args) r) as [ovls|];
    [|eexists _, _, _; split; [exact I | apply eventually_ret]].
  destruct (resolve_overload_total c fn ovls args r I) as (k & [o c'] & H).
  pose proof (resolve_overload_inv _ _ _ _ _ _ _ _ I H) as I'.
  destruct o as [[t os]|]; eexists _, _, c'; (split; [exact I'|]); exists k; intros k' Hk;
    rewrite (resolve_overload_mono k k' _ _ _ _ _ _ Hk H); reflexivity.
Qed.

Lemma instantiate_all_inv t : forall c m t' c' m', inv c -> instantiate c m t = (t', c', m') -> inv c'.
Proof.
  intros c m t' c' m' I E. eapply inv_same; [exact I|]. eapply instantiate_same; eauto.
Qed.

Section Termination.
Variable D : decls.

Definition done (f : nat -> checked) (e : expr) : Prop :=
  exists n m c', inv c' /\ shaped e n /\ eventually f (n, m, c').
Definition ends (e : expr) : Prop := forall c G, inv c -> done (fun k => check k D c G e) e.

Lemma ends_all {A} (f : nat -> context -> A -> option (list ttree * nat * context)) (es : A -> list expr) l :
  (forall x, In x l -> forall c, inv c -> exists ns m c', inv c' /\ Forall2 shaped (es x) ns /\
     eventually (fun k => f k c x) (ns, m, c')) ->
  forall c, inv c -> exists ns m c', inv c' /\ Forall2 shaped (flat_map es l) ns /\
     eventually (fun k => check_all (f k) c l) (ns, m, c').
Proof.
  induction l as [|x l IH]; intros Hx c I.
  - exists [], 0, c. split; [exact I|]. split; [constructor | apply eventually_ret].
  - destruct (Hx x (or_introl eq_refl) c I) as (ns & m & c1 & I1 & S1 & H1).
    destruct (IH (fun y Hy => Hx y (or_intror Hy)) c1 I1) as (ns' & m' & c2 & I2 & S2 & H2).
    exists (ns ++ ns'), (m + m'), c2. split; [exact I2|]. split; [cbn [flat_map]; apply Forall2_app; auto|].
    apply (eventually_ext (fun k => match f k c x with
       | None => None
       | Some (ns, m, c1) => match check_all (f k) c1 l with
           | None => None | Some (ns', m', c2) => Some (ns ++ ns', m + m', c2) end end)).
    { reflexivity. }
    destruct H1 as [k1 H1], H2 as [k2 H2]. exists (Nat.max k1 k2). intros k' Hk.
    rewrite H1, H2 by lia. reflexivity.
Qed.

Lemma single_ends c G e : ends e -> inv c -> exists ns m c', inv c' /\ Forall2 shaped [e] ns /\
  eventually (fun k => single (check k D c G e)) (ns, m, c').
Proof.
  intros H I. destruct (H c G I) as (n & m & c' & I' & S & [k E]).
  exists [n], m, c'. split; [exact I'|]. split; [repeat constructor; exact S|].
  exists k. intros k' Hk. rewrite (E k' Hk). reflexivity.
Qed.
Lemma flat_map_one {A B} (f : A -> B) l : flat_map (fun x => [f x]) l = map f l.
Proof. induction l; cbn; congruence. Qed.
Lemma singles_ends {A} (g : A -> expr) G l : Forall (fun x => ends (g x)) l -> forall c, inv c ->
  exists ns m c', inv c' /\ Forall2 shaped (map g l) ns /\
  eventually (fun k => check_all (fun c x => single (check k D c G (g x))) c l) (ns, m, c').
Proof.
  intros H c I. rewrite Forall_forall in H.
  destruct (ends_all (fun k c x => single (check k D c G (g x))) (fun x => [g x]) l) with (c := c)
    as (ns & m & c' & I' & S & E); [|exact I|].
  - intros x Hx c0 I0. apply single_ends; auto.
  - exists ns, m, c'. rewrite flat_map_one in S. auto.
Qed.

Lemma ident_ends c G x : inv c -> exists t m c', inv c' /\ ident_type D c G x = (t, m, c').
Proof.
  intros I. unfold ident_type. destruct (split_root x) as [r y].
  destruct (if r then None else scope_find G y) as [t|].
  - destruct (instantiate c [] t) as [[t' c'] m'] eqn:E. eexists _, _, _. split; [|reflexivity].
    eapply instantiate_all_inv; eauto.
  - destruct (d_vars D y) as [t|]; [|eauto].
    destruct (instantiate c [] t) as [[t' c'] m'] eqn:E. eexists _, _, _. split; [|reflexivity].
    eapply instantiate_all_inv; eauto.
Qed.

Lemma all_end e : ends e.
Proof.
  induction e using L_Meaning.expr_ind'; intros c G I.
  - cbn [check]. destruct (const_type v) as [t m]. exists (Node t []), m, c.
    split; [exact I|]. split; [repeat constructor | apply eventually_ret].
  - cbn [check]. destruct (ident_ends c G x I) as (t & m & c' & I' & ->).
    exists (Node t []), m, c'. split; [exact I'|]. split; [repeat constructor | apply eventually_ret].
  - destruct (IHe c G I) as (n & m & c1 & I1 & S1 & [k1 E1]).
    destruct (select_type_ev D c1 (tt_type n) f t I1) as (u & m' & c2 & I2 & [k2 E2]).
    exists (Node u [n]), (m + m'), c2. split; [exact I2|]. split; [constructor; cbn; repeat constructor; exact S1|].
    exists (Nat.max k1 k2). intros k' Hk. cbn [check]. rewrite E1 by lia. rewrite E2 by lia. reflexivity.
  - set (late := match t with Some t => is_chain t | None => false end).
    assert (T : forall c, inv c -> exists ns m c', inv c' /\
      Forall2 shaped (match t with None => [] | Some t => [t] end) ns /\
      eventually (fun k => match t with None => Some ([], 0, c) | Some t => single (check k D c G t) end) (ns, m, c')).
    { intros c0 I0. destruct t as [t|].
      - apply single_ends; auto.
      - exists [], 0, c0. split; [exact I0|]. split; [constructor | apply eventually_ret]. }
    assert (A : forall c, inv c -> exists ns m c', inv c' /\ Forall2 shaped args ns /\
      eventually (fun k => check_all (fun c a => single (check k D c G a)) c args) (ns, m, c')).
    { intros c0 I0. destruct (singles_ends (fun a => a) G args) with (c := c0) as (ns & m & c' & H'); auto.
      rewrite map_id in H'. eauto. }
    assert (P : exists ns m c', inv c' /\ Forall2 shaped (parts_of (ECall fn t args)) ns /\
      eventually (fun k =>
        let targets c := match t with None => Some ([], 0, c) | Some t => single (check k D c G t) end in
        let arguments c := check_all (fun c a => single (check k D c G a)) c args in
        if late
             then match arguments c with
                  | None => None
                  | Some (us, m, c1) =>
                      match targets c1 with
                      | None => None
                      | Some (ns, m', c2) => Some (ns ++ us, m + m', c2)
                      end
                  end
             else match targets c with
                  | None => None
                  | Some (ns, m, c1) =>
                      match arguments c1 with
                      | None => None
                      | Some (us, m', c2) => Some (ns ++ us, m + m', c2)
                      end
                  end) (ns, m, c')).
    { assert (Sh : forall ns us, Forall2 shaped (match t with None => [] | Some t => [t] end) ns ->
        Forall2 shaped args us -> Forall2 shaped (parts_of (ECall fn t args)) (ns ++ us)).
      { intros ns us H1 H2. pose proof (Forall2_app H1 H2) as H3. destruct t; exact H3. }
      destruct late.
      - destruct (A c I) as (us & m & c1 & I1 & S1 & [k1 E1]).
        destruct (T c1 I1) as (ns & m' & c2 & I2 & S2 & [k2 E2]).
        exists (ns ++ us), (m + m'), c2. split; [exact I2|]. split; [auto|].
        exists (Nat.max k1 k2). intros k' Hk. cbv beta zeta. rewrite E1, E2 by lia. reflexivity.
      - destruct (T c I) as (ns & m & c1 & I1 & S1 & [k1 E1]).
        destruct (A c1 I1) as (us & m' & c2 & I2 & S2 & [k2 E2]).
        exists (ns ++ us), (m + m'), c2. split; [exact I2|]. split; [auto|].
        exists (Nat.max k1 k2). intros k' Hk. cbv beta zeta. rewrite E1, E2 by lia. reflexivity. }
    destruct P as (parts & m & c1 & I1 & S1 & [k1 E1]).
    destruct (String.eqb fn "_?._") eqn:Ef.
    + destruct (opt_select_ev D c1 args (map tt_type (match t with None => parts | Some _ => tl parts end)) I1)
        as (u & m' & c2 & I2 & [k2 E2]).
      exists (Node u parts), (m + m'), c2. split; [exact I2|]. split; [constructor; exact S1|].
      exists (Nat.max k1 k2). intros k' Hk. specialize (E1 k' ltac:(lia)). cbv beta zeta in E1.
      cbn [check]. fold late. rewrite E1, Ef, E2 by lia. reflexivity.
    + destruct (call_type_ev D c1 fn (match t with None => false | Some _ => true end) (map tt_type parts) I1)
        as (u & m' & c2 & I2 & [k2 E2]).
      exists (Node u parts), (m + m'), c2. split; [exact I2|]. split; [constructor; exact S1|].
      exists (Nat.max k1 k2). intros k' Hk. specialize (E1 k' ltac:(lia)). cbv beta zeta in E1.
      cbn [check]. fold late. rewrite E1, Ef, E2 by lia. reflexivity.
  - destruct (singles_ends snd G l H c I) as (parts & m & c1 & I1 & S1 & [k1 E1]).
    destruct (held_types (combine (map fst l) (map tt_type parts))) as [ts n] eqn:Eh.
    destruct (list_literal_total c1 ts I1) as (k2 & [u c2] & E2).
    exists (Node u parts), (m + n), c2. split; [eapply list_literal_inv; eauto|]. split; [constructor; exact S1|].
    exists (Nat.max k1 k2). intros k' Hk. cbn [check]. rewrite E1 by lia. rewrite Eh.
    rewrite (list_literal_mono k2 k' _ _ _ ltac:(lia) E2). reflexivity.
  - destruct (ends_all (fun k c p =>
              match check k D c G (fst (snd p)) with
              | None => None
              | Some (nk, m, c1) =>
                  match check k D c1 G (snd (snd p)) with
                  | None => None
                  | Some (nv, m', c2) => Some ([nk; nv], m + m', c2)
                  end
              end) (fun p : bool * (expr * expr) => [fst (snd p); snd (snd p)]) l) with (c := c)
      as (parts & m & c1 & I1 & S1 & [k1 E1]); [|exact I|].
    { rewrite Forall_forall in H. intros p Hp c0 I0. destruct (H p Hp) as [Hk Hv].
      destruct (Hk c0 G I0) as (nk & m & c1 & I1 & S1 & [k1 E1]).
      destruct (Hv c1 G I1) as (nv & m' & c2 & I2 & S2 & [k2 E2]).
      exists [nk; nv], (m + m'), c2. split; [exact I2|]. split; [repeat constructor; auto|].
      exists (Nat.max k1 k2). intros k' Hk'. rewrite E1, E2 by lia. reflexivity. }
    destruct (entry_types parts) as [keys vals] eqn:Ee.
    destruct (held_types (combine (map fst l) vals)) as [ts n] eqn:Eh.
    destruct (map_literal_total c1 keys ts I1) as (k2 & [u c2] & E2).
    exists (Node u parts), (m + n), c2. split; [eapply map_literal_inv; eauto|]. split; [constructor; exact S1|].
    exists (Nat.max k1 k2). intros k' Hk. cbn [check]. rewrite E1 by lia. rewrite Ee, Eh.
    rewrite (map_literal_mono k2 k' _ _ _ _ ltac:(lia) E2). reflexivity.
  - destruct (IHe1 c G I) as (nr & m1 & c1 & I1 & S1 & [k1 E1]).
    destruct (iter_scope x x2 (tt_type nr)) as [its m2] eqn:Ei.
    destruct (IHe2 c1 G I1) as (ni & m3 & c2 & I2 & S2 & [k2 E2]).
    set (accu := (y, tt_type ni) :: G).
    destruct (IHe3 c2 accu I2) as (nc & m4 & c3 & I3 & S3 & [k3 E3]).
    destruct (IHe4 c3 (its ++ accu) I3) as (ns & m5 & c4 & I4 & S4 & [k4 E4]).
    destruct (IHe5 c4 accu I4) as (nb & m6 & c5 & I5 & S5 & [k5 E5]).
    destruct (fully_total (cx_bindings c5) false I5 (tt_type nb)) as (k6 & t & E6).
    exists (Node t [nr; ni; nc; ns; nb]), (m1 + m2 + m3 + m4 + m5 + m6), c5.
    split; [exact I5|]. split; [constructor; cbn; repeat constructor; auto|].
    exists (k1 + k2 + k3 + k4 + k5 + k6). intros k' Hk. cbn [check]. rewrite E1 by lia. rewrite Ei.
    rewrite E2 by lia. fold accu. rewrite E3, E4, E5 by lia.
    rewrite (fully_mono k6 _ _ _ _ E6) by lia. reflexivity.
Qed.
End Termination.

Lemma check_ast_ends lg D expected e : exists n m c,
  shaped e n /\ eventually (fun k => check_ast k lg D expected e) (n, m, c).
Proof.
  destruct (all_end D e (new_context lg) [] (inv_new lg)) as (n & m & c & I & S & [k E]).
  destruct expected as [t|].
  - destruct (is_assignable_ev c (tt_type n) t I) as (r & c' & _ & [k2 E2]).
    exists n, (if r then m else 1 + m), c'. split; [exact S|]. exists (Nat.max k k2). intros k' Hk. unfold check_ast.
    rewrite E, E2 by lia. now destruct r.
  - exists n, m, c. split; [exact S|]. exists k. intros k' Hk. unfold check_ast. rewrite E by lia. reflexivity.
Qed.

(* ---- what is not declared is reported ---- *)
Section Reported.
Variables (fuel : nat) (D : decls).

Definition reported (e : expr) : Prop := forall c G n c', check fuel D c G e = Some (n, 0, c') ->
  (forall x, free x e = true -> scope_find G x <> None \/ d_vars D (snd (split_root x)) <> None) /\
  (forall fn target args, part_of e (ECall fn target args) -> fn <> "_?._" ->
     call_declared D fn (match target with None => false | Some _ => true end)
       (match target with None => 0 | Some _ => 1 end + length args)) /\
  (forall v, part_of e (EConst v) -> exists t, literal v t).

Lemma const_literal v t : const_type v = (t, 0) -> literal v t.
Proof. destruct v; intros [= <-]; constructor. Qed.

Lemma check_all_zero {A} (f : context -> A -> option (list ttree * nat * context)) l :
  forall c ns c', check_all f c l = Some (ns, 0, c') ->
  forall x, In x l -> exists c0 ns0 c1, f c0 x = Some (ns0, 0, c1).
Proof.
  induction l as [|y l IH]; intros c ns c' H x Hx; [destruct Hx|].
  cbn [check_all] in H. fold (check_all f) in H.
  destruct (f c y) as [[[n0 m0] c0]|] eqn:E; [|discriminate].
  change ((fix go (c : context) (l : list A) : option (list ttree * nat * context) :=
    match l with
    | [] => Some ([], 0, c)
    | x :: l' =>
        match f c x with
        | None => None
        | Some (ns, m, c1) =>
            match go c1 l' with
            | None => None
            | Some (ns', m', c2) => Some (ns ++ ns', m + m', c2)
            end
        end
    end) c0 l) with (check_all f c0 l) in H.
  destruct (check_all f c0 l) as [[[n1 m1] c1]|] eqn:E1; [|discriminate].
  injection H as _ Hm _. destruct Hx as [<-|Hx].
  - assert (m0 = 0) by lia. subst. eauto.
  - assert (m1 = 0) by lia. subst. eapply IH; eauto.
Qed.

Lemma check_all_total_length {A} (f : context -> A -> option (list ttree * nat * context)) d l :
  (forall c x ns m c', f c x = Some (ns, m, c') -> length ns = d) ->
  forall c ns m c', check_all f c l = Some (ns, m, c') -> length ns = d * length l.
Proof.
  intros Hf. induction l as [|y l IH]; intros c ns m c' H.
  - injection H as <- <- <-. cbn. lia.
  - change (check_all f c (y :: l)) with (match f c y with
        | None => None
        | Some (ns, m, c1) =>
            match check_all f c1 l with
            | None => None
            | Some (ns', m', c2) => Some (ns ++ ns', m + m', c2)
            end
        end) in H.
    destruct (f c y) as [[[n0 m0] c0]|] eqn:E; [|discriminate].
    destruct (check_all f c0 l) as [[[n1 m1] c1]|] eqn:E1; [|discriminate].
    injection H as <- _ _. rewrite app_length, (Hf _ _ _ _ _ E), (IH _ _ _ _ E1). cbn [length]. lia.
Qed.

Lemma free_args x args :
  (fix go l := match l with [] => false | a :: l' => free x a || go l' end) args = true ->
  exists a, In a args /\ free x a = true.
Proof.
  induction args as [|a l IH]; [discriminate|]. intros H. apply orb_true_iff in H. destruct H as [H|H].
  - exists a. split; [left; reflexivity | exact H].
  - destruct (IH H) as (b & Hb & Fb). exists b. split; [right; exact Hb | exact Fb].
Qed.
Lemma free_elems x (l : list (bool * expr)) :
  (fix go (l : list (bool * expr)) := match l with [] => false | (_, a) :: l' => free x a || go l' end) l = true ->
  exists a, In a (map snd l) /\ free x a = true.
Proof.
  induction l as [|[o a] l IH]; [discriminate|]. intros H. apply orb_true_iff in H. destruct H as [H|H].
  - exists a. split; [left; reflexivity | exact H].
  - destruct (IH H) as (b & Hb & Fb). exists b. split; [right; exact Hb | exact Fb].
Qed.
Lemma free_ents x (l : list (bool * (expr * expr))) :
  (fix go (l : list (bool * (expr * expr))) := match l with
                   | [] => false
                   | (_, (k, v)) :: l' => free x k || free x v || go l'
                   end) l = true ->
  exists p, In p l /\ (free x (fst (snd p)) = true \/ free x (snd (snd p)) = true).
Proof.
  induction l as [|[o [k v]] l IH]; [discriminate|]. intros H. apply orb_true_iff in H. destruct H as [H|H].
  - apply orb_true_iff in H. exists (o, (k, v)). split; [left; reflexivity | exact H].
  - destruct (IH H) as (b & Hb & Fb). exists b. split; [right; exact Hb | exact Fb].
Qed.

Lemma part_cases e b : part_of e b -> b = e \/ exists a, In a (parts_of e) /\ part_of a b.
Proof. intros H. inversion H; subst; eauto. Qed.

(* what the parts contribute *)
Definition inside (e : expr) : Prop :=
  (forall fn target args, part_of e (ECall fn target args) -> fn <> "_?._" ->
     call_declared D fn (match target with None => false | Some _ => true end)
       (match target with None => 0 | Some _ => 1 end + length args)) /\
  (forall v, part_of e (EConst v) -> exists t, literal v t).
Lemma inside_node e : (forall fn target args, e <> ECall fn target args) -> (forall v, e <> EConst v) ->
  (forall a, In a (parts_of e) -> inside a) -> inside e.
Proof.
  intros N1 N2 H. split.
  - intros fn target args P. apply part_cases in P. destruct P as [E|(a & Ha & P)].
    + exfalso. eapply N1. symmetry. exact E.
    + apply (H a Ha). exact P.
  - intros v P. apply part_cases in P. destruct P as [E|(a & Ha & P)].
    + exfalso. eapply N2. symmetry. exact E.
    + apply (H a Ha). exact P.
Qed.

Lemma call_shape_declared fn k r ovls : call_shape D fn k r = Some ovls -> call_declared D fn r k.
Proof.
  unfold call_shape. destruct (d_funcs D fn) as [l|] eqn:E; [|discriminate].
  destruct (existsb _ l) eqn:X; [|discriminate]. intros _. apply existsb_exists in X.
  destruct X as (o & Ho & H). apply andb_true_iff in H. destruct H as [H1 H2]. apply Bool.eqb_prop in H1.
  exists l, o. repeat split; auto. apply orb_true_iff in H2. destruct H2 as [H2|H2].
  - left. now apply Nat.eqb_eq.
  - right. unfold is_logical in H2. apply andb_true_iff in H2. destruct H2 as [H2 H3].
    apply Nat.leb_le in H3. split; [|exact H3]. apply orb_true_iff in H2. rewrite !String.eqb_eq in H2. exact H2.
Qed.

Lemma all_reported e : reported e.
Proof.
  induction e using L_Meaning.expr_ind'; intros c G n c' HC; cbn [check] in HC.
  - destruct (const_type v) as [t m] eqn:E. injection HC as <- -> <-. split; [discriminate|]. split.
    + intros fn target args P. apply part_cases in P. destruct P as [E'|(a & [] & _)]. discriminate.
    + intros w P. apply part_cases in P. destruct P as [E'|(a & [] & _)]. injection E' as ->.
      exists t. now apply const_literal.
  - destruct (ident_type D c G x) as [[t m] c1] eqn:E. injection HC as <- -> <-. split.
    + intros y Hy. cbn [free] in Hy. apply String.eqb_eq in Hy. subst y. unfold ident_type in E.
      destruct (split_root x) as [r y] eqn:Er. cbn [snd].
      destruct (if r then None else scope_find G y) as [u|] eqn:Es.
      * destruct r; [discriminate|]. left.
        assert (x = y). { unfold split_root in Er. destruct x as [|[[] [] [] [] [] [] [] []] s]; inversion Er; reflexivity. }
        subst. congruence.
      * destruct (d_vars D y); [right; discriminate | discriminate].
    + apply (inside_node (EIdent x)); [discriminate | discriminate|]. intros a [].
  - destruct (check fuel D c G e) as [[[n1 m1] c1]|] eqn:E1; [|discriminate].
    unfold finish in HC. destruct (select_type fuel D c1 (tt_type n1) f t) as [[[u m2] c2]|] eqn:E2; [|discriminate].
    injection HC as <- Hm <-. assert (m1 = 0) by lia. subst.
    destruct (IHe _ _ _ _ E1) as (F & I). split; [intros x Hx; apply F; exact Hx|].
    apply (inside_node (ESelect e f t)); [discriminate | discriminate|]. intros a [<-|[]]. exact I.
  - (* a call *)
    set (late := match t with Some t => is_chain t | None => false end) in HC.
    match type of HC with (match ?X with None => None | Some _ => _ end) = _ =>
      destruct X as [[[parts m] c1]|] eqn:EP; [|discriminate] end.
    assert (P : m = 0 -> length parts = match t with None => 0 | Some _ => 1 end + length args /\
       (forall a, In a (parts_of (ECall fn t args)) -> exists c0 n0 c2, check fuel D c0 G a = Some (n0, 0, c2))).
    { intros ->.
      assert (HA : forall c us m c', check_all (fun c a => single (check fuel D c G a)) c args = Some (us, m, c') ->
         length us = length args /\ (m = 0 -> forall a, In a args -> exists c0 n0 c2, check fuel D c0 G a = Some (n0, 0, c2))).
      { intros c2 us m2 c3 E. split.
        - rewrite (check_all_total_length _ 1 args) with (c := c2) (m := m2) (c' := c3) (2 := E); [lia|].
          intros c4 x ns m4 c5. unfold single. destruct (check fuel D c4 G x) as [[[? ?] ?]|]; [|discriminate].
          intros [= <- _ _]. reflexivity.
        - intros -> a Ha. destruct (check_all_zero _ _ _ _ _ E a Ha) as (c0 & ns0 & c4 & E0).
          unfold single in E0. destruct (check fuel D c0 G a) as [[[n0 m0] c5]|] eqn:E1; [|discriminate].
          injection E0 as _ -> _. eauto. }
      assert (HT : forall c us m c', (match t with None => Some ([], 0, c) | Some t => single (check fuel D c G t) end) = Some (us, m, c') ->
         length us = match t with None => 0 | Some _ => 1 end /\
         (m = 0 -> forall a, In a (match t with None => [] | Some t => [t] end) -> exists c0 n0 c2, check fuel D c0 G a = Some (n0, 0, c2))).
      { intros c2 us m2 c3 E. destruct t as [t|].
        - unfold single in E. destruct (check fuel D c2 G t) as [[[n0 m0] c5]|] eqn:E1; [|discriminate].
          injection E as <- <- <-. split; [reflexivity|]. intros -> a [<-|[]]. eauto.
        - injection E as <- <- <-. split; [reflexivity|]. intros _ a []. }
      assert (HI : forall a, In a (parts_of (ECall fn t args)) -> In a (match t with None => [] | Some t => [t] end) \/ In a args).
      { intros a Ha. destruct t; cbn in Ha |- *; tauto. }
      destruct late.
      - destruct (check_all _ c args) as [[[us m1] c2]|] eqn:E1; [|discriminate].
        destruct (match t with None => Some ([], 0, c2) | Some t => single (check fuel D c2 G t) end)
          as [[[ns m2] c3]|] eqn:E2; [|discriminate].
        injection EP as <- Hm <-. destruct (HA _ _ _ _ E1) as [L1 A1]. destruct (HT _ _ _ _ E2) as [L2 A2].
        split; [rewrite app_length; lia|]. intros a Ha. destruct (HI a Ha); [apply A2 | apply A1]; auto; lia.
      - destruct (match t with None => Some ([], 0, c) | Some t => single (check fuel D c G t) end)
          as [[[ns m2] c3]|] eqn:E2; [|discriminate].
        destruct (check_all _ c3 args) as [[[us m1] c2]|] eqn:E1; [|discriminate].
        injection EP as <- Hm <-. destruct (HA _ _ _ _ E1) as [L1 A1]. destruct (HT _ _ _ _ E2) as [L2 A2].
        split; [rewrite app_length; lia|]. intros a Ha. destruct (HI a Ha); [apply A2 | apply A1]; auto; lia. }
    clear EP.
    assert (Z : m = 0 /\ (fn <> "_?._" -> call_declared D fn (match t with None => false | Some _ => true end) (length parts))).
    { destruct (String.eqb fn "_?._") eqn:Ef.
      - apply String.eqb_eq in Ef. unfold finish in HC.
        destruct (opt_select_type _ _ _ _ _) as [[[u m2] c2]|]; [|discriminate].
        injection HC as _ Hm _. split; [lia | contradiction].
      - unfold finish, call_type in HC. rewrite map_length in HC.
        destruct (call_shape D fn (length parts) _) as [ovls|] eqn:Es.
        + split; [|intros _; eapply call_shape_declared, Es].
          destruct (resolve_overload _ _ _ _ _ _) as [[[[? ?]|] ?]|]; try discriminate; injection HC as _ Hm _; lia.
        + injection HC as _ Hm _. lia. }
    destruct Z as [-> Z]. destruct (P eq_refl) as [L A]. clear P HC.
    assert (HR : forall a, In a (parts_of (ECall fn t args)) -> reported a).
    { intros a Ha. rewrite Forall_forall in H0. destruct t as [t|]; cbn in Ha; [destruct Ha as [<-|Ha]|]; auto. }
    split.
    + intros x Hx. cbn [free] in Hx. apply orb_true_iff in Hx.
      assert (Hy : exists a, In a (parts_of (ECall fn t args)) /\ free x a = true).
      { destruct Hx as [Hx|Hx].
        - destruct t as [t|]; [|discriminate]. exists t. split; [left; reflexivity | exact Hx].
        - apply free_args in Hx. destruct Hx as (a & Ha & Hx). exists a. split; [|exact Hx].
          destruct t; [right|]; exact Ha. }
      destruct Hy as (a & Ha & Fa). destruct (A a Ha) as (c0 & n0 & c2 & E). eapply HR; eauto.
    + split.
      * intros fn' t' args' Pt Nf. apply part_cases in Pt. destruct Pt as [E|(a & Ha & Pt)].
        -- injection E as -> -> ->. rewrite <- L. apply Z, Nf.
        -- destruct (A a Ha) as (c0 & n0 & c2 & E). eapply HR; eauto.
      * intros v Pt. apply part_cases in Pt. destruct Pt as [E|(a & Ha & Pt)]; [discriminate|].
        destruct (A a Ha) as (c0 & n0 & c2 & E). eapply HR; eauto.
  - (* a list *)
    destruct (check_all _ c l) as [[[parts m] c1]|] eqn:EP; [|discriminate].
    destruct (held_types _) as [ts k]. destruct (list_literal_type fuel c1 ts) as [[u c2]|]; [|discriminate].
    injection HC as <- Hm <-. assert (m = 0) by lia. subst m.
    assert (A : forall a, In a (map snd l) -> reported a /\ exists c0 n0 c2, check fuel D c0 G a = Some (n0, 0, c2)).
    { intros a Ha. apply in_map_iff in Ha. destruct Ha as (p & <- & Hp). rewrite Forall_forall in H.
      split; [apply H, Hp|]. destruct (check_all_zero _ _ _ _ _ EP p Hp) as (c0 & ns0 & c4 & E0).
      unfold single in E0. destruct (check fuel D c0 G (snd p)) as [[[n0 m0] c5]|] eqn:E1; [|discriminate].
      injection E0 as _ -> _. eauto. }
    split.
    + intros x Hx. cbn [free] in Hx. apply free_elems in Hx. destruct Hx as (a & Ha & Hx).
      destruct (A a Ha) as (R & c0 & n0 & c3 & E). eapply R; eauto.
    + apply (inside_node (EList l)); [discriminate | discriminate|]. intros a Ha.
      destruct (A a Ha) as (R & c0 & n0 & c3 & E). eapply R; eauto.
  - (* a map *)
    destruct (check_all _ c l) as [[[parts m] c1]|] eqn:EP; [|discriminate].
    destruct (entry_types parts) as [keys vals]. destruct (held_types _) as [ts k].
    destruct (map_literal_type fuel c1 keys ts) as [[u c2]|]; [|discriminate].
    injection HC as <- Hm <-. assert (m = 0) by lia. subst m.
    assert (A : forall p, In p l -> (reported (fst (snd p)) /\ exists c0 n0 c2, check fuel D c0 G (fst (snd p)) = Some (n0, 0, c2)) /\
        (reported (snd (snd p)) /\ exists c0 n0 c2, check fuel D c0 G (snd (snd p)) = Some (n0, 0, c2))).
    { intros p Hp. rewrite Forall_forall in H. destruct (H p Hp) as [R1 R2].
      destruct (check_all_zero _ _ _ _ _ EP p Hp) as (c0 & ns0 & c4 & E0).
      destruct (check fuel D c0 G (fst (snd p))) as [[[n0 m0] c5]|] eqn:E1; [|discriminate].
      destruct (check fuel D c5 G (snd (snd p))) as [[[n6 m6] c6]|] eqn:E2; [|discriminate].
      injection E0 as _ Hm' _. assert (m0 = 0) by lia. assert (m6 = 0) by lia. subst. split; (split; [assumption | eauto]). }
    split.
    + intros x Hx. cbn [free] in Hx. apply free_ents in Hx. destruct Hx as (p & Hp & Hx).
      destruct (A p Hp) as ((R1 & c3 & n3 & c4 & E3) & (R2 & c5 & n5 & c6 & E5)).
      destruct Hx as [Hx|Hx]; [eapply R1 | eapply R2]; eauto.
    + apply (inside_node (EMap l)); [discriminate | discriminate|]. intros a Ha.
      cbn [parts_of] in Ha. apply in_flat_map in Ha. destruct Ha as (p & Hp & Ha).
      destruct (A p Hp) as ((R1 & c3 & n3 & c4 & E3) & (R2 & c5 & n5 & c6 & E5)).
      destruct Ha as [<-|[<-|[]]]; [eapply R1 | eapply R2]; eauto.
  - (* a loop *)
    destruct (check fuel D c G e1) as [[[nr m1] c1]|] eqn:E1; [|discriminate].
    destruct (iter_scope x x2 (tt_type nr)) as [its m2] eqn:Ei.
    destruct (check fuel D c1 G e2) as [[[ni m3] c2]|] eqn:E2; [|discriminate].
    destruct (check fuel D c2 _ e3) as [[[nc m4] c3]|] eqn:E3; [|discriminate].
    destruct (check fuel D c3 _ e4) as [[[ns m5] c4]|] eqn:E4; [|discriminate].
    destruct (check fuel D c4 _ e5) as [[[nb m6] c5]|] eqn:E5; [|discriminate].
    destruct (fully_substitute _ _ _ _) as [t|]; [|discriminate].
    injection HC as <- Hm <-.
    assert (m1 = 0) by lia. assert (m3 = 0) by lia. assert (m4 = 0) by lia. assert (m5 = 0) by lia.
    assert (m6 = 0) by lia. subst.
    destruct (IHe1 _ _ _ _ E1) as [F1 I1]. destruct (IHe2 _ _ _ _ E2) as [F2 I2].
    destruct (IHe3 _ _ _ _ E3) as [F3 I3]. destruct (IHe4 _ _ _ _ E4) as [F4 I4].
    destruct (IHe5 _ _ _ _ E5) as [F5 I5].
    assert (Si : forall z, String.eqb x z = false -> (negb (String.eqb x2 "") && String.eqb x2 z)%bool = false ->
       forall G', scope_find (its ++ G') z = scope_find G' z).
    { intros z Z1 Z2 G'. unfold iter_scope in Ei.
      destruct (match tt_type nr with TList e => (e, TPrim PInt, e, 0) | TMap k v => (k, k, v, 0)
        | TDyn => (TDyn, TDyn, TDyn, 0) | _ => (TDyn, TDyn, TDyn, 1) end) as [[[one k] v] q].
      injection Ei as <- <-. destruct (String.eqb x2 ""); cbn [app scope_find]; rewrite Z1; [reflexivity|].
      cbn [negb andb] in Z2. now rewrite Z2. }
    split.
    + intros z Hz. cbn [free] in Hz. rewrite !orb_true_iff, !andb_true_iff, negb_true_iff, !orb_true_iff in Hz.
      destruct Hz as [[[Hz|Hz]|[Hn [Hz|Hz]]]|[Hn Hz]]; auto.
      * rewrite !orb_false_iff in Hn. destruct Hn as [[N1 N2] N3].
        specialize (F3 z Hz). cbn [scope_find] in F3. now rewrite N3 in F3.
      * rewrite !orb_false_iff in Hn. destruct Hn as [[N1 N2] N3].
        specialize (F4 z Hz). rewrite Si in F4 by assumption. cbn [scope_find] in F4. now rewrite N3 in F4.
      * apply negb_true_iff in Hn. specialize (F5 z Hz). cbn [scope_find] in F5. now rewrite Hn in F5.
    + apply (inside_node (EComp x x2 y e1 e2 e3 e4 e5)); [discriminate | discriminate|].
      intros a [<-|[<-|[<-|[<-|[<-|[]]]]]]; assumption.
Qed.
End Reported.
