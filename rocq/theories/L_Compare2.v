(* Lemmas about the order of legacy values: the main inductions. *)
From Coq Require Import ZArith QArith String List Bool Lia ZifyBool Permutation Sorted SpecFloat.
From Verif Require Import Base M_Overflow M_Number M_Attr M_Value M_Ext S_Num L_Float L_Number P_Num L_Value.
From Verif Require Import M_Compare S_Compare L_Compare.
Import ListNotations.
Open Scope list_scope.
Open Scope Z_scope.

Lemma rank_kind v : rank v = kind_of v.
Proof. now destruct v. Qed.
Lemma compare_rank a b : rank a <> rank b -> CelValueCompare a b = ComparisonImpl Z.ltb (rank a) (rank b).
Proof. destruct a, b; cbn [rank CelValueCompare kind_of]; intros N; try reflexivity; now destruct N. Qed.
Lemma rank_lex a b : CelValueCompare a b = lex (ComparisonImpl Z.ltb (rank a) (rank b)) (CelValueCompare a b).
Proof.
  destruct (Z.eq_dec (rank a) (rank b)) as [E|N].
  - rewrite E. unfold ComparisonImpl. now rewrite Z.ltb_irrefl.
  - rewrite compare_rank by easy. unfold ComparisonImpl. destruct (Z.ltb_spec (rank a) (rank b)); [reflexivity|]. destruct (Z.ltb_spec (rank b) (rank a)); reflexivity.
Qed.
Lemma status_eqb_eq s t : status_eqb s t = true <-> s = t.
Proof.
  unfold status_eqb. rewrite andb_true_iff, String.eqb_eq. destruct s as [c m], t as [d n]; cbn [st_code st_msg]. split.
  - intros [A ->]. f_equal. destruct c, d; try discriminate; reflexivity.
  - intros E. injection E as -> ->. split; [now destruct d|reflexivity].
Qed.
Lemma error_answers h p s q t : h p = Some s -> h q = Some t ->
  answers (ComparisonError p s q t) (s <> t /\ p < q) (s = t) (s <> t /\ q < p).
Proof.
  intros Hp Hq. unfold ComparisonError. pose proof (status_eqb_eq s t) as E. assert (p = q -> s = t) as I by (intros ->; congruence).
  destruct (status_eqb s t); [|destruct (Z.ltb_spec p q)]; apply answers_of; try tauto.
  - intros E'. apply E in E'. discriminate.
  - intros [_ H']. lia.
  - split; [intros E'; apply E in E'; discriminate|easy].
  - intros [_ H']. lia.
  - intros E'. apply E in E'. discriminate.
  - assert (s <> t) as N by (intros E'; apply E in E'; discriminate). split; [easy|]. assert (p <> q) by auto. lia.
Qed.
Lemma Forall2_swap {A B} (R : A -> B -> Prop) l l' : Forall2 R l l' -> Forall2 (fun y x => R x y) l' l.
Proof. induction 1; constructor; auto. Qed.
Lemma answers_opp c d l e g e' : answers c l e g -> answers d g e' l -> (e <-> e') -> d = CompOpp c.
Proof. intros (A & B & C) (A' & B' & C') E. destruct c; cbn; [apply B', E, B|apply C', A|apply A', C]; reflexivity. Qed.

Lemma math_eq_swap a b : math_eq a b -> math_eq b a.
Proof.
  unfold math_eq, math_cmp, spec_compare. destruct (number_value a) as [[|x|]|], (number_value b) as [[|y|]|]; cbn; try congruence.
  rewrite <- (Qcompare_antisym x y). destruct (Qcompare x y); cbn; congruence.
Qed.
Lemma compare_opp h a : forall b, cel_ok h a -> cel_ok h b -> CelValueCompare b a = CompOpp (CelValueCompare a b).
Proof.
  unfold cel_ok. induction a using cel_ind'; intros c A B;
    (match goal with |- CelValueCompare _ ?x = _ => destruct (Z.eq_dec (rank c) (rank x)) as [E|N] end; [|rewrite !compare_rank by (cbn; cbn in N; congruence); apply linear_opp, Z_linear]);
    destruct c; try discriminate E; clear E;
    try reflexivity; try (cbn [CelValueCompare]; apply linear_opp; auto using bool_linear, Z_linear, bytes_linear, dur_linear, time_linear; fail).
  - destruct A as [[A1 A2] _], B as [[B1 B2] _]. cbn [CelValueCompare]. fold (dcmp d d0) (dcmp d0 d).
    apply (answers_opp _ _ _ _ _ _ (dcmp_answers d d0 A1 B1 A2 B2) (dcmp_answers d0 d B1 A1 B2 A2)). split; apply math_eq_swap.
  - apply all_list in A, B. destruct A as [_ A], B as [_ B]. rewrite !compare_list, opp_lex. f_equal; [apply linear_opp, nat_linear|].
    clear - H A B. rewrite Forall_forall in *. revert l0 B. induction l as [|x l IH]; intros [|y l'] B; cbn [first]; try reflexivity.
    rewrite opp_lex. f_equal; [apply H; [now left|apply A; now left|apply B; now left]|]. apply IH; intros; [apply H|apply A|apply B]; auto; now right.
  - apply all_map in A, B. destruct A as [_ A], B as [_ B]. rewrite !compare_map, opp_lex. f_equal; [apply linear_opp, nat_linear|].
    rewrite Forall_forall in *. assert (forall e, In e (sort_keys m) -> In e m) as S1 by (intros e I; eapply Permutation_in; [apply sort_perm|easy]).
    assert (forall e, In e (sort_keys m0) -> In e m0) as S2 by (intros e I; eapply Permutation_in; [apply sort_perm|easy]).
    revert S1 S2. generalize (sort_keys m) (sort_keys m0). induction l as [|x l IH]; intros [|y l'] S1 S2; cbn [first]; try reflexivity.
    rewrite opp_lex. f_equal; [|apply IH; intros; [apply S1|apply S2]; now right].
    unfold ecmp. rewrite opp_lex. f_equal; [apply key_opp|]. apply H; [|apply A|apply B]; [apply S1|apply S1|apply S2]; now left.
  - destruct A as [A _], B as [B _]. cbn [CelValueCompare].
    apply (answers_opp _ _ _ _ _ (s0 = s) (error_answers h p s _ _ A B)); [|split; congruence].
    destruct (error_answers h _ _ p s B A) as (X & Y & Z'). unfold answers. rewrite X, Y, Z'. intuition congruence.
Qed.
Lemma rank_trans a b c : (rank a = rank b -> rank b = rank c -> trans3 (CelValueCompare a b) (CelValueCompare b c) (CelValueCompare a c)) ->
  trans3 (CelValueCompare a b) (CelValueCompare b c) (CelValueCompare a c).
Proof.
  intros H. rewrite (rank_lex a b), (rank_lex b c), (rank_lex a c). apply trans3_lex; [apply linear_trans, Z_linear|]. intros E1 E2.
  apply (linear_answers Z.ltb _ Z_linear Zltb_spec) in E1, E2. now apply H.
Qed.
Lemma compare_trans h a : errors_differ h -> forall b c, cel_ok h a -> cel_ok h b -> cel_ok h c ->
  trans3 (CelValueCompare a b) (CelValueCompare b c) (CelValueCompare a c).
Proof.
  intros D. unfold cel_ok. induction a using cel_ind'; intros b' c' A B C;
    apply rank_trans; intros E1 E2; destruct b'; try discriminate E1; destruct c'; try discriminate E2; clear E1 E2;
    try reflexivity; try (cbn [CelValueCompare]; apply linear_trans; auto using bool_linear, Z_linear, bytes_linear, dur_linear, time_linear; fail).
  - destruct A as [[A1 A2] _], B as [[B1 B2] _], C as [[C1 C2] _]. cbn [CelValueCompare]. fold (dcmp d d0) (dcmp d0 d1) (dcmp d d1).
    pose proof (dcmp_math d d0 A1 B1 A2 B2) as X. pose proof (dcmp_math d0 d1 B1 C1 B2 C2) as Y. pose proof (dcmp_math d d1 A1 C1 A2 C2) as Z'.
    unfold math_cmp in *. cbn [number_value] in *. destruct (double_value d) as [x|]; [|easy]. destruct (double_value d0) as [y|]; [|easy]. destruct (double_value d1) as [z|]; [|easy].
    cbn [spec_compare] in *. injection X as ->. injection Y as ->. injection Z' as ->. apply ext_trans.
  - apply all_list in A, B, C. destruct A as [_ A], B as [_ B], C as [_ C]. rewrite !compare_list. apply sized_trans. intros L M. rewrite Forall_forall in *.
    apply first_trans; auto.
  - apply all_map in A, B, C. destruct A as [_ A], B as [_ B], C as [_ C]. rewrite !compare_map. apply sized_trans. intros L M. rewrite Forall_forall in *.
    apply first_trans; try (rewrite !(Permutation_length (sort_perm _)); assumption). intros x y z Ix Iy Iz.
    apply (Permutation_in _ (sort_perm _)) in Ix, Iy, Iz. unfold ecmp. apply trans3_lex; [apply key_trans|]. intros _ _. apply H; auto.
  - destruct A as [A _], B as [B _], C as [C _]. cbn [CelValueCompare].
    destruct (error_answers h _ _ _ _ A B) as (X1 & X2 & X3), (error_answers h _ _ _ _ B C) as (Y1 & Y2 & Y3), (error_answers h _ _ _ _ A C) as (Z1 & Z2 & Z3).
    destruct (ComparisonError p s address s0); destruct (ComparisonError address s0 address0 s1); cbn; auto.
    + apply Z2. transitivity s0; [now apply X2|now apply Y2].
    + destruct (proj1 Y1 eq_refl). assert (s = s0) as -> by now apply X2. assert (p = address) as -> by (eapply D; eauto). apply Z1. tauto.
    + destruct (proj1 Y3 eq_refl). assert (s = s0) as -> by now apply X2. assert (p = address) as -> by (eapply D; eauto). apply Z3. tauto.
    + destruct (proj1 X1 eq_refl). assert (s0 = s1) as -> by now apply Y2. assert (address = address0) as -> by (eapply D; eauto). apply Z1. tauto.
    + destruct (proj1 X1 eq_refl). destruct (proj1 Y1 eq_refl). apply Z1. split; [|lia]. intros ->. assert (p = address0) by (eapply D; eauto). lia.
    + destruct (proj1 X3 eq_refl). assert (s0 = s1) as -> by now apply Y2. assert (address = address0) as -> by (eapply D; eauto). apply Z3. tauto.
    + destruct (proj1 X3 eq_refl). destruct (proj1 Y3 eq_refl). apply Z3. split; [|lia]. intros ->. assert (p = address0) by (eapply D; eauto). lia.
Qed.

(** ** What the comparison says *)
Lemma first_eq {A} (cmp : A -> A -> comparison) xs : forall ys, length xs = length ys -> first cmp xs ys = Eq <-> Forall2 (fun x y => cmp x y = Eq) xs ys.
Proof.
  induction xs as [|x xs IH]; intros [|y ys] L; try discriminate; cbn [first]; [split; auto|]. injection L as L. split.
  - intros H. destruct (cmp x y) eqn:E; try discriminate. constructor; [easy|]. now apply IH.
  - inversion 1; subst. rewrite H3. cbn [lex]. now apply IH.
Qed.
Lemma first_lt {A} (cmp : A -> A -> comparison) xs : forall ys, first cmp xs ys = Lt <->
  exists p x xs' q y ys', xs = p ++ x :: xs' /\ ys = q ++ y :: ys' /\ Forall2 (fun x y => cmp x y = Eq) p q /\ cmp x y = Lt.
Proof.
  induction xs as [|x xs IH]; intros ys.
  - split; [discriminate|]. intros (p & x & xs' & q & y & ys' & E & _). now destruct p.
  - destruct ys as [|y ys].
    + split; [discriminate|]. intros (p & a & xs' & q & b & ys' & _ & E & _). now destruct q.
    + cbn [first]. split.
      * destruct (cmp x y) eqn:E; cbn [lex]; intros H; try discriminate.
        -- apply IH in H. destruct H as (p & a & xs' & q & b & ys' & -> & -> & F & C). exists (x :: p), a, xs', (y :: q), b, ys'. repeat split; auto.
        -- exists [], x, xs, [], y, ys. repeat split; auto.
      * intros (p & a & xs' & q & b & ys' & E1 & E2 & F & C). inversion F; subst; cbn [app] in *.
        -- injection E1 as -> ->. injection E2 as -> ->. now rewrite C.
        -- injection E1 as -> ->. injection E2 as -> ->. rewrite H. cbn [lex]. apply IH. exists l, a, xs', l', b, ys'. auto.
Qed.
Lemma sized_lt (a b : nat) c : lex (ComparisonImpl Nat.ltb a b) c = Lt <-> (a < b)%nat \/ a = b /\ c = Lt.
Proof.
  destruct (linear_answers Nat.ltb _ nat_linear Nat.ltb_lt a b) as (A & B & C). destruct (ComparisonImpl Nat.ltb a b); cbn [lex].
  - assert (a = b) as -> by now apply B. intuition lia.
  - split; [left; now apply A|easy].
  - assert (b < a)%nat by now apply C. split; [discriminate|intros [H'|[H' _]]; lia].
Qed.
Lemma sized_eq (a b : nat) c : lex (ComparisonImpl Nat.ltb a b) c = Eq <-> a = b /\ c = Eq.
Proof.
  destruct (linear_answers Nat.ltb _ nat_linear Nat.ltb_lt a b) as (A & B & C). destruct (ComparisonImpl Nat.ltb a b); cbn [lex].
  - assert (a = b) as -> by now apply B. tauto.
  - assert (a < b)%nat by now apply A. split; [discriminate|intros [H' _]; lia].
  - assert (b < a)%nat by now apply C. split; [discriminate|intros [H' _]; lia].
Qed.
Lemma perm_Forall2 {A B} (R : A -> B -> Prop) l1 l1' : Permutation l1 l1' -> forall l2, Forall2 R l1 l2 -> exists l2', Permutation l2 l2' /\ Forall2 R l1' l2'.
Proof.
  induction 1; intros l2 F.
  - inversion F; subst. exists []. split; constructor.
  - inversion F; subst. destruct (IHPermutation _ H4) as (l2' & P & F'). exists (y :: l2'). split; [now constructor|now constructor].
  - inversion F as [|? ? ? ? R1 F1]; subst. inversion F1 as [|? ? ? ? R2 F2]; subst. eexists. split; [apply perm_swap|]. repeat constructor; auto.
  - destruct (IHPermutation1 _ F) as (a & P1 & F1). destruct (IHPermutation2 _ F1) as (b & P2 & F2). exists b. split; [now transitivity a|easy].
Qed.
Lemma ordered_keys {A} (m : list (mkey * A)) : ordered m <-> StronglySorted key_less (map fst m).
Proof.
  unfold ordered. induction m as [|e m IH]; cbn [map]; [split; constructor|]. split; inversion 1; subst; constructor; try (now apply IH);
    rewrite Forall_forall in *; intros x I.
  - apply in_map_iff in I. destruct I as (f & <- & I). auto.
  - apply H3. now apply in_map.
Qed.
Definition esame (e f : mkey * cel) : Prop := fst e = fst f /\ same (snd e) (snd f).
Lemma esame_keys m n : Forall2 esame m n -> map fst m = map fst n.
Proof. induction 1 as [|e f m n [E _] _ IH]; cbn [map]; [reflexivity|]. now rewrite E, IH. Qed.
Lemma same_sorted m n : NoDup (map fst m) -> NoDup (map fst n) -> same (CMap m) (CMap n) <-> length m = length n /\ Forall2 esame (sort_keys m) (sort_keys n).
Proof.
  intros Nm Nn. split.
  - intros S. inversion S as [| | | | | | | | | | |? n0 ? F P| | |]; subst. split; [rewrite (Forall2_length _ _ _ F); now apply Permutation_length|].
    destruct (perm_Forall2 esame m (sort_keys m) (Permutation_sym (sort_perm m)) n0 F) as (l & Pl & Fl).
    assert (l = sort_keys n) as <-; [|easy]. apply ordered_unique.
    + apply ordered_keys. rewrite <- (esame_keys _ _ Fl). apply ordered_keys. now apply sort_ordered.
    + now apply sort_ordered.
    + rewrite <- Pl, P. apply Permutation_sym, sort_perm.
  - intros [L F]. destruct (perm_Forall2 esame _ m (sort_perm m) _ F) as (l & Pl & Fl). apply same_map with (n := l); [exact Fl|]. rewrite <- Pl. apply sort_perm.
Qed.
Lemma ecmp_eq e f : ecmp e f = Eq <-> fst e = fst f /\ CelValueCompare (snd e) (snd f) = Eq.
Proof.
  unfold ecmp. destruct (CompareKeys (fst e) (fst f)) eqn:K; cbn [lex].
  - apply key_eq in K. tauto.
  - split; [discriminate|]. intros [E _]. apply key_eq in E. congruence.
  - split; [discriminate|]. intros [E _]. apply key_eq in E. congruence.
Qed.
Lemma ecmp_lt e f : ecmp e f = Lt <-> key_less (fst e) (fst f) \/ fst e = fst f /\ CelValueCompare (snd e) (snd f) = Lt.
Proof.
  unfold ecmp. destruct (CompareKeys (fst e) (fst f)) eqn:K; cbn [lex].
  - apply key_eq in K. split; [tauto|]. intros [L|[_ L]]; [|easy]. rewrite K in L. apply key_lt in L. assert (CompareKeys (fst f) (fst f) = Eq) by now apply key_eq. congruence.
  - apply key_lt in K. tauto.
  - split; [discriminate|]. intros [L|[E _]]; [apply key_lt in L; congruence|]. apply key_eq in E. congruence.
Qed.
Lemma less_rank a b : rank a <> rank b -> (CelValueCompare a b = Lt <-> less a b) /\ (CelValueCompare a b = Eq <-> same a b).
Proof.
  intros N. rewrite compare_rank by easy. destruct (linear_answers Z.ltb _ Z_linear Zltb_spec (rank a) (rank b)) as (A & B & _). rewrite A, B. split; split.
  - apply less_kind.
  - intros L. inversion L; subst; try easy; now destruct N.
  - easy.
  - intros S. destruct N. inversion S; reflexivity.
Qed.
Ltac by_scalar lin spec x y con :=
  let A := fresh in let B := fresh in
  destruct (linear_answers _ _ lin spec x y) as (A & B & _); cbn [CelValueCompare]; rewrite A, B; split; split;
  [intros Q; (apply con; assumption) || (destruct Q; subst; apply con)|intros Q; inversion Q; subst; try assumption; try (split; reflexivity); cbn in *; lia|intros ->; constructor|intros Q; inversion Q; subst; reflexivity].
Lemma compare_says h a : forall b, cel_ok h a -> cel_ok h b -> (CelValueCompare a b = Lt <-> less a b) /\ (CelValueCompare a b = Eq <-> same a b).
Proof.
  unfold cel_ok. induction a using cel_ind'; intros b' A B;
    (match goal with |- (CelValueCompare ?x _ = _ <-> _) /\ _ => destruct (Z.eq_dec (rank b') (rank x)) as [E|N] end; [|apply less_rank; congruence]); destruct b'; try discriminate E; clear E.
  - cbn. split; split; try discriminate; try constructor. intros L; inversion L; subst. cbn in *. lia.
  - by_scalar bool_linear bool_ltb_spec b b0 less_bool.
  - by_scalar Z_linear Zltb_spec i i0 less_int.
  - by_scalar Z_linear Zltb_spec u u0 less_uint.
  - destruct A as [[A1 A2] _], B as [[B1 B2] _]. cbn [CelValueCompare]. fold (dcmp d d0). destruct (dcmp_answers d d0 A1 B1 A2 B2) as (X & Y & _). rewrite X, Y.
    split; split; intros Q; try (apply less_double; assumption); try (apply same_double; assumption); inversion Q; subst; try assumption. cbn in *. lia.
  - by_scalar bytes_linear bytes_ltb_spec s s0 less_string.
  - by_scalar bytes_linear bytes_ltb_spec s s0 less_bytes.
  - by_scalar Z_linear Zltb_spec p address less_message.
  - by_scalar dur_linear dur_ltb_spec d d0 less_duration.
  - by_scalar time_linear time_ltb_spec t t0 less_timestamp.
  - apply all_list in A, B. destruct A as [_ A], B as [_ B]. rewrite compare_list, sized_lt, sized_eq. rewrite Forall_forall in *. split; split.
    + intros [L|[L F]]; [now apply less_list_size|]. apply first_lt in F. destruct F as (p & x & xs & q & y & ys & -> & -> & F & C).
      assert (length p = length q) as Lp by now apply Forall2_length in F. rewrite !app_length in L. cbn [length] in L.
      apply less_list; [lia| |].
      * eapply Forall2_impl_in; [|exact F]. intros u v Iu Iv E. apply H; auto; [|apply A|apply B]; apply in_or_app; auto.
      * apply H; auto; [|apply A|apply B]; apply in_or_app; right; now left.
    + intros L. inversion L as [? ? R|  | | | | | | | | |? ? S|p q x y xs ys Le F C| | | | |]; subst; [cbn in R; lia|now left|]. right.
      split; [rewrite !app_length; cbn [length]; apply Forall2_length in F; lia|]. apply first_lt. exists p, x, xs, q, y, ys. split; [easy|]. split; [easy|]. split.
      * eapply Forall2_impl_in; [|exact F]. intros u v Iu Iv E. apply H; auto; [|apply A|apply B]; apply in_or_app; auto.
      * apply H; auto; [|apply A|apply B]; apply in_or_app; right; now left.
    + intros [L F]. apply first_eq in F; [|easy]. constructor. eapply Forall2_impl_in; [|exact F]. intros u v Iu Iv E. apply H; auto.
    + intros S. inversion S as [| | | | | | | | | |? ? F| | | |]; subst. split; [now apply Forall2_length in F|]. apply first_eq; [now apply Forall2_length in F|].
      eapply Forall2_impl_in; [|exact F]. intros u v Iu Iv E. apply H; auto.
  - apply all_map in A, B. destruct A as [NA A], B as [NB B]. rewrite compare_map, sized_lt, sized_eq. rewrite Forall_forall in *.
    assert (forall e f, In e (sort_keys m) -> In f (sort_keys m0) -> (CelValueCompare (snd e) (snd f) = Lt <-> less (snd e) (snd f)) /\ (CelValueCompare (snd e) (snd f) = Eq <-> same (snd e) (snd f))) as X.
    { intros e f Ie If. apply (Permutation_in _ (sort_perm _)) in Ie, If. apply H; auto. }
    split; split.
    + intros [L|[L F]]; [now apply less_map_size|]. apply first_lt in F. destruct F as (p & [k x] & xs & q & [k' y] & ys & E1 & E2 & F & C).
      pose proof (sort_perm m) as P1. pose proof (sort_perm m0) as P2. pose proof (sort_ordered m NA) as O1. pose proof (sort_ordered m0 NB) as O2.
      assert (length p = length q) as Lp by now apply Forall2_length in F. pose proof (Permutation_length P1) as L1. pose proof (Permutation_length P2) as L2.
      rewrite E1 in *. rewrite E2 in *. rewrite app_length in *. cbn [length] in *.
      apply less_map with (p := p) (q := q) (k := k) (x := x) (k' := k') (y := y) (xs := xs) (ys := ys); auto using Permutation_sym; [lia| |].
      * eapply Forall2_impl_in; [|exact F]. intros e f Ie If E. apply ecmp_eq in E. destruct E as [E V]. split; [easy|]. apply X; auto; apply in_or_app; auto.
      * apply ecmp_lt in C. cbn [fst snd] in C. destruct C as [C|[C V]]; [now left|right]. split; [easy|]. apply (X (k, x) (k', y)); auto; apply in_or_app; right; now left.
    + intros L. inversion L as [? ? R|  | | | | | | | | | | |? ? S|? ? p q k x k' y xs ys P1 O1 P2 O2 Le F C| | |]; subst; [cbn in R; lia|now left|]. right.
      split. { rewrite (Permutation_length P1), (Permutation_length P2), !app_length. cbn [length]. apply Forall2_length in F. lia. }
      assert (sort_keys m = p ++ (k, x) :: xs) as E1 by (apply ordered_unique; [now apply sort_ordered|easy|now rewrite sort_perm]).
      assert (sort_keys m0 = q ++ (k', y) :: ys) as E2 by (apply ordered_unique; [now apply sort_ordered|easy|now rewrite sort_perm]).
      apply first_lt. exists p, (k, x), xs, q, (k', y), ys. split; [easy|]. split; [easy|]. rewrite E1, E2 in X. split.
      * eapply Forall2_impl_in; [|exact F]. intros e f Ie If [E V]. apply ecmp_eq. split; [easy|]. apply X; auto; apply in_or_app; auto.
      * apply ecmp_lt. cbn [fst snd]. destruct C as [C|[C V]]; [now left|right]. split; [easy|]. apply (X (k, x) (k', y)); auto; apply in_or_app; right; now left.
    + intros [L F]. apply same_sorted; auto. split; [easy|]. apply first_eq in F; [|now rewrite !(Permutation_length (sort_perm _))].
      eapply Forall2_impl_in; [|exact F]. intros e f Ie If E. apply ecmp_eq in E. destruct E as [E V]. split; [easy|]. now apply X.
    + intros S. apply same_sorted in S; auto. destruct S as [L F]. split; [easy|]. apply first_eq; [now rewrite !(Permutation_length (sort_perm _))|].
      eapply Forall2_impl_in; [|exact F]. intros e f Ie If [E V]. apply ecmp_eq. split; [easy|]. now apply X.
  - by_scalar Z_linear Zltb_spec p address less_unknown.
  - by_scalar bytes_linear bytes_ltb_spec s name less_type.
  - destruct A as [A _], B as [B _]. cbn [CelValueCompare]. destruct (error_answers h _ _ _ _ A B) as (X & Y & _). rewrite X, Y. split; split.
    + intros []. now apply less_error.
    + intros Q. inversion Q; subst; [cbn in *; lia|tauto].
    + intros ->. constructor.
    + intros Q. now inversion Q.
Qed.
