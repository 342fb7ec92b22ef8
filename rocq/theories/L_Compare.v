(* Lemmas about the order of legacy values. *)
From Coq Require Import ZArith QArith String List Bool Lia ZifyBool Permutation Sorted SpecFloat Lqa.
From Verif Require Import Base M_Overflow M_Number M_Attr M_Value M_Ext S_Num L_Float L_Number P_Num L_Value.
From Verif Require Import M_Compare S_Compare.
Import ListNotations.
Open Scope list_scope.
Open Scope Z_scope.

Definition cel_ind' (P : cel -> Prop) (Hn : P CNull) (Hb : forall b, P (CBool b)) (Hi : forall i, P (CInt i)) (Hu : forall u, P (CUint u))
  (Hd : forall d, P (CDouble d)) (Hs : forall s, P (CString s)) (Hy : forall s, P (CBytes s)) (Hm : forall p, P (CMessage p))
  (Hdu : forall d, P (CDuration d)) (Ht : forall t, P (CTimestamp t)) (Hl : forall l, Forall P l -> P (CList l))
  (Hmap : forall m, Forall (fun e => P (snd e)) m -> P (CMap m)) (Hun : forall p, P (CUnknown p)) (Hty : forall s, P (CType s))
  (He : forall p s, P (CError p s)) : forall v, P v :=
  fix go (v : cel) : P v :=
    match v with
    | CNull => Hn | CBool b => Hb b | CInt i => Hi i | CUint u => Hu u | CDouble d => Hd d | CString s => Hs s | CBytes s => Hy s
    | CMessage p => Hm p | CDuration d => Hdu d | CTimestamp t => Ht t
    | CList l => Hl l ((fix all l : Forall P l := match l with [] => Forall_nil _ | x :: l' => Forall_cons _ (go x) (all l') end) l)
    | CMap m => Hmap m ((fix all m : Forall (fun e => P (snd e)) m :=
        match m with [] => Forall_nil _ | e :: m' => Forall_cons _ (go (snd e)) (all m') end) m)
    | CUnknown p => Hun p | CType s => Hty s | CError p s => He p s
    end.
Lemma all_list P l : all_nodes P (CList l) <-> P (CList l) /\ Forall (all_nodes P) l.
Proof.
  cbn [all_nodes]. apply and_iff_compat_l. induction l; [split; auto|]. rewrite Forall_cons_iff, <- IHl. reflexivity.
Qed.
Lemma all_map P m : all_nodes P (CMap m) <-> P (CMap m) /\ Forall (fun e => all_nodes P (snd e)) m.
Proof.
  cbn [all_nodes]. apply and_iff_compat_l. induction m as [|[k v] m IH]; [split; auto|]. rewrite Forall_cons_iff, <- IH. reflexivity.
Qed.

(** ** Comparisons of the scalars *)
(* [answers c l e g]: the comparison says which of three holds *)
Definition answers (c : comparison) (l e g : Prop) : Prop := (c = Lt <-> l) /\ (c = Eq <-> e) /\ (c = Gt <-> g).
Lemma answers_of c (l e g : Prop) : (l -> c = Lt) -> (e -> c = Eq) -> (g -> c = Gt) -> match c with Lt => l | Eq => e | Gt => g end -> answers c l e g.
Proof. intros A B C D. unfold answers. destruct c; intuition congruence. Qed.
(* the transitivity of three comparisons *)
Definition trans3 (x y z : comparison) : Prop :=
  match x, y with Eq, _ => z = y | _, Eq => z = x | Lt, Lt => z = Lt | Gt, Gt => z = Gt | _, _ => True end.
Definition lex (c d : comparison) : comparison := match c with Eq => d | _ => c end.
Lemma trans3_lex x y z x' y' z' : trans3 x y z -> (x = Eq -> y = Eq -> trans3 x' y' z') -> trans3 (lex x x') (lex y y') (lex z z').
Proof. destruct x, y, z; cbn; auto; try discriminate; intros _ H; try (destruct x'; now auto); try (destruct y'; now auto). Qed.
Lemma opp_lex c d : CompOpp (lex c d) = lex (CompOpp c) (CompOpp d).
Proof. now destruct c. Qed.

Record linear {T} (lt : T -> T -> bool) : Prop := {
  lin_asym : forall x y, lt x y = true -> lt y x = false;
  lin_trans : forall x y z, lt x y = true -> lt y z = true -> lt x z = true;
  lin_eq : forall x y, lt x y = false -> lt y x = false -> x = y }.
Lemma linear_opp {T} (lt : T -> T -> bool) : linear lt -> forall x y, ComparisonImpl lt y x = CompOpp (ComparisonImpl lt x y).
Proof. intros L x y. unfold ComparisonImpl. destruct (lt x y) eqn:A, (lt y x) eqn:B; try reflexivity. apply lin_asym in A; [congruence|easy]. Qed.
Lemma linear_trans {T} (lt : T -> T -> bool) : linear lt -> forall x y z, trans3 (ComparisonImpl lt x y) (ComparisonImpl lt y z) (ComparisonImpl lt x z).
Proof.
  intros L x y z. unfold ComparisonImpl. destruct (lt x y) eqn:A; [|destruct (lt y x) eqn:B].
  - destruct (lt y z) eqn:C; [|destruct (lt z y) eqn:D]; cbn; auto; [now rewrite (lin_trans lt L x y z)|]. assert (y = z) as <- by now apply (lin_eq lt). now rewrite A.
  - destruct (lt y z) eqn:C; [|destruct (lt z y) eqn:D]; cbn; auto.
    + pose proof (lin_trans lt L z y x D B) as E. rewrite E. now rewrite (lin_asym lt L _ _ E).
    + assert (y = z) as <- by now apply (lin_eq lt). now rewrite A, B.
  - assert (x = y) as <- by now apply (lin_eq lt). reflexivity.
Qed.
Lemma linear_answers {T} (lt : T -> T -> bool) (less : T -> T -> Prop) : linear lt -> (forall x y, lt x y = true <-> less x y) ->
  forall x y, answers (ComparisonImpl lt x y) (less x y) (x = y) (less y x).
Proof.
  intros L E x y. unfold ComparisonImpl. apply answers_of.
  - intros H. apply E in H. now rewrite H.
  - intros ->. destruct (lt y y) eqn:A; [|reflexivity]. pose proof (lin_asym lt L _ _ A). congruence.
  - intros H. apply E in H. rewrite H, (lin_asym lt L _ _ H). reflexivity.
  - destruct (lt x y) eqn:A; [now apply E|]. destruct (lt y x) eqn:B; [now apply E|]. now apply (lin_eq lt).
Qed.
Lemma Z_linear : linear Z.ltb.
Proof. split; intros; lia. Qed.
Lemma nat_linear : linear Nat.ltb.
Proof. split; intros *; rewrite ?Nat.ltb_lt, ?Nat.ltb_ge; intros; try apply Nat.ltb_lt; try apply Nat.ltb_ge; lia. Qed.
Lemma bool_linear : linear bool_ltb.
Proof. split; [intros [] []|intros [] [] []|intros [] []]; cbn; congruence. Qed.
Lemma bytes_linear : linear bytes_ltb.
Proof.
  split.
  - induction x as [|a x IH]; intros [|b y]; cbn; try congruence. destruct (Z.ltb_spec a b), (Z.ltb_spec b a); try congruence; try lia. apply IH.
  - induction x as [|a x IH]; intros [|b y] [|c z]; cbn; try congruence.
    destruct (Z.ltb_spec a b), (Z.ltb_spec b a), (Z.ltb_spec b c), (Z.ltb_spec c b), (Z.ltb_spec a c), (Z.ltb_spec c a); try congruence; try lia. apply IH.
  - induction x as [|a x IH]; intros [|b y]; cbn; try congruence. destruct (Z.ltb_spec a b), (Z.ltb_spec b a); try congruence; try lia.
    intros P Q. f_equal; [lia|now apply IH].
Qed.
Lemma bytes_ltb_spec x : forall y, bytes_ltb x y = true <-> text_less x y.
Proof.
  induction x as [|a x IH]; intros [|b y]; cbn [bytes_ltb].
  - split; [discriminate|inversion 1].
  - split; [constructor|easy].
  - split; [discriminate|inversion 1].
  - destruct (Z.ltb_spec a b); [split; [now constructor|easy]|]. destruct (Z.ltb_spec b a).
    + split; [discriminate|inversion 1; subst; lia].
    + assert (a = b) as <- by lia. rewrite IH. split; [apply tl_rest|inversion 1; subst; [lia|easy]].
Qed.
Lemma dur_linear : linear dur_ltb.
Proof.
  split; [intros [x|[]] [y|[]]|intros [x|[]] [y|[]] [z|[]]|intros [x|[]] [y|[]]]; cbn; try congruence; try lia.
  intros A B. f_equal. lia.
Qed.
Lemma time_linear : linear time_ltb.
Proof.
  split; [intros [x|[]] [y|[]]|intros [x|[]] [y|[]] [z|[]]|intros [x|[]] [y|[]]]; cbn; try congruence; try lia.
  intros A B. f_equal. lia.
Qed.
Lemma dur_ltb_spec x y : dur_ltb x y = true <-> dur_less x y.
Proof.
  destruct x as [x|[]], y as [y|[]]; cbn [dur_ltb]; (split; [intros H; try discriminate; constructor; (discriminate || lia)|intros H; inversion H; subst; congruence || lia || reflexivity]).
Qed.
Lemma time_ltb_spec x y : time_ltb x y = true <-> time_less x y.
Proof.
  destruct x as [x|[]], y as [y|[]]; cbn [time_ltb]; (split; [intros H; try discriminate; constructor; (discriminate || lia)|intros H; inversion H; subst; congruence || lia || reflexivity]).
Qed.
Lemma bool_ltb_spec x y : bool_ltb x y = true <-> x = false /\ y = true.
Proof. destruct x, y; cbn; intuition congruence. Qed.
Lemma Zltb_spec x y : (x <? y) = true <-> x < y.
Proof. lia. Qed.

Definition dcmp (x y : double) : comparison := ComparisonImpl d_lt x y.
Lemma dcmp_math x y : valid_double x = true -> valid_double y = true -> double_value x <> None -> double_value y <> None ->
  Some (dcmp x y) = math_cmp (NDouble x) (NDouble y).
Proof.
  intros X Y Nx Ny. unfold dcmp, ComparisonImpl, d_lt, math_cmp. rewrite !SFcompare_spec by easy. cbn [number_value].
  destruct (double_value x) as [a|]; [|easy]. destruct (double_value y) as [b|]; [|easy]. cbn [spec_compare].
  destruct a as [|a|], b as [|b|]; cbn [ext_compare]; try reflexivity. rewrite <- (Qcompare_antisym a b). now destruct (Qcompare a b).
Qed.
Lemma dcmp_answers x y : valid_double x = true -> valid_double y = true -> double_value x <> None -> double_value y <> None ->
  answers (dcmp x y) (math_lt (NDouble x) (NDouble y)) (math_eq (NDouble x) (NDouble y)) (math_lt (NDouble y) (NDouble x)).
Proof.
  intros X Y Nx Ny. pose proof (dcmp_math x y X Y Nx Ny) as A. pose proof (dcmp_math y x Y X Ny Nx) as B.
  unfold math_lt, math_eq. rewrite <- A, <- B. unfold dcmp, ComparisonImpl, d_lt.
  rewrite !SFcompare_spec by easy. unfold spec_compare. destruct (double_value x) as [a|]; [|easy]. destruct (double_value y) as [b|]; [|easy].
  assert (ext_compare b a = CompOpp (ext_compare a b)) as ->.
  { destruct a as [|a|], b as [|b|]; cbn; try reflexivity. symmetry. apply Qcompare_antisym. }
  destruct (ext_compare a b); cbn; repeat split; congruence.
Qed.

(** ** Keys *)
Lemma key_answers a b : answers (CompareKeys a b) (key_less a b) (a = b) (key_less b a).
Proof.
  destruct a as [x|x|x|x], b as [y|y|y|y]; cbn [CompareKeys key_kind];
    try (apply answers_of; [intros H; inversion H; subst; cbn in *; (reflexivity || lia)|intros H; discriminate|intros H; inversion H; subst; cbn in *; (reflexivity || lia)|constructor; cbn; lia]).
  - destruct (linear_answers bool_ltb _ bool_linear bool_ltb_spec x y) as (A & B & C). apply answers_of.
    + intros H. apply A. inversion H; subst; cbn in *; [lia|easy].
    + intros H. apply B. congruence.
    + intros H. apply C. inversion H; subst; cbn in *; [lia|easy].
    + destruct (ComparisonImpl bool_ltb x y); [f_equal; now apply B| |]; [destruct (proj1 A eq_refl)|destruct (proj1 C eq_refl)]; subst; apply kl_bool.
  - destruct (linear_answers Z.ltb _ Z_linear Zltb_spec x y) as (A & B & C). apply answers_of.
    + intros H. apply A. inversion H; subst; cbn in *; [lia|easy].
    + intros H. apply B. congruence.
    + intros H. apply C. inversion H; subst; cbn in *; [lia|easy].
    + destruct (ComparisonImpl Z.ltb x y); [f_equal; now apply B| |]; apply kl_int; [now apply A|now apply C].
  - destruct (linear_answers Z.ltb _ Z_linear Zltb_spec x y) as (A & B & C). apply answers_of.
    + intros H. apply A. inversion H; subst; cbn in *; [lia|easy].
    + intros H. apply B. congruence.
    + intros H. apply C. inversion H; subst; cbn in *; [lia|easy].
    + destruct (ComparisonImpl Z.ltb x y); [f_equal; now apply B| |]; apply kl_uint; [now apply A|now apply C].
  - destruct (linear_answers bytes_ltb _ bytes_linear bytes_ltb_spec x y) as (A & B & C). apply answers_of.
    + intros H. apply A. inversion H; subst; cbn in *; [lia|easy].
    + intros H. apply B. congruence.
    + intros H. apply C. inversion H; subst; cbn in *; [lia|easy].
    + destruct (ComparisonImpl bytes_ltb x y); [f_equal; now apply B| |]; apply kl_string; [now apply A|now apply C].
Qed.
Lemma key_opp a b : CompareKeys b a = CompOpp (CompareKeys a b).
Proof.
  destruct a as [x|x|x|x], b as [y|y|y|y]; cbn [CompareKeys key_kind]; try reflexivity; apply linear_opp; auto using bool_linear, Z_linear, bytes_linear.
Qed.
Lemma key_trans a b c : trans3 (CompareKeys a b) (CompareKeys b c) (CompareKeys a c).
Proof.
  destruct a as [x|x|x|x], b as [y|y|y|y], c as [z|z|z|z]; cbn [CompareKeys key_kind];
    try (apply linear_trans; auto using bool_linear, Z_linear, bytes_linear); try exact I;
    repeat match goal with |- context [ComparisonImpl Z.ltb (Zpos ?u) (Zpos ?v)] =>
      let c := eval vm_compute in (ComparisonImpl Z.ltb (Zpos u) (Zpos v)) in change (ComparisonImpl Z.ltb (Zpos u) (Zpos v)) with c end;
    repeat match goal with |- context [ComparisonImpl ?f ?u ?v] => destruct (ComparisonImpl f u v) end; exact I || reflexivity.
Qed.
Lemma key_lt a b : CompareKeys a b = Lt <-> key_less a b.
Proof. apply key_answers. Qed.
Lemma key_eq a b : CompareKeys a b = Eq <-> a = b.
Proof. apply key_answers. Qed.
Lemma key_gt a b : CompareKeys a b = Gt <-> key_less b a.
Proof. apply key_answers. Qed.
Lemma key_less_trans a b c : key_less a b -> key_less b c -> key_less a c.
Proof.
  intros A B. apply key_lt in A, B. apply key_lt. pose proof (key_trans a b c) as T. now rewrite A, B in T.
Qed.

(** ** Sorting *)
Section Sorting.
  Context {A : Type}.
  Definition ordered (m : list (mkey * A)) : Prop := StronglySorted (fun e f => key_less (fst e) (fst f)) m.
  Lemma insert_perm k (x : A) m : Permutation (insert_key k x m) ((k, x) :: m).
  Proof.
    induction m as [|[k' y] m IH]; cbn [insert_key]; [reflexivity|]. destruct (CompareKeys k k'); try reflexivity;
      (rewrite IH; apply perm_swap).
  Qed.
  Lemma sort_perm (m : list (mkey * A)) : Permutation (sort_keys m) m.
  Proof. induction m as [|[k x] m IH]; cbn [sort_keys]; [reflexivity|]. now rewrite insert_perm, IH. Qed.
  Lemma insert_ordered k (x : A) m : ~ In k (map fst m) -> ordered m -> ordered (insert_key k x m).
  Proof.
    induction m as [|[k' y] m IH]; intros N S; cbn [insert_key].
    - repeat constructor.
    - inversion S as [|? ? S' F]; subst. destruct (CompareKeys k k') eqn:C.
      + apply key_eq in C. subst. destruct N. now left.
      + apply key_lt in C. constructor; [easy|]. constructor; [easy|]. eapply Forall_impl; [|exact F]. intros e. cbn [fst]. now apply key_less_trans.
      + apply key_gt in C. constructor; [apply IH; [intros I; apply N; now right|easy]|].
        eapply Permutation_Forall; [apply Permutation_sym, insert_perm|]. constructor; easy.
  Qed.
  Lemma sort_ordered (m : list (mkey * A)) : NoDup (map fst m) -> ordered (sort_keys m).
  Proof.
    induction m as [|[k x] m IH]; cbn [map fst sort_keys]; intros N; inversion N; subst; [constructor|]. apply insert_ordered; [|auto].
    intros I. apply H1. eapply Permutation_in; [apply Permutation_map, sort_perm|exact I].
  Qed.
  Lemma ordered_unique (m n : list (mkey * A)) : ordered m -> ordered n -> Permutation m n -> m = n.
  Proof.
    revert n. induction m as [|e m IH]; intros n Sm Sn P; [now apply Permutation_nil in P|].
    destruct n as [|f n]; [now apply Permutation_sym, Permutation_nil in P|]. inversion Sm as [|? ? Sm' Fm]; inversion Sn as [|? ? Sn' Fn]; subst.
    assert (e = f) as <-.
    { assert (In e (f :: n)) as [E|I1] by (eapply Permutation_in; [exact P|now left]); [easy|].
      assert (In f (e :: m)) as [E|I2] by (eapply Permutation_in; [apply Permutation_sym, P|now left]); [easy|].
      rewrite Forall_forall in Fm, Fn. pose proof (Fm f I2) as K. pose proof (Fn e I1) as K'. apply key_lt in K. apply key_gt in K'. congruence. }
    f_equal. apply IH; auto. now apply Permutation_cons_inv in P.
  Qed.
End Sorting.
Lemma insert_map {A B} (f : A -> B) k x m :
  insert_key k (f x) (map (fun e => (fst e, f (snd e))) m) = map (fun e => (fst e, f (snd e))) (insert_key k x m).
Proof. induction m as [|[k' y] m IH]; cbn [map insert_key fst snd]; [reflexivity|]. destruct (CompareKeys k k'); cbn [map fst snd]; try reflexivity; now rewrite IH. Qed.
Lemma sort_map {A B} (f : A -> B) m : sort_keys (map (fun e => (fst e, f (snd e))) m) = map (fun e => (fst e, f (snd e))) (sort_keys m).
Proof. induction m as [|[k x] m IH]; cbn [map sort_keys fst snd]; [reflexivity|]. rewrite IH. apply insert_map. Qed.

(** ** Lists and maps *)
Definition ecmp (e f : mkey * cel) : comparison := lex (CompareKeys (fst e) (fst f)) (CelValueCompare (snd e) (snd f)).
(* elements in turn until they differ *)
Fixpoint first {A} (cmp : A -> A -> comparison) (xs ys : list A) : comparison :=
  match xs, ys with x :: xs', y :: ys' => lex (cmp x y) (first cmp xs' ys') | _, _ => Eq end.
Lemma compare_list xs ys : CelValueCompare (CList xs) (CList ys) =
  lex (ComparisonImpl Nat.ltb (length xs) (length ys)) (first CelValueCompare xs ys).
Proof.
  cbn [CelValueCompare]. unfold lex at 1. destruct (ComparisonImpl _ _ _); try reflexivity.
  revert ys. induction xs as [|x xs IH]; intros [|y ys]; cbn [compare_elements first]; try reflexivity.
  unfold lex. destruct (CelValueCompare x y); try reflexivity. apply IH.
Qed.
Lemma compare_map xs ys : CelValueCompare (CMap xs) (CMap ys) =
  lex (ComparisonImpl Nat.ltb (length xs) (length ys)) (first ecmp (sort_keys xs) (sort_keys ys)).
Proof.
  cbn [CelValueCompare]. unfold lex at 1. destruct (ComparisonImpl _ _ _); try reflexivity.
  assert (map (fun e : mkey * cel => let (k, v) := e in (k, CelValueCompare v)) xs = map (fun e => (fst e, CelValueCompare (snd e))) xs) as ->.
  { apply map_ext. now intros []. }
  rewrite sort_map. generalize (sort_keys ys). induction (sort_keys xs) as [|[k x] l IH]; intros [|[k' y] l']; cbn [map compare_entries first]; try reflexivity.
  unfold ecmp, lex. cbn [fst snd]. destruct (CompareKeys k k'); try reflexivity. destruct (CelValueCompare x y); try reflexivity. apply IH.
Qed.
Lemma first_opp {A} (cmp : A -> A -> comparison) xs : Forall (fun x => forall y, cmp y x = CompOpp (cmp x y)) xs -> forall ys, first cmp ys xs = CompOpp (first cmp xs ys).
Proof. induction 1 as [|x xs H _ IH]; intros [|y ys]; cbn [first]; try reflexivity. now rewrite opp_lex, IH, H. Qed.
Lemma first_trans {A} (cmp : A -> A -> comparison) xs ys zs : 
  (forall x y z, In x xs -> In y ys -> In z zs -> trans3 (cmp x y) (cmp y z) (cmp x z)) -> length xs = length ys -> length ys = length zs ->
  trans3 (first cmp xs ys) (first cmp ys zs) (first cmp xs zs).
Proof.
  revert ys zs. induction xs as [|x xs IH]; intros [|y ys] [|z zs] H L M; try discriminate; [reflexivity|]. cbn [first].
  apply trans3_lex; [apply H; now left|]. intros _ _. apply IH; [|now injection L|now injection M]. intros; apply H; now right.
Qed.
Lemma sized_trans (a b c : nat) x y z : (a = b -> b = c -> trans3 x y z) ->
  trans3 (lex (ComparisonImpl Nat.ltb a b) x) (lex (ComparisonImpl Nat.ltb b c) y) (lex (ComparisonImpl Nat.ltb a c) z).
Proof.
  intros H. apply trans3_lex; [apply linear_trans, nat_linear|]. intros E1 E2. apply H.
  - now apply (linear_answers Nat.ltb _ nat_linear Nat.ltb_lt).
  - now apply (linear_answers Nat.ltb _ nat_linear Nat.ltb_lt).
Qed.
Lemma ext_trans x y z : trans3 (ext_compare x y) (ext_compare y z) (ext_compare x z).
Proof.
  destruct x as [|x|], y as [|y|], z as [|z|]; try reflexivity; try exact I; cbn; try (destruct (Qcompare _ _); exact I || reflexivity).
  destruct (Qcompare_spec x y), (Qcompare_spec y z), (Qcompare_spec x z); cbn; try reflexivity; exfalso;
    try (rewrite H, H0 in H1; now apply Qlt_irrefl in H1); try (rewrite H, <- H0 in H1; now apply Qlt_irrefl in H1);
    lra.
Qed.
