(* Lemmas on histories of declarations of functions. *)
From Coq Require Import String Ascii List Bool Arith Lia Permutation.
From Verif Require Import Base M_Infer S_Infer L_Infer.
From Verif Require Import M_Decl S_Decl L_Decl.
Import ListNotations.
Open Scope list_scope.
Local Open Scope nat_scope.

Section History.
Variable is_message : string -> bool.
Notation sig_of n o := (MakeOverloadSignature is_message n (od_args o) (od_member o)).

Record sound (f : FunctionDecl) : Prop := mkSound {
  sound_id : forall i o, nth_error (insertion_order f) i = Some o -> find_index (od_id o) (by_id f) = Some i;
  sound_find : forall k i, find_index k (by_id f) = Some i ->
    exists o, nth_error (insertion_order f) i = Some o /\ od_id o = k;
  sound_sig : forall k i, find_index k (by_signature f) = Some i ->
    exists o n, nth_error (insertion_order f) i = Some o /\ sig_of n o = Val k;
  sound_pairs : forall i j a b, nth_error (insertion_order f) i = Some a -> nth_error (insertion_order f) j = Some b ->
    i <> j -> ~ collide a b }.

Lemma add_cases f o :
  (exists e, sig_of (name f) o = Err e /\ AddOverload is_message f o = (Err e, f))
  \/ (sig_of (name f) o = UB /\ AddOverload is_message f o = (UB, f))
  \/ exists s, sig_of (name f) o = Val s /\
      ((find_index (od_id (stored o s)) (by_id f) <> None /\ AddOverload is_message f o = (Err kAlreadyExists_overload, f))
       \/ (find_index (od_id (stored o s)) (by_id f) = None /\ (exists x, In x (insertion_order f) /\ collide o x) /\
           AddOverload is_message f o = (Err (invalid "overload signature collision"), f))
       \/ (find_index (od_id (stored o s)) (by_id f) = None /\ (forall x, In x (insertion_order f) -> ~ collide o x) /\
           AddOverload is_message f o =
             (Val tt, mkFunction (name f) (insertion_order f ++ [stored o s])
                        ((od_id (stored o s), List.length (insertion_order f)) :: by_id f)
                        ((s, List.length (insertion_order f)) :: by_signature f)))).
Proof.
  unfold AddOverload. destruct (sig_of (name f) o) as [s|e|]; [right; right|left; eauto|right; left; auto].
  exists s. split; [reflexivity|]. change (if String.eqb (od_id o) "" then set_id o s else o) with (stored o s).
  assert (C : forall x, SignaturesOverlap (stored o s) x = true <-> collide o x).
  { intros x. rewrite overlap_collide. unfold stored, collide. destruct (String.eqb (od_id o) ""); reflexivity. }
  destruct (find_index _ _) eqn:E; [left; split; [congruence|reflexivity]|]. right.
  destruct (existsb _ _) eqn:X.
  - left. split; [reflexivity|]. split; [|reflexivity]. apply existsb_exists in X as (x & Hx & HC). exists x. split; [exact Hx|now apply C].
  - right. split; [reflexivity|]. split; [|reflexivity]. intros x Hx HC. apply C in HC.
    assert (existsb (SignaturesOverlap (stored o s)) (insertion_order f) = true) by (apply existsb_exists; eauto). congruence.
Qed.

Lemma stored_args o s : od_args (stored o s) = od_args o.
Proof. unfold stored. destruct (String.eqb _ _); reflexivity. Qed.
Lemma stored_member o s : od_member (stored o s) = od_member o.
Proof. unfold stored. destruct (String.eqb _ _); reflexivity. Qed.
Lemma stored_collide o s x : collide (stored o s) x <-> collide o x.
Proof. unfold collide. now rewrite stored_args, stored_member. Qed.

Lemma nth_snoc {A} (l : list A) x i y : nth_error (l ++ [x]) i = Some y ->
  nth_error l i = Some y \/ (i = List.length l /\ y = x).
Proof.
  intros H. destruct (Nat.lt_ge_cases i (List.length l)) as [L|L].
  - rewrite nth_error_app1 in H by exact L. now left.
  - rewrite nth_error_app2 in H by exact L. right. destruct (i - List.length l) as [|k] eqn:E; cbn in H.
    + injection H as <-. split; [lia|reflexivity].
    + destruct k; discriminate H.
Qed.
Lemma nth_snoc_last {A} (l : list A) x : nth_error (l ++ [x]) (List.length l) = Some x.
Proof. rewrite nth_error_app2 by lia. now rewrite Nat.sub_diag. Qed.
Lemma nth_snoc_old {A} (l : list A) x i y : nth_error l i = Some y -> nth_error (l ++ [x]) i = Some y.
Proof. intros H. rewrite nth_error_app1; [exact H|]. apply nth_error_Some. congruence. Qed.

Lemma sound_new n : sound (no_overloads n).
Proof. split; cbn; intros; try discriminate; destruct i; discriminate. Qed.

Lemma sound_add f o : sound f -> sound (snd (AddOverload is_message f o)).
Proof.
  intros S. destruct (add_cases f o) as [(e & _ & ->)|[(_ & ->)|(s & Hs & [(_ & ->)|[(_ & _ & ->)|(Hf & Hn & ->)]])]];
    try exact S. cbn [snd]. split; cbn [insertion_order by_id by_signature name].
  - intros i x H. apply nth_snoc in H as [H|[-> ->]].
    + cbn [find_index]. destruct (String.eqb_spec (od_id x) (od_id (stored o s))) as [E|_]; [|now apply sound_id].
      apply (sound_id f S) in H. congruence.
    + cbn [find_index]. now rewrite String.eqb_refl.
  - intros k i. cbn [find_index]. destruct (String.eqb_spec k (od_id (stored o s))) as [->|_].
    + intros [= <-]. exists (stored o s). split; [apply nth_snoc_last|reflexivity].
    + intros H. apply (sound_find f S) in H as (x & H & E). exists x. split; [now apply nth_snoc_old|exact E].
  - intros k i. cbn [find_index]. destruct (String.eqb_spec k s) as [->|_].
    + intros [= <-]. exists (stored o s), (name f). split; [apply nth_snoc_last|]. now rewrite stored_args, stored_member.
    + intros H. apply (sound_sig f S) in H as (x & n & H & E). exists x, n. split; [now apply nth_snoc_old|exact E].
  - intros i j a b Ha Hb Hij. apply nth_snoc in Ha as [Ha|[-> ->]]; apply nth_snoc in Hb as [Hb|[-> ->]].
    + eapply sound_pairs; eauto.
    + intros HC. apply collide_sym, stored_collide in HC. apply nth_error_In in Ha. exact (Hn a Ha HC).
    + rewrite stored_collide. apply Hn. eapply nth_error_In; eauto.
    + lia.
Qed.

Lemma sound_reachable f : reachable is_message f -> sound f.
Proof.
  induction 1 as [n|f x _ S]; [apply sound_new|]. destruct x as [o|n|]; cbn [step].
  - now apply sound_add.
  - split; apply S.
  - apply sound_new.
Qed.

Lemma sound_absent f k : sound f -> find_index k (by_id f) = None <-> forall o, In o (insertion_order f) -> od_id o <> k.
Proof.
  intros S. split.
  - intros H o Ho <-. apply In_nth_error in Ho as [i Hi]. apply (sound_id f S) in Hi. congruence.
  - intros H. destruct (find_index k (by_id f)) as [i|] eqn:E; [|reflexivity].
    apply (sound_find f S) in E as (o & Ho & E). apply nth_error_In in Ho. now apply H in Ho.
Qed.

(* ---- the overloads given at once ---- *)

(* the overloads as they are stored *)
Inductive entries (n : string) : list overload_decl -> list overload_decl -> Prop :=
| ent_nil : entries n [] []
| ent_cons o s l m : sig_of n o = Val s -> entries n l m -> entries n (o :: l) (stored o s :: m).

Lemma entries_det n l m : entries n l m -> forall m', entries n l m' -> m = m'.
Proof.
  induction 1 as [|o s l m Hs _ IH]; intros m' H; inversion H; subst; [reflexivity|].
  assert (s = s0) by congruence. subst. f_equal. now apply IH.
Qed.
Definition pairwise (l : list overload_decl) : Prop := ForallOrdPairs (fun a b => ~ collide a b) l.

Lemma add_all_iff : forall l f, sound f ->
  (exists g, add_all is_message f l = Val g) <->
  exists m, entries (name f) l m /\ NoDup (map od_id m) /\ pairwise l
    /\ (forall x y, In x (insertion_order f) -> In y m -> od_id x <> od_id y)
    /\ (forall x y, In x (insertion_order f) -> In y l -> ~ collide y x).
Proof.
  induction l as [|o l IH]; intros f S.
  - cbn. split; [|intros _; eauto]. intros _. exists []. repeat split; try constructor; intros x y _ [].
  - cbn [add_all]. pose proof (sound_add f o S) as S'.
    destruct (add_cases f o) as [(e & Hs & E)|[(Hs & E)|(s & Hs & [(Hf & E)|[(Hf & HC & E)|(Hf & Hn & E)]])]]; rewrite E in *; cbn [obind].
    1-2: split; [intros [? [=]]|intros (m & He & _); inversion He; congruence].
    + split; [intros [? [=]]|]. intros (m & He & _ & _ & Hd & _). exfalso. inversion He; subst. assert (s0 = s) by congruence. subst.
      apply Hf. apply sound_absent; [exact S|]. intros x Hx. apply Hd; [exact Hx|now left].
    + split; [intros [? [=]]|]. intros (m & He & _ & _ & _ & Hd). exfalso. destruct HC as (x & Hx & HC). revert HC. apply Hd; [exact Hx|now left].
    + cbn [snd] in S'. rewrite (IH _ S'). cbn [name insertion_order].
      split.
      * intros (m & He & Hnd & Hp & Hi & Hc). exists (stored o s :: m). split; [now constructor|].
        assert (Hl : forall y, In y (insertion_order f ++ [stored o s]) -> In y (insertion_order f) \/ y = stored o s).
        { intros y Hy. apply in_app_iff in Hy as [?|[<-|[]]]; auto. }
        split; [|split; [|split]].
        -- cbn [map]. constructor; [|exact Hnd]. intros Hin. apply in_map_iff in Hin as (y & Hy & Hin).
           apply (Hi (stored o s) y); [|exact Hin|now symmetry]. apply in_app_iff. right. now left.
        -- constructor; [|exact Hp]. apply Forall_forall. intros y Hy C. apply (Hc (stored o s) y); [|exact Hy|].
           ++ apply in_app_iff. right. now left.
           ++ apply collide_sym, stored_collide, C.
        -- intros x y Hx [<-|Hy]; [|apply Hi; [apply in_app_iff; now left|exact Hy]].
           apply (proj1 (sound_absent f _ S) Hf x Hx).
        -- intros x y Hx [<-|Hy]; [now apply Hn|]. apply Hc; [apply in_app_iff; now left|exact Hy].
      * intros (m & He & Hnd & Hp & Hi & Hc). inversion He as [|? s' ? m' Hs' He']; subst. assert (s' = s) by congruence. subst s'.
        exists m'. split; [exact He'|]. cbn [map] in Hnd. inversion Hnd as [|? ? Hni Hnd']; subst. inversion Hp as [|? ? Hf2 Hp']; subst.
        split; [exact Hnd'|]. split; [exact Hp'|]. split.
        -- intros x y Hx Hy. apply in_app_iff in Hx as [Hx|[<-|[]]]; [apply Hi; [exact Hx|now right]|].
           intros E'. apply Hni. rewrite E'. now apply in_map.
        -- intros x y Hx Hy. apply in_app_iff in Hx as [Hx|[<-|[]]]; [apply Hc; [exact Hx|now right]|].
           intros C. apply collide_sym, stored_collide in C. rewrite Forall_forall in Hf2. exact (Hf2 y Hy C).
Qed.

Lemma add_all_order : forall l f g, add_all is_message f l = Val g ->
  exists m, entries (name f) l m /\ insertion_order g = insertion_order f ++ m /\ name g = name f.
Proof.
  induction l as [|o l IH]; intros f g; cbn [add_all].
  - intros [= <-]. exists []. rewrite app_nil_r. repeat split. constructor.
  - destruct (add_cases f o) as [(e & Hs & ->)|[(Hs & ->)|(s & Hs & [(Hf & ->)|[(Hf & HC & ->)|(Hf & Hn & ->)]])]]; cbn [obind]; try discriminate.
    intros H. apply IH in H as (m & He & Ho & Hg). cbn [name insertion_order] in *. exists (stored o s :: m).
    rewrite Ho, <- app_assoc. repeat split; [now constructor|exact Hg].
Qed.

Lemma add_all_sound l : forall f g, sound f -> add_all is_message f l = Val g -> sound g.
Proof.
  induction l as [|o l IH]; intros f g S; cbn [add_all]; [now intros [= <-]|].
  pose proof (sound_add f o S) as S'. destruct (AddOverload is_message f o) as [[[]|e|] f']; cbn [obind]; try discriminate. cbn in S'. intros H. eapply IH; eauto.
Qed.

(* every overload is listed under its signature, or a later one with the same
   signature is *)
Definition listed (f : FunctionDecl) : Prop := forall i o s,
  nth_error (insertion_order f) i = Some o -> sig_of (name f) o = Val s ->
  exists j x, find_index s (by_signature f) = Some j /\ i <= j
    /\ nth_error (insertion_order f) j = Some x /\ sig_of (name f) x = Val s.
Lemma listed_add f o : listed f -> listed (snd (AddOverload is_message f o)).
Proof.
  intros L. destruct (add_cases f o) as [(e & _ & ->)|[(_ & ->)|(s & Hs & [(_ & ->)|[(_ & _ & ->)|(Hf & Hn & ->)]])]];
    try exact L. cbn [snd]. intros i x t. cbn [insertion_order by_signature name find_index]. intros Hi Ht.
  assert (Hst : sig_of (name f) (stored o s) = Val s) by now rewrite stored_args, stored_member.
  destruct (String.eqb_spec t s) as [->|N].
  - exists (List.length (insertion_order f)), (stored o s). split; [reflexivity|]. split; [|split; [apply nth_snoc_last|exact Hst]].
    apply nth_snoc in Hi as [Hi|[-> _]]; [|lia]. apply Nat.lt_le_incl, nth_error_Some. congruence.
  - apply nth_snoc in Hi as [Hi|[-> ->]]; [|congruence]. destruct (L _ _ _ Hi Ht) as (j & y & ? & ? & ? & ?).
    exists j, y. repeat split; try assumption. now apply nth_snoc_old.
Qed.
Lemma add_all_listed l : forall f g, listed f -> add_all is_message f l = Val g -> listed g.
Proof.
  induction l as [|o l IH]; intros f g S; cbn [add_all]; [now intros [= <-]|].
  pose proof (listed_add f o S) as S'. destruct (AddOverload is_message f o) as [[[]|e|] f']; cbn [obind]; try discriminate. cbn in S'. intros H. eapply IH; eauto.
Qed.

Lemma entries_perm n l l' : Permutation l l' -> forall m, entries n l m -> exists m', entries n l' m' /\ Permutation m m'.
Proof.
  induction 1 as [|x l l' _ IH|x y l|l l' l'' _ IH1 _ IH2]; intros m H.
  - exists []. inversion H. split; [constructor|constructor].
  - inversion H as [|? s ? m0 Hs Hm]; subst. apply IH in Hm as (m' & Hm & P). exists (stored x s :: m'). split; [now constructor|now constructor].
  - inversion H as [|? s ? m0 Hs Hm]; subst. inversion Hm as [|? s' ? m1 Hs' Hm1]; subst.
    exists (stored x s' :: stored y s :: m1). split; [now repeat constructor|constructor].
  - apply IH1 in H as (m1 & H & P1). apply IH2 in H as (m2 & H & P2). exists m2. split; [exact H|]. now transitivity m1.
Qed.
Lemma pairwise_perm l l' : Permutation l l' -> pairwise l -> pairwise l'.
Proof.
  unfold pairwise. induction 1 as [|x l l' P IH|x y l|l l' l'' _ IH1 _ IH2]; intros H.
  - exact H.
  - inversion H; subst. constructor; [|now apply IH]. eapply Permutation_Forall; eauto.
  - inversion H as [|? ? Ha Hb]; subst. inversion Hb as [|? ? Hc Hd]; subst. inversion Ha; subst.
    repeat constructor; try assumption. intros C. apply collide_sym in C. contradiction.
  - auto.
Qed.
End History.
