(* Memory safety of the strings: lemmas for C78 and C79. *)
From Coq Require Import List Bool ZArith Arith Lia Permutation.
From Verif Require Import Base.
From Verif Require Import M_ByteString S_ByteString.
Import ListNotations.
Open Scope list_scope.
Open Scope bs_scope.

(* ---- weakest preconditions ---- *)
Definition wp {A} (m : M A) (h : heap) (Q : heap -> A -> Prop) : Prop :=
  match m h with Done h' x => Q h' x | _ => False end.
Lemma wp_bind {A B} (m : M A) (f : A -> M B) h Q : wp m h (fun h' x => wp (f x) h' Q) -> wp (bind m f) h Q.
Proof. unfold wp, bind. destruct (m h); auto. Qed.
Lemma wp_ret {A} (x : A) h (Q : heap -> A -> Prop) : Q h x -> wp (ret x) h Q.
Proof. intros H. exact H. Qed.
Lemma wp_mono {A} (m : M A) h (Q Q' : heap -> A -> Prop) : wp m h Q -> (forall h' x, Q h' x -> Q' h' x) -> wp m h Q'.
Proof. unfold wp. destruct (m h); auto. Qed.

(* ---- lists ---- *)
Lemma nth_set_same {A} n (x : A) l y : nth_error l n = Some y -> nth_error (set_nth n x l) n = Some x.
Proof. revert n. induction l as [|z l IH]; intros [|n]; cbn; intros H; try discriminate; auto. Qed.
Lemma nth_set_other {A} n m (x : A) l : n <> m -> nth_error (set_nth n x l) m = nth_error l m.
Proof. revert n m. induction l as [|z l IH]; intros [|n] [|m] N; cbn; auto; try lia. Qed.
Lemma set_nth_length {A} n (x : A) l : length (set_nth n x l) = length l.
Proof. revert n. induction l as [|z l IH]; intros [|n]; cbn; auto. Qed.
Lemma slice_length pos len l : (pos + len <= length l)%nat -> length (slice pos len l) = len.
Proof. intros H. unfold slice. rewrite firstn_length, skipn_length. lia. Qed.
Lemma skipn_skipn' {A} a b (l : list A) : skipn a (skipn b l) = skipn (b + a) l.
Proof. revert b a. induction l as [|x l IH]; intros [|b] a; cbn; rewrite ?skipn_nil; auto. Qed.
Lemma slice_slice a n b m l : (b + m <= n)%nat -> slice b m (slice a n l) = slice (a + b) m l.
Proof.
  intros H. unfold slice. rewrite skipn_firstn_comm, firstn_firstn, skipn_skipn'. f_equal. lia.
Qed.
Lemma slice_all l : slice 0 (length l) l = l.
Proof. unfold slice. cbn. apply firstn_all. Qed.

(* ---- heaps ---- *)
Definition same_home (a b : home) : Prop :=
  match a, b with Counted _, Counted _ => True | InArena x, InArena y => x = y | Elsewhere, Elsewhere => True | _, _ => False end.
Definition heap_le (h h' : heap) : Prop :=
  dead h' = dead h /\
  forall b k, nth_error (blocks h) b = Some k ->
    exists k', nth_error (blocks h') b = Some k' /\ b_bytes k' = b_bytes k /\ same_home (b_home k) (b_home k').
Lemma same_home_refl a : same_home a a. Proof. destruct a; cbn; auto. Qed.
Lemma same_home_trans a b c : same_home a b -> same_home b c -> same_home a c.
Proof. destruct a, b, c; cbn; intros; try contradiction; auto; congruence. Qed.
Lemma heap_le_refl h : heap_le h h.
Proof. split; [reflexivity|]. intros b k H. exists k. auto using same_home_refl. Qed.
Lemma heap_le_trans h1 h2 h3 : heap_le h1 h2 -> heap_le h2 h3 -> heap_le h1 h3.
Proof.
  intros [D1 H1] [D2 H2]. split; [congruence|]. intros b k N.
  destruct (H1 b k N) as (k2 & N2 & B2 & S2). destruct (H2 b k2 N2) as (k3 & N3 & B3 & S3).
  exists k3. split; [exact N3|]. split; [congruence|]. eapply same_home_trans; eassumption.
Qed.
Definition counted (h : heap) (b : nat) : Prop := exists s n f, nth_error (blocks h) b = Some (mkBlock s (Counted n) f).
Lemma counted_le h h' b : heap_le h h' -> counted h b -> counted h' b.
Proof.
  intros [_ L] (s & n & f & N). destruct (L b _ N) as ([s' w' f'] & N' & _ & S). cbn in S. destruct w'; try contradiction.
  exists s', n0, f'. exact N'.
Qed.
Notation cnt := (count_occ Nat.eq_dec).
(* every count is the number of references held *)
Definition heap_ok (h : heap) (held : list nat) : Prop :=
  Forall (counted h) held /\
  forall b s n f, nth_error (blocks h) b = Some (mkBlock s (Counted n) f) -> n = cnt held b /\ f = (if (n =? 0)%nat then 1%nat else 0%nat).
Lemma heap_ok_perm h l l' : Permutation l l' -> heap_ok h l -> heap_ok h l'.
Proof.
  intros P [F H]. split; [eapply Permutation_Forall; eassumption|].
  intros b s n f N. destruct (H b s n f N) as [-> ->]. rewrite (Permutation_count_occ Nat.eq_dec) in P. rewrite P. auto.
Qed.
Lemma cnt_cons_same b l : cnt (b :: l) b = S (cnt l b).
Proof. cbn. destruct (Nat.eq_dec b b); [reflexivity|contradiction]. Qed.
Lemma cnt_cons_other b c l : b <> c -> cnt (b :: l) c = cnt l c.
Proof. intros N. cbn. destruct (Nat.eq_dec b c); [contradiction|reflexivity]. Qed.
Lemma held_count h held b : heap_ok h held -> In b held ->
  exists s n f, nth_error (blocks h) b = Some (mkBlock s (Counted (S n)) f) /\ S n = cnt held b.
Proof.
  intros [F H] I. rewrite Forall_forall in F. destruct (F b I) as (s & n & f & N). destruct (H b s n f N) as [E _].
  apply (count_occ_In Nat.eq_dec) in I. destruct n as [|n]; [lia|]. exists s, n, f. auto.
Qed.
Lemma set_le h b s n n' f f' : nth_error (blocks h) b = Some (mkBlock s (Counted n) f) ->
  heap_le h (mkHeap (set_nth b (mkBlock s (Counted n') f') (blocks h)) (dead h)).
Proof.
  intros N. split; [reflexivity|]. cbn. intros c k Nc. destruct (Nat.eq_dec b c) as [->|D].
  - exists (mkBlock s (Counted n') f'). split; [eapply nth_set_same; eassumption|]. rewrite N in Nc. injection Nc as <-. cbn. auto.
  - exists k. rewrite nth_set_other by exact D. auto using same_home_refl.
Qed.
Lemma wp_ref h held b (Q : heap -> unit -> Prop) : heap_ok h held -> In b held ->
  (forall h', heap_le h h' -> heap_ok h' (b :: held) -> Q h' tt) -> wp (strong_ref b) h Q.
Proof.
  intros O I K. destruct (held_count h held b O I) as (s & n & f & N & C). unfold wp, strong_ref. rewrite N. apply K; [eapply set_le; eassumption|].
  pose proof (set_le h b s (S n) (S (S n)) f f N) as L. destruct O as [F H]. split.
  - constructor; [|eapply Forall_impl; [|exact F]; intros c; now apply counted_le].
    exists s, (S (S n)), f. cbn. eapply nth_set_same; eassumption.
  - cbn [blocks]. intros c s' n' f' Nc. destruct (Nat.eq_dec b c) as [<-|D].
    + rewrite (nth_set_same b _ _ _ N) in Nc. injection Nc as <- <- <-. rewrite cnt_cons_same, <- C.
      destruct (H b s (S n) f N) as [_ ->]. auto.
    + rewrite nth_set_other in Nc by exact D. rewrite cnt_cons_other by exact D. eauto.
Qed.
Lemma wp_unref h held b (Q : heap -> unit -> Prop) : heap_ok h (b :: held) ->
  (forall h', heap_le h h' -> heap_ok h' held -> Q h' tt) -> wp (strong_unref b) h Q.
Proof.
  intros O K. destruct (held_count h (b :: held) b O (or_introl eq_refl)) as (s & n & f & N & C). unfold wp, strong_unref. rewrite N.
  apply K; [eapply set_le; eassumption|].
  rewrite cnt_cons_same in C. injection C as C.
  pose proof (set_le h b s (S n) n f (if (n =? 0)%nat then S f else f) N) as L. destruct O as [F H]. split.
  - inversion F; subst. eapply Forall_impl; [|eassumption]. intros c; now apply counted_le.
  - cbn [blocks]. intros c s' n' f' Nc. destruct (Nat.eq_dec b c) as [<-|D].
    + rewrite (nth_set_same b _ _ _ N) in Nc. injection Nc as <- <- <-. split; [exact C|].
      destruct (H b s (S n) f N) as [_ ->]. cbn. now destruct (n =? 0)%nat.
    + rewrite nth_set_other in Nc by exact D. destruct (H c s' n' f' Nc) as [E1 E2]. rewrite cnt_cons_other in E1 by exact D. auto.
Qed.
Lemma app_le h k : heap_le h (mkHeap (blocks h ++ [k]) (dead h)).
Proof.
  split; [reflexivity|]. cbn. intros b k' N. exists k'. rewrite nth_error_app1 by (apply nth_error_Some; congruence). auto using same_home_refl.
Qed.
Lemma app_last h k : nth_error (blocks h ++ [k]) (length (blocks h)) = Some k.
Proof. rewrite nth_error_app2, Nat.sub_diag by lia. reflexivity. Qed.
Lemma app_cases h k b k' : nth_error (blocks h ++ [k]) b = Some k' -> nth_error (blocks h) b = Some k' \/ (b = length (blocks h) /\ k' = k).
Proof.
  intros N. destruct (Nat.lt_ge_cases b (length (blocks h))) as [L|G]; [left; now rewrite nth_error_app1 in N by exact L|].
  rewrite nth_error_app2 in N by exact G. destruct (b - length (blocks h))%nat as [|[|m]] eqn:E; cbn in N; try discriminate.
  right. split; [lia|congruence].
Qed.
Lemma held_lt h held b : heap_ok h held -> In b held -> (b < length (blocks h))%nat.
Proof. intros [F _] I. rewrite Forall_forall in F. destruct (F b I) as (s & n & f & N). apply nth_error_Some. congruence. Qed.
Lemma wp_new_counted h held s (Q : heap -> nat -> Prop) : heap_ok h held ->
  (forall h' b, heap_le h h' -> heap_ok h' (b :: held) -> nth_error (blocks h') b = Some (mkBlock s (Counted 1) 0) -> Q h' b) ->
  wp (new_block s (Counted 1)) h Q.
Proof.
  intros O K. unfold wp, new_block. pose proof (app_le h (mkBlock s (Counted 1) 0)) as L.
  assert (Z0 : cnt held (length (blocks h)) = 0%nat).
  { apply count_occ_not_In. intros I. apply (held_lt h held) in I; [lia|exact O]. }
  apply K; [exact L| |apply app_last]. destruct O as [F H]. split.
  - constructor; [|eapply Forall_impl; [|exact F]; intros c; now apply counted_le]. exists s, 1%nat, 0%nat. apply app_last.
  - cbn [blocks]. intros b s' n' f' N. apply app_cases in N as [N|[-> N]].
    + assert (b < length (blocks h))%nat by (apply nth_error_Some; congruence). rewrite cnt_cons_other by lia. eauto.
    + injection N as -> -> ->. rewrite cnt_cons_same, Z0. auto.
Qed.
Lemma wp_new_other h held s w (Q : heap -> nat -> Prop) : heap_ok h held -> (forall n, w <> Counted n) ->
  (forall h' b, heap_le h h' -> heap_ok h' held -> nth_error (blocks h') b = Some (mkBlock s w 0) -> Q h' b) ->
  wp (new_block s w) h Q.
Proof.
  intros O W K. unfold wp, new_block. pose proof (app_le h (mkBlock s w 0)) as L. apply K; [exact L| |apply app_last].
  destruct O as [F H]. split.
  - eapply Forall_impl; [|exact F]. intros c; now apply counted_le.
  - cbn [blocks]. intros b s' n' f' N. apply app_cases in N as [N|[-> N]]; [eauto|]. injection N as <- N _. now destruct (W n').
Qed.

(* ---- what strings and Cords stand for ---- *)
Definition bytes_at (h : heap) (b off n : nat) (w : home) (s : list Z) : Prop :=
  exists t w' f, nth_error (blocks h) b = Some (mkBlock t w' f) /\ same_home w w' /\ (off + n <= length t)%nat /\ s = slice off n t.
Inductive cord_is (h : heap) : cord -> list Z -> Prop :=
| ci_nil : cord_is h [] []
| ci_copied s c t : cord_is h c t -> cord_is h (Copied s :: c) (s ++ t)
| ci_shared b off n s c t : bytes_at h b off n (Counted 0) s -> cord_is h c t -> cord_is h (Shared b off n :: c) (s ++ t).
Definition rep_is (h : heap) (r : rep) (s : list Z) (d : list nat) : Prop :=
  match r with
  | Small _ s' => s' = s /\ fits (length s) = true
  | Medium b off n o =>
      match o with
      | ORef b' => b' = b /\ bytes_at h b off n (Counted 0) s
      | OArena a => bytes_at h b off n (InArena a) s /\ In a d /\ existsb (Nat.eqb a) (dead h) = false
      | ONone => bytes_at h b off n Elsewhere s
      end
  | Large c => cord_is h c s
  end.
(* the references a string or Cord holds *)
Definition owner_refs (o : owner) : list nat := match o with ORef b => [b] | _ => [] end.
Fixpoint cord_refs (c : cord) : list nat :=
  match c with [] => [] | Copied _ :: r => cord_refs r | Shared b _ _ :: r => b :: cord_refs r end.
Definition rep_refs (r : rep) : list nat :=
  match r with Small _ _ => [] | Medium _ _ _ o => owner_refs o | Large c => cord_refs c end.
Definition obj_refs (o : option obj) : list nat :=
  match o with Some (Str r) => rep_refs r | Some (Crd c) => cord_refs c | None => [] end.
Definition vars_refs (vs : vars) : list nat := flat_map obj_refs vs.

Lemma bytes_le h h' b off n w s : heap_le h h' -> bytes_at h b off n w s -> bytes_at h' b off n w s.
Proof.
  intros [_ L] (t & w' & f & N & S & R & E). destruct (L b _ N) as ([t' w2 f'] & N' & B & S'). cbn in B, S'. subst t'.
  exists t, w2, f'. repeat split; try assumption. eapply same_home_trans; eassumption.
Qed.
Lemma cord_le h h' c s : heap_le h h' -> cord_is h c s -> cord_is h' c s.
Proof. intros L. induction 1; constructor; auto. eapply bytes_le; eassumption. Qed.
Lemma rep_le h h' r s d : heap_le h h' -> rep_is h r s d -> rep_is h' r s d.
Proof.
  intros L. destruct r as [a t|b off n o|c]; cbn; auto.
  - destruct o; [intros [-> H]; split; [reflexivity|eapply bytes_le; eassumption]| |intros H; eapply bytes_le; eassumption].
    intros (H & I & D). split; [eapply bytes_le; eassumption|]. split; [exact I|]. destruct L as [-> _]. exact D.
  - now apply cord_le.
Qed.
Lemma rep_weaken h r s d d' : incl d d' -> rep_is h r s d -> rep_is h r s d'.
Proof.
  intros I. destruct r as [a t|b off n o|c]; cbn; auto. destruct o; auto. intros (H & J & D). auto.
Qed.
Lemma bytes_length h b off n w s : bytes_at h b off n w s -> length s = n.
Proof. intros (t & w' & f & _ & _ & R & ->). now apply slice_length. Qed.
Lemma cord_length h c s : cord_is h c s -> cord_size c = length s.
Proof.
  induction 1; [reflexivity| |]; cbn; fold cord_size; rewrite app_length; rewrite <- IHcord_is; [reflexivity|].
  now rewrite (bytes_length _ _ _ _ _ _ H).
Qed.
Lemma rep_length h r s d : rep_is h r s d -> size r = length s.
Proof.
  destruct r as [a t|b off n o|c]; cbn.
  - now intros [-> _].
  - destruct o; [intros [_ H]|intros (H & _)|intros H]; symmetry; eapply bytes_length; exact H.
  - apply cord_length.
Qed.
Lemma bytes_sub h b off n w s pos len : bytes_at h b off n w s -> (pos + len <= n)%nat -> bytes_at h b (off + pos) len w (slice pos len s).
Proof.
  intros (t & w' & f & N & S & R & ->) L. exists t, w', f. repeat split; auto; [lia|]. now rewrite slice_slice.
Qed.

(* reading *)
Lemma wp_view h b off n w s (Q : heap -> list Z -> Prop) : bytes_at h b off n w s ->
  (forall k, nth_error (blocks h) b = Some k -> alive h k = true) -> Q h s -> wp (view b off n) h Q.
Proof.
  intros (t & w' & f & N & S & R & ->) A K. unfold wp, view. rewrite N, (A _ N). cbn.
  destruct (Nat.leb_spec (off + n) (length t)); [exact K|lia].
Qed.
Lemma alive_counted h held b k : heap_ok h held -> In b held -> nth_error (blocks h) b = Some k -> alive h k = true.
Proof. intros O I N. destruct (held_count h held b O I) as (s & n & f & N' & _). rewrite N in N'. injection N' as ->. reflexivity. Qed.
Lemma wp_view_counted h held b off n s (Q : heap -> list Z -> Prop) : heap_ok h held -> In b held ->
  bytes_at h b off n (Counted 0) s -> Q h s -> wp (view b off n) h Q.
Proof. intros O I B K. eapply wp_view; [exact B| |exact K]. intros k. eapply alive_counted; eassumption. Qed.
Lemma wp_view_rep h held b off n o s d (Q : heap -> list Z -> Prop) : heap_ok h held -> incl (owner_refs o) held ->
  rep_is h (Medium b off n o) s d -> Q h s -> wp (view b off n) h Q.
Proof.
  intros O I R K. destruct o as [b'|a|]; cbn in R.
  - destruct R as [-> R]. eapply wp_view_counted; eauto. apply I. now left.
  - destruct R as (R & J & D). eapply wp_view; [exact R| |exact K]. destruct R as (t & w' & f & N & S & _ & _).
    intros k N'. rewrite N in N'. injection N' as <-. destruct w'; cbn in S; try contradiction. subst a0. unfold alive. cbn. now rewrite D.
  - eapply wp_view; [exact R| |exact K]. destruct R as (t & w' & f & N & S & _ & _).
    intros k N'. rewrite N in N'. injection N' as <-. destruct w'; cbn in S; try contradiction. reflexivity.
Qed.
Lemma wp_view_sub h held b off n o s d pos len (Q : heap -> list Z -> Prop) : heap_ok h held -> incl (owner_refs o) held ->
  rep_is h (Medium b off n o) s d -> (pos + len <= n)%nat -> Q h (slice pos len s) -> wp (view b (off + pos) len) h Q.
Proof.
  intros O I R L K. eapply (wp_view_rep h held b (off + pos) len o); [exact O|exact I| |exact K].
  instantiate (1 := d). destruct o; cbn in *.
  - destruct R as [-> R]. split; [reflexivity|]. eapply bytes_sub; eassumption.
  - destruct R as (R & J & D). split; [eapply bytes_sub; eassumption|auto].
  - eapply bytes_sub; eassumption.
Qed.
Lemma wp_read_cord h held c s (Q : heap -> list Z -> Prop) : heap_ok h held -> incl (cord_refs c) held ->
  cord_is h c s -> Q h s -> wp (read_cord c) h Q.
Proof.
  intros O I C. revert Q. induction C as [|s c t C IH|b off n s c t B C IH]; intros Q K; cbn [read_cord].
  - exact K.
  - apply wp_bind. cbn. apply wp_ret. apply wp_bind. apply IH; [exact I|]. apply wp_ret. exact K.
  - cbn in I. apply wp_bind. cbn. eapply wp_view_counted; [exact O|apply I; now left|exact B|].
    apply wp_bind. apply IH; [intros x J; apply I; now right|]. apply wp_ret. exact K.
Qed.
Lemma wp_ToString h held r s d (Q : heap -> list Z -> Prop) : heap_ok h held -> incl (rep_refs r) held ->
  rep_is h r s d -> Q h s -> wp (ToString r) h Q.
Proof.
  intros O I R K. destruct r as [a t|b off n o|c]; cbn [ToString].
  - cbn in R. destruct R as [-> _]. exact K.
  - eapply wp_view_rep; eassumption.
  - eapply wp_read_cord; eassumption.
Qed.

(* references of Cords *)
Lemma wp_copy_cord h held c s (Q : heap -> cord -> Prop) : heap_ok h held -> incl (cord_refs c) held -> cord_is h c s ->
  (forall h', heap_le h h' -> heap_ok h' (cord_refs c ++ held) -> Q h' c) -> wp (copy_cord c) h Q.
Proof.
  intros O I C. revert h held O I Q C. revert s. induction c as [|[t|b off n] c IH]; intros s h held O I Q C K; cbn [copy_cord].
  - apply wp_ret. apply K; [apply heap_le_refl|exact O].
  - inversion C; subst. apply wp_bind. eapply IH; [exact O|exact I|eassumption|]. intros h' L O'. apply wp_ret. now apply K.
  - inversion C; subst. apply wp_bind. eapply wp_ref; [exact O|apply I; now left|]. intros h1 L1 O1.
    apply wp_bind. eapply (IH _ h1 (b :: held)); [exact O1|intros x J; right; apply I; now right|eapply cord_le; eassumption|].
    intros h2 L2 O2. apply wp_ret. apply K; [eapply heap_le_trans; eassumption|].
    eapply heap_ok_perm; [|exact O2]. cbn. symmetry. apply Permutation_middle.
Qed.
Lemma wp_drop_cord h held c (Q : heap -> unit -> Prop) : heap_ok h (cord_refs c ++ held) ->
  (forall h', heap_le h h' -> heap_ok h' held -> Q h' tt) -> wp (drop_cord c) h Q.
Proof.
  revert h. induction c as [|[t|b off n] c IH]; intros h O K; cbn [drop_cord].
  - apply wp_ret. apply K; [apply heap_le_refl|exact O].
  - now apply IH.
  - apply wp_bind. eapply wp_unref; [exact O|]. intros h1 L1 O1. apply IH; [exact O1|]. intros h2 L2 O2. apply K; [eapply heap_le_trans; eassumption|exact O2].
Qed.
Lemma part_is h c s : cord_is h c s -> forall pos len, (pos + len <= length s)%nat -> cord_is h (part pos len c) (slice pos len s).
Proof.
  assert (Empty : forall pos l, slice pos 0 l = []) by reflexivity.
  assert (App : forall pos len a b, (length a <= pos)%nat -> slice pos len (a ++ b) = slice (pos - length a) len b).
  { intros pos len a b H. unfold slice. rewrite skipn_app, skipn_all2 by exact H. reflexivity. }
  assert (App2 : forall pos len a b, (pos < length a)%nat ->
            slice pos len (a ++ b) = slice pos (Nat.min len (length a - pos)) a ++ slice 0 (len - Nat.min len (length a - pos)) b).
  { intros pos len a b H. unfold slice. rewrite skipn_app. replace (pos - length a)%nat with 0%nat by lia. cbn [skipn].
    rewrite firstn_app, skipn_length. f_equal.
    - destruct (Nat.le_ge_cases len (length a - pos)) as [G|G].
      + now rewrite Nat.min_l by exact G.
      + rewrite Nat.min_r by exact G. rewrite !firstn_all2 by (rewrite skipn_length; lia). reflexivity.
    - f_equal. lia. }
  induction 1 as [|t c u C IH|b off n t c u B C IH]; intros pos len L; cbn [part].
  - cbn in L. replace len with 0%nat by lia. constructor.
  - destruct (Nat.eqb_spec len 0) as [->|N0]; [rewrite Empty; constructor|]. cbn [chunk_size]. rewrite app_length in L.
    destruct (Nat.leb_spec (length t) pos) as [G|G].
    + rewrite App by exact G. apply IH. lia.
    + rewrite App2 by exact G. cbn [cut]. constructor. apply IH. lia.
  - destruct (Nat.eqb_spec len 0) as [->|N0]; [rewrite Empty; constructor|]. cbn [chunk_size]. rewrite app_length in L.
    pose proof (bytes_length _ _ _ _ _ _ B) as E.
    destruct (Nat.leb_spec n pos) as [G|G].
    + rewrite App by lia. rewrite E. apply IH. lia.
    + rewrite App2 by lia. rewrite E. cbn [cut]. constructor; [|apply IH; lia]. eapply bytes_sub; [exact B|lia].
Qed.
Lemma part_refs c pos len : incl (cord_refs (part pos len c)) (cord_refs c).
Proof.
  revert pos len. induction c as [|x c IH]; intros pos len; cbn [part]; [easy|]. destruct (len =? 0)%nat; [easy|].
  destruct (chunk_size x <=? pos)%nat.
  - destruct x as [t|b off n]; cbn [cord_refs]; [apply IH|]. intros y J. right. eapply IH; exact J.
  - destruct x as [t|b off n]; cbn [cord_refs cut]; [apply IH|]. intros y [->|J]; [now left|right; eapply IH; exact J].
Qed.
Lemma cord_app_is h c s d t : cord_is h c s -> cord_is h d t -> cord_is h (c ++ d) (s ++ t).
Proof. intros C D. induction C; cbn; [exact D| |]; rewrite <- app_assoc; constructor; auto. Qed.
Lemma cord_app_refs c d : cord_refs (c ++ d) = cord_refs c ++ cord_refs d.
Proof. induction c as [|[t|b off n] c IH]; cbn; [reflexivity|exact IH|]. now rewrite IH. Qed.
