(* The functions of byte strings, one by one. *)
From Coq Require Import List Bool ZArith Arith Lia Permutation.
From Verif Require Import Base.
From Verif Require Import M_ByteString S_ByteString L_ByteString.
Import ListNotations.
Open Scope list_scope.
Open Scope bs_scope.

(* a new string r with bytes s, that holds references besides those held *)
Definition made (h : heap) (held : list nat) (s : list Z) (d : list nat) (h' : heap) (r : rep) : Prop :=
  heap_le h h' /\ heap_ok h' (rep_refs r ++ held) /\ rep_is h' r s d.
Definition arena_ok (h : heap) (a : option nat) : Prop := match a with Some a => existsb (Nat.eqb a) (dead h) = false | None => True end.
Lemma dead_le h h' : heap_le h h' -> dead h' = dead h. Proof. now intros [E _]. Qed.
Lemma arena_ok_le h h' a : heap_le h h' -> arena_ok h a -> arena_ok h' a.
Proof. intros L. destruct a; cbn; auto. now rewrite (dead_le _ _ L). Qed.

Notation rel := false.
Lemma wp_dcheck b h (Q : heap -> unit -> Prop) : Q h tt -> wp (dcheck rel b) h Q.
Proof. intros K. exact K. Qed.
Ltac chk := apply wp_bind; apply wp_dcheck.
Lemma wp_SetSmall h held a s : heap_ok h held -> fits (length s) = true -> forall Q : heap -> rep -> Prop,
  (forall d, made h held s d h (Small a s)) -> (forall r, (forall d, made h held s d h r) -> Q h r) -> wp (SetSmall rel a s) h Q.
Proof. intros O F Q M K. unfold SetSmall, write_small. chk. unfold fits in F. rewrite F. apply wp_ret. apply K. exact M. Qed.
Lemma made_small h held a s d : heap_ok h held -> fits (length s) = true -> made h held s d h (Small a s).
Proof. intros O F. split; [apply heap_le_refl|]. split; [exact O|]. cbn. auto. Qed.
Lemma fits_le m n : (m <= n)%nat -> fits n = true -> fits m = true.
Proof. unfold fits. intros L F. apply Nat.leb_le in F. apply Nat.leb_le. lia. Qed.
Lemma fits_slice pos len (l : list Z) : fits (length l) = true -> fits (length (slice pos len l)) = true.
Proof. apply fits_le. unfold slice. rewrite firstn_length, skipn_length. lia. Qed.
Lemma bytes_whole h b s w f : nth_error (blocks h) b = Some (mkBlock s w f) -> bytes_at h b 0 (length s) w s.
Proof. intros N. exists s, w, f. repeat split; auto using same_home_refl. now rewrite slice_all. Qed.
Lemma bytes_counted h b s n f : nth_error (blocks h) b = Some (mkBlock s (Counted n) f) -> bytes_at h b 0 (length s) (Counted 0) s.
Proof. intros N. exists s, (Counted n), f. repeat split; auto. now rewrite slice_all. Qed.
Lemma wp_arena_block h held a s (Q : heap -> nat -> Prop) : heap_ok h held -> arena_ok h (Some a) ->
  (forall h' b, heap_le h h' -> heap_ok h' held -> nth_error (blocks h') b = Some (mkBlock s (InArena a) 0) -> Q h' b) ->
  wp (arena_block a s) h Q.
Proof.
  intros O A K. unfold wp, arena_block. cbn in A. rewrite A. apply (wp_new_other h held s (InArena a)); [exact O|discriminate|exact K].
Qed.
Lemma wp_SetMedium h held a s (Q : heap -> rep -> Prop) : heap_ok h held -> arena_ok h a ->
  (forall h' r, made h held s (arenas_of a) h' r -> Q h' r) -> wp (SetMedium rel a s) h Q.
Proof.
  intros O A K. unfold SetMedium. chk. destruct a as [a|]; apply wp_bind.
  - eapply wp_arena_block; [exact O|exact A|]. intros h' b L O' N. apply wp_ret. apply K. split; [exact L|]. split; [exact O'|].
    cbn. split; [now apply bytes_whole in N|]. split; [now left|]. rewrite (dead_le _ _ L). exact A.
  - eapply wp_new_counted; [exact O|]. intros h' b L O' N. apply wp_ret. apply K. split; [exact L|]. split; [exact O'|].
    cbn. split; [reflexivity|]. eapply bytes_counted; exact N.
Qed.
Lemma wp_SetExternal h held s (Q : heap -> rep -> Prop) : heap_ok h held ->
  (forall h' r, made h held s [] h' r -> Q h' r) -> wp (SetExternalMedium rel s) h Q.
Proof.
  intros O K. unfold SetExternalMedium. chk. apply wp_bind. eapply wp_new_other; [exact O|discriminate|]. intros h' b L O' N. apply wp_ret. apply K.
  split; [exact L|]. split; [exact O'|]. cbn. now apply bytes_whole in N.
Qed.
Lemma wp_SetLarge h held c s d (Q : heap -> rep -> Prop) : heap_ok h held -> incl (cord_refs c) held -> cord_is h c s ->
  (forall h' r, made h held s d h' r -> Q h' r) -> wp (SetLarge rel c) h Q.
Proof.
  intros O I C K. unfold SetLarge. chk. apply wp_bind. eapply wp_copy_cord; [exact O|exact I|exact C|]. intros h' L O'. apply wp_ret. apply K.
  split; [exact L|]. split; [exact O'|]. cbn. eapply cord_le; eassumption.
Qed.
Lemma wp_FromView h held a s (Q : heap -> rep -> Prop) : heap_ok h held -> arena_ok h a ->
  (forall h' r, made h held s (arenas_of a) h' r -> Q h' r) -> wp (FromView rel a s) h Q.
Proof.
  intros O A K. unfold FromView. destruct (fits (length s)) eqn:F; [|now apply (wp_SetMedium h held)].
  eapply wp_SetSmall; [exact O|exact F|intros d; now apply made_small|]. intros r M. apply K. apply M.
Qed.
Lemma wp_FromCord h held a c s (Q : heap -> rep -> Prop) : heap_ok h held -> incl (cord_refs c) held -> cord_is h c s -> arena_ok h a ->
  (forall h' r, made h held s (arenas_of a) h' r -> Q h' r) -> wp (FromCord rel a c) h Q.
Proof.
  intros O I C A K. unfold FromCord. destruct (fits (cord_size c)) eqn:F.
  - apply wp_bind. eapply wp_read_cord; [exact O|exact I|exact C|]. rewrite (cord_length _ _ _ C) in F.
    eapply wp_SetSmall; [exact O|exact F|intros d; now apply made_small|]. intros r M. apply K. apply M.
  - destruct a as [a|].
    + apply wp_bind. eapply wp_read_cord; [exact O|exact I|exact C|]. now apply (wp_SetMedium h held).
    + eapply wp_SetLarge; eassumption.
Qed.
Lemma wp_FromExternal h held s (Q : heap -> rep -> Prop) : heap_ok h held ->
  (forall h' r, made h held s [] h' r -> Q h' r) -> wp (FromExternal rel s) h Q.
Proof.
  intros O K. unfold FromExternal. destruct (fits (length s)) eqn:F; [|now apply (wp_SetExternal h held)].
  eapply wp_SetSmall; [exact O|exact F|intros d; now apply made_small|]. intros r M. apply K. apply M.
Qed.
Lemma made_weaken h held s d d' h' r : incl d d' -> made h held s d h' r -> made h held s d' h' r.
Proof. intros I (L & O & R). split; [exact L|]. split; [exact O|]. eapply rep_weaken; eassumption. Qed.
Lemma made_trans h h1 held s d h' r : heap_le h h1 -> made h1 held s d h' r -> made h held s d h' r.
Proof. intros L (L' & O & R). split; [eapply heap_le_trans; eassumption|]. auto. Qed.

(* sharing the owner of a medium string *)
Lemma wp_ref_owner h held o (Q : heap -> unit -> Prop) : heap_ok h held -> incl (owner_refs o) held ->
  (forall h', heap_le h h' -> heap_ok h' (owner_refs o ++ held) -> Q h' tt) -> wp (ref_owner o) h Q.
Proof.
  intros O I K. destruct o; cbn [ref_owner].
  - eapply wp_ref; [exact O|apply I; now left|exact K].
  - apply wp_ret. apply K; [apply heap_le_refl|exact O].
  - apply wp_ret. apply K; [apply heap_le_refl|exact O].
Qed.
Lemma wp_unref_owner h held o (Q : heap -> unit -> Prop) : heap_ok h (owner_refs o ++ held) ->
  (forall h', heap_le h h' -> heap_ok h' held -> Q h' tt) -> wp (unref_owner o) h Q.
Proof.
  intros O K. destruct o; cbn [unref_owner].
  - eapply wp_unref; [exact O|exact K].
  - apply wp_ret. apply K; [apply heap_le_refl|exact O].
  - apply wp_ret. apply K; [apply heap_le_refl|exact O].
Qed.
Lemma medium_sub h b off n o s d pos len : rep_is h (Medium b off n o) s d -> (pos + len <= n)%nat ->
  rep_is h (Medium b (off + pos) len o) (slice pos len s) d.
Proof.
  intros R L. destruct o; cbn in *.
  - destruct R as [-> R]. split; [reflexivity|]. eapply bytes_sub; eassumption.
  - destruct R as (R & J & D). split; [eapply bytes_sub; eassumption|auto].
  - eapply bytes_sub; eassumption.
Qed.
Lemma medium_arena h b off n o s d : rep_is h (Medium b off n o) s d -> arena_ok h (GetMediumArena o) /\ incl (arenas_of (GetMediumArena o)) d.
Proof.
  destruct o; cbn; intros R; [split; easy| |split; easy]. split; [apply R|]. intros x [<-|[]]. apply R.
Qed.
Lemma rep_arena h r s d : rep_is h r s d -> match r with Medium _ _ _ _ => arena_ok h (GetArena r) /\ incl (arenas_of (GetArena r)) d | _ => True end.
Proof. destruct r; auto. apply medium_arena. Qed.

Lemma wp_Destroy h held r (Q : heap -> unit -> Prop) : heap_ok h (rep_refs r ++ held) ->
  (forall h', heap_le h h' -> heap_ok h' held -> Q h' tt) -> wp (Destroy r) h Q.
Proof.
  intros O K. destruct r as [a s|b off n o|c]; cbn [Destroy].
  - apply wp_ret. apply K; [apply heap_le_refl|exact O].
  - eapply wp_unref_owner; eassumption.
  - eapply wp_drop_cord; eassumption.
Qed.
Definition alloc_ok (h : heap) (alloc : option (option nat)) : Prop := match alloc with Some a => arena_ok h a | None => True end.
Lemma arena_eqb_eq a b : arena_eqb a b = true -> a = b.
Proof. destruct a, b; cbn; try discriminate; auto. intros H. apply Nat.eqb_eq in H. congruence. Qed.
Lemma medium_shared h held b off n o s d : heap_ok h held -> incl (owner_refs o) held -> rep_is h (Medium b off n o) s d ->
  forall Q : heap -> rep -> Prop, (forall h' r, made h held s d h' r -> Q h' r) -> wp (ref_owner o ;;; ret (Medium b off n o)) h Q.
Proof.
  intros O I R Q K. apply wp_bind. eapply wp_ref_owner; [exact O|exact I|]. intros h' L O'. apply wp_ret. apply K.
  split; [exact L|]. split; [exact O'|]. eapply rep_le; eassumption.
Qed.
Lemma medium_arenas h b off n o s d : rep_is h (Medium b off n o) s d -> rep_is h (Medium b off n o) s (arenas_of (GetMediumArena o)).
Proof. destruct o; cbn; auto. intros (R & J & D). auto. Qed.
Lemma wp_ConstructCopy h held r s d alloc (Q : heap -> rep -> Prop) : heap_ok h held -> incl (rep_refs r) held -> rep_is h r s d -> alloc_ok h alloc ->
  (forall h' r', made h held s (arenas_after alloc d) h' r' -> Q h' r') -> wp (ConstructCopy rel r alloc) h Q.
Proof.
  intros O I R A K. destruct r as [a t|b off n o|c]; cbn [ConstructCopy].
  - cbn in R. destruct R as [-> F]. apply wp_ret. apply K. apply made_small; [exact O|]. exact F.
  - destruct alloc as [a'|].
    + destruct (arena_eqb a' (GetMediumArena o)) eqn:E.
      * apply arena_eqb_eq in E. subst a'. eapply medium_shared; [exact O|exact I|eapply medium_arenas; exact R|exact K].
      * apply wp_bind. eapply wp_view_rep; [exact O|exact I|exact R|]. eapply wp_SetMedium; [exact O|exact A|exact K].
    + eapply medium_shared; eassumption.
  - cbn in R. destruct alloc as [[a'|]|].
    + apply wp_bind. eapply wp_read_cord; [exact O|exact I|exact R|]. eapply wp_SetMedium; [exact O|exact A|exact K].
    + eapply wp_SetLarge; eassumption.
    + eapply wp_SetLarge; eassumption.
Qed.
(* moving: the references of the source become those of the new string; what
   is left in the source may be anything *)
Definition moved (h : heap) (held : list nat) (s : list Z) (d : list nat) (h' : heap) (p : rep * rep) : Prop :=
  heap_le h h' /\ heap_ok h' (rep_refs (fst p) ++ rep_refs (snd p) ++ held) /\ rep_is h' (fst p) s d.
Lemma wp_ConstructMove h held r s d alloc (Q : heap -> rep * rep -> Prop) : heap_ok h (rep_refs r ++ held) -> rep_is h r s d -> alloc_ok h alloc ->
  (forall h' p, moved h held s (arenas_after alloc d) h' p -> Q h' p) -> wp (ConstructMove rel r alloc) h Q.
Proof.
  intros O R A K. assert (I : incl (rep_refs r) (rep_refs r ++ held)) by (apply incl_appl; apply incl_refl).
  destruct r as [a t|b off n o|c]; cbn [ConstructMove].
  - cbn in R. destruct R as [-> F]. apply wp_ret. apply K. split; [apply heap_le_refl|]. split; [exact O|]. cbn. auto.
  - assert (Take : forall d', rep_is h (Medium b off n o) s d' -> moved h held s d' h (Medium b off n o, Medium b off n ONone)).
    { intros d' R'. split; [apply heap_le_refl|]. split; [exact O|exact R']. }
    destruct alloc as [a'|]; [|apply wp_ret; apply K; now apply Take].
    destruct (arena_eqb a' (GetMediumArena o)) eqn:E.
    + apply arena_eqb_eq in E. subst a'. apply wp_ret. apply K. apply Take. eapply medium_arenas; exact R.
    + apply wp_bind. eapply wp_view_rep; [exact O|exact I|exact R|]. apply wp_bind. eapply wp_SetMedium; [exact O|exact A|].
      intros h' r (L & O' & R'). apply wp_ret. apply K. split; [exact L|]. split; [exact O'|exact R'].
  - cbn in R. assert (Take : forall d', wp (r <- SetLargeMove rel c;; ret (r, Large [])) h (fun h' p => moved h held s d' h' p)).
    { intros d'. unfold SetLargeMove. apply wp_bind. chk. apply wp_ret. apply wp_ret. split; [apply heap_le_refl|]. split; [exact O|exact R]. }
    destruct alloc as [[a'|]|]; [|eapply wp_mono; [apply Take|exact K]..].
    apply wp_bind. eapply wp_read_cord; [exact O|exact I|exact R|]. apply wp_bind. eapply wp_SetMedium; [exact O|exact A|].
    intros h' r (L & O' & R'). apply wp_ret. apply K. split; [exact L|]. split; [exact O'|exact R'].
Qed.
(* assignment: the references of the old value are given back *)
Lemma wp_CopyFrom h held t r s d (Q : heap -> rep -> Prop) : heap_ok h (rep_refs t ++ held) -> incl (rep_refs r) held -> rep_is h r s d ->
  (forall h' r', made h held s d h' r' -> Q h' r') -> wp (CopyFrom rel t r) h Q.
Proof.
  intros O I R K. destruct r as [a u|b off n o|c]; cbn [CopyFrom].
  - apply wp_bind. eapply wp_Destroy; [exact O|]. intros h' L O'. apply wp_ret. apply K. split; [exact L|]. split; [exact O'|exact R].
  - assert (Late : wp (Destroy t ;;; ref_owner o ;;; ret (Medium b off n o)) h Q).
    { apply wp_bind. eapply wp_Destroy; [exact O|]. intros h1 L1 O1. eapply medium_shared; [exact O1|exact I|eapply rep_le; eassumption|].
      intros h2 r2 M. apply K. eapply made_trans; eassumption. }
    destruct t as [a' u'|b' off' n' o'|c']; [exact Late| |exact Late].
    apply wp_bind. eapply wp_ref_owner; [exact O|intros x J; apply in_or_app; right; now apply I|]. intros h1 L1 O1.
    apply wp_bind. eapply (wp_Destroy h1 (owner_refs o ++ held)).
    { eapply heap_ok_perm; [|exact O1]. rewrite !app_assoc. apply Permutation_app_tail, Permutation_app_comm. }
    intros h2 L2 O2. apply wp_ret. apply K. split; [eapply heap_le_trans; eassumption|]. split; [exact O2|].
    eapply rep_le; [|exact R]. eapply heap_le_trans; eassumption.
  - cbn in R. assert (Late : wp (Destroy t ;;; SetLarge rel c) h Q).
    { apply wp_bind. eapply wp_Destroy; [exact O|]. intros h1 L1 O1. eapply wp_SetLarge; [exact O1|exact I|eapply cord_le; eassumption|].
      intros h2 r2 M. apply K. eapply made_trans; eassumption. }
    destruct t as [a' u'|b' off' n' o'|c']; [exact Late|exact Late|].
    apply wp_bind. eapply wp_copy_cord; [exact O|intros x J; apply in_or_app; right; now apply I|exact R|]. intros h1 L1 O1.
    apply wp_bind. eapply (wp_drop_cord h1 (cord_refs c ++ held)).
    { eapply heap_ok_perm; [|exact O1]. rewrite !app_assoc. apply Permutation_app_tail, Permutation_app_comm. }
    intros h2 L2 O2. apply wp_ret. apply K. split; [eapply heap_le_trans; eassumption|]. split; [exact O2|].
    cbn. eapply cord_le; [|exact R]. eapply heap_le_trans; eassumption.
Qed.
Lemma wp_MoveFrom h held t r s d (Q : heap -> rep * rep -> Prop) : heap_ok h (rep_refs t ++ rep_refs r ++ held) -> rep_is h r s d ->
  (forall h' p, moved h held s d h' p -> Q h' p) -> wp (MoveFrom rel t r) h Q.
Proof.
  intros O R K. destruct r as [a u|b off n o|c]; cbn [MoveFrom].
  - apply wp_bind. eapply wp_Destroy; [exact O|]. intros h' L O'. apply wp_ret. apply K. split; [exact L|]. split; [exact O'|exact R].
  - apply wp_bind. eapply wp_Destroy; [exact O|]. intros h' L O'. apply wp_ret. apply K. split; [exact L|]. split; [exact O'|eapply rep_le; eassumption].
  - cbn in R. assert (Late : wp (Destroy t ;;; r <- SetLargeMove rel c;; ret (r, Large [])) h Q).
    { apply wp_bind. eapply wp_Destroy; [exact O|]. intros h1 L1 O1. unfold SetLargeMove. apply wp_bind. chk. apply wp_ret. apply wp_ret. apply K.
      split; [exact L1|]. split; [exact O1|]. cbn. eapply cord_le; eassumption. }
    destruct t as [a' u'|b' off' n' o'|c']; [exact Late|exact Late|].
    apply wp_bind. eapply wp_drop_cord; [exact O|]. intros h1 L1 O1. apply wp_ret. apply K.
    split; [exact L1|]. split; [exact O1|]. cbn. eapply cord_le; eassumption.
Qed.
Lemma wp_Swap h t r (Q : heap -> rep * rep -> Prop) : Q h (r, t) -> wp (Swap rel t r) h Q.
Proof.
  intros K. destruct t, r; cbn [Swap]; try exact K; unfold SetLargeMove; apply wp_bind; chk; apply wp_ret; apply wp_ret; exact K.
Qed.
(* Substring and the like *)
Lemma wp_Subcord h held c s pos len (Q : heap -> cord -> Prop) : heap_ok h held -> incl (cord_refs c) held -> cord_is h c s ->
  (pos + len <= length s)%nat ->
  (forall h' c', heap_le h h' -> heap_ok h' (cord_refs c' ++ held) -> cord_is h' c' (slice pos len s) -> Q h' c') -> wp (Subcord pos len c) h Q.
Proof.
  intros O I C L K. unfold Subcord. pose proof (part_is h c s C pos len L) as P.
  eapply wp_copy_cord; [exact O|intros x J; apply I; eapply part_refs; exact J|exact P|].
  intros h' L' O'. apply K; [exact L'|exact O'|]. eapply cord_le; eassumption.
Qed.
Lemma wp_Substring h held r s d pos npos (Q : heap -> rep -> Prop) : heap_ok h held -> incl (rep_refs r) held -> rep_is h r s d ->
  (pos <= npos)%nat -> (npos <= length s)%nat ->
  (forall h' r', made h held (slice pos (npos - pos) s) d h' r' -> Q h' r') -> wp (Substring rel r pos npos) h Q.
Proof.
  intros O I R P N K. unfold Substring. chk. chk. rewrite (rep_length _ _ _ _ R).
  destruct (Nat.leb_spec npos (length s)); [|lia]. destruct (Nat.leb_spec pos npos); [|lia]. cbn [andb negb].
  destruct r as [a t|b off n o|c].
  - cbn in R. destruct R as [-> F]. apply wp_ret. apply K. apply made_small; [exact O|]. now apply fits_slice.
  - pose proof (rep_length _ _ _ _ R) as E. cbn in E. eapply medium_shared; [exact O|exact I| |exact K]. eapply medium_sub; [exact R|lia].
  - cbn in R. apply wp_bind. eapply wp_Subcord; [exact O|exact I|exact R|lia|]. intros h1 c1 L1 O1 C1.
    apply wp_bind. eapply wp_FromCord; [exact O1|apply incl_appl, incl_refl|exact C1|exact Logic.I|]. intros h2 r2 (L2 & O2 & R2).
    apply wp_bind. eapply (wp_drop_cord h2 (rep_refs r2 ++ held)).
    { eapply heap_ok_perm; [|exact O2]. rewrite !app_assoc. apply Permutation_app_tail, Permutation_app_comm. }
    intros h3 L3 O3. apply wp_ret. apply K. split; [eapply heap_le_trans; [exact L1|]; eapply heap_le_trans; eassumption|]. split; [exact O3|].
    eapply rep_le; [exact L3|]. eapply rep_weaken; [|exact R2]. easy.
Qed.
Lemma wp_shrink_medium h held b off n o s d pos len (Q : heap -> rep -> Prop) : heap_ok h (owner_refs o ++ held) ->
  rep_is h (Medium b off n o) s d -> (pos + len <= n)%nat ->
  (forall h' r', made h held (slice pos len s) d h' r' -> Q h' r') -> wp (shrink_medium rel b (off + pos) len o) h Q.
Proof.
  intros O R L K. unfold shrink_medium. destruct (fits len) eqn:F.
  - apply wp_bind. eapply wp_view_sub; [exact O|apply incl_appl, incl_refl|exact R|exact L|].
    pose proof (rep_length _ _ _ _ R) as E. cbn in E.
    apply wp_bind. eapply wp_SetSmall; [exact O| |intros d'; apply made_small; [exact O|]; rewrite slice_length by lia; exact F|].
    { rewrite slice_length by lia. exact F. }
    intros r M. destruct (M d) as (_ & O1 & R1). apply wp_bind.
    eapply (wp_unref_owner h (rep_refs r ++ held)).
    { eapply heap_ok_perm; [|exact O1]. rewrite !app_assoc. apply Permutation_app_tail, Permutation_app_comm. }
    intros h' L' O'. apply wp_ret. apply K. split; [exact L'|]. split; [exact O'|]. eapply rep_le; eassumption.
  - apply wp_ret. apply K. split; [apply heap_le_refl|]. split; [exact O|]. eapply medium_sub; eassumption.
Qed.
Lemma wp_shrink_large h held c s d pos len (Q : heap -> rep -> Prop) : heap_ok h (cord_refs c ++ held) -> cord_is h c s -> (pos + len <= length s)%nat ->
  (forall h' r', made h held (slice pos len s) d h' r' -> Q h' r') -> wp (shrink_large rel c pos len) h Q.
Proof.
  intros O C L K. unfold shrink_large. apply wp_bind. eapply wp_Subcord; [exact O|apply incl_appl, incl_refl|exact C|exact L|].
  intros h1 c1 L1 O1 C1. apply wp_bind. eapply (wp_drop_cord h1 (cord_refs c1 ++ held)).
  { eapply heap_ok_perm; [|exact O1]. rewrite !app_assoc. apply Permutation_app_tail, Permutation_app_comm. }
  intros h2 L2 O2. pose proof (cord_le _ _ _ _ L2 C1) as C2. destruct (fits len) eqn:F.
  - apply wp_bind. eapply wp_read_cord; [exact O2|apply incl_appl, incl_refl|exact C2|].
    apply wp_bind. eapply wp_SetSmall; [exact O2| |intros d'; apply made_small; [exact O2|]; rewrite slice_length by lia; exact F|].
    { rewrite slice_length by lia. exact F. }
    intros r M. destruct (M d) as (_ & O3 & R3). apply wp_bind. eapply (wp_drop_cord h2 (rep_refs r ++ held)).
    { eapply heap_ok_perm; [|exact O3]. rewrite !app_assoc. apply Permutation_app_tail, Permutation_app_comm. }
    intros h4 L4 O4. apply wp_ret. apply K. split; [eapply heap_le_trans; [exact L1|]; eapply heap_le_trans; eassumption|]. split; [exact O4|]. eapply rep_le; eassumption.
  - apply wp_ret. apply K. split; [eapply heap_le_trans; eassumption|]. split; [exact O2|exact C2].
Qed.
Lemma skipn_slice n l : (n <= length l)%nat -> skipn n l = slice n (length l - n) l.
Proof. intros H. unfold slice. rewrite firstn_all2; [reflexivity|]. rewrite skipn_length. lia. Qed.
Lemma wp_RemovePrefix h held r s d n (Q : heap -> rep -> Prop) : heap_ok h (rep_refs r ++ held) -> rep_is h r s d -> (n <= length s)%nat ->
  (forall h' r', made h held (skipn n s) d h' r' -> Q h' r') -> wp (RemovePrefix rel r n) h Q.
Proof.
  intros O R N K. unfold RemovePrefix. chk. destruct (Nat.eqb_spec n 0) as [->|N0].
  { apply wp_ret. apply K. split; [apply heap_le_refl|]. split; [exact O|exact R]. }
  rewrite (rep_length _ _ _ _ R). destruct (Nat.leb_spec n (length s)); [|lia]. cbn [negb].
  pose proof (rep_length _ _ _ _ R) as E. destruct r as [a t|b off k o|c]; cbn in E.
  - cbn in R. destruct R as [-> F]. apply wp_ret. apply K. apply made_small; [exact O|]. apply fits_le with (2 := F). rewrite skipn_length. lia.
  - eapply wp_shrink_medium; [exact O|exact R|lia|]. intros h' r' M. apply K. rewrite skipn_slice by exact N. rewrite <- E. exact M.
  - eapply wp_shrink_large; [exact O|exact R|lia|]. intros h' r' M. apply K. rewrite skipn_slice by exact N. rewrite <- E. exact M.
Qed.
Lemma wp_RemoveSuffix h held r s d n (Q : heap -> rep -> Prop) : heap_ok h (rep_refs r ++ held) -> rep_is h r s d -> (n <= length s)%nat ->
  (forall h' r', made h held (firstn (length s - n) s) d h' r' -> Q h' r') -> wp (RemoveSuffix rel r n) h Q.
Proof.
  intros O R N K. unfold RemoveSuffix. chk. destruct (Nat.eqb_spec n 0) as [->|N0].
  { apply wp_ret. apply K. split; [apply heap_le_refl|]. split; [exact O|]. now rewrite Nat.sub_0_r, firstn_all. }
  rewrite (rep_length _ _ _ _ R). destruct (Nat.leb_spec n (length s)); [|lia]. cbn [negb].
  pose proof (rep_length _ _ _ _ R) as E. destruct r as [a t|b off k o|c]; cbn in E.
  - cbn in R. destruct R as [-> F]. apply wp_ret. apply K. apply made_small; [exact O|]. apply fits_le with (2 := F). rewrite firstn_length. lia.
  - replace off with (off + 0)%nat at 1 by lia. eapply wp_shrink_medium; [exact O|exact R|lia|]. intros h' r' M. apply K. rewrite <- E. exact M.
  - eapply wp_shrink_large; [exact O|exact R|lia|]. intros h' r' M. apply K. rewrite <- E. exact M.
Qed.
(* Cords *)
Definition corded (h : heap) (held : list nat) (s : list Z) (h' : heap) (c : cord) : Prop :=
  heap_le h h' /\ heap_ok h' (cord_refs c ++ held) /\ cord_is h' c s.
Lemma copied_is h s : cord_is h [Copied s] s.
Proof. rewrite <- (app_nil_r s) at 2. constructor. constructor. Qed.
Lemma shared_is h b off n s : bytes_at h b off n (Counted 0) s -> cord_is h [Shared b off n] s.
Proof. intros B. rewrite <- (app_nil_r s). constructor; [exact B|constructor]. Qed.
Lemma wp_ToCord h held r s d (Q : heap -> cord -> Prop) : heap_ok h held -> incl (rep_refs r) held -> rep_is h r s d ->
  (forall h' c, corded h held s h' c -> Q h' c) -> wp (ToCord r) h Q.
Proof.
  intros O I R K. destruct r as [a t|b off n o|c]; cbn [ToCord].
  - cbn in R. destruct R as [-> _]. apply wp_ret. apply K. split; [apply heap_le_refl|]. split; [exact O|apply copied_is].
  - destruct o as [b'|a|].
    + cbn in R. destruct R as [-> B]. apply wp_bind. eapply wp_ref; [exact O|apply I; now left|]. intros h' L O'. apply wp_ret. apply K.
      split; [exact L|]. split; [exact O'|]. apply shared_is. eapply bytes_le; eassumption.
    + apply wp_bind. eapply wp_view_rep; [exact O|exact I|exact R|]. apply wp_ret. apply K. split; [apply heap_le_refl|]. split; [exact O|apply copied_is].
    + apply wp_bind. eapply wp_view_rep; [exact O|exact I|exact R|]. apply wp_ret. apply K. split; [apply heap_le_refl|]. split; [exact O|apply copied_is].
  - cbn in R. eapply wp_copy_cord; [exact O|exact I|exact R|]. intros h' L O'. apply K. split; [exact L|]. split; [exact O'|]. eapply cord_le; eassumption.
Qed.
Lemma wp_ToCordMove h held r s d (Q : heap -> cord * rep -> Prop) : heap_ok h (rep_refs r ++ held) -> rep_is h r s d ->
  (forall h' c r', heap_le h h' -> heap_ok h' (cord_refs c ++ rep_refs r' ++ held) -> cord_is h' c s -> Q h' (c, r')) -> wp (ToCordMove r) h Q.
Proof.
  intros O R K. assert (I : incl (rep_refs r) (rep_refs r ++ held)) by apply incl_appl, incl_refl.
  destruct r as [a t|b off n o|c]; cbn [ToCordMove].
  - cbn in R. destruct R as [-> _]. apply wp_ret. apply K; [apply heap_le_refl|exact O|apply copied_is].
  - destruct o as [b'|a|].
    + cbn in R. destruct R as [-> B]. apply wp_ret. apply K; [apply heap_le_refl|exact O|now apply shared_is].
    + apply wp_bind. eapply wp_view_rep; [exact O|exact I|exact R|]. apply wp_ret. apply K; [apply heap_le_refl|exact O|apply copied_is].
    + apply wp_bind. eapply wp_view_rep; [exact O|exact I|exact R|]. apply wp_ret. apply K; [apply heap_le_refl|exact O|apply copied_is].
  - cbn in R. apply wp_bind. eapply wp_copy_cord; [exact O|exact I|exact R|]. intros h' L O'. apply wp_ret. apply K; [exact L|exact O'|]. eapply cord_le; eassumption.
Qed.
Lemma wp_Borrowed h held r s d pos len (Q : heap -> rep -> Prop) : heap_ok h held -> incl (rep_refs r) held -> rep_is h r s d ->
  (pos + len <= length s)%nat ->
  (forall h' r', made h held (slice pos len s) d h' r' -> Q h' r') -> wp (Borrowed rel r pos len) h Q.
Proof.
  intros O I R L K. pose proof (rep_length _ _ _ _ R) as E. destruct r as [a t|b off n o|c]; cbn [Borrowed]; cbn in E.
  - apply wp_bind. eapply wp_ToString; [exact O|exact I|exact R|]. cbn in R. destruct R as [-> F].
    unfold FromView. rewrite fits_slice by exact F. eapply wp_SetSmall; [exact O|now apply fits_slice|intros d'; apply made_small; [exact O|now apply fits_slice]|].
    intros r M. apply K. apply M.
  - destruct (medium_arena _ _ _ _ _ _ _ R) as [A1 A2].
    destruct (fits len || _).
    + apply wp_bind. eapply wp_view_sub; [exact O|exact I|exact R|lia|]. eapply wp_FromView; [exact O|exact A1|].
      intros h' r' M. apply K. eapply made_weaken; [exact A2|exact M].
    + assert (Copy : wp (s0 <- view b (off + pos) len;; c <- new_block s0 (Counted 1);; dcheck rel (negb (fits len)) ;;; ret (Medium c 0 len (ORef c))) h Q).
      { apply wp_bind. eapply wp_view_sub; [exact O|exact I|exact R|lia|]. apply wp_bind. eapply wp_new_counted; [exact O|]. intros h' c L' O' N. chk.
        apply wp_ret. apply K. split; [exact L'|]. split; [exact O'|]. cbn. split; [reflexivity|]. apply bytes_counted in N. now rewrite slice_length in N by lia. }
      destruct o as [c|a|]; [|exact Copy..].
      apply wp_bind. eapply wp_ref; [exact O|apply I; now left|]. intros h' L' O'. chk. apply wp_ret. apply K. split; [exact L'|]. split; [exact O'|].
      eapply rep_le; [exact L'|]. eapply medium_sub; [exact R|lia].
  - apply wp_bind. eapply wp_ToString; [exact O|exact I|exact R|]. eapply wp_FromView; [exact O|exact Logic.I|].
    intros h' r' M. apply K. eapply made_weaken; [|exact M]. easy.
Qed.
Lemma wp_Concat h held l r s t d e a (Q : heap -> rep -> Prop) : heap_ok h held -> incl (rep_refs l) held -> incl (rep_refs r) held ->
  rep_is h l s d -> rep_is h r t e -> arena_ok h (Some a) ->
  (forall h' r', made h held (s ++ t) (a :: d ++ e) h' r' -> Q h' r') -> wp (Concat rel l r a) h Q.
Proof.
  intros O I J R R' A K. unfold Concat. pose proof (rep_length _ _ _ _ R) as E. pose proof (rep_length _ _ _ _ R') as E'.
  destruct (Nat.eqb_spec (size l) 0) as [Z0|N0].
  { assert (s = []) by (destruct s; [reflexivity|cbn in *; lia]). subst s. eapply wp_ConstructCopy; [exact O|exact J|exact R'|exact Logic.I|].
    intros h' r' M. apply K. eapply made_weaken; [|exact M]. cbn. intros x X. right. apply in_or_app. now right. }
  destruct (Nat.eqb_spec (size r) 0) as [Z1|N1].
  { assert (t = []) by (destruct t; [reflexivity|cbn in *; lia]). subst t. rewrite app_nil_r in K. eapply wp_ConstructCopy; [exact O|exact I|exact R|exact Logic.I|].
    intros h' r' M. apply K. eapply made_weaken; [|exact M]. cbn. intros x X. right. apply in_or_app. now left. }
  destruct (is_large l || is_large r).
  - apply wp_bind. eapply wp_ToCord; [exact O|exact I|exact R|]. intros h1 c1 (L1 & O1 & C1).
    apply wp_bind. eapply wp_ToCord; [exact O1|intros x X; apply in_or_app; right; now apply J|eapply rep_le; eassumption|]. intros h2 c2 (L2 & O2 & C2).
    assert (O2' : heap_ok h2 (cord_refs (c1 ++ c2) ++ held)).
    { eapply heap_ok_perm; [|exact O2]. rewrite cord_app_refs, !app_assoc. apply Permutation_app_tail, Permutation_app_comm. }
    apply wp_bind. eapply wp_FromCord; [exact O2'|apply incl_appl, incl_refl|apply cord_app_is; [eapply cord_le; eassumption|exact C2]|exact Logic.I|].
    intros h3 r3 (L3 & O3 & R3). apply wp_bind. eapply (wp_drop_cord h3 (rep_refs r3 ++ held)).
    { eapply heap_ok_perm; [|exact O3]. rewrite !app_assoc. apply Permutation_app_tail, Permutation_app_comm. }
    intros h4 L4 O4. apply wp_ret. apply K. split.
    { eapply heap_le_trans; [exact L1|]. eapply heap_le_trans; [exact L2|]. eapply heap_le_trans; eassumption. }
    split; [exact O4|]. eapply rep_le; [exact L4|]. eapply rep_weaken; [|exact R3]. easy.
  - apply wp_bind. eapply wp_ToString; [exact O|exact I|exact R|]. apply wp_bind. eapply wp_ToString; [exact O|exact J|exact R'|].
    destruct (fits (size l + size r)) eqn:F.
    + assert (F' : fits (length (s ++ t)) = true) by (rewrite app_length, <- E, <- E'; exact F).
      unfold write_small. unfold fits in F'. rewrite F'. apply wp_ret. apply K. now apply made_small.
    + apply wp_bind. eapply wp_arena_block; [exact O|exact A|]. intros h' b L O' N. apply wp_ret. apply K. split; [exact L|]. split; [exact O'|].
      cbn [rep_is]. split; [|split; [now left|rewrite (dead_le _ _ L); exact A]].
      apply bytes_whole in N. rewrite app_length in N. now rewrite E, E'.
Qed.
Lemma wp_Clone h held r s d a (Q : heap -> rep -> Prop) : heap_ok h held -> incl (rep_refs r) held -> rep_is h r s d -> arena_ok h (Some a) ->
  (forall h' r', made h held s [a] h' r' -> Q h' r') -> wp (Clone rel r a) h Q.
Proof.
  intros O I R A K. destruct r as [a' t|b off n o|c]; cbn [Clone].
  - cbn in R. destruct R as [-> _]. eapply wp_FromView; [exact O|exact A|exact K].
  - destruct (arena_eqb (Some a) (GetMediumArena o)) eqn:E.
    + apply arena_eqb_eq in E. apply medium_arenas in R. rewrite <- E in R.
      eapply (wp_ConstructCopy h held (Medium b off n o) s [a] None); [exact O|exact I|exact R|exact Logic.I|exact K].
    + apply wp_bind. eapply wp_view_rep; [exact O|exact I|exact R|]. eapply wp_FromView; [exact O|exact A|exact K].
  - eapply wp_FromCord; [exact O|exact I|exact R|exact A|exact K].
Qed.
