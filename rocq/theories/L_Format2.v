(* The text of a value: lists and maps. *)
From Coq Require Import ZArith String List Bool Ascii Permutation Sorting.Sorted Lia ZifyBool.
From Verif Require Import Base M_Overflow M_Number M_Value L_Value.
From Verif Require Import M_Format S_Format L_Format.
Import ListNotations.
Open Scope list_scope.
Open Scope Z_scope.

(** ** Keys *)
Definition ktext (k : mkey) : list Z :=
  match k with
  | KBool b => text (if b then "true" else "false")
  | KInt n | KUint n => int_text n
  | KString s => s
  end.
Lemma FormatKey_ok k : exists s, FormatKey k [] = Val (ktext k, s).
Proof. destruct k; eexists; reflexivity. Qed.
Lemma key_shows_iff k t : key_shows k t <-> t = ktext k.
Proof.
  split.
  - destruct 1 as [b|n t H|n t H|s]; cbn; try easy;
      eapply integer_numeral_unique; try exact H; try lia; apply int_text_ok.
  - intros ->. destruct k; cbn; constructor; apply int_text_ok.
Qed.

Section Sorted.
  Context {A : Type}.

  Definition sorted_keys (vm : list (list Z * A)) : Prop := StronglySorted before (map fst vm).

  Lemma emplace_in k (a : A) (vm : list (list Z * A)) x : In x (emplace k a vm) -> x = (k, a) \/ In x vm.
  Proof.
    induction vm as [|[k' a'] vm IH]; cbn; [firstorder|].
    destruct (bytes_cmp k k'); cbn; [tauto| |]; firstorder.
  Qed.
  Lemma emplace_sorted k (a : A) (vm : list (list Z * A)) : sorted_keys vm -> sorted_keys (emplace k a vm).
  Proof.
    unfold sorted_keys. induction vm as [|[k' a'] vm IH]; cbn; intros H; [repeat constructor|].
    inversion H as [|? ? H1 H2]; subst. destruct (bytes_cmp k k') eqn:E; cbn; [easy| |].
    - apply bytes_cmp_lt in E. constructor; [easy|]. constructor; [easy|].
      eapply Forall_impl; [|exact H2]. intros b. now apply before_trans.
    - apply bytes_cmp_gt in E. constructor; [now apply IH|].
      apply Forall_forall. intros b Hb. apply in_map_iff in Hb as (x & <- & Hx).
      apply emplace_in in Hx as [->|Hx]; [easy|]. rewrite Forall_forall in H2. apply H2. now apply in_map.
  Qed.
  Lemma emplace_new k (a : A) (vm : list (list Z * A)) : ~ In k (map fst vm) -> Permutation ((k, a) :: vm) (emplace k a vm).
  Proof.
    induction vm as [|[k' a'] vm IH]; cbn; intros H; [easy|].
    destruct (bytes_cmp k k') eqn:E.
    - apply bytes_cmp_eq in E. subst. tauto.
    - easy.
    - rewrite perm_swap. constructor. apply IH. tauto.
  Qed.
  Lemma FormatMap_keys_ok (m' : list (mkey * A)) : forall vm, sorted_keys vm ->
    NoDup (map (fun e => ktext (fst e)) m' ++ map fst vm) ->
    exists vm', @FormatMap_keys A m' vm = Val vm' /\ sorted_keys vm' /\
      Permutation (map (fun e => (ktext (fst e), snd e)) m' ++ vm) vm'.
  Proof.
    induction m' as [|[k a] m' IH]; cbn [FormatMap_keys map app]; intros vm Hs Hd.
    - exists vm. now repeat split.
    - destruct (FormatKey_ok k) as (s & ->). cbn.
      inversion Hd as [|? ? N D]; subst. cbn in N.
      assert (P : Permutation ((ktext k, a) :: vm) (emplace (ktext k) a vm)).
      { apply emplace_new. intros X. apply N. apply in_or_app. now right. }
      destruct (IH (emplace (ktext k) a vm)) as (vm' & E & S' & P').
      + now apply emplace_sorted.
      + eapply Permutation_NoDup; [|exact Hd].
        rewrite <- P. cbn. apply Permutation_middle.
      + exists vm'. split; [easy|]. split; [easy|]. rewrite <- P', <- P. cbn. apply Permutation_middle.
  Qed.
  Lemma FormatMap_keys_val (m' : list (mkey * A)) : forall vm, exists vm', @FormatMap_keys A m' vm = Val vm'.
  Proof.
    induction m' as [|[k a] m' IH]; intros vm; cbn; [now eexists|].
    destruct (FormatKey_ok k) as (s & ->). cbn. apply IH.
  Qed.
  Lemma FormatMap_keys_in (m' : list (mkey * A)) : forall vm vm', @FormatMap_keys A m' vm = Val vm' ->
    forall x, In x vm' -> In x vm \/ In (snd x) (map snd m').
  Proof.
    induction m' as [|[k a] m' IH]; intros vm vm'; cbn; [intros [= ->]; auto|].
    destruct (FormatKey_ok k) as (s & ->). cbn. intros E x Hx.
    destruct (IH _ _ E x Hx) as [I|I]; [|auto]. apply emplace_in in I as [->|I]; cbn; auto.
  Qed.
  Lemma sorted_unique (vm : list (list Z * A)) : forall vm', sorted_keys vm -> sorted_keys vm' -> Permutation vm vm' -> vm = vm'.
  Proof.
    unfold sorted_keys. induction vm as [|x vm IH]; intros vm' S S' P; [now apply Permutation_nil in P|].
    destruct vm' as [|y vm']; [now apply Permutation_sym, Permutation_nil in P|].
    cbn in S, S'. inversion S as [|? ? S1 S2]; inversion S' as [|? ? S1' S2']; subst.
    assert (x = y) as <-.
    { assert (X : In x (y :: vm')) by (eapply Permutation_in; [exact P|now left]).
      assert (Y : In y (x :: vm)) by (eapply Permutation_in; [symmetry; exact P|now left]).
      destruct X as [X|X]; [easy|]. destruct Y as [Y|Y]; [easy|]. exfalso.
      rewrite Forall_forall in S2, S2'.
      apply (before_irrefl (fst x)). apply before_trans with (fst y); [apply S2|apply S2']; now apply in_map. }
    f_equal. apply IH; try easy. now apply Permutation_cons_inv in P.
  Qed.
End Sorted.
Lemma sorted_nodup {A} (vm : list (list Z * A)) : sorted_keys vm -> NoDup (map fst vm).
Proof.
  unfold sorted_keys. induction (map fst vm) as [|x l IH]; [constructor|].
  intros H. inversion H as [|? ? H1 H2]; subst. constructor; [|now apply IH].
  intros X. rewrite Forall_forall in H2. now apply (before_irrefl x), H2.
Qed.

(** ** Closing brackets *)
Definition items (ts : list (list Z)) : list Z := flat_map (fun t => t ++ text ", ") ts.
Lemma items_join t ts : items (t :: ts) = join (text ", ") (t :: ts) ++ text ", ".
Proof.
  revert t. induction ts as [|u ts IH]; intros t; [unfold items; cbn; now rewrite app_nil_r|].
  change (items (t :: u :: ts)) with ((t ++ text ", ") ++ items (u :: ts)). rewrite IH.
  change (join (text ", ") (t :: u :: ts)) with (t ++ text ", " ++ join (text ", ") (u :: ts)).
  now rewrite <- !app_assoc.
Qed.
Lemma close_items o c ts : close ([o] ++ items ts) c = [o] ++ join (text ", ") ts ++ [c].
Proof.
  destruct ts as [|t ts]; [easy|]. rewrite items_join. unfold close.
  rewrite !app_length. change (length (text ", ")) with 2%nat. cbn [length].
  set (j := join (text ", ") (t :: ts)).
  replace (1 <? 1 + (length j + 2))%nat with true by (symmetry; apply Nat.ltb_lt; lia).
  replace (1 + (length j + 2) - 2)%nat with (length ([o] ++ j)) by (rewrite app_length; cbn [length]; lia).
  rewrite app_assoc, firstn_app, Nat.sub_diag, firstn_all. cbn [firstn]. rewrite app_nil_r.
  now rewrite <- app_assoc.
Qed.

(** ** Loops *)
Definition prints (f : list Z -> printed) (t : list Z) : Prop := exists s, f [] = Val (t, s).
Lemma prints_fun f t t' : prints f t -> prints f t' -> t = t'.
Proof. intros (s & E) (s' & E'). congruence. Qed.
Lemma FormatList_loop_iff l : forall sc r,
  FormatList_loop l sc = Val r <-> exists ts, Forall2 prints l ts /\ r = sc ++ items ts.
Proof.
  induction l as [|f l IH]; intros sc r; cbn [FormatList_loop].
  - split.
    + intros [= <-]. exists []. split; [constructor|cbn; now rewrite app_nil_r].
    + intros (ts & F & ->). inversion F; subst. cbn. now rewrite app_nil_r.
  - split.
    + destruct (f []) as [[t s]| |] eqn:E; cbn; try discriminate.
      rewrite IH. intros (ts & F & ->). exists (t :: ts). split; [constructor; [now exists s|easy]|].
      unfold items. cbn [flat_map]. now rewrite <- !app_assoc.
    + intros (ts & F & ->). inversion F as [|? t ? ts' (s & E) F']; subst. rewrite E. cbn.
      rewrite IH. exists ts'. split; [easy|]. unfold items. cbn [flat_map]. now rewrite <- !app_assoc.
Qed.
Definition entry_text (e : list Z * list Z) : list Z := fst e ++ text ": " ++ snd e.
Definition entry_prints (e : list Z * (list Z -> printed)) (t : list Z * list Z) : Prop :=
  fst e = fst t /\ prints (snd e) (snd t).
Lemma FormatMap_values_iff vm : forall sc r,
  FormatMap_values vm sc = Val r <->
  exists kts, Forall2 entry_prints vm kts /\ r = sc ++ items (map entry_text kts).
Proof.
  induction vm as [|[k f] vm IH]; intros sc r; cbn [FormatMap_values].
  - split.
    + intros [= <-]. exists []. split; [constructor|cbn; now rewrite app_nil_r].
    + intros (ts & F & ->). inversion F; subst. cbn. now rewrite app_nil_r.
  - split.
    + destruct (f []) as [[t s]| |] eqn:E; cbn [obind fst]; try discriminate.
      rewrite IH. intros (ts & F & ->). exists ((k, t) :: ts). split; [constructor; [split; [easy|now exists s]|easy]|].
      unfold items, entry_text. cbn [flat_map map fst snd]. rewrite <- !app_assoc. reflexivity.
    + intros (ts & F & ->). inversion F as [|? [k' t] ? ts' [E1 (s & E)] F']; subst. cbn in E, E1. subst k'.
      rewrite E. cbn [obind fst].
      rewrite IH. exists ts'. split; [easy|]. unfold items, entry_text. cbn [flat_map map fst snd]. rewrite <- !app_assoc. reflexivity.
Qed.
Lemma Forall2_keys {X} (R : (list Z * X) -> (list Z * list Z) -> Prop) l l' :
  (forall a b, R a b -> fst a = fst b) -> Forall2 R l l' -> map fst l = map fst l'.
Proof. intros H. induction 1; cbn; f_equal; auto. Qed.

Section Texts.
  Variable double_text : double -> list Z.
  Variable timestamp_text : time -> list Z.
  Local Notation FS := (FormatString double_text timestamp_text).
  Local Notation shows := (shows double_text timestamp_text).
  Local Notation all_show := (all_show double_text timestamp_text).
  Local Notation entries_show := (entries_show double_text timestamp_text).

  Lemma all_show_iff l ts : all_show l ts <-> Forall2 shows l ts.
  Proof. split; [induction 1|induction 1]; now constructor. Qed.
  Lemma entries_show_iff m kts : entries_show m kts <->
    Forall2 (fun e t => key_shows (fst e) (fst t) /\ shows (snd e) (snd t)) m kts.
  Proof.
    split; [induction 1; now constructor|].
    induction 1 as [|[k v] [kt t] m kts [A B] H IH]; now constructor.
  Qed.

  Lemma Forall2_map_l {X Y W} (f : X -> Y) (R : Y -> W -> Prop) l l' :
    Forall2 R (map f l) l' <-> Forall2 (fun a b => R (f a) b) l l'.
  Proof.
    revert l'. induction l as [|a l IH]; intros l'; split; intros H; inversion H; subst; constructor; auto; now apply IH.
  Qed.
  Lemma Forall2_iff_in {X Y} (P : X -> Prop) (R R' : X -> Y -> Prop) l l' :
    Forall P l -> (forall a b, P a -> R a b <-> R' a b) -> Forall2 R l l' <-> Forall2 R' l l'.
  Proof.
    intros F H. revert l'. induction F as [|a l Ha F IH]; intros l'; split; intros G; inversion G; subst; constructor;
      try (now apply IH); now apply H.
  Qed.

  Lemma show_map (m : list (mkey * value)) t :
    Forall (fun e => forall t, prints (FS (snd e)) t <-> shows (snd e) t) m ->
    NoDup (map (fun e => ktext (fst e)) m) ->
    (prints (FS (VMap m)) t <-> shows (VMap m) t).
  Proof.
    intros IH ND. unfold prints. cbn [FormatString].
    set (m' := map (fun e => (fst e, FS (snd e))) m).
    destruct (FormatMap_keys_ok m' []) as (vm & E & Sv & P); [constructor| |].
    { unfold m'. now rewrite app_nil_r, map_map. }
    rewrite app_nil_r in P.
    assert (Q : forall kts, Forall2 entry_prints (map (fun e => (ktext (fst e), snd e)) m') kts <-> entries_show m kts).
    { intros kts. unfold m'. rewrite map_map, Forall2_map_l, entries_show_iff. cbn [fst snd].
      eapply Forall2_iff_in; [exact IH|]. intros [k v] [kt u] Hv. cbn in *. unfold entry_prints. cbn.
      rewrite key_shows_iff, Hv. intuition congruence. }
    unfold FormatMap. rewrite E. cbn [obind]. split.
    - intros (s & H). destruct (FormatMap_values vm (str "{")) as [r| |] eqn:Er; cbn [obind] in H; unfold ret in H; try discriminate.
      injection H as <- _. apply FormatMap_values_iff in Er as (kts & F & ->).
      change (str "{") with [123]; rewrite (close_items 123 125). 
      destruct (Permutation_Forall2 (Permutation_sym P) F) as (kts0 & P0 & F0).
      apply Q in F0.
      apply (sh_map _ _ m kts0 kts); [easy|now apply Permutation_sym|].
      rewrite <- (Forall2_keys entry_prints vm kts); [exact Sv|intros a b [X _]; exact X|exact F].
    - intros H. inversion H as [| | | | | | | | | | | |m0 kts srt He Hp Hs]; subst.
      apply Q in He. destruct (Permutation_Forall2 P He) as (kts' & P' & F').
      assert (srt = kts') as ->.
      { apply sorted_unique; [exact Hs| |].
        - unfold sorted_keys. rewrite <- (Forall2_keys entry_prints vm kts'); [exact Sv|intros a b [X _]; exact X|exact F'].
        - now rewrite <- Hp. }
      assert (Ev : FormatMap_values vm (str "{") = Val (str "{" ++ items (map entry_text kts'))).
      { apply FormatMap_values_iff. now exists kts'. }
      rewrite Ev. cbn [obind]. eexists. unfold ret. change (str "{") with [123]; rewrite (close_items 123 125). reflexivity.
  Qed.

  Lemma nodup_of_distinct (m : list (mkey * value)) :
    (forall i j a b t, nth_error m i = Some a -> nth_error m j = Some b ->
       key_shows (fst a) t -> key_shows (fst b) t -> i = j) -> NoDup (map (fun e => ktext (fst e)) m).
  Proof.
    intros H. apply NoDup_nth_error. intros i j Hi E. rewrite map_length in Hi.
    rewrite !nth_error_map in E.
    destruct (nth_error m i) as [a|] eqn:Ea; [|apply nth_error_None in Ea; lia].
    destruct (nth_error m j) as [b|] eqn:Eb; [|discriminate]. cbn in E. injection E as E.
    apply (H i j a b (ktext (fst a)) Ea Eb); apply key_shows_iff; easy.
  Qed.
  Lemma distinct_nodup (m : list (mkey * value)) : NoDup (map (fun e => ktext (fst e)) m) ->
    forall i j a b t, nth_error m i = Some a -> nth_error m j = Some b ->
       key_shows (fst a) t -> key_shows (fst b) t -> i = j.
  Proof.
    intros H i j a b t Ea Eb Ka Kb. apply key_shows_iff in Ka, Kb.
    rewrite NoDup_nth_error in H. apply H.
    - rewrite map_length. apply nth_error_Some. congruence.
    - rewrite !nth_error_map, Ea, Eb. cbn. congruence.
  Qed.

  Lemma special_double_iff d : match special_double d with
    | Some t => d_isnan d = true /\ t = text "NaN" \/
                d_isnan d = false /\ d_eq d (S754_infinity false) = true /\ t = text "Infinity" \/
                d_isnan d = false /\ d_eq d (S754_infinity false) = false /\ d_eq d (S754_infinity true) = true /\ t = text "-Infinity"
    | None => d_isnan d = false /\ d_eq d (S754_infinity false) = false /\ d_eq d (S754_infinity true) = false
    end.
  Proof. destruct d as [s|[]| |s m e]; cbn; auto 10; try destruct s; cbn; auto. Qed.

  Lemma FormatString_iff v : plain v -> distinct_keys v -> forall t, prints (FS v) t <-> shows v t.
  Proof.
    induction v using value_ind'; intros Pv Dv t0; unfold prints; cbn [FormatString].
    - unfold lit. split; [intros (? & [= <- _]); constructor|intros H; inversion H; subst; now eexists].
    - unfold lit. split; [intros (? & [= <- _]); constructor|intros H; inversion H; subst; now eexists].
    - unfold ret. split; [intros (? & [= <- _]); constructor; apply int_text_ok|].
      intros H; inversion H; subst. eexists. rewrite (integer_numeral_unique false 10 t0 (int_text i) i); [reflexivity|lia|easy|apply int_text_ok].
    - unfold ret. split; [intros (? & [= <- _]); constructor; apply int_text_ok|].
      intros H; inversion H; subst. eexists. rewrite (integer_numeral_unique false 10 t0 (int_text u) u); [reflexivity|lia|easy|apply int_text_ok].
    - pose proof (special_double_iff d) as Sd. destruct (special_double d) as [t|] eqn:Es.
      + assert (X : forall r : printed, (if d_isnan d then lit (str "NaN") [] else
             if d_eq d (S754_infinity false) then lit (str "Infinity") []
             else if d_eq d (S754_infinity true) then lit (str "-Infinity") [] else r) = Val (t, [])).
        { intros r. destruct Sd as [[-> ->]|[(-> & -> & ->)|(-> & -> & -> & ->)]]; reflexivity. }
        rewrite X. split; [intros (? & [= <- _]); now apply sh_special|].
        intros H. inversion H; subst; [|congruence]. replace t0 with t by congruence. now eexists.
      + destruct Sd as (-> & -> & ->). unfold ret. split; [intros (? & [= <- _]); now apply sh_double|].
        intros H. inversion H; subst; [congruence|]. now eexists.
    - unfold lit. split; [intros (? & [= <- _]); constructor|intros H; inversion H; subst; now eexists].
    - unfold lit. split; [intros (? & [= <- _]); constructor|intros H; inversion H; subst; now eexists].
    - inversion Pv; subst. destruct (FormatDuration_ok ns) as (t & s & E & D); [easy|]. rewrite E. split.
      + intros (? & [= <- _]). now constructor.
      + intros H. inversion H; subst. rewrite (duration_text_unique ns t0 t); [now eexists|easy|easy].
    - unfold ret. split; [intros (? & [= <- _]); constructor|intros H; inversion H; subst; now eexists].
    - unfold lit. split; [intros (? & [= <- _]); constructor|intros H; inversion H; subst; now eexists].
    - inversion Pv as [| | | | | | | | | |l0 Pl| | | |]; subst. inversion Dv as [l0 Dl| |v0 C]; subst; [|easy].
      assert (Q : forall ts, Forall2 prints (map FS l) ts <-> all_show l ts).
      { intros ts. rewrite Forall2_map_l, all_show_iff.
        apply (Forall2_iff_in (fun v => forall t, prints (FS v) t <-> shows v t)); [|now intros a b Ha].
        rewrite Forall_forall in *. intros x Hx t. apply H; auto. }
      unfold FormatList. split.
      + intros (s & E). destruct (FormatList_loop (map FS l) (str "[")) as [r| |] eqn:Er; cbn [obind] in E; unfold ret in E; try discriminate.
        injection E as <- _. apply FormatList_loop_iff in Er as (ts & F & ->). change (str "[") with [91]; rewrite (close_items 91 93).
        apply sh_list. now apply Q.
      + intros E. inversion E as [| | | | | | | | | | |l0 ts A|]; subst. apply Q in A.
        assert (Ev : FormatList_loop (map FS l) (str "[") = Val (str "[" ++ items ts)) by (apply FormatList_loop_iff; now exists ts).
        rewrite Ev. cbn [obind]. eexists. unfold ret. change (str "[") with [91]; rewrite (close_items 91 93). reflexivity.
    - inversion Pv as [| | | | | | | | | | |m0 Pm| | |]; subst. inversion Dv as [|m0 Dm Km|v0 C]; subst; [|easy].
      apply show_map; [|now apply nodup_of_distinct].
      rewrite Forall_forall in *. intros x Hx t. apply H; [easy|apply Pm|apply Dm]; easy.
    - split; [intros (? & [=])|intros H; inversion H].
    - split; [intros (? & [=])|intros H; inversion H].
    - split; [intros (? & [=])|intros H; inversion H].
    - split; [intros (? & [=])|intros H; inversion H].
  Qed.

  (* what has a text has maps with distinct keys only *)
  Lemma shows_distinct v : forall t, shows v t -> distinct_keys v.
  Proof.
    induction v using value_ind'; intros t0 Ht; try (now apply dk_other).
    - inversion Ht as [| | | | | | | | | | |l0 ts A|]; subst. apply all_show_iff in A. apply dk_list.
      clear Ht. revert H. induction A as [|a t l ts Ha A IH]; intros H; [constructor|].
      apply Forall_cons_iff in H as [H1 H2]. constructor; [now apply (H1 t)|now apply IH].
    - inversion Ht as [| | | | | | | | | | | |m0 kts srt He Hp Hs]; subst. apply entries_show_iff in He. apply dk_map.
      + clear Ht Hp Hs. revert H. induction He as [|a t l ts [_ Ha] A IH]; intros H; [constructor|].
        apply Forall_cons_iff in H as [H1 H2]. constructor; [now apply (H1 (snd t))|now apply IH].
      + apply distinct_nodup.
        assert (E : map (fun e => ktext (fst e)) m = map fst kts).
        { clear - He. induction He as [|a t l ts [Ha _] A IH]; [easy|]. cbn. rewrite IH. f_equal.
          symmetry. now apply key_shows_iff. }
        rewrite E. eapply Permutation_NoDup; [|exact (sorted_nodup srt Hs)].
        apply Permutation_map. now apply Permutation_sym.
  Qed.

  (** ** Every value prints or is refused *)
  Definition fine {X} (o : out X) : Prop :=
    (exists x, o = Val x) \/ (exists st, o = Err st /\ st_code st = kInvalidArgument).
  Lemma fine_bind {X Y} (o : out X) (k : X -> out Y) : fine o -> (forall x, fine (k x)) -> fine (obind o k).
  Proof. intros [(x & ->)|(st & -> & E)] H; cbn; [apply H|right; now exists st]. Qed.
  Lemma fine_val {X} (x : X) : fine (Val x).
  Proof. left. now eexists. Qed.
  Lemma fine_err {X} msg : @fine X (Err (invalid msg)).
  Proof. right. now eexists. Qed.
  Lemma FormatList_loop_fine l : Forall (fun f => fine (f [])) l -> forall sc, fine (FormatList_loop l sc).
  Proof.
    induction 1 as [|f l Hf F IH]; intros sc; cbn; [apply fine_val|]. apply fine_bind; [easy|]. intros x. apply IH.
  Qed.
  Lemma FormatMap_values_fine l : Forall (fun f => fine (snd f [])) l -> forall sc, fine (FormatMap_values l sc).
  Proof.
    induction 1 as [|[k f] l Hf F IH]; intros sc; cbn; [apply fine_val|]. apply fine_bind; [easy|]. intros x. apply IH.
  Qed.
  Lemma FormatString_fine v : forall sc, fine (FS v sc).
  Proof.
    induction v using value_ind'; intros sc; cbn [FormatString]; try apply fine_val; try apply fine_err.
    - repeat match goal with |- fine (if ?b then _ else _) => destruct b; try apply fine_val end.
    - unfold FormatDuration. destruct (is_zero_d d); [apply fine_val|]. destruct (is_neg_d d); apply fine_val.
    - apply fine_bind; [|intros; apply fine_val]. apply FormatList_loop_fine.
      rewrite Forall_forall in *. intros f Hf. apply in_map_iff in Hf as (v & <- & Hv). now apply H.
    - unfold FormatMap. destruct (FormatMap_keys_val (map (fun e => (fst e, FS (snd e))) m) []) as (vm & E).
      rewrite E. cbn [obind]. apply fine_bind; [|intros; apply fine_val]. apply FormatMap_values_fine.
      rewrite Forall_forall in *. intros f Hf.
      destruct (FormatMap_keys_in _ _ _ E f Hf) as [[]|I].
      rewrite map_map in I. apply in_map_iff in I as (e & X & He). cbn [snd] in X. destruct f as [k f]; cbn [snd] in *; subst f. now apply H.
  Qed.
End Texts.
