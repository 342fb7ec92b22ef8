(* A planned expression never runs into the recursion limit it was planned with. *)
From Coq Require Import ZArith List Bool String Lia.
From Verif Require Import Base M_Overflow M_Number M_Attr M_Value M_Logic M_Expr M_Plan M_Machine M_Direct
  L_Seval.
Import ListNotations.
Open Scope list_scope.
Open Scope Z_scope.

Lemma rbind_ext {A B} (r : res A) (k k' : A -> est -> res B) :
  (forall a s, k a s = k' a s) -> rbind r k = rbind r k'.
Proof. intros H. destruct r; cbn [rbind]; auto. Qed.

Section Same.
  Variables (f f' : operand).
  Definition same_on (x : rcore) : Prop := forall rf t s, f x rf t s = f' x rf t s.
  Lemma direct_list_same C mv rf t els : Forall same_on els -> forall opts tmp acc l s,
    direct_list C mv f rf t els opts tmp acc l s = direct_list C mv f' rf t els opts tmp acc l s.
  Proof.
    induction 1 as [|x els Hx H IH]; intros opts tmp acc l s; cbn [direct_list]; auto. cbv zeta.
    rewrite Hx. apply rbind_ext. intros x1 s1.
    destruct (is_error (fst x1)); auto. destruct (negb _); auto.
    destruct (match opts with [] => false | o :: _ => o end).
    - destruct (fst x1); auto. destruct o as [[]|]; auto; apply rbind_ext; intros; apply IH.
    - apply rbind_ext; intros; apply IH.
  Qed.
  Lemma direct_map_same C rf t els : Forall same_on els -> forall opts acc m s,
    direct_map C f rf t els opts acc m s = direct_map C f' rf t els opts acc m s.
  Proof.
    enough (G : forall n els, (List.length els <= n)%nat -> Forall same_on els -> forall opts acc m s,
      direct_map C f rf t els opts acc m s = direct_map C f' rf t els opts acc m s)
      by (intros; eapply G; eauto).
    clear els. induction n as [|n IH]; intros els Hn H opts acc m s.
    - destruct els; [reflexivity|cbn in Hn; lia].
    - destruct els as [|ke [|ve els]]; try reflexivity.
      inversion H as [|? ? H1 H2]; subst. inversion H2 as [|? ? H3 H4]; subst.
      cbn [direct_map]. cbv zeta. rewrite H1. apply rbind_ext. intros k s1.
      destruct (is_error (fst k)); auto. destruct (CheckMapKey (fst k)); auto.
      rewrite H3. apply rbind_ext. intros v s2. destruct (is_error (fst v)); auto.
      assert (Hn' : (List.length els <= n)%nat) by (cbn in Hn; lia).
      destruct (negb _); [now apply IH|].
      destruct (match opts with [] => false | o :: _ => o end).
      + destruct (fst v); auto. destruct o as [[]|]; auto; apply rbind_ext; intros; now apply IH.
      + apply rbind_ext; intros; now apply IH.
  Qed.
  Lemma direct_args_same els : Forall same_on els -> forall s,
    direct_args f els s = direct_args f' els s.
  Proof.
    induction 1 as [|x els Hx H IH]; intros s; cbn [direct_args]; auto.
    rewrite Hx. apply rbind_ext. intros. now rewrite IH.
  Qed.
  Lemma direct_app_same C mv op args rf t s : Forall same_on args ->
    direct_app C mv f op args rf t s = direct_app C mv f' op args rf t s.
  Proof.
    intros H.
    assert (H1 : forall a, args = [a] -> forall rf t s, f a rf t s = f' a rf t s).
    { intros a ->. inversion H; auto. }
    assert (H2 : forall a b, args = [a; b] -> (forall rf t s, f a rf t s = f' a rf t s) /\
                                              (forall rf t s, f b rf t s = f' b rf t s)).
    { intros a b ->. inversion H as [|? ? Ha Hb]; subst. inversion Hb; auto. }
    destruct op; cbn [direct_app];
      try (rewrite (direct_list_same C mv rf t args H); reflexivity);
      try (rewrite (direct_map_same C rf t args H); reflexivity);
      try (rewrite (direct_args_same args H); reflexivity);
      destruct args as [|a [|b [|c args]]]; auto;
      try (specialize (H1 _ eq_refl); rewrite H1; reflexivity);
      destruct (H2 _ _ eq_refl) as [Ha Hb]; rewrite Ha; apply rbind_ext; intros; now rewrite Hb.
  Qed.
End Same.
Lemma direct_loop_same C it it2 ac b rt fc fc' fs fs' items :
  (forall rf t s, fc rf t s = fc' rf t s) -> (forall rf t s, fs rf t s = fs' rf t s) -> forall ct s,
  direct_loop C it it2 ac b rt fc fs items ct s = direct_loop C it it2 ac b rt fc' fs' items ct s.
Proof.
  intros Hc Hs. induction items as [|kv items IH]; intros ct s; cbn [direct_loop]; auto.
  apply rbind_ext. intros _ s1. rewrite Hc. apply rbind_ext. intros c s2.
  destruct (loop_condition c); auto. destruct (_ && _); auto.
  rewrite Hs. apply rbind_ext. intros; apply IH.
Qed.

Definition roomy (ld : nat -> nat) (lz lz' : nat -> dstep) : Prop :=
  forall i n, (ld i <= n)%nat -> forall rf t s, lz i (Some n) rf t s = lz' i None rf t s.
Lemma depth_list_in f l x : In x l -> (f x <= depth_list f l)%nat.
Proof.
  induction l as [|y l IH]; intros []; cbn [depth_list]; [subst; lia|]. specialize (IH H). lia.
Qed.
Lemma deval_depth C mv r : forall ld lz lz' n, roomy ld lz lz' -> (rdepth ld r <= n)%nat ->
  forall rf t s, deval C mv r lz (Some n) rf t s = deval C mv r lz' None rf t s.
Proof.
  induction r using rcore_ind'; intros ld lz lz' m Hl Hd rf t s;
    (destruct m as [|m]; [cbn [rdepth] in Hd; lia|]); cbn [rdepth] in Hd; cbn [deval deeper].
  - reflexivity.
  - reflexivity.
  - reflexivity.
  - destruct (e_slots s n); auto. rewrite (Hl i m) by lia. reflexivity.
  - rewrite (IHr1 ld lz lz') by (auto; lia). apply rbind_ext. intros x s1. destruct (_ && _); auto.
    now rewrite (IHr2 ld lz lz') by (auto; lia).
  - rewrite (IHr1 ld lz lz') by (auto; lia). apply rbind_ext. intros x s1. destruct (sc C).
    + destruct (ternary_stop t x); auto. rewrite (IHr2 ld lz lz') by (auto; lia).
      now rewrite (IHr3 ld lz lz') by (auto; lia).
    + rewrite (IHr2 ld lz lz') by (auto; lia). apply rbind_ext. intros.
      now rewrite (IHr3 ld lz lz') by (auto; lia).
  - rewrite (IHr1 ld lz lz') by (auto; lia). apply rbind_ext. intros x s1. destruct (sc C).
    + destruct (direct_or_first k x); auto. now rewrite (IHr2 ld lz lz') by (auto; lia).
    + now rewrite (IHr2 ld lz lz') by (auto; lia).
  - apply direct_app_same. apply Forall_forall. intros x Hx rf' t' s'.
    rewrite Forall_forall in H. apply (H x Hx ld); auto.
    pose proof (depth_list_in (rdepth ld) args x Hx). lia.
  - rewrite (IHr1 ld lz lz') by (auto; lia). apply rbind_ext. intros rv s1.
    destruct (comp_init C rv) as [|[b items]]; auto.
    rewrite (IHr2 ld lz lz') by (auto; lia). apply rbind_ext. intros iv s2.
    rewrite (direct_loop_same C it it2 ac b (snd rv) _ (deval C mv r3 lz' None)
               _ (deval C mv r4 lz' None))
      by (intros; (apply (IHr3 ld lz lz') || apply (IHr4 ld lz lz')); auto; lia).
    apply rbind_ext. intros [v|] s3; auto. now rewrite (IHr5 ld lz lz') by (auto; lia).
  - erewrite (IHr2 _ _ (set_dlz i (fun room2 => deval C mv r1 lz' room2) lz')); [reflexivity| |apply le_S_n, Hd].
    intros j q Hq rf' t' s'. unfold set_dlz. cbn beta in Hq. destruct (Nat.eqb j i); auto.
    apply (IHr1 ld); auto.
Qed.

Lemma fits_depth n ld r : fits n ld r = true -> (rdepth ld r <= n)%nat.
Proof. destruct r; cbn [fits]; intros H; apply andb_prop in H; apply Nat.leb_le, H. Qed.

Lemma direct_run_limit C mv n r : fits n (fun _ => O) r = true ->
  direct_run C mv (Some n) r = direct_run C mv None r.
Proof.
  intros H. unfold direct_run.
  rewrite (deval_depth C mv r (fun _ => O) no_dlazy no_dlazy n); auto.
  - intros i q _ rf t s. reflexivity.
  - now apply fits_depth.
Qed.

Lemma fits_list_forall f l : fits_list f l = true <-> Forall (fun x => f x = true) l.
Proof.
  induction l as [|x l IH]; cbn [fits_list]; [split; auto|].
  rewrite andb_true_iff, Forall_cons_iff, IH. reflexivity.
Qed.
Lemma fits_mono n m : (n <= m)%nat -> forall r ld, fits n ld r = true -> fits m ld r = true.
Proof.
  intros Hm r. induction r using rcore_ind'; intros ld Hf; cbn [fits] in *;
    apply andb_prop in Hf; destruct Hf as [Hd Hf]; apply andb_true_intro;
    (split; [apply Nat.leb_le in Hd; apply Nat.leb_le; lia|]); auto;
    try (rewrite ?andb_true_iff in *; intuition auto; fail).
  apply fits_list_forall. apply fits_list_forall in Hf. rewrite Forall_forall in *. auto.
Qed.
Lemma fits_some r : forall ld, exists m, fits m ld r = true.
Proof.
  assert (Hup : forall r ld a b, fits a ld r = true -> (a <= b)%nat -> fits b ld r = true)
    by (intros; eapply fits_mono; eassumption).
  induction r using rcore_ind'; intros ld.
  - exists 1%nat. reflexivity.
  - exists 1%nat. reflexivity.
  - exists 1%nat. reflexivity.
  - exists (S (ld i)). cbn [fits rdepth]. now rewrite Nat.leb_refl.
  - destruct (IHr1 ld) as (a & Ha), (IHr2 ld) as (b & Hb).
    exists (rdepth ld (RLogic op r1 r2) + a + b)%nat. cbn [fits]. apply andb_true_intro.
    split; [apply Nat.leb_le; lia|]. rewrite (Hup r1 ld a), (Hup r2 ld b); auto; lia.
  - destruct (IHr1 ld) as (a & Ha), (IHr2 ld) as (b & Hb), (IHr3 ld) as (c & Hc).
    exists (rdepth ld (RCond r1 r2 r3) + a + b + c)%nat. cbn [fits]. apply andb_true_intro.
    split; [apply Nat.leb_le; lia|]. rewrite (Hup r1 ld a), (Hup r2 ld b), (Hup r3 ld c); auto; lia.
  - destruct (IHr1 ld) as (a & Ha), (IHr2 ld) as (b & Hb).
    exists (rdepth ld (ROr k r1 r2) + a + b)%nat. cbn [fits]. apply andb_true_intro.
    split; [apply Nat.leb_le; lia|]. rewrite (Hup r1 ld a), (Hup r2 ld b); auto; lia.
  - assert (Ha : exists a, fits_list (fits a ld) args = true).
    { induction H as [|x l Hx Hl IH]; [exists 0%nat; reflexivity|].
      destruct (Hx ld) as (a & Ha), IH as (b & Hb). exists (a + b)%nat. cbn [fits_list].
      rewrite (Hup x ld a) by (auto; lia). cbn [andb]. apply fits_list_forall.
      apply fits_list_forall in Hb. eapply Forall_impl; [|exact Hb]. intros y Hy. apply (Hup y ld b); auto; lia. }
    destruct Ha as (a & Ha). exists (rdepth ld (RApp op args) + a)%nat. cbn [fits]. apply andb_true_intro.
    split; [apply Nat.leb_le; lia|]. apply fits_list_forall. apply fits_list_forall in Ha.
    eapply Forall_impl; [|exact Ha]. intros y Hy. apply (Hup y ld a); auto; lia.
  - destruct (IHr1 ld) as (a1 & H1), (IHr2 ld) as (a2 & H2), (IHr3 ld) as (a3 & H3),
      (IHr4 ld) as (a4 & H4), (IHr5 ld) as (a5 & H5).
    exists (rdepth ld (RComp it it2 ac r1 r2 r3 r4 r5) + a1 + a2 + a3 + a4 + a5)%nat.
    cbn [fits]. apply andb_true_intro. split; [apply Nat.leb_le; lia|].
    rewrite (Hup r1 ld a1), (Hup r2 ld a2), (Hup r3 ld a3), (Hup r4 ld a4), (Hup r5 ld a5); auto; lia.
  - destruct (IHr1 ld) as (a & Ha).
    destruct (IHr2 (fun j => if Nat.eqb j i then rdepth ld r1 else ld j)) as (b & Hb).
    exists (rdepth ld (RBind n i r1 r2) + a + b)%nat. cbn [fits]. apply andb_true_intro.
    split; [apply Nat.leb_le; lia|]. rewrite (Hup r1 ld a), (Hup r2 _ b); auto; lia.
Qed.
