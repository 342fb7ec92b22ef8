(* Lemmas about the replacements of the regular expression extension. *)
From Coq Require Import ZArith String List Bool Lia.
From Verif Require Import Base.
From Verif Require Import M_RegexExt S_RegexExt L_RegexExt.
Import ListNotations.
Open Scope list_scope.
Open Scope nat_scope.

Lemma meaning_ext f g l : (forall n, f n = g n) -> meaning f l = meaning g l.
Proof.
  intros h. unfold meaning. induction l as [|k l IH]; cbn; [reflexivity|]. rewrite IH. destruct k; [reflexivity..|]. rewrite h. reflexivity.
Qed.

Lemma matches_det re t p ms : matches re t p ms -> forall ms', matches re t p ms' -> ms = ms'.
Proof.
  induction 1 as [p e|p m ms e n _ IH|p m ms e n l _ IH|p m e n l]; intros ms' h; inversion h; subst; try congruence; try lia.
  - assert (m0 = m) by congruence. subst m0. f_equal. apply IH. assumption.
  - apply IH. assumption.
Qed.

Lemma replace_loop_matches re t r toks count :
  search_ok re -> context_free re -> never_empty re ->
  spells toks r -> groups_in (NumberOfCapturingGroups re) toks ->
  (count <= 2147483647 \/ Z.of_nat (length t) <= 2147483647)%Z ->
  forall fuel p ms out_ rc, p <= length t -> length t - p < fuel -> (0 <= rc <= Z.of_nat p)%Z ->
  matches re t p ms ->
  replace_loop fuel re r count (skipn p t) out_ rc =
  Some (Val (out_ ++ replaced (fun m => meaning (submatch t m) toks) t p (firstn (Z.to_nat (count - rc)) ms))).
Proof.
  intros ok cf ne sp gi big. induction fuel as [|fuel IH]; intros p ms out_ rc hp hf hr hm; [lia|]. cbn [replace_loop].
  destruct (Z.ltb_spec rc count) as [lt|ge]; cbn [negb].
  2:{ replace (Z.to_nat (count - rc)) with 0 by lia. reflexivity. }
  pose proof (cf t p hp) as es.
  destruct (Search re (skipn p t) 0) as [m|] eqn:e; cbn [option_map] in es.
  2:{ inversion hm; subst; try congruence. rewrite firstn_nil. reflexivity. }
  destruct (ok _ _ _ e) as (_ & hw & _ & _). unfold piece_in in hw. rewrite skipn_length in hw.
  pose proof (ne _ _ _ e) as nz.
  rewrite (rewrite_n re r toks _ sp gi).
  destruct (Z.leb_spec 2147483647 rc) as [u|u]; [lia|].
  inversion hm as [? e1|? m' ms' e1 n1 h1|? m' ms' e1 n1|? m' e1 n1]; subst;
    [congruence| |pose proof (ne _ _ _ e1); congruence|pose proof (ne _ _ _ e1); congruence].
  rewrite es in e1. injection e1 as <-.
  assert (en : end_ (shift_match p m) = p + (at_ (whole m) + len (whole m))) by (unfold end_; cbn; lia).
  rewrite skipn_skipn. replace (at_ (whole m) + len (whole m) + p) with (end_ (shift_match p m)) by lia.
  rewrite (IH _ ms' _ (rc + 1)%Z); [|lia|lia|lia|exact h1].
  replace (Z.to_nat (count - rc)) with (S (Z.to_nat (count - (rc + 1)))) by lia.
  cbn [firstn replaced]. do 2 f_equal. rewrite <- !app_assoc. f_equal. f_equal.
  - cbn. f_equal. lia.
  - f_equal. apply meaning_ext. intros n. symmetry. apply submatch_shift.
Qed.

Lemma global_replace_matches re t r toks :
  search_ok re -> never_empty re ->
  spells toks r -> groups_in (NumberOfCapturingGroups re) toks ->
  forall fuel p ms last count out_, p <= length t -> length t - p < fuel -> (count = 0 -> out_ = [] /\ p = 0) ->
  matches re t p ms ->
  global_replace fuel re r t p last count out_ =
  Some (out_ ++ replaced (fun m => meaning (submatch t m) toks) t p ms).
Proof.
  intros ok ne sp gi. induction fuel as [|fuel IH]; intros p ms last count out_ hp hf h0 hm; [lia|]. cbn [global_replace].
  replace (Nat.ltb (length t) p) with false by (symmetry; apply Nat.ltb_ge; lia).
  inversion hm as [? e1|? m ms' e1 n1 h1|? m ms' e1 n1|? m e1 n1]; subst;
    [| |pose proof (ne _ _ _ e1); congruence|pose proof (ne _ _ _ e1); congruence]; rewrite e1.
  - destruct count; [|reflexivity]. destruct (h0 eq_refl) as [-> ->]. reflexivity.
  - replace (Nat.eqb (len (whole m)) 0) with false by (symmetry; apply Nat.eqb_neq; exact n1). rewrite andb_false_r.
    rewrite (rewrite_all re r toks _ sp gi).
    destruct (ok _ _ _ e1) as (hb & hw & _ & _). unfold piece_in in hw.
    change (at_ (whole m) + len (whole m)) with (end_ m). assert (en : end_ m = at_ (whole m) + len (whole m)) by reflexivity.
    rewrite (IH _ ms'); [|lia|lia|discriminate|exact h1]. cbn [replaced]. rewrite <- !app_assoc. reflexivity.
Qed.

(* the loop of GlobalReplace ends for every pattern *)
Lemma global_replace_ends re t r : search_ok re -> forall fuel p last count out_,
  (match last with Some e => e <= p | None => True end) ->
  2 * (S (length t) - p) + (match last with Some e => if Nat.eqb e p then 0 else 1 | None => 1 end) <= fuel -> 0 < fuel ->
  exists x, global_replace fuel re r t p last count out_ = Some x.
Proof.
  intros ok. induction fuel as [|fuel IH]; intros p last count out_ hl hm hf; [lia|]. cbn [global_replace].
  destruct (Nat.ltb_spec (length t) p) as [g|g]; [eexists; reflexivity|].
  destruct (Search re t p) as [m|] eqn:e; [|eexists; reflexivity].
  destruct (ok _ _ _ e) as (hb & hw & _ & _). unfold piece_in in hw.
  destruct (match last with Some e0 => Nat.eqb e0 (at_ (whole m)) | None => false end && Nat.eqb (len (whole m)) 0) eqn:c.
  - apply andb_true_iff in c as [c1 c2]. destruct last as [l|]; [|discriminate]. apply Nat.eqb_eq in c1, c2.
    assert (lp : l = p) by lia. rewrite lp in hm |- *. rewrite Nat.eqb_refl in hm. apply IH; [lia| |lia].
    destruct (Nat.eqb_spec p (S p)); lia.
  - apply IH; [lia| |lia]. rewrite Nat.eqb_refl.
    destruct (Nat.eq_dec (at_ (whole m) + len (whole m)) p) as [ep|np]; [|destruct last as [l|]; [destruct (Nat.eqb l p)|]; lia].
    rewrite ep. destruct last as [l|]; [|lia]. destruct (Nat.eqb_spec l p) as [->|]; [|lia].
    exfalso. assert (at_ (whole m) = p) by lia. assert (len (whole m) = 0) by lia.
    rewrite H, H0, Nat.eqb_refl in c. discriminate.
Qed.

Lemma GlobalReplace_ends re t r : search_ok re -> exists x, GlobalReplace re r t = Some x.
Proof. intros ok. apply global_replace_ends; [exact ok|exact I|lia|lia]. Qed.

(* the loop of ReplaceN gives no error *)
Lemma replace_loop_no_error re r toks count : spells toks r -> groups_in (NumberOfCapturingGroups re) toks ->
  forall fuel t out_ rc s, replace_loop fuel re r count t out_ rc <> Some (Err s).
Proof.
  intros sp gi. induction fuel as [|fuel IH]; intros t out_ rc s; cbn [replace_loop]; [discriminate|].
  destruct (negb _); [discriminate|]. destruct (Search re t 0) as [m|]; [|discriminate].
  rewrite (rewrite_n re r toks _ sp gi). destruct (_ <=? _)%Z; [discriminate|apply IH].
Qed.

(* a pattern that matches the empty text at the start of every text *)
Definition starts_empty (re : RE2) : Prop := forall t, exists m, Search re t 0 = Some m /\ whole m = mkPiece 0 0.

Lemma replace_loop_empty re r toks count : starts_empty re -> spells toks r -> (forall k, ~ In (Group k) toks) ->
  (count <= 2147483647)%Z -> forall k fuel t out_ rc, (count - rc = Z.of_nat k)%Z -> k < fuel -> (0 <= rc)%Z ->
  replace_loop fuel re r count t out_ rc = Some (Val (out_ ++ concat (repeat (meaning (fun _ => []) toks) k) ++ t)).
Proof.
  intros se sp ng hc. assert (gi : groups_in (NumberOfCapturingGroups re) toks) by (intros k i; destruct (ng k i)).
  induction k as [|k IH]; intros [|fuel] t out_ rc hk hf hr; try lia; cbn [replace_loop].
  - destruct (Z.ltb_spec rc count); [lia|]. reflexivity.
  - destruct (Z.ltb_spec rc count); [|lia]. cbn [negb]. destruct (se t) as (m & e & w). rewrite e, (rewrite_n re r toks _ sp gi).
    destruct (Z.leb_spec 2147483647 rc); [lia|]. rewrite w. cbn [at_ len Nat.add skipn firstn].
    rewrite IH by lia. cbn [repeat concat]. rewrite <- !app_assoc. cbn [app].
    replace (meaning (submatch t m) toks) with (meaning (fun _ => []) toks); [reflexivity|].
    unfold meaning. clear - ng. induction toks as [|x l IH]; [reflexivity|]. cbn. rewrite IH by (intros k i; apply (ng k); right; exact i).
    destruct x as [c| |n]; [reflexivity..|]. destruct (ng n). left. reflexivity.
Qed.

Lemma replace_loop_overflow re r toks count : starts_empty re -> spells toks r -> groups_in (NumberOfCapturingGroups re) toks ->
  (2147483647 < count)%Z -> forall k fuel t out_ rc, (2147483647 - rc = Z.of_nat k)%Z -> k < fuel ->
  replace_loop fuel re r count t out_ rc = Some UB.
Proof.
  intros se sp gi hc. induction k as [|k IH]; intros [|fuel] t out_ rc hk hf; try lia; cbn [replace_loop].
  - destruct (Z.ltb_spec rc count); [|lia]. cbn [negb]. destruct (se t) as (m & e & w). rewrite e, (rewrite_n re r toks _ sp gi).
    destruct (Z.leb_spec 2147483647 rc); [reflexivity|lia].
  - destruct (Z.ltb_spec rc count); [|lia]. cbn [negb]. destruct (se t) as (m & e & w). rewrite e, (rewrite_n re r toks _ sp gi).
    destruct (Z.leb_spec 2147483647 rc); [lia|]. apply IH; lia.
Qed.
