(* C34: name resolution in containers.  C48: containers and aliases.
   C49: functions in containers. *)
From Coq Require Import ZArith List Bool String Ascii Lia.
From Verif Require Import Base M_Overflow M_Number M_Attr M_Value M_Logic M_Expr M_Registry M_Namespace.
Import ListNotations.
Local Open Scope string_scope.
Open Scope list_scope.

(* ---- specification ---- *)
(* A segment of a dotted name. *)
Definition no_dot (s : string) : Prop := all_chars (fun c => negb (Ascii.eqb c dot)) s = true.
Definition segment (s : string) : Prop := s <> "" /\ no_dot s.
(* The text s is the dotted name with these segments. *)
Definition path (l : list string) (s : string) : Prop := Forall segment l /\ s = join l.
(* The containers a name in container l may belong to, innermost first. *)
Definition enclosing (l : list string) : list (list string) :=
  map (fun k => firstn k l) (rev (seq 0 (S (List.length l)))).
(* The prefixes of a dotted name with at least lo segments, longest first, with
   the index of their last segment. *)
Definition leading (l : list string) : list (list string * nat) :=
  map (fun k => (firstn (S k) l, k)) (rev (seq 0 (List.length l))).
(* What a caller sees that stops at the first candidate it accepts: stops x
   means it does not want another. *)
Fixpoint offered {A} (more : A -> bool) (l : list A) : list A :=
  match l with
  | [] => []
  | x :: l' => x :: if more x then offered more l' else []
  end.

(* ---- text ---- *)
Lemma sapp_assoc (a b c : string) : (((a ++ b) ++ c) = a ++ (b ++ c))%string.
Proof. induction a; cbn; congruence. Qed.
Lemma sapp_nil (a : string) : (a ++ "")%string = a.
Proof. induction a; cbn; congruence. Qed.
Lemma join_cons a b l : join (a :: b :: l) = (a ++ "." ++ join (b :: l))%string.
Proof. reflexivity. Qed.
Lemma join_app l l' : l <> [] -> l' <> [] -> join (l ++ l') = (join l ++ "." ++ join l')%string.
Proof.
  intros Hl Hl'. induction l as [|a l IH]; [contradiction|]. destruct l as [|b l].
  - destruct l' as [|c l']; [contradiction|]. reflexivity.
  - cbn [app] in *. rewrite !join_cons, IH by discriminate. now rewrite !sapp_assoc.
Qed.
Lemma start_dot s : starts_dot ("." ++ s)%string = true. Proof. reflexivity. Qed.
Lemma tail_dot s : tail_of ("." ++ s)%string = s. Proof. reflexivity. Qed.
Lemma cut_no_dot a : no_dot a -> cut a = None.
Proof.
  unfold no_dot. induction a as [|c a IH]; intros H; [reflexivity|]. cbn in H |- *. apply andb_true_iff in H as [Hc H].
  apply negb_true_iff in Hc. rewrite Hc, IH by exact H. reflexivity.
Qed.
Lemma cut_app a b : no_dot a -> cut (a ++ "." ++ b)%string = Some (a, b).
Proof.
  unfold no_dot. induction a as [|c a IH]; intros H; [reflexivity|]. cbn in H. apply andb_true_iff in H as [Hc H].
  apply negb_true_iff in Hc. cbn. rewrite Hc. cbn in IH. rewrite IH by exact H. reflexivity.
Qed.
Lemma split_ne s : split s <> [].
Proof. destruct s as [|c s]; cbn; [discriminate|]. destruct (Ascii.eqb c dot); [discriminate|]. destruct (split s); discriminate. Qed.
Lemma split_no_dot a : no_dot a -> split a = [a].
Proof.
  unfold no_dot. induction a as [|c a IH]; intros H; [reflexivity|]. cbn in H |- *. apply andb_true_iff in H as [Hc H].
  apply negb_true_iff in Hc. rewrite Hc, IH by exact H. reflexivity.
Qed.
Lemma split_app a b : no_dot a -> split (a ++ "." ++ b)%string = a :: split b.
Proof.
  unfold no_dot. induction a as [|c a IH]; intros H; [reflexivity|]. cbn in H. apply andb_true_iff in H as [Hc H].
  apply negb_true_iff in Hc. cbn. rewrite Hc. cbn in IH. rewrite IH by exact H. reflexivity.
Qed.
Lemma split_join l : Forall no_dot l -> l <> [] -> split (join l) = l.
Proof.
  induction l as [|a l IH]; intros H Hn; [contradiction|]. apply Forall_cons_iff in H as [Ha H].
  destruct l as [|b l]; [now apply split_no_dot|]. rewrite join_cons, split_app by exact Ha. f_equal. apply IH; auto. discriminate.
Qed.
Lemma join_split s : join (split s) = s.
Proof.
  induction s as [|c s IH]; [reflexivity|]. cbn. pose proof (split_ne s) as N.
  destruct (Ascii.eqb_spec c dot) as [->|_].
  - destruct (split s) as [|h t]; [contradiction|]. rewrite join_cons, IH. reflexivity.
  - destruct (split s) as [|h t]; [contradiction|]. destruct t; cbn in *; congruence.
Qed.
Lemma split_dots s : Forall no_dot (split s).
Proof.
  induction s as [|c s IH]; [now repeat constructor|]. cbn. destruct (Ascii.eqb c dot) eqn:E.
  - constructor; auto. reflexivity.
  - destruct (split s) as [|h t]; [repeat constructor; unfold no_dot; cbn; now rewrite E|].
    apply Forall_cons_iff in IH as [Hh Ht]. constructor; auto. unfold no_dot in *. cbn. now rewrite E, Hh.
Qed.
Lemma segment_no_dot l : Forall segment l -> Forall no_dot l.
Proof. intros H. eapply Forall_impl; [|exact H]. intros a [_ Ha]. exact Ha. Qed.
Lemma segment_start a s : segment a -> starts_dot (a ++ s)%string = false.
Proof.
  intros [Hn Hd]. destruct a as [|c a]; [contradiction|]. unfold no_dot in Hd. cbn in Hd |- *.
  apply andb_true_iff in Hd as [Hc _]. now apply negb_true_iff in Hc.
Qed.
Lemma join_start l : Forall segment l -> starts_dot (join l) = false.
Proof.
  intros H. destruct l as [|a [|b l]]; [reflexivity|..]; apply Forall_cons_iff in H as [Ha H].
  - cbn [join String.concat]. rewrite <- (sapp_nil a). now apply segment_start.
  - rewrite join_cons. now apply segment_start.
Qed.
Lemma join_empty l : Forall segment l -> String.eqb (join l) "" = match l with [] => true | _ => false end.
Proof.
  intros H. destruct l as [|a [|b l]]; [reflexivity|..]; apply Forall_cons_iff in H as [[Ha _] H];
    (destruct a; [contradiction|]); reflexivity.
Qed.

(* ---- prefixes ---- *)
Lemma firstn_seq_app {A} (pre : list A) x l n :
  map (fun k => pre ++ firstn k (x :: l)) (seq 1 (S n)) =
  (pre ++ [x]) :: map (fun k => (pre ++ [x]) ++ firstn k l) (seq 1 n).
Proof.
  cbn [seq map]. f_equal. rewrite <- seq_shift, map_map. apply map_ext. intros k.
  cbn [firstn]. rewrite <- app_assoc. reflexivity.
Qed.
Lemma prefixes_fold l : Forall segment l -> forall pre acc, Forall segment pre ->
  fold_left (fun st segment =>
     let prefix := if String.eqb (fst st) "" then segment else (fst st ++ "." ++ segment)%string in
     (prefix, (snd st ++ [prefix])%list)) l (join pre, acc) =
  (join (pre ++ l), (acc ++ map (fun k => join (pre ++ firstn k l)) (seq 1 (List.length l)))%list).
Proof.
  induction l as [|a l IH]; intros Hl pre acc Hp; [cbn; now rewrite !app_nil_r|].
  apply Forall_cons_iff in Hl as [Ha Hl]. cbn [fold_left fst snd].
  assert (E : (if String.eqb (join pre) "" then a else (join pre ++ "." ++ a)%string) = join (pre ++ [a])).
  { rewrite join_empty by exact Hp. destruct pre as [|b pre]; [reflexivity|].
    rewrite join_app by discriminate. reflexivity. }
  cbn zeta. rewrite E. rewrite IH; auto.
  - cbn [List.length]. rewrite <- !app_assoc. cbn [app].
    f_equal. f_equal.
    rewrite <- (map_map (fun k => pre ++ firstn k (a :: l)) join), firstn_seq_app. cbn [map]. f_equal. now rewrite map_map.
  - apply Forall_app. auto.
Qed.
Lemma prefixes_spec l : Forall segment l ->
  namespace_prefixes (join l) = map (fun k => join (firstn k l)) (rev (seq 1 (List.length l))).
Proof.
  intros H. unfold namespace_prefixes. rewrite join_empty by exact H. destruct l as [|a l]; [reflexivity|].
  rewrite split_join by (auto using segment_no_dot || discriminate).
  pose proof (prefixes_fold _ H [] [] (Forall_nil _)) as E. cbn [join String.concat app] in E.
  unfold string_rec in E. rewrite E. cbn [snd]. now rewrite map_rev.
Qed.
Lemma enclosing_split l : enclosing l = map (fun k => firstn k l) (rev (seq 1 (List.length l))) ++ [[]].
Proof.
  unfold enclosing. cbn [seq]. change (rev (0%nat :: seq 1 (List.length l))) with (rev (seq 1 (List.length l)) ++ [0%nat]).
  rewrite map_app. reflexivity.
Qed.

Lemma find_alias_in l a n : NoDup (map fst l) -> In (a, n) l -> find_alias l a = Some n.
Proof.
  unfold find_alias. induction l as [|[b m] l IH]; intros Hn Hi; [contradiction|]. cbn [map fst] in Hn. inversion Hn; subst.
  cbn [List.find fst]. destruct Hi as [E|Hi].
  - injection E as -> ->. now rewrite String.eqb_refl.
  - destruct (String.eqb_spec b a) as [->|_]; [|now apply IH]. destruct H1. apply in_map_iff. exists (a, n). auto.
Qed.
Lemma find_alias_none l a : ~ In a (map fst l) -> find_alias l a = None.
Proof.
  unfold find_alias. induction l as [|[b m] l IH]; intros Hi; [reflexivity|]. cbn [List.find fst map] in *.
  destruct (String.eqb_spec b a) as [->|_]; [destruct Hi; now left|]. apply IH. intros Hx. apply Hi. now right.
Qed.
Lemma find_alias_some l a n : find_alias l a = Some n -> In (a, n) l.
Proof.
  unfold find_alias. induction l as [|[b m] l IH]; cbn [List.find fst]; [discriminate|].
  destruct (String.eqb_spec b a) as [->|_]; cbn.
  - intros E. injection E as ->. now left.
  - intros E. right. apply IH. exact E.
Qed.

(* ---- C48: containers and aliases ---- *)
Lemma identifier_segment s : LexisIsIdentifier s = true -> segment s.
Proof.
  destruct s as [|c s]; [discriminate|]. unfold LexisIsIdentifier. intros H. split; [discriminate|].
  destruct (negb (ascii_isalpha c) && negb (Ascii.eqb c "_")) eqn:E1; [discriminate|].
  destruct (negb (all_chars _ s)) eqn:E2; [discriminate|]. clear H. apply negb_false_iff in E2.
  assert (D : forall c, ascii_isalnum c || Ascii.eqb c "_" = true -> negb (Ascii.eqb c dot) = true).
  { intros d Hd. destruct (Ascii.eqb_spec d dot) as [->|]; [|reflexivity]. vm_compute in Hd. discriminate. }
  unfold no_dot. cbn. apply andb_true_intro. split.
  - apply D. unfold ascii_isalnum. destruct (ascii_isalpha c); [reflexivity|]. cbn in E1. apply negb_false_iff in E1.
    rewrite E1. apply orb_true_r.
  - clear - E2 D. induction s as [|d s IH]; [reflexivity|]. cbn in *. apply andb_true_iff in E2 as [Hd Hs].
    rewrite D, IH; auto.
Qed.
Lemma cut_split s : split s = match cut s with Some (a, b) => a :: split b | None => [s] end.
Proof.
  induction s as [|c s IH]; [reflexivity|]. cbn. destruct (Ascii.eqb c dot); [reflexivity|].
  rewrite IH. destruct (cut s) as [[a b]|]; reflexivity.
Qed.
Lemma cut_length s a b : cut s = Some (a, b) -> (String.length b < String.length s)%nat.
Proof.
  revert a b. induction s as [|c s IH]; intros a b; cbn; [discriminate|]. destruct (Ascii.eqb c dot).
  - intros E. injection E as <- <-. lia.
  - destruct (cut s) as [[x y]|] eqn:E; [|discriminate]. intros H. injection H as <- <-. specialize (IH _ _ eq_refl). lia.
Qed.
Lemma valid_name_spec s : IsValidQualifiedName s = forallb LexisIsIdentifier (split s).
Proof.
  unfold IsValidQualifiedName.
  assert (G : forall n s, (String.length s < n)%nat -> IsValidQualifiedName_loop n s = forallb LexisIsIdentifier (split s)).
  { clear. induction n as [|n IH]; intros s H; [lia|]. cbn [IsValidQualifiedName_loop]. rewrite cut_split.
    destruct (cut s) as [[a b]|] eqn:E; cbn [forallb].
    - destruct (LexisIsIdentifier a); cbn; [|reflexivity]. apply IH. pose proof (cut_length _ _ _ E). lia.
    - now rewrite andb_true_r. }
  apply G. lia.
Qed.
(* A valid name is a non-empty sequence of identifiers. *)
Definition qualified_name (s : string) : Prop :=
  exists l, l <> [] /\ Forall (fun x => LexisIsIdentifier x = true) l /\ s = join l.
Lemma valid_name s : IsValidQualifiedName s = true <-> qualified_name s.
Proof.
  rewrite valid_name_spec, forallb_forall. split.
  - intros H. exists (split s). split; [apply split_ne|]. split; [now apply Forall_forall|]. symmetry. apply join_split.
  - intros (l & Hn & Hl & ->). rewrite split_join; [now apply Forall_forall|..|exact Hn].
    eapply Forall_impl; [|exact Hl]. intros a Ha. now apply identifier_segment.
Qed.
Lemma starts_with_spec p s r : starts_with p s = Some r <-> s = (p ++ r)%string.
Proof.
  revert s. induction p as [|a p IH]; intros s; cbn.
  - split; congruence.
  - destruct s as [|b s]; [split; discriminate|]. destruct (Ascii.eqb_spec a b) as [->|N].
    + rewrite IH. split; congruence.
    + split; congruence.
Qed.
Lemma collides_spec name alias : segment alias ->
  collides name alias = true <-> hd "" (split name) = alias.
Proof.
  intros [Hn Hd]. unfold collides. rewrite orb_true_iff, String.eqb_eq. split.
  - intros [->|H]; [now rewrite split_no_dot|].
    destruct (starts_with alias name) as [[|c r]|] eqn:E; try discriminate.
    apply starts_with_spec in E. apply Ascii.eqb_eq in H. subst. change (alias ++ String dot r)%string with (alias ++ "." ++ r)%string.
    now rewrite split_app.
  - intros H. rewrite cut_split in H. destruct (cut name) as [[a b]|] eqn:E; cbn in H; [|left; exact H].
    right. subst a. assert (G : name = (alias ++ String dot b)%string).
    { clear - E. revert alias b E. induction name as [|c s IH]; intros a b; cbn; [discriminate|].
      destruct (Ascii.eqb_spec c dot) as [->|]; [intros E; injection E as <- <-; reflexivity|].
      destruct (cut s) as [[x y]|]; [|discriminate]. intros E. injection E as <- <-. cbn. f_equal. now apply IH. }
    apply starts_with_spec in G. rewrite G. reflexivity.
Qed.

(* What holds of every container. *)
Definition well_formed (E : container) : Prop :=
  (ec_name E = "" \/ qualified_name (ec_name E)) /\
  Forall (fun x => LexisIsIdentifier (fst x) = true /\ qualified_name (snd x)) (ec_aliases E) /\
  NoDup (map fst (ec_aliases E)) /\
  forall a full cs, In (a, full) (ec_aliases E) -> path cs (ec_name E) -> hd_error cs <> Some a.
Lemma path_split cs s : path cs s -> cs <> [] -> split s = cs.
Proof. intros [H ->] N. apply split_join; auto using segment_no_dot. Qed.
Lemma alias_ok E a n : well_formed E -> snd (AddAlias E a n) = E \/
  (fst (AddAlias E a n) = None /\ snd (AddAlias E a n) = mkContainer (ec_name E) ((a, n) :: ec_aliases E) /\
   well_formed (snd (AddAlias E a n))).
Proof.
  intros (W1 & W2 & W3 & W4). unfold AddAlias.
  destruct (negb (LexisIsIdentifier a)) eqn:Ha; [now left|].
  destruct (negb (IsValidQualifiedName n)) eqn:Hq; [now left|].
  destruct (find_alias (ec_aliases E) a) eqn:Hf; [now left|].
  destruct (collides (ec_name E) a) eqn:Hc; [now left|].
  right. split; [reflexivity|]. split; [reflexivity|]. cbn [snd].
  apply negb_false_iff in Ha, Hq. apply valid_name in Hq.
  split; [exact W1|]. split; [constructor; auto|]. split.
  - cbn. constructor; auto. intros Hi. apply in_map_iff in Hi as ([b m] & Eb & Hi). cbn in Eb. subst b.
    rewrite (find_alias_in _ _ _ W3 Hi) in Hf. discriminate.
  - intros b full cs Hi Hp. cbn in Hi. destruct Hi as [Eb|Hi].
    + injection Eb as <- <-. intros Hd. destruct cs as [|c cs]; [discriminate|]. cbn in Hd. injection Hd as ->.
      assert (collides (ec_name E) a = true); [|congruence].
      apply collides_spec; [now apply identifier_segment|]. cbn in Hp. rewrite (path_split _ _ Hp) by discriminate. reflexivity.
    + eapply W4; eauto.
Qed.
Lemma step_well_formed E o : well_formed E -> well_formed (snd (container_step E o)).
Proof.
  intros W. pose proof W as (W1 & W2 & W3 & W4). destruct o as [n|a n|a|]; cbn [container_step].
  - unfold SetContainer. destruct (String.eqb_spec n "") as [->|Hn].
    + split; [now left|]. split; [exact W2|]. split; [exact W3|].
      intros a full cs Hi [Hs E1] Hd. destruct cs as [|c cs]; [discriminate|].
      pose proof (join_empty _ Hs) as J. cbn [ec_name] in E1. rewrite <- E1 in J. discriminate.
    + destruct (negb (IsValidQualifiedName n)) eqn:Hq; [exact W|].
      destruct (existsb _ _) eqn:Hc; [exact W|]. apply negb_false_iff, valid_name in Hq.
      split; [now right|]. split; [exact W2|]. split; [exact W3|].
      intros a full cs Hi Hp Hd. destruct cs as [|c cs]; [discriminate|]. cbn in Hd. injection Hd as ->.
      assert (existsb (fun x => collides n (fst x)) (ec_aliases E) = true); [|congruence].
      apply existsb_exists. exists (a, full). split; [exact Hi|]. cbn [fst]. apply collides_spec.
      * rewrite Forall_forall in W2. apply identifier_segment. exact (proj1 (W2 _ Hi)).
      * cbn in Hp. rewrite (path_split _ _ Hp) by discriminate. reflexivity.
  - destruct (alias_ok E a n W) as [H|(_ & _ & H)]; [now rewrite H|exact H].
  - unfold AddAbbreviation. destruct (negb _); [exact W|]. destruct (rcut _) as [[p q]|]; [|exact W].
    destruct p; [exact W|]. destruct q; [exact W|].
    destruct (alias_ok E (String a1 q) (strip_right (strip_left a)) W) as [H|(_ & _ & H)]; [now rewrite H|exact H].
  - split; [now left|]. split; [constructor|]. split; [constructor|]. intros ? ? ? [].
Qed.
(* Every history of calls leaves a well-formed container. *)
Theorem C48_well_formed : forall ops, well_formed (container_after ops).
Proof.
  intros ops. unfold container_after.
  assert (G : forall E, well_formed E -> well_formed (fold_left (fun E o => snd (container_step E o)) ops E)).
  { induction ops as [|o ops IH]; intros E HE; [exact HE|]. cbn [fold_left]. apply IH, step_well_formed, HE. }
  apply G. split; [now left|]. split; [constructor|]. split; [constructor|]. intros ? ? ? [].
Qed.
Print Assumptions C48_well_formed.

Definition failed_unchanged (E : container) (r : option status * container) : Prop := fst r <> None -> snd r = E.
(* A name may become the container exactly when it is empty, or valid and not
   within an alias; a failed call changes nothing. *)
Theorem C48_set_container : forall ops n, let E := container_after ops in
  (fst (SetContainer E n) = None <->
   n = "" \/ (qualified_name n /\ forall cs a full, path cs n -> In (a, full) (ec_aliases E) -> hd_error cs <> Some a)) /\
  (fst (SetContainer E n) = None -> snd (SetContainer E n) = mkContainer n (ec_aliases E)) /\
  failed_unchanged E (SetContainer E n).
Proof.
  intros ops n E. pose proof (C48_well_formed ops) as (W1 & W2 & W3 & W4). fold E in W1, W2, W3, W4.
  unfold SetContainer, failed_unchanged. destruct (String.eqb_spec n "") as [->|Hn].
  { cbn. split; [|split; congruence]. split; auto. }
  destruct (negb (IsValidQualifiedName n)) eqn:Hq.
  { cbn. split; [|split; congruence]. split; [discriminate|]. intros [H|[H _]]; [contradiction|].
    apply valid_name in H. rewrite H in Hq. discriminate. }
  apply negb_false_iff, valid_name in Hq.
  destruct (existsb _ _) eqn:Hc; cbn [fst snd].
  - split; [|split; congruence]. split; [discriminate|]. intros [H|[_ H]]; [contradiction|]. exfalso.
    apply existsb_exists in Hc as ([a full] & Hi & Hc). cbn [fst] in Hc.
    rewrite Forall_forall in W2. pose proof (proj1 (W2 _ Hi)) as Ha. cbn in Ha. apply identifier_segment in Ha.
    apply (proj1 (collides_spec n a Ha)) in Hc. destruct Hq as (l & Hl & Hi' & ->).
    assert (Hs : Forall segment l) by (eapply Forall_impl; [|exact Hi']; intros; now apply identifier_segment).
    rewrite split_join in Hc by auto using segment_no_dot.
    apply (H l a full); [now split|exact Hi|]. destruct l; [contradiction|]. cbn in *. congruence.
  - split; [|split; congruence]. split; [|reflexivity]. intros _. right. split; [exact Hq|].
    intros cs a full Hp Hi Hd. destruct cs as [|c cs]; [discriminate|]. cbn in Hd. injection Hd as ->.
    assert (existsb (fun x => collides n (fst x)) (ec_aliases E) = true); [|congruence].
    apply existsb_exists. exists (a, full). split; [exact Hi|]. cbn [fst]. apply collides_spec.
    + rewrite Forall_forall in W2. apply identifier_segment. exact (proj1 (W2 _ Hi)).
    + rewrite (path_split _ _ Hp) by discriminate. reflexivity.
Qed.
Print Assumptions C48_set_container.
(* An alias may be added exactly when it is an identifier, its target a valid
   name, it is new, and it is not the first segment of the container. *)
Theorem C48_add_alias : forall ops a n, let E := container_after ops in
  (fst (AddAlias E a n) = None <->
   LexisIsIdentifier a = true /\ qualified_name n /\ ~ In a (map fst (ec_aliases E)) /\
   forall cs, path cs (ec_name E) -> hd_error cs <> Some a) /\
  (fst (AddAlias E a n) = None -> ec_name (snd (AddAlias E a n)) = ec_name E /\
     forall b, FindAlias (snd (AddAlias E a n)) b = if String.eqb a b then n else FindAlias E b) /\
  failed_unchanged E (AddAlias E a n).
Proof.
  intros ops a n E. pose proof (C48_well_formed ops) as W. fold E in W. pose proof W as (W1 & W2 & W3 & W4).
  split; [|split].
  - split.
    + intros H. destruct (alias_ok E a n W) as [H0|(_ & E1 & W')].
      { exfalso. revert H H0. unfold AddAlias.
        destruct (negb _); [discriminate|]. destruct (negb _); [discriminate|].
        destruct (find_alias _ _); [discriminate|]. destruct (collides _ _); [discriminate|].
        cbn. intros _ H. apply (f_equal (fun c => List.length (ec_aliases c))) in H. cbn in H. lia. }
      rewrite E1 in W'. destruct W' as (_ & V2 & V3 & V4). cbn in V2, V3.
      apply Forall_cons_iff in V2 as [[A1 A2] _]. split; [exact A1|]. split; [exact A2|].
      inversion V3; subst. split; [assumption|]. intros cs Hp. apply (V4 a n cs); [now left|exact Hp].
    + intros (Ha & Hq & Hi & Hc). unfold AddAlias. rewrite Ha. apply valid_name in Hq. rewrite Hq. cbn.
      rewrite find_alias_none by exact Hi. destruct (collides (ec_name E) a) eqn:C; [|reflexivity]. exfalso.
      apply collides_spec in C; [|now apply identifier_segment].
      destruct W1 as [W1|(l & Hl & Hil & El)].
      * rewrite W1 in C. cbn in C. subst a. discriminate.
      * assert (Hs : Forall segment l) by (eapply Forall_impl; [|exact Hil]; intros; now apply identifier_segment).
        rewrite El, split_join in C by auto using segment_no_dot. apply (Hc l); [now split|]. destruct l; [contradiction|].
        cbn in *. congruence.
  - intros H. destruct (alias_ok E a n W) as [H0|(_ & E1 & W')].
    + exfalso. revert H H0. unfold AddAlias.
      destruct (negb _); [discriminate|]. destruct (negb _); [discriminate|].
      destruct (find_alias _ _); [discriminate|]. destruct (collides _ _); [discriminate|].
      cbn. intros _ H. apply (f_equal (fun c => List.length (ec_aliases c))) in H. cbn in H. lia.
    + rewrite E1. split; [reflexivity|]. intros b. unfold FindAlias, find_alias. cbn. destruct (String.eqb_spec a b); reflexivity.
  - unfold failed_unchanged, AddAlias.
    destruct (negb _); [reflexivity|]. destruct (negb _); [reflexivity|].
    destruct (find_alias _ _); [reflexivity|]. destruct (collides _ _); [reflexivity|]. cbn. congruence.
Qed.
Print Assumptions C48_add_alias.
Lemma rcut_none s : no_dot s -> rcut s = None.
Proof.
  unfold no_dot. induction s as [|c s IH]; intros H; [reflexivity|]. cbn in *. apply andb_true_iff in H as [Hc H].
  rewrite IH by exact H. apply negb_true_iff in Hc. now rewrite Hc.
Qed.
Lemma rcut_app p a : no_dot a -> rcut (p ++ "." ++ a)%string = Some (p, a).
Proof.
  intros H. induction p as [|c p IH]; cbn.
  - now rewrite rcut_none.
  - cbn in IH. now rewrite IH.
Qed.
(* An abbreviation is an alias named after the last segment; it needs at least
   two segments. *)
Theorem C48_abbreviation : forall E text l a, strip_right (strip_left text) = join (l ++ [a]) ->
  Forall (fun x => LexisIsIdentifier x = true) (l ++ [a]) ->
  AddAbbreviation E text =
  match l with [] => (Some invalid_name, E) | _ => AddAlias E a (join (l ++ [a])) end.
Proof.
  intros E text l a Et Hl. unfold AddAbbreviation. rewrite Et.
  assert (V : IsValidQualifiedName (join (l ++ [a])) = true).
  { apply valid_name. exists (l ++ [a]). split; [destruct l; discriminate|]. auto. }
  rewrite V. cbn [negb].
  apply Forall_app in Hl as [Hl Ha]. apply Forall_cons_iff in Ha as [Ha _]. apply identifier_segment in Ha.
  destruct l as [|b l].
  - cbn [app join String.concat]. rewrite rcut_none by apply Ha. reflexivity.
  - rewrite join_app by discriminate. change (join [a]) with a. rewrite rcut_app by apply Ha.
    apply Forall_cons_iff in Hl as [Hb Hl]. apply identifier_segment in Hb.
    destruct a as [|c a]; [destruct Ha; contradiction|].
    destruct (join (b :: l)) eqn:J; [|reflexivity]. exfalso.
    destruct b; [destruct Hb; contradiction|]. destruct l; discriminate.
Qed.
Print Assumptions C48_abbreviation.
Example C48_ex : let E := container_after [OpSetContainer "a.b"; OpAddAbbreviation " x.y.Z "; OpAddAlias "a" "q"; OpAddAlias "w" "q.r"] in
  E = mkContainer "a.b" [("w", "q.r"); ("Z", "x.y.Z")] /\ fst (AddAlias E "a" "q") <> None /\
  fst (SetContainer E "Z.k") <> None /\ fst (SetContainer E "c.in") <> None.
Proof. vm_compute. repeat split; discriminate. Qed.

(* ---- C34 ---- *)
Lemma alias_none E a : ~ In a (map fst (ec_aliases E)) -> FindAlias E a = "".
Proof. intros H. unfold FindAlias. now rewrite find_alias_none. Qed.
Lemma qualified_path s : qualified_name s -> exists l, l <> [] /\ path l s.
Proof.
  intros (l & Hn & Hl & ->). exists l. split; [exact Hn|]. split; [|reflexivity].
  eapply Forall_impl; [|exact Hl]. intros; now apply identifier_segment.
Qed.
Lemma alias_found ops a full : In (a, full) (ec_aliases (container_after ops)) ->
  FindAlias (container_after ops) a = full /\ String.eqb full "" = false.
Proof.
  intros Hi. destruct (C48_well_formed ops) as (_ & W2 & W3 & _). unfold FindAlias. rewrite (find_alias_in _ _ _ W3 Hi).
  split; [reflexivity|]. rewrite Forall_forall in W2. destruct (W2 _ Hi) as [_ Q]. cbn in Q.
  destruct (qualified_path _ Q) as (l & Hn & Hl & ->). rewrite join_empty by exact Hl. destruct l; congruence.
Qed.
Lemma offered_map {A B} (f : A -> B) more l :
  offered more (map f l) = map f (offered (fun x => more (f x)) l).
Proof. induction l as [|a l IH]; [reflexivity|]. cbn. rewrite IH. destruct (more (f a)); reflexivity. Qed.

(* the loop over the containers *)
Lemma simple_loop (cb : string -> bool) n prefixes :
  container_loop cb n prefixes = offered cb (map (fun p => (p ++ "." ++ n)%string) prefixes ++ [n]).
Proof.
  induction prefixes as [|p l IH]; [cbn; now destruct (cb n)|]. cbn [map app offered container_loop]. rewrite IH. reflexivity.
Qed.
Lemma first_segment n0 ns name : path (n0 :: ns) name ->
  cut name = match ns with [] => None | _ => Some (n0, join ns) end.
Proof.
  intros [H ->]. apply Forall_cons_iff in H as [[_ H0] _]. destruct ns as [|n1 ns].
  - now apply cut_no_dot.
  - rewrite join_cons. now apply cut_app.
Qed.
Lemma path_start l s : path l s -> starts_dot s = false.
Proof. intros [H ->]. now apply join_start. Qed.

(* Without an alias: every enclosing container, innermost first, until the
   caller accepts. *)
Theorem C34_containers : forall ops cs n0 ns name more, let E := container_after ops in
  path cs (ec_name E) -> path (n0 :: ns) name -> ~ In n0 (map fst (ec_aliases E)) ->
  GenerateCandidates E name more =
  offered more (map (fun container => join (container ++ n0 :: ns)) (enclosing cs)).
Proof.
  intros ops cs n0 ns name more E Hc Hn Ha. unfold GenerateCandidates.
  rewrite (path_start _ _ Hn), (first_segment _ _ _ Hn). cbv zeta.
  assert (G : forall T (x : T) y, (if negb (String.eqb (FindAlias E n0) "") then x else y) = y)
    by (intros; rewrite alias_none by exact Ha; reflexivity).
  rewrite simple_loop. destruct Hc as [Hc Ec]. rewrite Ec, prefixes_spec, enclosing_split, map_map, !map_app by exact Hc.
  destruct Hn as [Hn En]. cbn [map app]. rewrite <- En.
  assert (Q : map (fun x => (join (firstn x cs) ++ "." ++ name)%string) (rev (seq 1 (List.length cs))) =
              map (fun c => join (c ++ n0 :: ns)) (map (fun k => firstn k cs) (rev (seq 1 (List.length cs))))).
  { rewrite map_map. apply map_ext_in. intros k Hk. apply in_rev, in_seq in Hk. rewrite join_app, En; [reflexivity| |discriminate].
    destruct cs; [cbn in Hk; lia|]. destruct k; [lia|discriminate]. }
  rewrite Q. destruct ns as [|n1 ns]; [|apply G].
  change (join [n0]) with n0 in En. rewrite En at 1. apply G.
Qed.
Print Assumptions C34_containers.
(* Each candidate occurs once. *)
Lemma length_app_s a b : String.length (a ++ b)%string = (String.length a + String.length b)%nat.
Proof. induction a; cbn; lia. Qed.
Lemma join_longer l l' : Forall segment l -> l <> [] -> l' <> [] ->
  (String.length (join l') < String.length (join (l ++ l')))%nat.
Proof. intros H H1 H2. rewrite join_app by assumption. rewrite !length_app_s. cbn. lia. Qed.
Theorem C34_once : forall cs n0 ns, Forall segment cs ->
  NoDup (map (fun container => join (container ++ n0 :: ns)) (enclosing cs)).
Proof.
  intros cs n0 ns Hc. unfold enclosing. rewrite map_map.
  assert (L : forall j k, (j < k <= List.length cs)%nat ->
    (String.length (join (firstn j cs ++ n0 :: ns)) < String.length (join (firstn k cs ++ n0 :: ns)))%nat).
  { clear - Hc. induction cs as [|c cs IH]; intros j k H; [cbn in H; lia|].
    apply Forall_cons_iff in Hc as [H0 Hc]. destruct k as [|k]; [lia|]. cbn [List.length] in H. cbn [firstn app].
    destruct j as [|j]; cbn [firstn app].
    - apply (join_longer (c :: firstn k cs)); [|discriminate|discriminate]. constructor; [exact H0|].
      clear - Hc. revert k. induction Hc; intros [|k]; cbn; auto.
    - specialize (IH Hc j k ltac:(lia)).
      assert (E : forall i, exists b l, firstn i cs ++ n0 :: ns = b :: l) by (intros i; destruct (firstn i cs); cbn; eauto).
      destruct (E j) as (b & l & Ej), (E k) as (b' & l' & Ek). rewrite Ej, Ek in *. rewrite !join_cons, !length_app_s. lia. }
  rewrite map_rev. apply NoDup_rev.
  assert (G : forall s n, (s + n <= S (List.length cs))%nat ->
    NoDup (map (fun x => join (firstn x cs ++ n0 :: ns)) (seq s n))).
  { intros s n. revert s. induction n as [|n IH]; intros s H; [constructor|]. cbn [seq map]. constructor; [|apply IH; lia].
    intros Hi. apply in_map_iff in Hi as (k & Ek & Hk). apply in_seq in Hk. specialize (L s k ltac:(lia)). rewrite Ek in L. lia. }
  apply G. lia.
Qed.
Print Assumptions C34_once.
(* A leading dot: the root only. *)
Theorem C34_root : forall ops n0 ns name more, let E := container_after ops in
  path (n0 :: ns) name -> ~ In n0 (map fst (ec_aliases E)) ->
  GenerateCandidates E ("." ++ name)%string more = [name].
Proof.
  intros ops n0 ns name more E Hn Ha. unfold GenerateCandidates. rewrite start_dot, tail_dot.
  cbv zeta. rewrite (first_segment _ _ _ Hn). destruct Hn as [Hn En].
  destruct ns; [change (join [n0]) with n0 in En; rewrite <- En in *|]; rewrite alias_none by assumption; reflexivity.
Qed.
Print Assumptions C34_root.
(* An alias replaces the first segment, with or without a leading dot, and
   nothing else is tried. *)
Theorem C34_alias : forall ops n0 ns name full more, let E := container_after ops in
  path (n0 :: ns) name -> In (n0, full) (ec_aliases E) ->
  GenerateCandidates E name more = [join (full :: ns)] /\
  GenerateCandidates E ("." ++ name)%string more = [join (full :: ns)].
Proof.
  intros ops n0 ns name full more E Hn Ha. destruct (alias_found ops n0 full Ha) as [Fa Na]. fold E in Fa.
  unfold GenerateCandidates. rewrite (path_start _ _ Hn). rewrite start_dot, tail_dot.
  cbv zeta. rewrite (first_segment _ _ _ Hn). destruct Hn as [Hn En].
  destruct ns.
  - change (join [n0]) with n0 in En. rewrite En, Fa, Na. split; reflexivity.
  - rewrite Fa, Na. split; reflexivity.
Qed.
Print Assumptions C34_alias.

(* ---- dotted names ---- *)
Lemma visit_offered {A} (cb : A -> bool) x (l : list A) k : fst k = offered cb l ->
  fst (visit cb x k) = offered cb (x :: l).
Proof. intros H. unfold visit. cbn [offered]. destruct (cb x); cbn; congruence. Qed.
Definition goes_on {A} (cb : A -> bool) (l : list A) : bool := forallb cb l.
Lemma offered_app {A} (cb : A -> bool) l l' :
  offered cb (l ++ l') = if goes_on cb l then l ++ offered cb l' else offered cb l.
Proof. unfold goes_on. induction l as [|a l IH]; [reflexivity|]. cbn. rewrite IH. destruct (cb a), (forallb cb l); reflexivity. Qed.
Lemma offered_all {A} (cb : A -> bool) l : goes_on cb l = true -> offered cb l = l.
Proof. unfold goes_on. induction l as [|a l IH]; [reflexivity|]. cbn. destruct (cb a); [|discriminate]. cbn. intros H. now rewrite IH. Qed.
(* the calls for one prefix *)
Definition field_calls (prefix : string) (names : list string) (alias : bool) : list (string * nat) :=
  map (fun i => let count := (List.length names - i)%nat in
                let ident := join (firstn count names) in
                let c := if starts_dot ident then tail_of ident else ident in
                (if String.eqb prefix "" then c else (prefix ++ "." ++ c)%string, (count - (if alias then 0 else 1))%nat))
      (seq 0 (List.length names)) ++ (if alias then [(prefix, 0%nat)] else []).
Lemma field_run prefix names alias cb :
  FieldSelectCandidates prefix names alias cb =
  (offered cb (field_calls prefix names alias), goes_on cb (field_calls prefix names alias)).
Proof.
  unfold FieldSelectCandidates, field_calls. generalize (seq 0 (List.length names)). intros is.
  induction is as [|i is IH].
  - cbn. destruct alias; [|reflexivity]. unfold visit. cbn. destruct (cb (prefix, 0%nat)); reflexivity.
  - cbn [field_loop]. cbv zeta in *. rewrite IH. cbn [map app offered goes_on forallb]. unfold visit. cbn [fst snd].
    destruct (cb _); reflexivity.
Qed.
Lemma rev_seq_sub n : map (fun i => (n - i)%nat) (seq 0 n) = rev (seq 1 n).
Proof.
  induction n as [|n IH]; [reflexivity|].
  rewrite (seq_S n 1), rev_app_distr. cbn [rev app plus seq map]. f_equal.
  rewrite <- IH, <- seq_shift, map_map. reflexivity.
Qed.
Lemma strip_join l : Forall segment l -> (if starts_dot (join l) then tail_of (join l) else join l) = join l.
Proof. intros H. now rewrite join_start. Qed.
Lemma firstn_segment l k : Forall segment l -> Forall segment (firstn k l).
Proof. intros H. revert k. induction H; intros [|k]; cbn; auto. Qed.
Lemma field_calls_names p names : Forall segment p -> Forall segment names ->
  field_calls (join p) names false =
  map (fun x => (join (p ++ fst x), snd x)) (leading names).
Proof.
  intros Hp Hn. unfold field_calls, leading. rewrite app_nil_r, map_map. cbn [fst snd].
  transitivity (map (fun k => (join (p ++ firstn k names), (k - 1)%nat)) (rev (seq 1 (List.length names)))).
  - rewrite <- rev_seq_sub, map_map. apply map_ext_in. intros i Hi. apply in_seq in Hi. cbv zeta.
    rewrite strip_join by now apply firstn_segment. rewrite join_empty by exact Hp. destruct p as [|a p]; [reflexivity|].
    rewrite join_app; [reflexivity|discriminate|]. destruct names; [cbn in Hi; lia|].
    destruct (List.length (s :: names) - i)%nat eqn:Q; [lia|discriminate].
  - rewrite <- seq_shift, <- map_rev, map_map. apply map_ext. intros k. f_equal. lia.
Qed.
Lemma and_then_run {A} (cb : A -> bool) l l' :
  and_then (offered cb l, goes_on cb l) (offered cb l', goes_on cb l') = (offered cb (l ++ l'), goes_on cb (l ++ l')).
Proof.
  unfold and_then. cbn [fst snd]. rewrite offered_app. unfold goes_on. rewrite forallb_app.
  destruct (forallb cb l) eqn:E; cbn; [|now rewrite ?E]. f_equal. now rewrite offered_all.
Qed.
Lemma qualified_run names cb prefixes :
  qualified_loop names cb prefixes =
  let calls := flat_map (fun p => field_calls p names false) (prefixes ++ [""]) in (offered cb calls, goes_on cb calls).
Proof.
  induction prefixes as [|p l IH].
  - cbn [app flat_map qualified_loop]. rewrite app_nil_r. apply field_run.
  - cbn [qualified_loop]. rewrite IH, field_run. cbv zeta. rewrite and_then_run. reflexivity.
Qed.
(* Every enclosing container innermost first, and within it the longest prefix
   of the dotted name first. *)
Theorem C34_qualified : forall ops cs q0 qs more, let E := container_after ops in
  path cs (ec_name E) -> Forall segment (q0 :: qs) -> ~ In q0 (map fst (ec_aliases E)) ->
  GenerateQualified E (q0 :: qs) more =
  offered more (flat_map (fun container => map (fun x => (join (container ++ fst x), snd x)) (leading (q0 :: qs)))
                         (enclosing cs)).
Proof.
  intros ops cs q0 qs more E [Hc Ec] Hq Ha. unfold GenerateQualified.
  assert (S0 : starts_dot q0 = false). { apply Forall_cons_iff in Hq as [H _]. rewrite <- (sapp_nil q0). now apply segment_start. }
  rewrite S0. cbv zeta. rewrite alias_none by exact Ha. cbn [negb String.eqb].
  rewrite qualified_run. cbv zeta. cbn [fst]. f_equal. rewrite Ec, prefixes_spec by exact Hc.
  rewrite enclosing_split, !flat_map_concat_map, !map_app, !map_map. f_equal. f_equal.
  - apply map_ext. intros k. apply field_calls_names; auto using firstn_segment.
  - cbn [map]. f_equal. apply (field_calls_names []); auto.
Qed.
Print Assumptions C34_qualified.
Theorem C34_qualified_root : forall ops q0 qs more, let E := container_after ops in
  Forall segment (q0 :: qs) -> ~ In q0 (map fst (ec_aliases E)) ->
  GenerateQualified E (("." ++ q0)%string :: qs) more =
  offered more (map (fun x => (join (fst x), snd x)) (leading (q0 :: qs))).
Proof.
  intros ops q0 qs more E Hq Ha. unfold GenerateQualified. rewrite start_dot, tail_dot. cbv zeta.
  rewrite alias_none by exact Ha. cbn [negb String.eqb]. rewrite field_run. cbn [fst]. f_equal.
  rewrite <- (field_calls_names []) by auto. unfold field_calls. f_equal.
  apply map_ext_in. intros i Hi. apply in_seq in Hi. cbv zeta. cbn [List.length] in *.
  destruct (S (List.length qs) - i)%nat as [|k] eqn:Q; [lia|]. cbn [firstn].
  assert (J : forall l, join (("." ++ q0)%string :: l) = ("." ++ join (q0 :: l))%string) by (intros [|? ?]; reflexivity).
  change (String "." q0) with ("." ++ q0)%string. rewrite J. rewrite start_dot, tail_dot.
  rewrite strip_join; [reflexivity|]. apply Forall_cons_iff in Hq as [H0 Hq]. constructor; auto using firstn_segment.
Qed.
Print Assumptions C34_qualified_root.
(* An alias for the first segment: the alias with the longest prefix of the
   rest first, down to the alias alone; no container is tried. *)
Theorem C34_qualified_alias : forall ops q0 qs full more, let E := container_after ops in
  Forall segment (q0 :: qs) -> In (q0, full) (ec_aliases E) ->
  GenerateQualified E (q0 :: qs) more =
    offered more (map (fun k => (join (full :: firstn k qs), k)) (rev (seq 0 (S (List.length qs))))) /\
  GenerateQualified E (("." ++ q0)%string :: qs) more = GenerateQualified E (q0 :: qs) more.
Proof.
  intros ops q0 qs full more E Hq Ha. destruct (alias_found ops q0 full Ha) as [Fa Na]. fold E in Fa.
  apply Forall_cons_iff in Hq as [H0 Hq].
  assert (S0 : starts_dot q0 = false). { rewrite <- (sapp_nil q0). now apply segment_start. }
  unfold GenerateQualified. rewrite start_dot, tail_dot, S0. cbv zeta. rewrite Fa, Na. cbn [negb].
  split; [|reflexivity]. rewrite field_run. cbn [fst]. f_equal. unfold field_calls.
  cbn [seq]. change (rev (0%nat :: seq 1 (List.length qs))) with (rev (seq 1 (List.length qs)) ++ [0%nat]).
  rewrite map_app. cbn [map firstn]. f_equal. rewrite <- rev_seq_sub, map_map. apply map_ext_in. intros i Hi. apply in_seq in Hi.
  rewrite strip_join by now apply firstn_segment. rewrite Na, Nat.sub_0_r. f_equal.
  destruct qs as [|q1 qs]; [cbn in Hi; lia|]. destruct (List.length (q1 :: qs) - i)%nat eqn:Q; [lia|]. reflexivity.
Qed.
Print Assumptions C34_qualified_alias.
Definition ex_ops := [OpSetContainer "a.b"; OpAddAlias "w" "q.r"].
Example C34_ex : let E := container_after ex_ops in
  path ["a"; "b"] (ec_name E) /\ path ["x"] "x" /\ ~ In "x" (map fst (ec_aliases E)) /\
  GenerateCandidates E "x" (fun _ => true) = ["a.b.x"; "a.x"; "x"] /\
  GenerateCandidates E "x" (fun s => negb (String.eqb s "a.x")) = ["a.b.x"; "a.x"] /\
  GenerateCandidates E ".x" (fun _ => true) = ["x"] /\ GenerateCandidates E "w.k" (fun _ => true) = ["q.r.k"] /\
  GenerateQualified E ["x"; "y"] (fun _ => true) =
    [("a.b.x.y", 1); ("a.b.x", 0); ("a.x.y", 1); ("a.x", 0); ("x.y", 1); ("x", 0)]%nat /\
  GenerateQualified E ["w"; "y"] (fun _ => true) = [("q.r.y", 1); ("q.r", 0)]%nat.
Proof.
  split; [split; [repeat constructor; discriminate|reflexivity]|].
  split; [split; [repeat constructor; discriminate|reflexivity]|].
  split; [cbn; intros [H|[]]; discriminate|]. vm_compute. repeat split.
Qed.

(* ---- the runtime's resolver ---- *)
Definition dotted_prefix (l : list string) : string := String.concat "" (map (fun s => (s ++ ".")%string) l).
Lemma concat_nil_app l l' : String.concat "" (l ++ l') = (String.concat "" l ++ String.concat "" l')%string.
Proof.
  induction l as [|a l IH]; [reflexivity|]. destruct l as [|b l].
  - cbn [app String.concat]. destruct l'; cbn; [now rewrite sapp_nil|reflexivity].
  - cbn [app] in *. change (String.concat "" (a :: b :: l ++ l')) with (a ++ "" ++ String.concat "" (b :: l ++ l'))%string.
    rewrite IH. change (String.concat "" (a :: b :: l)) with (a ++ "" ++ String.concat "" (b :: l))%string.
    cbn [append]. now rewrite sapp_assoc.
Qed.
Lemma runtime_fold l : Forall segment l -> forall pre acc,
  fold_left (fun st elem =>
         if String.eqb elem "" then st
         else let prefix := (fst st ++ elem ++ ".")%string in (prefix, prefix :: snd st))
       l (dotted_prefix pre, acc) =
  (dotted_prefix (pre ++ l), (map (fun k => dotted_prefix (pre ++ firstn k l)) (rev (seq 1 (List.length l))) ++ acc)%list).
Proof.
  induction l as [|a l IH]; intros Hl pre acc; [cbn; now rewrite app_nil_r|].
  apply Forall_cons_iff in Hl as [[Ha _] Hl]. cbn [fold_left fst snd].
  destruct (String.eqb_spec a "") as [|_]; [contradiction|]. cbv zeta.
  assert (E : (dotted_prefix pre ++ a ++ ".")%string = dotted_prefix (pre ++ [a])).
  { unfold dotted_prefix. rewrite map_app, concat_nil_app. reflexivity. }
  rewrite E, (IH Hl (pre ++ [a])). cbn [List.length]. rewrite <- app_assoc. cbn [app]. f_equal.
  rewrite (map_rev _ (seq 1 (S _))).
  rewrite <- (map_map (fun k => pre ++ firstn k (a :: l)) dotted_prefix), firstn_seq_app.
  cbn [map rev]. rewrite <- app_assoc. cbn [app]. now rewrite map_rev, map_map.
Qed.
Lemma runtime_prefixes cs : Forall segment cs ->
  MakeNamespaceCandidates (join cs) = map dotted_prefix (enclosing cs).
Proof.
  intros H. unfold MakeNamespaceCandidates. rewrite enclosing_split, map_app, map_map.
  destruct cs as [|c cs]; [reflexivity|]. rewrite split_join by (auto using segment_no_dot || discriminate).
  pose proof (runtime_fold _ H [] [""]) as E. change (dotted_prefix []) with "" in E. exact (f_equal snd E).
Qed.
Lemma dotted_join p n0 ns : (dotted_prefix p ++ join (n0 :: ns))%string = join (p ++ n0 :: ns).
Proof.
  induction p as [|a p IH]; [reflexivity|]. change (a :: p) with ([a] ++ p). unfold dotted_prefix. rewrite map_app, concat_nil_app.
  fold (dotted_prefix p). rewrite sapp_assoc, IH, <- app_assoc. cbn [map String.concat app].
  destruct (p ++ n0 :: ns) eqn:Q; [destruct p; discriminate|]. rewrite join_cons. now rewrite sapp_assoc.
Qed.
(* The runtime tries the same candidates as the checker without aliases. *)
Theorem C34_runtime : forall cs cname n0 ns name, path cs cname -> path (n0 :: ns) name ->
  FullyQualifiedNames cname name = map (fun container => join (container ++ n0 :: ns)) (enclosing cs) /\
  FullyQualifiedNames cname ("." ++ name)%string = [name].
Proof.
  intros cs cname n0 ns name [Hc ->] Hn. unfold FullyQualifiedNames, GetPrefixesFor.
  rewrite start_dot, tail_dot, (path_start _ _ Hn). split; [|reflexivity].
  rewrite runtime_prefixes, map_map by exact Hc. destruct Hn as [_ ->]. apply map_ext. intros c. apply dotted_join.
Qed.
Print Assumptions C34_runtime.

(* ---- C49 ---- *)
(* x is found at the first container where find succeeds. *)
Inductive innermost {A} (find : list string -> list A) : list (list string) -> list A -> Prop :=
| inner_none : innermost find [] []
| inner_here c l : find c <> [] -> innermost find (c :: l) (find c)
| inner_next c l r : find c = [] -> innermost find l r -> innermost find (c :: l) r.
Lemma first_found_inner (find : list string -> list overload) (g : string -> list overload) (f : list string -> string) l :
  (forall c, g (f c) = find c) -> innermost find l (first_found g (map f l)).
Proof.
  intros H. induction l as [|c l IH]; [constructor|]. cbn [map first_found]. rewrite H.
  destruct (find c) eqn:E; [now apply inner_next|]. rewrite <- E. apply inner_here. now rewrite E.
Qed.
Definition declared (find : string -> list overload) (ns : list string) (container : list string) : list overload :=
  find (join (container ++ ns)).
(* Eagerly registered functions: the innermost container with an overload of
   the right style and arity. *)
Theorem C49_static : forall r cs cname n0 ns name receiver arity, path cs cname -> path (n0 :: ns) name ->
  innermost (declared (fun n => FindStatic r n receiver arity) (n0 :: ns)) (enclosing cs)
            (ResolveStatic r cname name receiver arity) /\
  ResolveStatic r cname ("." ++ name)%string receiver arity = FindStatic r name receiver arity.
Proof.
  intros r cs cname n0 ns name receiver arity [Hc ->] Hn. unfold ResolveStatic, GetPrefixesFor.
  rewrite start_dot, tail_dot, (path_start _ _ Hn). split.
  - rewrite runtime_prefixes by exact Hc. apply first_found_inner. intros c. destruct Hn as [_ ->].
    unfold declared. now rewrite dotted_join.
  - cbn [first_found append]. destruct (FindStatic r name receiver arity); reflexivity.
Qed.
Print Assumptions C49_static.
(* Lazily bound functions are looked up under the unqualified name only. *)
Theorem C49_lazy : forall r cs cname n0 ns name receiver arity, path cs cname -> path (n0 :: ns) name ->
  ResolveLazy r cname name receiver arity = FindLazy r name receiver arity /\
  ResolveLazy r cname ("." ++ name)%string receiver arity = FindLazy r name receiver arity.
Proof.
  intros r cs cname n0 ns name receiver arity [Hc ->] Hn. unfold ResolveLazy, GetPrefixesFor.
  rewrite start_dot, tail_dot, (path_start _ _ Hn). split; [|cbn [first_found]; destruct (FindLazy _ _ _ _); reflexivity].
  rewrite runtime_prefixes by exact Hc. cbv zeta.
  assert (G : forall l, l <> [] -> first_found (fun _ => FindLazy r name receiver arity) l = FindLazy r name receiver arity).
  { induction l as [|p l IH]; [contradiction|]. intros _. cbn [first_found]. destruct (FindLazy r name receiver arity) eqn:E; [|reflexivity].
    destruct l; [reflexivity|]. apply IH. discriminate. }
  apply G. rewrite enclosing_split. intros Q. apply map_eq_nil in Q. destruct (map _ _); discriminate.
Qed.
Print Assumptions C49_lazy.
(* Hence a call finds the innermost eager function, provided no lazy function
   has the unqualified name. *)
Theorem C49_call_partial : forall r cs cname n0 ns name receiver arity, path cs cname -> path (n0 :: ns) name ->
  FindLazy r name receiver arity = [] ->
  innermost (declared (fun n => FindStatic r n receiver arity) (n0 :: ns)) (enclosing cs)
            (ResolveCall r cname name receiver arity) /\
  ResolveCall r cname ("." ++ name)%string receiver arity = FindStatic r name receiver arity.
Proof.
  intros r cs cname n0 ns name receiver arity Hc Hn Hl. unfold ResolveCall.
  destruct (C49_lazy r cs cname n0 ns name receiver arity Hc Hn) as [-> ->]. rewrite Hl.
  now apply C49_static.
Qed.
Print Assumptions C49_call_partial.
(* A lazy function declared in the container is not found ... *)
Definition ex_fn (n : string) : overload := mkOverload n false [None] true (fun _ => Val VNull).
Theorem C49_lazy_in_container_refuted : exists l cname name, let r := attempts l [] in
  FindLazy r (cname ++ "." ++ name)%string false 1 <> [] /\ ResolveCall r cname name false 1 = [].
Proof. exists [mkEntry true (ex_fn "a.f")], "a", "f". vm_compute. split; [discriminate|reflexivity]. Qed.
Print Assumptions C49_lazy_in_container_refuted.
(* ... and a lazy function of the root hides an eager one of the container. *)
Theorem C49_lazy_hides_refuted : exists l cname name f, let r := attempts l [] in
  FindStatic r (cname ++ "." ++ name)%string false 1 <> [] /\
  ResolveCall r cname name false 1 = [f] /\ ov_name f = name.
Proof.
  exists [mkEntry false (ex_fn "a.f"); mkEntry true (ex_fn "f")], "a", "f", (ex_fn "f"). vm_compute.
  split; [discriminate|]. split; reflexivity.
Qed.
Print Assumptions C49_lazy_hides_refuted.
Example C49_ex : let r := attempts [mkEntry false (ex_fn "f"); mkEntry false (ex_fn "a.f")] [] in
  FindLazy r "f" false 1 = [] /\ map ov_name (ResolveCall r "a.b" "f" false 1) = ["a.f"] /\
  map ov_name (ResolveCall r "a.b" ".f" false 1) = ["f"].
Proof. vm_compute. repeat split. Qed.
(* In the root container a lazy function is used in preference to an eager one. *)
Theorem C49_root_lazy : forall r n0 ns name receiver arity, path (n0 :: ns) name ->
  FindLazy r name receiver arity <> [] -> ResolveCall r "" name receiver arity = FindLazy r name receiver arity.
Proof.
  intros r n0 ns name receiver arity Hn H. unfold ResolveCall.
  destruct (C49_lazy r [] "" n0 ns name receiver arity) as [-> _]; [split; [constructor|reflexivity]|exact Hn|].
  destruct (FindLazy _ _ _ _); congruence.
Qed.
Print Assumptions C49_root_lazy.

(* ---- identifiers ---- *)
Definition letter (c : ascii) : Prop :=
  (97 <= nat_of_ascii c <= 122)%nat \/ (65 <= nat_of_ascii c <= 90)%nat \/ c = "_"%char.
Definition digit (c : ascii) : Prop := (48 <= nat_of_ascii c <= 57)%nat.
Definition keywords : list string :=
  ["as"; "break"; "const"; "continue"; "else"; "false"; "for"; "function"; "if"; "import"; "in"; "let"; "loop";
   "namespace"; "null"; "package"; "return"; "true"; "var"; "void"; "while"].
Lemma between_spec lo hi c : ascii_between lo hi c = true <-> (nat_of_ascii lo <= nat_of_ascii c <= nat_of_ascii hi)%nat.
Proof. unfold ascii_between. rewrite andb_true_iff, !PeanoNat.Nat.leb_le. tauto. Qed.
Lemma letter_spec c : ascii_isalpha c || Ascii.eqb c "_" = true <-> letter c.
Proof.
  unfold ascii_isalpha, letter. rewrite !orb_true_iff, !between_spec, Ascii.eqb_eq. change (nat_of_ascii "a") with 97%nat.
  change (nat_of_ascii "z") with 122%nat. change (nat_of_ascii "A") with 65%nat. change (nat_of_ascii "Z") with 90%nat. tauto.
Qed.
Lemma word_spec c : ascii_isalnum c || Ascii.eqb c "_" = true <-> letter c \/ digit c.
Proof.
  unfold ascii_isalnum. rewrite <- letter_spec, !orb_true_iff, between_spec. unfold digit.
  change (nat_of_ascii "0") with 48%nat. change (nat_of_ascii "9") with 57%nat. tauto.
Qed.
(* Identifiers are the words that are not keywords. *)
Theorem C48_identifier : forall s, LexisIsIdentifier s = true <->
  ~ In s keywords /\ exists c r, s = String c r /\ letter c /\ Forall (fun d => letter d \/ digit d) (list_ascii_of_string r).
Proof.
  intros s. assert (K : LexisIsReserved s = true <-> In s keywords).
  { unfold LexisIsReserved. rewrite existsb_exists. split.
    - intros (x & Hx & E). apply String.eqb_eq in E. subst x. revert Hx. unfold reserved_keywords, keywords. cbn [In]. tauto.
    - intros H. exists s. split; [|apply String.eqb_refl]. revert H. unfold reserved_keywords, keywords. cbn [In]. tauto. }
  assert (A : forall r, all_chars (fun c => ascii_isalnum c || Ascii.eqb c "_") r = true <->
                        Forall (fun d => letter d \/ digit d) (list_ascii_of_string r)).
  { induction r as [|d r IH]; cbn; [split; auto|]. rewrite andb_true_iff, word_spec, IH, Forall_cons_iff. tauto. }
  destruct s as [|c r]; cbn [LexisIsIdentifier].
  - split; [discriminate|]. intros (_ & c & r & E & _). discriminate.
  - assert (L : negb (ascii_isalpha c) && negb (Ascii.eqb c "_") = false <-> letter c).
    { rewrite <- letter_spec, <- negb_orb. now rewrite negb_false_iff. }
    destruct (negb (ascii_isalpha c) && negb (Ascii.eqb c "_")).
    { split; [discriminate|]. intros (_ & c' & r' & E & Hc & _). injection E as <- <-. apply L in Hc. discriminate. }
    destruct (all_chars _ r) eqn:Ha; cbn [negb].
    + rewrite negb_true_iff. split.
      * intros H. split; [rewrite <- K; congruence|]. exists c, r. split; [reflexivity|]. split; [now apply L|now apply A].
      * intros [H _]. destruct (LexisIsReserved _); [|reflexivity]. destruct H. now apply K.
    + split; [discriminate|]. intros (_ & c' & r' & E & _ & Hr). injection E as <- <-. apply A in Hr. congruence.
Qed.
Print Assumptions C48_identifier.
