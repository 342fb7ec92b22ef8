(* C120, C121, C122: the functions regex.extract, regex.extractAll and regex.replace. *)
From Coq Require Import ZArith String List Bool Lia.
From Verif Require Import Base.
From Verif Require Import M_RegexExt S_RegexExt L_RegexExt L_RegexExt2.
Import ListNotations.
Open Scope list_scope.
Open Scope nat_scope.

(** ** Patterns used as examples *)
(* the pattern [c] for one character that is no operator *)
Fixpoint find_char (c : Z) (t : text) (n : nat) : option nat :=
  match t with [] => None | d :: t' => if Z.eqb c d then Some n else find_char c t' (S n) end.
Definition one_char (c : Z) : RE2 :=
  mkRE2 0 (fun t p => option_map (fun n => mkMatch (mkPiece n 1) []) (find_char c (skipn p t) p)).
(* the pattern ^c *)
Definition first_char (c : Z) : RE2 :=
  mkRE2 0 (fun t p => match p, t with O, d :: _ => if Z.eqb c d then Some (mkMatch (mkPiece 0 1) []) else None | _, _ => None end).
(* the empty pattern *)
Definition nothing : RE2 :=
  mkRE2 0 (fun t p => if Nat.leb p (length t) then Some (mkMatch (mkPiece p 0) []) else None).

Lemma find_char_in c t : forall n k, find_char c t n = Some k -> n <= k < n + length t.
Proof.
  induction t as [|d t IH]; intros n k; cbn; [discriminate|]. destruct (Z.eqb c d); [intros [= <-]; lia|].
  intros h. apply IH in h. lia.
Qed.
Lemma find_char_shift c t : forall n, find_char c t n = option_map (Nat.add n) (find_char c t 0).
Proof.
  induction t as [|d t IH]; intros n; cbn; [reflexivity|]. destruct (Z.eqb c d); [cbn; f_equal; lia|].
  rewrite (IH (S n)), (IH 1). destruct (find_char c t 0); cbn; [f_equal; lia|reflexivity].
Qed.
Example one_char_ok c : search_ok (one_char c) /\ context_free (one_char c) /\ never_empty (one_char c).
Proof.
  split; [|split].
  - intros t p m. cbn. destruct (find_char c (skipn p t) p) as [k|] eqn:e; [|discriminate]. intros [= <-].
    apply find_char_in in e. rewrite skipn_length in e. unfold piece_in. cbn. repeat split; try lia; destruct H.
  - intros t p h. cbn. rewrite (find_char_shift c _ p). destruct (find_char c (skipn p t) 0); reflexivity.
  - intros t p m. cbn. destruct (find_char c (skipn p t) p); [|discriminate]. intros [= <-]. discriminate.
Qed.
Example first_char_ok c : search_ok (first_char c) /\ never_empty (first_char c).
Proof.
  split; intros t p m; cbn; destruct p; try discriminate; destruct t as [|d t]; try discriminate;
  destruct (Z.eqb c d); try discriminate; intros [= <-].
  - unfold piece_in. cbn. repeat split; try lia; destruct H.
  - discriminate.
Qed.
Example nothing_ok : search_ok nothing /\ context_free nothing /\ starts_empty nothing.
Proof.
  split; [|split].
  - intros t p m. cbn. destruct (Nat.leb_spec p (length t)); [|discriminate]. intros [= <-].
    unfold piece_in. cbn. repeat split; try lia; destruct H0.
  - intros t p h. cbn. destruct (Nat.leb_spec p (length t)); [|lia]. cbn. unfold shift_match, shift. cbn. rewrite Nat.add_0_r. reflexivity.
  - intros t. eexists. split; reflexivity.
Qed.

(** ** C120 *)
(* extractAll ends, and gives pieces of the target that are not empty and do not overlap,
   from left to right *)
Theorem C120_pieces : forall compile target regex re fuel,
  compile regex = Val re -> search_ok re -> NumberOfCapturingGroups re <= 1 -> length target < fuel ->
  exists l, ExtractAll compile fuel target regex = Some (Val l) /\ pieces_of l target.
Proof.
  intros compile t regex re fuel e ok g h. unfold ExtractAll. rewrite e.
  replace (Nat.ltb 1 (NumberOfCapturingGroups re)) with false by (symmetry; apply Nat.ltb_ge; exact g).
  destruct (extract_loop_pieces re ok fuel t h) as (l & h1 & h2). exists l. rewrite h1. auto.
Qed.
Print Assumptions C120_pieces.

(* bad patterns and patterns with several groups are errors *)
Theorem C120_errors : forall compile target regex fuel,
  (forall s, compile regex = Err s ->
     Extract compile target regex = Err s /\ ExtractAll compile fuel target regex = Some (Err s))
  /\ (forall re, compile regex = Val re -> 1 < NumberOfCapturingGroups re ->
     (exists s, Extract compile target regex = Err s /\ st_code s = kInvalidArgument)
     /\ exists s, ExtractAll compile fuel target regex = Some (Err s) /\ st_code s = kInvalidArgument).
Proof.
  intros compile t regex fuel. unfold Extract, ExtractAll. split.
  - intros s ->. auto.
  - intros re -> h. cbn [obind]. apply Nat.ltb_lt in h. rewrite h. split; eexists; split; reflexivity.
Qed.
Print Assumptions C120_errors.

(* extract gives the leftmost match, or the text of its group, and extractAll starts with it *)
Theorem C120_first : forall compile target regex re fuel,
  compile regex = Val re -> search_ok re -> NumberOfCapturingGroups re <= 1 -> length target < fuel ->
  match Search re target 0 with
  | None => Extract compile target regex = Val None /\ ExtractAll compile fuel target regex = Some (Val [])
  | Some m =>
      let x := submatch target m (NumberOfCapturingGroups re) in
      Extract compile target regex = Val (Some x)
      /\ (len (whole m) <> 0 -> x <> [] ->
          exists l, ExtractAll compile fuel target regex = Some (Val (x :: l)))
  end.
Proof.
  intros compile t regex re fuel e ok g h. unfold Extract, ExtractAll. rewrite e. cbn [obind].
  assert (gb : Nat.ltb 1 (NumberOfCapturingGroups re) = false) by (apply Nat.ltb_ge; exact g).
  assert (ej : (if Nat.eqb (NumberOfCapturingGroups re) 1 then 1 else 0) = NumberOfCapturingGroups re).
  { destruct (Nat.eqb_spec (NumberOfCapturingGroups re) 1); lia. }
  rewrite gb, ej. destruct fuel as [|fuel]; [lia|]. cbn [extract_loop]. rewrite ej.
  destruct (Search re t 0) as [m|] eqn:es; [|split; reflexivity]. cbv zeta. split; [reflexivity|]. intros nz nx.
  replace (Nat.eqb (len (whole m)) 0) with false by (symmetry; apply Nat.eqb_neq; exact nz).
  destruct (ok _ _ _ es) as (_ & hw & _ & _). unfold piece_in in hw.
  destruct (extract_loop_pieces re ok fuel (skipn (at_ (whole m) + len (whole m)) t)) as (l & h1 & _).
  { rewrite skipn_length. lia. }
  exists l. rewrite h1. destruct (submatch t m (NumberOfCapturingGroups re)); [congruence|]. rewrite andb_false_r. reflexivity.
Qed.
Print Assumptions C120_first.

(* for patterns that do not look at what is before: extractAll gives all the matches that do
   not overlap and are not empty, or the texts of their groups that are not empty.
   Missing: the other patterns, refuted below. *)
Theorem C120_all_partial : forall compile target regex re fuel ms,
  compile regex = Val re -> search_ok re -> context_free re -> NumberOfCapturingGroups re <= 1 ->
  length target < fuel -> matches re target 0 ms ->
  ExtractAll compile fuel target regex = Some (Val
    (filter (fun x => negb (Nat.eqb (NumberOfCapturingGroups re) 1 && match x with [] => true | _ => false end))
       (map (fun m => submatch target m (NumberOfCapturingGroups re)) ms))).
Proof.
  intros compile t regex re fuel ms e ok cf g h hm. unfold ExtractAll. rewrite e.
  replace (Nat.ltb 1 (NumberOfCapturingGroups re)) with false by (symmetry; apply Nat.ltb_ge; exact g).
  destruct (extract_loop_matches re t ok cf fuel 0) as (ms' & h1 & h2); [lia|lia|].
  cbn [skipn] in h2. rewrite h2, (matches_det _ _ _ _ hm _ h1). cbn [option_map].
  assert (ej : (if Nat.eqb (NumberOfCapturingGroups re) 1 then 1 else 0) = NumberOfCapturingGroups re).
  { destruct (Nat.eqb_spec (NumberOfCapturingGroups re) 1); lia. }
  rewrite ej. reflexivity.
Qed.
Print Assumptions C120_all_partial.

(* the matches the previous theorem speaks of always exist *)
Theorem C120_matches_exist : forall re target, search_ok re -> context_free re -> exists ms, matches re target 0 ms.
Proof.
  intros re t ok cf. destruct (extract_loop_matches re t ok cf (S (length t)) 0) as (ms & h & _); [lia|lia|]. eauto.
Qed.
Print Assumptions C120_matches_exist.

Example C120_ex : ExtractAll (fun _ => Val (one_char 97)) 10 [98; 97; 110; 97]%Z [97]%Z = Some (Val [[97]; [97]]%Z).
Proof. reflexivity. Qed.

(* C120 fails for anchored patterns: ^a has one match in aaa, extractAll gives three *)
Theorem C120_anchor_refuted : exists re target ms l,
  search_ok re /\ NumberOfCapturingGroups re = 0 /\ matches re target 0 ms /\ length ms = 1 /\ length l = 3
  /\ forall compile regex fuel, compile regex = Val re -> length target < fuel ->
       ExtractAll compile fuel target regex = Some (Val l).
Proof.
  exists (first_char 97), [97; 97; 97]%Z, [mkMatch (mkPiece 0 1) []], [[97]; [97]; [97]]%Z.
  split; [apply first_char_ok|]. split; [reflexivity|]. split.
  { apply matches_one; [reflexivity|discriminate|]. apply matches_none. reflexivity. }
  split; [reflexivity|]. split; [reflexivity|]. intros compile regex fuel e h. unfold ExtractAll. rewrite e. cbn in h.
  do 4 (destruct fuel as [|fuel]; [lia|]). reflexivity.
Qed.
Print Assumptions C120_anchor_refuted.

(** ** C121 *)
(* regex.replace without a count ends for every pattern *)
Theorem C121_all_ends : forall compile target regex replacement re,
  compile regex = Val re -> search_ok re -> ReplaceAll compile target regex replacement <> None.
Proof.
  intros compile t regex r re e ok. unfold ReplaceAll. rewrite e. destruct (negb _); [discriminate|].
  destruct (GlobalReplace_ends re t r ok) as [x ->]. discriminate.
Qed.
Print Assumptions C121_all_ends.

(* it replaces all the matches of a pattern that does not match the empty text *)
Theorem C121_all : forall compile target regex replacement re toks ms,
  compile regex = Val re -> search_ok re -> never_empty re ->
  spells toks replacement -> groups_in (NumberOfCapturingGroups re) toks -> matches re target 0 ms ->
  ReplaceAll compile target regex replacement =
  Some (Val (replaced (fun m => meaning (submatch target m) toks) target 0 ms)).
Proof.
  intros compile t regex r re toks ms e ok ne sp gi hm. unfold ReplaceAll. rewrite e.
  assert (c : CheckRewriteString re r = true) by (apply check_meaning; eauto). rewrite c. cbn [negb].
  unfold GlobalReplace. rewrite (global_replace_matches re t r toks ok ne sp gi) with (ms := ms); [reflexivity|lia|lia|auto|exact hm].
Qed.
Print Assumptions C121_all.

(* with a count, it replaces the first matches, as many as the count says; all of them when
   the count is negative.  Missing: patterns that match the empty text or look at what is
   before, and larger counts on texts of 2 GiB; refuted below. *)
Theorem C121_count_partial : forall compile target regex replacement re toks ms count fuel,
  compile regex = Val re -> search_ok re -> context_free re -> never_empty re ->
  spells toks replacement -> groups_in (NumberOfCapturingGroups re) toks -> matches re target 0 ms ->
  (count <= 2147483647 \/ Z.of_nat (length target) <= 2147483647)%Z -> length target < fuel ->
  ReplaceN compile fuel target regex replacement count =
  Some (Val (replaced (fun m => meaning (submatch target m) toks) target 0
               (if (count <? 0)%Z then ms else firstn (Z.to_nat count) ms))).
Proof.
  intros compile t regex r re toks ms count fuel e ok cf ne sp gi hm hc hf. unfold ReplaceN.
  destruct (Z.eqb_spec count 0) as [->|nz]; [reflexivity|].
  destruct (Z.ltb_spec count 0) as [lt|ge]; [apply C121_all with (re := re); assumption|].
  rewrite e. assert (c : CheckRewriteString re r = true) by (apply check_meaning; eauto). rewrite c. cbn [negb].
  pose proof (replace_loop_matches re t r toks count ok cf ne sp gi hc fuel 0 ms [] 0%Z) as h.
  cbn [skipn app] in h. rewrite Z.sub_0_r in h. apply h; [lia|lia|lia|exact hm].
Qed.
Print Assumptions C121_count_partial.

(* so a count that is at least the number of matches is as good as none *)
Theorem C121_enough_partial : forall compile target regex replacement re toks ms count fuel,
  compile regex = Val re -> search_ok re -> context_free re -> never_empty re ->
  spells toks replacement -> groups_in (NumberOfCapturingGroups re) toks -> matches re target 0 ms ->
  (Z.of_nat (length ms) <= count <= 2147483647)%Z -> length target < fuel ->
  ReplaceN compile fuel target regex replacement count = ReplaceAll compile target regex replacement.
Proof.
  intros compile t regex r re toks ms count fuel e ok cf ne sp gi hm hc hf.
  rewrite (C121_count_partial compile t regex r re toks ms count fuel) by (assumption || lia).
  rewrite (C121_all compile t regex r re toks ms) by assumption.
  destruct (Z.ltb_spec count 0); [reflexivity|]. rewrite firstn_all2 by lia. reflexivity.
Qed.
Print Assumptions C121_enough_partial.

Example C121_ex :
  ReplaceN (fun _ => Val (one_char 97)) 10 [98; 97; 110; 97; 110; 97]%Z [97]%Z [120]%Z 1 = Some (Val [98; 120; 110; 97; 110; 97]%Z)
  /\ ReplaceN (fun _ => Val (one_char 97)) 10 [98; 97; 110; 97; 110; 97]%Z [97]%Z [120]%Z (-12) = Some (Val [98; 120; 110; 120; 110; 120]%Z).
Proof. split; reflexivity. Qed.

(* C121 fails for anchored patterns: replacing ^a in aaa twice replaces more than replacing
   all of it *)
Theorem C121_anchor_refuted : exists re target replacement,
  search_ok re /\ never_empty re /\
  forall compile regex fuel, compile regex = Val re -> length target < fuel ->
    ReplaceN compile fuel target regex replacement 2 = Some (Val [98; 98; 97]%Z)
    /\ ReplaceAll compile target regex replacement = Some (Val [98; 97; 97]%Z).
Proof.
  exists (first_char 97), [97; 97; 97]%Z, [98]%Z. split; [apply first_char_ok|]. split; [apply first_char_ok|].
  intros compile regex fuel e h. cbn in h. unfold ReplaceN, ReplaceAll. rewrite e.
  do 4 (destruct fuel as [|fuel]; [lia|]). split; vm_compute; reflexivity.
Qed.
Print Assumptions C121_anchor_refuted.

(* C121 fails for the empty pattern: every replacement is made at the start, and the result
   grows with the count whatever the target *)
Theorem C121_empty_refuted : exists re, search_ok re /\ context_free re /\
  forall compile target regex c count fuel,
    compile regex = Val re -> c <> 92%Z -> (0 < count <= 2147483647)%Z -> Z.to_nat count < fuel ->
    ReplaceN compile fuel target regex [c] count = Some (Val (repeat c (Z.to_nat count) ++ target)).
Proof.
  destruct nothing_ok as (ok & cf & se). exists nothing. split; [exact ok|]. split; [exact cf|].
  intros compile t regex c count fuel e nc hc hf.
  assert (sp : spells [Char c] [c]) by (constructor; [exact nc|constructor]).
  unfold ReplaceN. destruct (Z.eqb_spec count 0); [lia|]. destruct (Z.ltb_spec count 0); [lia|]. rewrite e.
  assert (ck : CheckRewriteString nothing [c] = true).
  { apply check_meaning. exists [Char c]. split; [exact sp|]. intros k [h|[]]. discriminate. }
  rewrite ck. cbn [negb]. rewrite (replace_loop_empty nothing [c] [Char c] count se sp) with (k := Z.to_nat count); [|intros k [h|[]]; discriminate|lia|lia|lia|lia].
  cbn [app]. do 3 f_equal. clear. induction (Z.to_nat count) as [|k IH]; cbn; [reflexivity|]. f_equal. exact IH.
Qed.
Print Assumptions C121_empty_refuted.
Example C121_empty_all : ReplaceAll (fun _ => Val nothing) [97; 98]%Z [] [120]%Z = Some (Val [120; 97; 120; 98; 120]%Z).
Proof. vm_compute. reflexivity. Qed.

(* C121 fails for large counts: with the empty pattern the counter of replacements, an int,
   overflows for every count of at least 2^31 *)
Theorem C121_overflow_refuted : exists re, search_ok re /\ context_free re /\
  forall compile target regex replacement count fuel,
    compile regex = Val re -> CheckRewriteString re replacement = true ->
    (2147483647 < count)%Z -> Z.to_nat 2147483647 < fuel ->
    ReplaceN compile fuel target regex replacement count = Some UB.
Proof.
  destruct nothing_ok as (ok & cf & se). exists nothing. split; [exact ok|]. split; [exact cf|].
  intros compile t regex r count fuel e ck hc hf. unfold ReplaceN.
  destruct (Z.eqb_spec count 0); [lia|]. destruct (Z.ltb_spec count 0); [lia|]. rewrite e, ck. cbn [negb].
  apply check_meaning in ck as (toks & sp & gi).
  apply (replace_loop_overflow nothing r toks count se sp gi hc (Z.to_nat 2147483647)); lia.
Qed.
Print Assumptions C121_overflow_refuted.

(** ** C122 *)
(* a replacement string is accepted if it is made of characters, \\ and \0 to \9 naming groups
   of the pattern *)
Theorem C122_replacement : forall compile target regex replacement re,
  compile regex = Val re -> search_ok re ->
  ((exists x, ReplaceAll compile target regex replacement = Some (Val x)) <->
   exists toks, spells toks replacement /\ groups_in (NumberOfCapturingGroups re) toks)
  /\ ((~ exists toks, spells toks replacement /\ groups_in (NumberOfCapturingGroups re) toks) ->
      forall count fuel, (count <> 0)%Z ->
      exists s, ReplaceN compile fuel target regex replacement count = Some (Err s) /\ st_code s = kInvalidArgument).
Proof.
  intros compile t regex r re e ok. rewrite <- check_meaning. split.
  - unfold ReplaceAll. rewrite e. destruct (CheckRewriteString re r); cbn [negb].
    + destruct (GlobalReplace_ends re t r ok) as [x ->]. split; [reflexivity|]. intros _. exists x. reflexivity.
    + split; [intros [x h]; discriminate|discriminate].
  - intros n count fuel nz. unfold ReplaceN, ReplaceAll. destruct (Z.eqb_spec count 0); [congruence|]. rewrite e.
    destruct (CheckRewriteString re r); [congruence|]. cbn [negb]. destruct (count <? 0)%Z; eexists; split; reflexivity.
Qed.
Print Assumptions C122_replacement.

(* the error for a rewrite that fails after the replacement string was accepted is never given *)
Theorem C122_no_internal : forall compile target regex replacement count fuel s,
  ReplaceN compile fuel target regex replacement count = Some (Err s) ->
  compile regex = Err s
  \/ (exists re, compile regex = Val re /\ CheckRewriteString re replacement = false /\ st_code s = kInvalidArgument).
Proof.
  intros compile t regex r count fuel s. unfold ReplaceN, ReplaceAll.
  destruct (count =? 0)%Z; [discriminate|].
  destruct (compile regex) as [re|s'|] eqn:e.
  - destruct (CheckRewriteString re r) eqn:c; cbn [negb].
    + destruct (count <? 0)%Z; [destruct (GlobalReplace re r t); discriminate|].
      apply check_meaning in c as (toks & sp & gi). intros h. destruct (replace_loop_no_error re r toks count sp gi _ _ _ _ _ h).
    + intros h. right. exists re. split; [reflexivity|]. split; [exact c|]. destruct (count <? 0)%Z; injection h as <-; reflexivity.
  - destruct (count <? 0)%Z; intros [= <-]; auto.
  - destruct (count <? 0)%Z; discriminate.
Qed.
Print Assumptions C122_no_internal.

Example C122_ex : spells [Group 2; Char 32%Z; Group 1; Escaped] [92; 50; 32; 92; 49; 92; 92]%Z.
Proof. apply (spells_group 2); [lia|]. constructor; [lia|]. apply (spells_group 1); [lia|]. do 2 constructor. Qed.

(* C122 fails for the count 0: a bad pattern or replacement string is no error then *)
Theorem C122_zero_refuted : exists compile regex s, compile regex = Err s /\
  forall target replacement fuel,
    ReplaceN compile fuel target regex replacement 1 = Some (Err s)
    /\ ReplaceN compile fuel target regex replacement 0 = Some (Val target).
Proof. exists (fun _ => Err (mkStatus kInvalidArgument EmptyString)), [40]%Z. eexists. split; [reflexivity|]. intros. split; reflexivity. Qed.
Print Assumptions C122_zero_refuted.
