(* Lemmas about source positions. *)
From Coq Require Import ZArith List Bool Lia ZifyBool.
From Verif Require Import Base M_Utf8 S_Utf8 L_Utf8 M_Strings S_Strings L_Strings M_Source S_Source.
Import ListNotations.
Open Scope Z_scope.
Ltac Zify.zify_post_hook ::= idtac.

(* offsets of line starts, given the position of the first code point *)
Fixpoint nl (k : Z) (cps : list Z) : list Z :=
  match cps with
  | [] => []
  | c :: t => if c =? 10 then (k + 1) :: nl (k + 1) t else nl (k + 1) t
  end.

Lemma c_int32_ok z : 0 <= z <= int32_max -> c_int32 z = Val z.
Proof. intros H. unfold c_int32, in_int32, int32_min. replace (_ && _) with true by lia. reflexivity. Qed.

Lemma note_newline_ok c k lines : 0 <= k < int32_max ->
  note_newline c k lines = Val (lines ++ (if c =? 10 then [k + 1] else [])).
Proof.
  intros H. unfold note_newline. destruct (c =? 10); [|rewrite app_nil_r; reflexivity].
  rewrite c_int32_ok by lia. reflexivity.
Qed.

Definition result_of (k : source_kind) (data lines : list Z) (offset : Z) (cps : list Z) : out source :=
  Val (mkSource k (data ++ cps) (lines ++ nl offset cps ++ [offset + Z.of_nat (length cps) + 1])).

Lemma result_cons k data lines offset c cps :
  result_of k (data ++ [c]) (lines ++ (if c =? 10 then [offset + 1] else [])) (offset + 1) cps =
  result_of k data lines offset (c :: cps).
Proof.
  unfold result_of. cbn [nl length]. f_equal. rewrite <- !app_assoc. cbn [app].
  replace (offset + 1 + Z.of_nat (length cps) + 1) with (offset + Z.of_nat (S (length cps)) + 1) by lia.
  destruct (c =? 10); reflexivity.
Qed.
Lemma finish_ok k data offset lines : 0 <= offset < int32_max ->
  finish k data offset lines = result_of k data lines offset [].
Proof.
  intros H. unfold finish, result_of. rewrite c_int32_ok by lia. cbn. rewrite app_nil_r.
  replace (offset + 0 + 1) with (offset + 1) by lia. reflexivity.
Qed.

(* the answer a loop should give from a state *)
Definition answer (ks : list source_kind) (it data lines : list Z) (offset : Z) (r : out source) : Prop :=
  (forall cps, spells it cps -> exists k, In k ks /\ r = result_of k data lines offset cps) /\
  (~ well_formed it -> r = bad).

Lemma spells_nil cps : spells [] cps -> cps = [].
Proof.
  intros [F E]. destruct cps as [|c cps]; [reflexivity|]. cbn in E.
  pose proof (utf8_len c). destruct (utf8 c); cbn in *; [lia|discriminate].
Qed.

Lemma answer_step ks it data lines offset r c s : scalar c -> it = utf8 c ++ s ->
  (exists ks', incl ks' ks /\ answer ks' s (data ++ [c]) (lines ++ (if c =? 10 then [offset + 1] else [])) (offset + 1) r) ->
  answer ks it data lines offset r.
Proof.
  intros S -> [ks' [I [A1 A2]]]. split.
  - intros cps Sp. destruct (spells_cons c s cps Sp S) as [cps' [-> Sp']].
    destruct (A1 cps' Sp') as [k [Ik ->]]. exists k. split; [apply I; exact Ik|]. apply result_cons.
  - intros W. apply A2. intros W'. apply W. apply wf_cons; assumption.
Qed.
Lemma answer_bad ks b t data lines offset : no_char_at_front (b :: t) -> answer ks (b :: t) data lines offset bad.
Proof.
  intros N. split; [|reflexivity]. intros cps Sp. exfalso. apply (wf_bad _ _ N). exists cps. exact Sp.
Qed.
Lemma answer_nil k ks data lines offset : In k ks -> 0 <= offset < int32_max ->
  answer ks [] data lines offset (finish k data offset lines).
Proof.
  intros I H. split.
  - intros cps Sp. rewrite (spells_nil cps Sp). exists k. split; [exact I|]. apply finish_ok; exact H.
  - intros W. exfalso. apply W, wf_nil.
Qed.

(* common shape of an iteration *)
Lemma decode_next b t : bytes (b :: t) ->
  (Utf8Decode (b :: t) = Val (kUnicodeReplacementCharacter, 1%nat) /\ no_char_at_front (b :: t)) \/
  exists c s, scalar c /\ b :: t = utf8 c ++ s /\ Utf8Decode (b :: t) = Val (c, length (utf8 c)) /\
    (c =? kUnicodeReplacementCharacter) && Nat.eqb (length (utf8 c)) 1 = false /\
    skipn (length (utf8 c)) (b :: t) = s /\ bytes s /\ (length s < length (b :: t))%nat.
Proof.
  intros B. destruct (decode_cases b t B) as [[D _]|[c [n [D X]]]].
  - left. split; [exact D|apply decode_bad_front; exact D].
  - right. pose proof (decoded_not_bad _ _ _ X) as NB. destruct X as [S [-> E]].
    exists c, (skipn (length (utf8 c)) (b :: t)). split; [exact S|]. split; [exact E|]. split; [exact D|].
    split; [exact NB|]. split; [reflexivity|]. split; [apply bytes_skipn; exact B|].
    rewrite skipn_length. pose proof (utf8_len c). cbn [length]. lia.
Qed.

Ltac iter B Ho HL :=
  match type of B with bytes (?b :: ?t) =>
    let D := fresh "D" in let N := fresh "N" in let c := fresh "c" in let s := fresh "s" in
    let Sc := fresh "Sc" in let E := fresh "E" in let NB := fresh "NB" in let Ek := fresh "Ek" in
    let Bs := fresh "Bs" in let Ls := fresh "Ls" in
    destruct (decode_next b t B) as [[D N]|[c [s [Sc [E [D [NB [Ek [Bs Ls]]]]]]]]];
    [rewrite D; cbn [obind]; rewrite Z.eqb_refl; cbn [Nat.eqb andb]; apply answer_bad; exact N|];
    rewrite D; cbn [obind]; rewrite NB; rewrite note_newline_ok by lia; cbn [obind];
    rewrite c_int32_ok by lia; cbn [obind]; rewrite Ek
  end.

Lemma supp_ok f : forall it offset lines data, bytes it -> (length it < f)%nat ->
  0 <= offset -> offset + Z.of_nat (length it) < int32_max ->
  answer [SupplementalPlane] it data lines offset (supplemental_loop f it offset lines data).
Proof.
  induction f as [|f IH]; intros it offset lines data B L Ho HL; [lia|]. cbn [supplemental_loop].
  destruct it as [|b t]; [apply answer_nil; [cbn; auto|cbn [length] in HL; lia]|].
  cbn [length] in HL. iter B Ho HL.
  apply (answer_step _ _ _ _ _ _ c s Sc E). exists [SupplementalPlane]. split; [apply incl_refl|].
  apply IH; [exact Bs|cbn [length] in *; lia|lia|cbn [length] in *; lia].
Qed.
Lemma basic_ok f : forall it offset lines data, bytes it -> (length it < f)%nat ->
  0 <= offset -> offset + Z.of_nat (length it) < int32_max ->
  answer [BasicPlane; SupplementalPlane] it data lines offset (basic_loop f it offset lines data).
Proof.
  induction f as [|f IH]; intros it offset lines data B L Ho HL; [lia|]. cbn [basic_loop].
  destruct it as [|b t]; [apply answer_nil; [cbn; auto|cbn [length] in HL; lia]|].
  cbn [length] in HL. iter B Ho HL.
  apply (answer_step _ _ _ _ _ _ c s Sc E).
  destruct (c <=? 65535) eqn:C.
  - exists [BasicPlane; SupplementalPlane]. split; [apply incl_refl|].
    replace (to_char16 c) with c by (unfold to_char16; rewrite Z.mod_small; [reflexivity|destruct Sc; lia]).
    apply IH; [exact Bs|cbn [length] in *; lia|lia|cbn [length] in *; lia].
  - exists [SupplementalPlane]. split; [intros x I; cbn in *; tauto|].
    apply supp_ok; [exact Bs|cbn [length] in *; lia|lia|cbn [length] in *; lia].
Qed.
Lemma latin1_ok f : forall it offset lines data, bytes it -> (length it < f)%nat ->
  0 <= offset -> offset + Z.of_nat (length it) < int32_max ->
  answer [Latin1; BasicPlane; SupplementalPlane] it data lines offset (latin1_loop f it offset lines data).
Proof.
  induction f as [|f IH]; intros it offset lines data B L Ho HL; [lia|]. cbn [latin1_loop].
  destruct it as [|b t]; [apply answer_nil; [cbn; auto|cbn [length] in HL; lia]|].
  cbn [length] in HL. iter B Ho HL.
  apply (answer_step _ _ _ _ _ _ c s Sc E).
  destruct (c <=? 255) eqn:C0.
  { exists [Latin1; BasicPlane; SupplementalPlane]. split; [apply incl_refl|].
    replace (to_uint8 c) with c by (unfold to_uint8; rewrite Z.mod_small; [reflexivity|destruct Sc; lia]).
    apply IH; [exact Bs|cbn [length] in *; lia|lia|cbn [length] in *; lia]. }
  destruct (c <=? 65535) eqn:C.
  - exists [BasicPlane; SupplementalPlane]. split; [intros x I; cbn in *; tauto|].
    replace (to_char16 c) with c by (unfold to_char16; rewrite Z.mod_small; [reflexivity|destruct Sc; lia]).
    apply basic_ok; [exact Bs|cbn [length] in *; lia|lia|cbn [length] in *; lia].
  - exists [SupplementalPlane]. split; [intros x I; cbn in *; tauto|].
    apply supp_ok; [exact Bs|cbn [length] in *; lia|lia|cbn [length] in *; lia].
Qed.
Definition ascii_list (s : list Z) : Prop := Forall (fun c => 0 <= c < 128) s.
Lemma map_id_on (f : Z -> Z) s : ascii_list s -> (forall c, 0 <= c < 128 -> f c = c) -> map f s = s.
Proof. intros H E. induction H; cbn; [reflexivity|]. rewrite E by assumption. f_equal. assumption. Qed.

Lemma ascii_loop_ok f : forall pre it offset lines, ascii_list pre -> bytes it -> (length it < f)%nat ->
  0 <= offset -> offset + Z.of_nat (length it) < int32_max ->
  let r := ascii_loop f (pre ++ it) it (length pre) offset lines in
  answer [Ascii; Latin1; BasicPlane; SupplementalPlane] it pre lines offset r /\
  (forall s, r = Val s -> src_kind s = Ascii -> ascii_list (src_text s)).
Proof.
  induction f as [|f IH]; intros pre it offset lines P B L Ho HL; [lia|]. cbn [ascii_loop].
  destruct it as [|b t].
  { split.
    - rewrite app_nil_r. apply answer_nil; [cbn; auto|cbn [length] in HL; lia].
    - rewrite app_nil_r, finish_ok by (cbn [length] in HL; lia). intros s [= <-] _. cbn. rewrite app_nil_r. exact P. }
  cbn [length] in HL. 
  destruct (decode_next b t B) as [[D N]|[c [s [Sc [E [D [NB [Ek [Bs Ls]]]]]]]]].
  { rewrite D; cbn [obind]; rewrite Z.eqb_refl; cbn [Nat.eqb andb]. split; [apply answer_bad; exact N|discriminate]. }
  rewrite D; cbn [obind]; rewrite NB; rewrite note_newline_ok by lia; cbn [obind];
  rewrite c_int32_ok by lia; cbn [obind]; rewrite Ek.
  assert (Fp : firstn (length pre) (pre ++ b :: t) = pre)
    by (rewrite firstn_app, firstn_all, Nat.sub_diag; cbn; apply app_nil_r).
  rewrite Fp.
  destruct (c <=? 127) eqn:C1.
  { rewrite E. rewrite utf8_ascii by lia. cbn [length app].
    replace (length pre + 1)%nat with (length (pre ++ [c])) by (rewrite app_length; reflexivity).
    replace (pre ++ c :: s) with ((pre ++ [c]) ++ s) by (rewrite <- app_assoc; reflexivity).
    destruct (IH (pre ++ [c]) s (offset + 1) (lines ++ (if c =? 10 then [offset + 1] else []))) as [A K].
    { apply Forall_app. split; [exact P|]. constructor; [destruct Sc; lia|constructor]. }
    { exact Bs. } { cbn [length] in *; lia. } { lia. } { cbn [length] in *; lia. }
    split; [|exact K]. apply (answer_step _ _ _ _ _ _ c s Sc); [rewrite utf8_ascii by lia; reflexivity|].
    exists [Ascii; Latin1; BasicPlane; SupplementalPlane]. split; [apply incl_refl|exact A]. }
  assert (NK : forall ks r, answer ks s (pre ++ [c]) (lines ++ (if c =? 10 then [offset + 1] else [])) (offset + 1) r ->
     ~ In Ascii ks -> (forall s, r = Val s -> src_kind s = Ascii -> ascii_list (src_text s)) ).
  { intros ks r [A1 A2] NI s0 Es Ks. exfalso.
    destruct (Utf8IsValid_ok s Bs) as [v [_ V]]. destruct v.
    - destruct (proj1 V eq_refl) as [cps Sp].
      destruct (A1 cps Sp) as [k [Ik Er]]. rewrite Er in Es. injection Es as <-. cbn in Ks. subst k. contradiction.
    - rewrite A2 in Es; [discriminate|]. intros W. apply V in W. discriminate. }
  assert (F8 : map to_uint8 pre = pre).
  { apply map_id_on; [exact P|]. intros x Hx. unfold to_uint8. apply Z.mod_small. lia. }
  assert (F32 : map char_to_char32 pre = pre).
  { apply map_id_on; [exact P|]. intros x Hx. unfold char_to_char32. replace (x <? 128) with true by lia. reflexivity. }
  rewrite F8, F32.
  assert (Lf : (length s < f)%nat) by (cbn [length] in *; lia).
  assert (Hl : offset + 1 + Z.of_nat (length s) < int32_max) by (cbn [length] in *; lia).
  destruct (c <=? 255) eqn:C2; [|destruct (c <=? 65535) eqn:C3].
  - replace (to_uint8 c) with c by (unfold to_uint8; rewrite Z.mod_small; [reflexivity|lia]).
    match goal with |- answer _ _ _ _ _ ?r /\ _ => assert (A := latin1_ok f s (offset + 1) (lines ++ (if c =? 10 then [offset + 1] else [])) (pre ++ [c]) Bs Lf ltac:(lia) Hl) end.
    split; [|eapply NK; [exact A|cbn; intuition discriminate]].
    apply (answer_step _ _ _ _ _ _ c s Sc E). eexists. split; [|exact A]. intros x I; cbn in *; tauto.
  - replace (to_char16 c) with c by (unfold to_char16; rewrite Z.mod_small; [reflexivity|lia]).
    assert (A := basic_ok f s (offset + 1) (lines ++ (if c =? 10 then [offset + 1] else [])) (pre ++ [c]) Bs Lf ltac:(lia) Hl).
    split; [|eapply NK; [exact A|cbn; intuition discriminate]].
    apply (answer_step _ _ _ _ _ _ c s Sc E). eexists. split; [|exact A]. intros x I; cbn in *; tauto.
  - assert (A := supp_ok f s (offset + 1) (lines ++ (if c =? 10 then [offset + 1] else [])) (pre ++ [c]) Bs Lf ltac:(lia) Hl).
    split; [|eapply NK; [exact A|cbn; intuition discriminate]].
    apply (answer_step _ _ _ _ _ _ c s Sc E). eexists. split; [|exact A]. intros x I; cbn in *; tauto.
Qed.

Definition offsets_of (cps : list Z) : list Z := nl 0 cps ++ [Z.of_nat (length cps) + 1].

Lemma NewSource_ok text cps : Z.of_nat (length text) < int32_max -> spells text cps ->
  exists k, NewSource text = Val (mkSource k cps (offsets_of cps)) /\ (k = Ascii -> ascii_list cps).
Proof.
  intros L Sp. assert (B : bytes text) by (apply wf_bytes; exists cps; exact Sp).
  unfold NewSource. replace (_ >? _) with false by lia.
  destruct (ascii_loop_ok (S (length text)) [] text 0 [] (Forall_nil _) B ltac:(lia) ltac:(lia) ltac:(lia)) as [[A1 _] K].
  cbn [app length] in *. destruct (A1 cps Sp) as [k [_ E]]. exists k. split; [exact E|].
  intros ->. apply (K _ E). reflexivity.
Qed.
Lemma NewSource_bad text : Z.of_nat (length text) < int32_max -> bytes text -> ~ well_formed text ->
  NewSource text = bad.
Proof.
  intros L B W. unfold NewSource. replace (_ >? _) with false by lia.
  destruct (ascii_loop_ok (S (length text)) [] text 0 [] (Forall_nil _) B ltac:(lia) ltac:(lia) ltac:(lia)) as [[_ A2] K].
  exact (A2 W).
Qed.

(** ** Lines *)
Lemma nl_app k a b : nl k (a ++ b) = nl k a ++ nl (k + Z.of_nat (length a)) b.
Proof.
  revert k. induction a as [|c a IH]; intros k; cbn [app nl length]; [f_equal; lia|].
  rewrite IH. replace (k + 1 + Z.of_nat (length a)) with (k + Z.of_nat (S (length a))) by lia.
  destruct (c =? 10); reflexivity.
Qed.
Lemma nl_bounds k a : Forall (fun o => k < o <= k + Z.of_nat (length a)) (nl k a).
Proof.
  revert k. induction a as [|c a IH]; intros k; cbn [nl length]; [constructor|].
  assert (H : Forall (fun o => k < o <= k + Z.of_nat (S (length a))) (nl (k + 1) a))
    by (eapply Forall_impl; [|apply IH]; cbn; intros; lia).
  destruct (c =? 10); [constructor; [lia|exact H]|exact H].
Qed.
Lemma nl_length k a : Z.of_nat (length (nl k a)) = newlines a.
Proof.
  revert k. induction a as [|c a IH]; intros k; cbn [nl]; [reflexivity|].
  unfold newlines in *. cbn [count_occ]. unfold newline in *.
  destruct (Z.eq_dec c 10) as [->|N].
  - rewrite Z.eqb_refl. cbn [length]. rewrite !Nat2Z.inj_succ. f_equal. apply IH.
  - replace (c =? 10) with false by lia. apply IH.
Qed.
Lemma count_lines_app p l a b : Forall (fun o => o <= p) a ->
  count_lines p l (a ++ b) = count_lines p (l + Z.of_nat (length a)) b.
Proof.
  intros H. revert l. induction H as [|o a Ho H IH]; intros l; cbn [app count_lines length]; [f_equal; lia|].
  replace (o >? p) with false by lia. rewrite IH. f_equal. lia.
Qed.
Lemma count_lines_stop p l b : Forall (fun o => p < o) b -> count_lines p l b = l.
Proof. intros H. destruct H; cbn [count_lines]; [reflexivity|]. replace (x >? p) with true by lia. reflexivity. Qed.

Lemma split_at (cps : list Z) p : (p <= length cps)%nat ->
  cps = firstn p cps ++ skipn p cps /\ length (firstn p cps) = p.
Proof. intros H. split; [symmetry; apply firstn_skipn|]. apply firstn_length_le. exact H. Qed.

(* last line start of a prefix *)
Lemma last_start pre : since_newline (rev pre) = Z.of_nat (length pre) -
   match nl 0 pre with [] => 0 | _ => last (nl 0 pre) 0 end.
Proof.
  induction pre as [|c pre IH] using rev_ind; [reflexivity|].
  rewrite rev_app_distr. cbn [rev app since_newline]. rewrite nl_app, app_length. cbn [nl length]. unfold newline.
  replace (0 + Z.of_nat (length pre) + 1) with (Z.of_nat (length pre) + 1) by lia.
  destruct (c =? 10).
  - rewrite last_last. destruct (nl 0 pre ++ [Z.of_nat (length pre) + 1]) eqn:E; [destruct (nl 0 pre); discriminate|lia].
  - rewrite app_nil_r, IH. lia.
Qed.
Lemma nth_last (l r : list Z) : l <> [] -> nth (length l - 1) (l ++ r) 0 = last l 0.
Proof.
  intros H. destruct (exists_last H) as [l' [x ->]]. rewrite last_last, app_length. cbn [length].
  replace (length l' + 1 - 1)%nat with (length l') by lia. rewrite <- app_assoc.
  rewrite app_nth2, Nat.sub_diag by lia. reflexivity.
Qed.

Lemma FindLine_ok k cps p : (p <= length cps)%nat ->
  FindLine (mkSource k cps (offsets_of cps)) (Z.of_nat p) =
  Some (line_of cps p, Z.of_nat p - column_of cps p).
Proof.
  intros H. destruct (split_at cps p H) as [E Lp]. unfold FindLine. cbn [src_line_offsets].
  replace (Z.of_nat p <? 0) with false by lia.
  set (pre := firstn p cps) in *. set (suf := skipn p cps) in *.
  assert (Eo : offsets_of cps = nl 0 pre ++ (nl (Z.of_nat p) suf ++ [Z.of_nat (length cps) + 1])).
  { unfold offsets_of. rewrite E at 1. rewrite nl_app, <- app_assoc, Lp. reflexivity. }
  assert (C : count_lines (Z.of_nat p) 1 (offsets_of cps) = line_of cps p).
  { rewrite Eo, count_lines_app.
    - rewrite nl_length, count_lines_stop; [reflexivity|]. apply Forall_app. split.
      + eapply Forall_impl; [|apply nl_bounds]. cbn. intros; lia.
      + constructor; [lia|constructor].
    - eapply Forall_impl; [|apply nl_bounds]. cbn. intros; lia. }
  rewrite C. unfold line_of, column_of. fold pre. rewrite last_start, Lp.
  pose proof (nl_length 0 pre) as NL.
  destruct (nl 0 pre) as [|o os] eqn:En.
  - rewrite <- NL. cbn. f_equal. f_equal. lia.
  - cbn [length] in NL. replace (1 + newlines pre =? 1) with false by lia. f_equal. f_equal.
    rewrite Eo. replace (Z.to_nat (1 + newlines pre - 2)) with (length (o :: os) - 1)%nat by (cbn [length]; lia).
    rewrite nth_last by discriminate. lia.
Qed.

Lemma GetLocation_ok k cps p : (p <= length cps)%nat ->
  GetLocation (mkSource k cps (offsets_of cps)) (Z.of_nat p) = Some (line_of cps p, column_of cps p).
Proof. intros H. unfold GetLocation. rewrite FindLine_ok by exact H. do 2 f_equal. lia. Qed.

Lemma newlines_bound a : 0 <= newlines a.
Proof. unfold newlines. lia. Qed.
Lemma since_bound a : 0 <= since_newline a.
Proof. induction a as [|c a IH]; cbn [since_newline]; [lia|]. destruct (c =? newline); lia. Qed.

Lemma GetPosition_ok k cps p : (p <= length cps)%nat ->
  GetPosition (mkSource k cps (offsets_of cps)) (line_of cps p) (column_of cps p) = Some (Z.of_nat p).
Proof.
  intros H. pose proof (FindLine_ok k cps p H) as F.
  unfold GetPosition, line_of, column_of.
  pose proof (newlines_bound (firstn p cps)). pose proof (since_bound (rev (firstn p cps))).
  replace (_ || _) with false by lia. unfold FindLinePosition. replace (_ <? 1) with false by lia.
  unfold FindLine in F. cbn [src_line_offsets] in *. replace (Z.of_nat p <? 0) with false in F by lia.
  destruct (count_lines (Z.of_nat p) 1 (offsets_of cps) =? 1) eqn:E1; injection F as F1 F2; rewrite F1 in *; unfold line_of, column_of in *.
  - rewrite E1. f_equal. lia.
  - rewrite E1. pose proof (nl_length 0 cps) as NL.
    assert (newlines (firstn p cps) <= newlines cps).
    { unfold newlines. rewrite <- (firstn_skipn p cps) at 2. rewrite count_occ_app. lia. }
    unfold offsets_of at 1. rewrite app_length. cbn [length].
    replace (_ <=? _) with true by lia. f_equal. lia.
Qed.

(** Lines by number *)
Lemma lines_of_app a b : ~ In newline a -> lines_of (a ++ newline :: b) = a :: lines_of b.
Proof.
  induction a as [|c a IH]; intros N; cbn [app lines_of].
  - rewrite Z.eqb_refl. reflexivity.
  - cbn in N. assert (c <> newline) by tauto. replace (c =? newline) with false by lia. rewrite IH by tauto. reflexivity.
Qed.
Lemma lines_of_last a : ~ In newline a -> lines_of a = [a].
Proof.
  induction a as [|c a IH]; intros N; cbn [lines_of]; [reflexivity|].
  cbn in N. assert (c <> newline) by tauto. replace (c =? newline) with false by lia. rewrite IH by tauto. reflexivity.
Qed.
Lemma lines_of_length cps : Z.of_nat (length (lines_of cps)) = 1 + newlines cps.
Proof.
  induction cps as [|c t IH]; [reflexivity|]. cbn [lines_of]. unfold newlines in *. cbn [count_occ].
  destruct (Z.eq_dec c newline) as [->|N].
  - rewrite Z.eqb_refl. cbn [length]. lia.
  - replace (c =? newline) with false by lia. destruct (lines_of t); cbn [length] in *; lia.
Qed.
Lemma nl_none k a : ~ In newline a -> nl k a = [].
Proof.
  revert k. induction a as [|c a IH]; intros k N; cbn [nl]; [reflexivity|]. cbn in N. unfold newline in *.
  replace (c =? 10) with false by lia. apply IH. tauto.
Qed.
(* the k-th line lies between consecutive offsets *)
Lemma line_between cps : forall b n l, nth_error (lines_of cps) n = Some l ->
  let offs := nl b cps ++ [b + Z.of_nat (length cps) + 1] in
  exists s e, nth_error (b :: offs) n = Some s /\ nth_error (b :: offs) (S n) = Some e /\
    b <= s /\ s <= e - 1 /\ e - 1 <= b + Z.of_nat (length cps) /\
    firstn (Z.to_nat (e - 1 - s)) (skipn (Z.to_nat (s - b)) cps) = l.
Proof.
  induction cps as [|c t IH]; intros b n l H; cbn zeta.
  - destruct n as [|[|n]]; [|discriminate H|discriminate H]. injection H as <-. exists b, (b + 1). cbn [nl length app nth_error].
    repeat split; try lia; try (f_equal; lia). rewrite skipn_nil, firstn_nil. reflexivity.
  - cbn [lines_of] in H. cbn [nl length].
    destruct (c =? newline) eqn:Ec; unfold newline in Ec; rewrite Ec in *.
    + destruct n as [|n].
      * injection H as <-. exists b, (b + 1). cbn [nth_error app]. repeat split; try lia.
        replace (Z.to_nat (b + 1 - 1 - b)) with 0%nat by lia. reflexivity.
      * cbn [nth_error] in H. destruct (IH (b + 1) n l H) as [s [e [E1 [E2 [B1 [B2 [B3 F]]]]]]].
        exists s, e. replace (b + 1 + Z.of_nat (length t) + 1) with (b + Z.of_nat (S (length t)) + 1) in * by lia.
        split; [exact E1|]. split; [exact E2|]. repeat split; try lia.
        replace (Z.to_nat (s - b)) with (S (Z.to_nat (s - (b + 1)))) by lia. exact F.
    + destruct (lines_of t) as [|l0 ls] eqn:El.
      { pose proof (lines_of_length t). rewrite El in H0. cbn [length] in H0. pose proof (newlines_bound t). lia. }
      replace (b + 1 + Z.of_nat (length t) + 1) with (b + Z.of_nat (S (length t)) + 1) in * by lia.
      destruct n as [|n].
      * injection H as <-. destruct (IH (b + 1) 0%nat l0 eq_refl) as [s [e [E1 [E2 [B1 [B2 [B3 F]]]]]]].
        injection E1 as <-. replace (b + 1 + Z.of_nat (length t) + 1) with (b + Z.of_nat (S (length t)) + 1) in * by lia.
        exists b, e. split; [reflexivity|]. split; [exact E2|]. repeat split; try lia.
        replace (Z.to_nat (b + 1 - (b + 1))) with 0%nat in F by lia.
        replace (Z.to_nat (b - b)) with 0%nat by lia. cbn [skipn] in *.
        replace (Z.to_nat (e - 1 - b)) with (S (Z.to_nat (e - 1 - (b + 1)))) by lia. cbn [firstn]. f_equal. exact F.
      * destruct (IH (b + 1) (S n) l H) as [s [e [E1 [E2 [B1 [B2 [B3 F]]]]]]].
        replace (b + 1 + Z.of_nat (length t) + 1) with (b + Z.of_nat (S (length t)) + 1) in * by lia.
        exists s, e. split; [exact E1|]. split; [exact E2|]. repeat split; try lia.
        replace (Z.to_nat (s - b)) with (S (Z.to_nat (s - (b + 1)))) by lia. exact F.
Qed.

Lemma encode_ascii l : ascii_list l -> encode l = l.
Proof. intros H. induction H as [|c l Hc H IH]; [reflexivity|]. cbn. rewrite utf8_ascii by lia. cbn. f_equal. exact IH. Qed.
Lemma Forall_sub {A} (P : A -> Prop) (l : list A) i n : Forall P l -> Forall P (firstn n (skipn i l)).
Proof.
  intros H. rewrite <- (firstn_skipn i l) in H. apply Forall_app in H. destruct H as [_ H].
  rewrite <- (firstn_skipn n (skipn i l)) in H. apply Forall_app in H. tauto.
Qed.
Lemma to_string_ok k cps offs b e : (k = Ascii -> ascii_list cps) -> Forall scalar cps ->
  0 <= b <= e -> e <= Z.of_nat (length cps) ->
  content_to_string (mkSource k cps offs) b e = Val (encode (firstn (Z.to_nat (e - b)) (skipn (Z.to_nat b) cps))).
Proof.
  intros HA HS H1 H2. unfold content_to_string, content_size. cbn [src_text src_kind].
  replace (_ && _) with true by lia. f_equal.
  assert (G : forall l, Forall scalar l -> flat_map Utf8Encode l = encode l).
  { intros l Hl. induction Hl as [|c l Hc Hl IH]; [reflexivity|]. cbn [flat_map encode]. rewrite IH. f_equal. apply Utf8Encode_valid. exact Hc. }
  destruct k; [|apply G, Forall_sub, HS|apply G, Forall_sub, HS|apply G, Forall_sub, HS].
  symmetry. apply encode_ascii, Forall_sub, HA. reflexivity.
Qed.

Lemma FindLinePosition_ok k cps n : 
  FindLinePosition (mkSource k cps (offsets_of cps)) (Z.of_nat (S n)) =
  if (n <? length (offsets_of cps))%nat then nth_error (0 :: offsets_of cps) n else None.
Proof.
  unfold FindLinePosition. cbn [src_line_offsets]. replace (_ <? 1) with false by lia.
  destruct n as [|n].
  - cbn [nth_error]. unfold offsets_of. rewrite app_length. cbn [length]. 
    replace (_ <? _)%nat with true by (symmetry; apply Nat.ltb_lt; lia). reflexivity.
  - replace (Z.of_nat (S (S n)) =? 1) with false by lia. cbn [nth_error].
    destruct (S n <? length (offsets_of cps))%nat eqn:E.
    + apply Nat.ltb_lt in E. replace (_ <=? _) with true by lia.
      replace (Z.to_nat (Z.of_nat (S (S n)) - 2)) with n by lia. symmetry. apply nth_error_nth'. lia.
    + apply Nat.ltb_ge in E. replace (_ <=? _) with false by lia. reflexivity.
Qed.

Lemma Snippet_ok k cps n l : (k = Ascii -> ascii_list cps) -> Forall scalar cps -> cps <> [] ->
  nth_error (lines_of cps) n = Some l ->
  Snippet (mkSource k cps (offsets_of cps)) (Z.of_nat (S n)) = Val (Some (encode l)).
Proof.
  intros HA HS HN HL. destruct (line_between cps 0 n l HL) as [s [e [E1 [E2 [B1 [B2 [B3 F]]]]]]].
  rewrite Z.add_0_l in *. fold (offsets_of cps) in E1, E2.
  unfold Snippet. replace (Z.of_nat (S n) + 1) with (Z.of_nat (S (S n))) by lia.
  rewrite !FindLinePosition_ok.
  assert (Hn : (n < length (offsets_of cps))%nat).
  { cbn [nth_error] in E2. apply nth_error_Some. rewrite E2. discriminate. }
  apply Nat.ltb_lt in Hn as Hb. rewrite Hb, E1. unfold content_size. cbn [src_text].
  replace (Z.of_nat (length cps) =? 0) with false by (destruct cps; [congruence|cbn [length]; lia]).
  destruct (S n <? length (offsets_of cps))%nat eqn:E.
  - rewrite E2. rewrite to_string_ok by (assumption || lia). cbn [obind].
    rewrite Z.sub_0_r in F. rewrite F. reflexivity.
  - apply Nat.ltb_ge in E.
    assert (n = length (nl 0 cps)) by (unfold offsets_of in *; rewrite app_length in *; cbn [length] in *; lia).
    cbn [nth_error] in E2. unfold offsets_of in E2. rewrite nth_error_app2 in E2 by lia.
    rewrite H, Nat.sub_diag in E2. injection E2 as <-.
    rewrite to_string_ok by (assumption || lia). cbn [obind]. rewrite Z.sub_0_r in F.
    replace (Z.of_nat (length cps) + 1 - 1) with (Z.of_nat (length cps)) in F by lia. rewrite F. reflexivity.
Qed.
Lemma Snippet_none k cps n : (length (lines_of cps) <= n)%nat ->
  Snippet (mkSource k cps (offsets_of cps)) (Z.of_nat (S n)) = Val None.
Proof.
  intros H. unfold Snippet. rewrite FindLinePosition_ok.
  pose proof (lines_of_length cps). pose proof (nl_length 0 cps).
  replace (n <? length (offsets_of cps))%nat with false; [reflexivity|].
  symmetry. apply Nat.ltb_ge. unfold offsets_of. rewrite app_length. cbn [length]. lia.
Qed.
