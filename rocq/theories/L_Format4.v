(* The order of map entries; well-formed UTF-8. *)
From Coq Require Import ZArith String List Bool Ascii Permutation Sorting.Sorted Lia ZifyBool.
From Verif Require Import Base M_Overflow M_Number M_Value L_Value S_Utf8 L_Utf8 L_Strings.
From Verif Require Import M_Format S_Format L_Format L_Format2 L_Format3.
Import ListNotations.
Open Scope list_scope.
Open Scope Z_scope.

(** ** Order of entries *)
Definition same_entry (e e' : mkey * value) : Prop := fst e = fst e' /\ reordered (snd e) (snd e').
Lemma Forall2_impl_in {X Y} (R R' : X -> Y -> Prop) l l' :
  Forall (fun a => forall b, R a b -> R' a b) l -> Forall2 R l l' -> Forall2 R' l l'.
Proof. intros H G. induction G; [constructor|]. apply Forall_cons_iff in H as [H1 H2]. constructor; auto. Qed.
Lemma Forall2_flip' {X Y} (R : X -> Y -> Prop) l l' : Forall2 R l l' -> Forall2 (fun b a => R a b) l' l.
Proof. induction 1; now constructor. Qed.
Lemma reordered_sym v : forall w, reordered v w -> reordered w v.
Proof.
  induction v using value_ind'; intros w R; inversion R as [x|l1 l' F|m1 m' m'' F P]; subst; try apply ro_same.
  - apply ro_list. apply Forall2_flip'. eapply Forall2_impl_in; [|exact F].
    rewrite Forall_forall in *. intros a Ha b. now apply H.
  - assert (F' : Forall2 (fun e' e => fst e' = fst e /\ reordered (snd e') (snd e)) m' m).
    { apply Forall2_flip'. eapply Forall2_impl_in; [|exact F].
      rewrite Forall_forall in *. intros a Ha b [E Rb]. split; [easy|now apply H]. }
    destruct (Permutation_Forall2 P F') as (m3 & P3 & F3). apply (ro_map m'' m3 m); [easy|now apply Permutation_sym].
Qed.
Lemma keys_of_same m m' : Forall2 same_entry m m' ->
  map (fun e => ktext (fst e)) m = map (fun e => ktext (fst e)) m'.
Proof. induction 1 as [|a b l l' [E _] F IH]; [easy|]. cbn. now rewrite IH, E. Qed.
Lemma Forall2_transport {X} (P : X -> Prop) (R : X -> X -> Prop) l l' :
  Forall (fun a => forall b, R a b -> P a -> P b) l -> Forall2 R l l' -> Forall P l -> Forall P l'.
Proof.
  intros H G. induction G; intros F; [constructor|]. apply Forall_cons_iff in H as [H1 H2].
  apply Forall_cons_iff in F as [F1 F2]. constructor; eauto.
Qed.
Lemma reordered_plain v : forall w, reordered v w -> plain v -> plain w.
Proof.
  induction v using value_ind'; intros w R Pv; inversion R as [x|l1 l' F|m1 m' m'' F P]; subst; try easy.
  - inversion Pv as [| | | | | | | | | |l0 Pl| | | |]; subst. apply pl_list.
    eapply Forall2_transport; [|exact F|exact Pl]. exact H.
  - inversion Pv as [| | | | | | | | | | |m0 Pm| | |]; subst. apply pl_map.
    eapply Permutation_Forall; [exact P|]. eapply Forall2_transport; [|exact F|exact Pm].
    rewrite Forall_forall in *. intros a Ha b [E Rb] [K V]. rewrite <- E. split; [easy|]. now apply (H a Ha).
Qed.
Lemma reordered_distinct v : forall w, reordered v w -> distinct_keys v -> distinct_keys w.
Proof.
  induction v using value_ind'; intros w R Pv; inversion R as [x|l1 l' F|m1 m' m'' F P]; subst; try easy.
  - inversion Pv as [l0 Pl| |v0 C]; subst; [|easy]. apply dk_list.
    eapply Forall2_transport; [|exact F|exact Pl]. exact H.
  - inversion Pv as [|m0 Pm Km|v0 C]; subst; [|easy]. apply dk_map.
    + eapply Permutation_Forall; [exact P|]. eapply Forall2_transport; [|exact F|exact Pm].
      rewrite Forall_forall in *. intros a Ha b [E Rb] V. now apply (H a Ha).
    + apply distinct_nodup. apply nodup_of_distinct in Km. rewrite (keys_of_same m m' F) in Km.
      eapply Permutation_NoDup; [|exact Km]. now apply Permutation_map.
Qed.

Section Texts.
  Variable double_text : double -> list Z.
  Variable timestamp_text : time -> list Z.
  Local Notation shows := (shows double_text timestamp_text).

  Lemma reordered_shows v : forall w t, reordered v w -> shows v t -> shows w t.
  Proof.
    induction v using value_ind'; intros w t0 R Sv; inversion R as [x|l1 l' F|m1 m' m'' F P]; subst; try easy.
    - inversion Sv as [| | | | | | | | | | |l0 ts A|]; subst. apply sh_list. apply all_show_iff. apply all_show_iff in A.
      clear - H F A. revert ts A. induction F as [|a b l l' Rab F IH]; intros ts A; inversion A; subst; constructor.
      + apply Forall_cons_iff in H as [HA _]. eauto.
      + apply Forall_cons_iff in H as [_ HB]. now apply IH.
    - inversion Sv as [| | | | | | | | | | | |m0 kts srt He Hp Hs]; subst.
      apply entries_show_iff in He.
      assert (He' : Forall2 (fun e t => key_shows (fst e) (fst t) /\ shows (snd e) (snd t)) m' kts).
      { clear - H F He. revert kts He. induction F as [|a b l l' [E Rab] F IH]; intros ts A; inversion A as [|? ? ? ? [K V]]; subst; constructor.
        + apply Forall_cons_iff in H as [HA _]. rewrite <- E. split; [easy|eauto].
        + apply Forall_cons_iff in H as [_ HB]. now apply IH. }
      destruct (Permutation_Forall2 P He') as (kts' & P' & F').
      apply (sh_map _ _ m'' kts' srt); [now apply entries_show_iff|now rewrite <- P'|easy].
  Qed.
End Texts.

Section Formats.
  Variable double_text : double -> list Z.
  Variable fixed_text scientific_text : Z -> double -> list Z.
  Variable timestamp_text : time -> list Z.
  Local Notation clause := (clause double_text fixed_text scientific_text timestamp_text).
  Local Notation renders := (renders double_text fixed_text scientific_text timestamp_text).

  Lemma reordered_clause c p v w t : reordered v w -> clause c p v t -> clause c p w t.
  Proof.
    intros R H. destruct H as [p v t H|c u b p n t I H|c u b p n t I H|p d|p b|c u p s t I H|c u p s t I H|p v d H|p v d H];
      try (inversion R; subst; econstructor; eauto; fail).
    - apply cl_string. eapply reordered_shows; eauto.
    - inversion H; subst; inversion R; subst; now apply cl_fixed.
    - inversion H; subst; inversion R; subst; now apply cl_scientific.
  Qed.
  Lemma reordered_renders max f args o : renders max f args o -> forall args', Forall2 reordered args args' ->
    renders max f args' o.
  Proof.
    induction 1 as [args|c f args o Nc R IH|f args o R IH|pt p c v t f args o Hp Hc R IH]; intros args' F.
    - apply rn_end.
    - apply rn_char; auto.
    - apply rn_percent; auto.
    - inversion F as [|? w ? l Rv F']; subst.
      apply (rn_clause _ _ _ _ max pt p c w t f); [easy|eapply reordered_clause; eauto|auto].
  Qed.
End Formats.

(** ** UTF-8 *)
Definition ascii (t : list Z) : Prop := Forall (fun c => 0 <= c < 128) t.
Lemma wf_ascii_text t : ascii t -> well_formed t.
Proof.
  induction 1 as [|c t Hc F IH]; [apply wf_nil|]. now apply wf_ascii_cons.
Qed.
Lemma digit_ascii upper c d : digit_value upper c = Some d -> 0 <= c < 128.
Proof.
  unfold digit_value. destruct ((48 <=? c) && (c <=? 57)) eqn:E; [lia|].
  destruct upper; [destruct ((65 <=? c) && (c <=? 70)) eqn:E2|destruct ((97 <=? c) && (c <=? 102)) eqn:E2]; try discriminate; lia.
Qed.
Lemma place_ascii upper b t n : place_value upper b t n -> ascii t.
Proof.
  induction 1; [constructor|]. apply Forall_app. split; [easy|]. constructor; [eapply digit_ascii; eauto|constructor].
Qed.
Lemma numeral_ascii upper b t n : integer_numeral upper b t n -> ascii t.
Proof.
  intros [[_ [A _]]|[_ (u & -> & [A _])]]; [eapply place_ascii; eauto|]. constructor; [lia|eapply place_ascii; eauto].
Qed.
Lemma hex_ascii upper s t : hex_bytes upper s t -> ascii t.
Proof. induction 1; [constructor|]. repeat constructor; try easy; eauto using digit_ascii; eapply digit_ascii; eauto. Qed.
Lemma ascii_app a b : ascii a -> ascii b -> ascii (a ++ b).
Proof. intros A B. now apply Forall_app. Qed.
Lemma ascii_b t : forallb (fun c => (0 <=? c) && (c <? 128)) t = true -> ascii t.
Proof. intros H. apply Forall_forall. intros x Hx. rewrite forallb_forall in H. specialize (H x Hx). lia. Qed.
Ltac ascii_lit := apply ascii_b; reflexivity.
Lemma duration_ascii ns t : duration_text ns t -> ascii t.
Proof.
  intros (w & f & s & n & -> & [A _] & B & _). apply ascii_app; [destruct (ns <? 0); ascii_lit|].
  apply ascii_app; [eapply place_ascii; eauto|]. apply ascii_app; [|ascii_lit].
  destruct B as [[_ ->]|(k & u & m & -> & _ & _ & _ & V & _)]; [constructor|]. constructor; [lia|eapply place_ascii; eauto].
Qed.
Lemma join_wf ts : Forall well_formed ts -> well_formed (join (text ", ") ts).
Proof.
  induction 1 as [|t ts Ht F IH]; [apply wf_nil|]. destruct ts as [|u ts]; [easy|].
  change (join (text ", ") (t :: u :: ts)) with (t ++ text ", " ++ join (text ", ") (u :: ts)).
  apply wf_app; [easy|]. apply wf_app; [apply wf_ascii_text; ascii_lit|easy].
Qed.

Section Wf.
  Variable double_text : double -> list Z.
  Variable fixed_text scientific_text : Z -> double -> list Z.
  Variable timestamp_text : time -> list Z.
  Hypothesis double_ascii : forall d, ascii (double_text d).
  Hypothesis fixed_ascii : forall p d, ascii (fixed_text p d).
  Hypothesis scientific_ascii : forall p d, ascii (scientific_text p d).
  Hypothesis timestamp_ascii : forall t, ascii (timestamp_text t).
  Local Notation FS := (FormatString double_text timestamp_text).
  Local Notation utf8_value := (utf8_value well_formed).

  Lemma int_text_ascii n : ascii (int_text n).
  Proof. eapply numeral_ascii, int_text_ok. Qed.
  Lemma padded_ascii k n : 0 <= n -> ascii (padded k n).
  Proof.
    intros H. unfold padded. apply ascii_app; [|eapply place_ascii, (digits_ok false 10 n); lia].
    apply Forall_forall. intros x Hx. apply repeat_spec in Hx. lia.
  Qed.
  Lemma prints_wf v : utf8_value v -> plain v -> forall t, prints (FS v) t -> well_formed t.
  Proof.
    induction v using value_ind'; intros Uv Pv t0 (s0 & E); cbn [FormatString] in E;
      try discriminate; try (injection E as <- _).
    - apply wf_ascii_text. ascii_lit.
    - apply wf_ascii_text. destruct b; ascii_lit.
    - apply wf_ascii_text, int_text_ascii.
    - apply wf_ascii_text, int_text_ascii.
    - apply wf_ascii_text. 
      repeat match type of E with context [if ?b then _ else _] => destruct b end; injection E as <- _; try ascii_lit.
      apply double_ascii.
    - inversion Uv; subst; easy.
    - inversion Uv; subst; easy.
    - inversion Pv; subst. destruct (FormatDuration_ok ns) as (t & s & E' & D); [easy|].
      rewrite E' in E. injection E as <- _. apply wf_ascii_text. eapply duration_ascii; eauto.
    - apply wf_ascii_text, timestamp_ascii.
    - inversion Uv; subst; easy.
    - inversion Uv as [l0 Ul| |v0 C]; subst; [|easy]. inversion Pv as [| | | | | | | | | |l0 Pl| | | |]; subst.
      unfold FormatList in E.
      destruct (FormatList_loop (map FS l) (str "[")) as [r| |] eqn:Er; cbn [obind] in E; unfold ret in E; try discriminate.
      injection E as <- _. apply FormatList_loop_iff in Er as (ts & F & ->).
      change (str "[") with [91]. rewrite (close_items 91 93).
      apply wf_app; [apply wf_ascii_text; ascii_lit|]. apply wf_app; [|apply wf_ascii_text; ascii_lit].
      apply join_wf. rewrite Forall2_map_l in F.
      clear - H Ul Pl F. induction F as [|a t l1 ts1 Ha F IH]; [constructor|].
      apply Forall_cons_iff in H as [H1 H2]. apply Forall_cons_iff in Ul as [U1 U2]. apply Forall_cons_iff in Pl as [P1 P2].
      constructor; auto.
    - inversion Uv as [|m0 Um|v0 C]; subst; [|easy]. inversion Pv as [| | | | | | | | | | |m0 Pm| | |]; subst.
      unfold FormatMap in E.
      set (m' := map (fun e => (fst e, FS (snd e))) m) in *.
      destruct (FormatMap_keys_val m' []) as (vm & Ek). rewrite Ek in E. cbn [obind] in E.
      destruct (FormatMap_values vm (str "{")) as [r| |] eqn:Er; cbn [obind] in E; unfold ret in E; try discriminate.
      injection E as <- _. apply FormatMap_values_iff in Er as (kts & F & ->).
      change (str "{") with [123]. rewrite (close_items 123 125).
      apply wf_app; [apply wf_ascii_text; ascii_lit|]. apply wf_app; [|apply wf_ascii_text; ascii_lit].
      apply join_wf.
      assert (K : forall vm0 m1, Forall (fun e : mkey * (list Z -> printed) => well_formed (ktext (fst e)) /\
                    forall t, prints (snd e) t -> well_formed t) m1 ->
                  Forall (fun e => well_formed (fst e) /\ forall t, prints (snd e) t -> well_formed t) vm0 ->
                  forall vm1, FormatMap_keys m1 vm0 = Val vm1 ->
                  Forall (fun e => well_formed (fst e) /\ forall t, prints (snd e) t -> well_formed t) vm1).
      { intros vm0 m1 F1. revert vm0. induction F1 as [|[k f] m1 [Wk Wf] F1 IH]; intros vm0 F0 vm1 Em; cbn in Em.
        - now injection Em as <-.
        - destruct (FormatKey_ok k) as (s & Es). rewrite Es in Em. cbn in Em. eapply IH; [|exact Em].
          rewrite Forall_forall in *. intros x Hx. apply emplace_in in Hx as [->|Hx]; [now split|now apply F0]. }
      assert (W : Forall (fun e => well_formed (fst e) /\ forall t, prints (snd e) t -> well_formed t) vm).
      { apply (K [] m'); [|constructor|exact Ek]. unfold m'. apply Forall_map.
        rewrite Forall_forall in *. intros [k v] He. cbn [fst snd]. split.
        - specialize (Um _ He). cbn in Um. destruct Um as [Uk _]. destruct k as [[]| | |]; cbn; try easy;
            apply wf_ascii_text; try ascii_lit; apply int_text_ascii.
        - apply (H _ He); [apply (Um _ He)|apply (Pm _ He)]. }
      apply Forall_map. clear - W F. induction F as [|e kt vm kts [E1 E2] F IH]; [constructor|].
      apply Forall_cons_iff in W as [[W1 W2] W3]. constructor; [|now apply IH]. unfold entry_text.
      apply wf_app; [now rewrite <- E1|]. apply wf_app; [apply wf_ascii_text; ascii_lit|auto].
  Qed.

  Local Notation clause := (clause double_text fixed_text scientific_text timestamp_text).
  Local Notation BL := (by_letter double_text fixed_text scientific_text timestamp_text).
  Lemma number_ascii print p d : (forall p d, ascii (print p d)) -> ascii (number_text print p d).
  Proof. intros H. unfold number_text. destruct d as [|[]| |]; cbn; try apply H; ascii_lit. Qed.
  Lemma letter_wf c p v t : utf8_value v -> plain v -> prints (BL c p v) t -> well_formed t.
  Proof.
    intros Uv Pv H. destruct (Z.eq_dec c 115) as [->|Nc]; [eapply prints_wf; eauto|].
    assert (D : distinct_keys v).
    { destruct v; try (now apply dk_other); exfalso; destruct H as (s & E); unfold by_letter in E;
        replace (c =? 115) with false in E by lia; cbn in E;
        repeat match type of E with context [if ?b then _ else _] => destruct b end; discriminate. }
    apply clause_sound in H; [|easy|easy]. apply wf_ascii_text.
    destruct H; try congruence; eauto using numeral_ascii, hex_ascii, number_ascii.
    destruct b; ascii_lit.
  Qed.

  Local Notation emits := (emits double_text fixed_text scientific_text timestamp_text).
  Lemma emits_high max h : Forall (fun b => 128 <= b <= 255) h -> forall f args o, emits max (h ++ f) args o ->
    exists o', o = h ++ o' /\ emits max f args o'.
  Proof.
    induction 1 as [|b h Hb F IH]; intros f args o E; [now exists o|]. cbn in E.
    inversion E as [|c f' args' o' Nc E' X| |]; subst; try lia.
    apply IH in E' as (o'' & -> & E'). now exists o''.
  Qed.
  Lemma encode_ascii_head cps a r : Forall scalar cps -> encode cps = a :: r -> 0 <= a < 128 ->
    exists cps', cps = a :: cps' /\ r = encode cps' /\ Forall scalar cps'.
  Proof.
    intros S E Ha. destruct cps as [|c cps]; [discriminate|]. apply Forall_cons_iff in S as [Sc S].
    cbn in E. destruct (Z_lt_dec c 128) as [L|L].
    - rewrite utf8_ascii in E by easy. injection E as -> <-. now exists cps.
    - pose proof (utf8_high c ltac:(lia) Sc) as H. destruct (utf8 c) as [|x u] eqn:Eu; [now apply (f_equal (@length Z)) in Eu; pose proof (utf8_len c); cbn in Eu; lia|].
      injection E as -> _. apply Forall_cons_iff in H as [H _]. lia.
  Qed.
  Lemma encode_ascii_prefix pt : ascii pt -> forall cps r, Forall scalar cps -> encode cps = pt ++ r ->
    exists cps', cps = pt ++ cps' /\ r = encode cps' /\ Forall scalar cps'.
  Proof.
    induction 1 as [|a pt Ha F IH]; intros cps r S E; [now exists cps|]. cbn in E.
    destruct (encode_ascii_head _ _ _ S E Ha) as (cps' & -> & E' & S').
    symmetry in E'. destruct (IH _ _ S' E') as (cps'' & -> & E'' & S''). now exists cps''.
  Qed.
  Lemma precision_ascii max pt p : precision max pt p -> ascii pt.
  Proof. destruct 1; [constructor|]. constructor; [lia|eapply place_ascii; eauto]. Qed.
  Lemma emits_wf max : forall n cps args o, (length cps <= n)%nat -> Forall scalar cps -> Forall utf8_value args -> Forall plain args ->
    emits max (encode cps) args o -> well_formed o.
  Proof.
    induction n as [|n IH]; intros cps args o L S U P E.
    - destruct cps; [|cbn in L; lia]. cbn in E. inversion E; subst. apply wf_nil.
    - destruct cps as [|c cps]; [cbn in E; inversion E; subst; apply wf_nil|]. cbn in L.
      apply Forall_cons_iff in S as [Sc S]. cbn in E.
      destruct (Z_lt_dec c 128) as [Lc|Lc].
      + rewrite utf8_ascii in E by easy. cbn in E. assert (0 <= c) by (unfold scalar in Sc; lia).
        inversion E as [|c' f' args' o' Nc E' X|f args' o' E' X|pt p x v t f args' o' Hp Hc E' X]; subst.
        * apply wf_ascii_cons; [lia|]. eapply IH; [|exact S|exact U|exact P|exact E']. lia.
        * match goal with Q : _ = flat_map utf8 cps |- _ => change (flat_map utf8 cps) with (encode cps) in Q; symmetry in Q; rename Q into Q2 end.
          destruct (encode_ascii_head _ _ _ S Q2 ltac:(lia)) as (cps' & -> & -> & S').
          apply wf_ascii_cons; [lia|]. eapply IH; [|exact S'|exact U|exact P|exact E']. cbn in L. lia.
        * apply Forall_cons_iff in U as [U1 U2]. apply Forall_cons_iff in P as [P1 P2].
          assert (Lx : 0 <= x < 128).
          { apply by_letter_letter in Hc. unfold letter in Hc. lia. }
          assert (A : ascii (pt ++ [x])) by (apply ascii_app; [eapply precision_ascii; eauto|constructor; [easy|constructor]]).
          assert (Ee : encode cps = (pt ++ [x]) ++ f) by (rewrite <- app_assoc; symmetry; assumption).
          destruct (encode_ascii_prefix _ A _ _ S Ee) as (cps' & -> & -> & S').
          apply wf_app; [eapply letter_wf; eauto|]. eapply IH; [|exact S'|exact U2|exact P2|exact E'].
          rewrite !app_length in L. lia.
      + apply emits_high in E as (o' & -> & E'); [|apply utf8_high; [lia|easy]].
        apply wf_app; [now apply wf_char|]. eapply IH; [|exact S|exact U|exact P|exact E']. lia.
  Qed.
  Lemma Format_wf max f args o : well_formed f -> Forall utf8_value args -> Forall plain args ->
    Format double_text fixed_text scientific_text timestamp_text max f args = Val o -> well_formed o.
  Proof.
    intros (cps & S & ->) U P E. apply loop_emits in E as (o' & -> & E).
    eapply emits_wf; [|exact S|exact U|exact P|exact E]. apply le_n.
  Qed.
End Wf.
