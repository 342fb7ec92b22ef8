(* Lemmas about base 64. *)
From Coq Require Import ZArith String List Bool Lia ZifyBool.
From Verif Require Import Base M_Attr S_Format.
From Verif Require Import M_Json S_Json.
Import ListNotations.
Open Scope list_scope.
Open Scope Z_scope.

(* checking a claim about small numbers by running through them *)
Definition below (n : nat) : list Z := map Z.of_nat (seq 0 n).
Lemma in_below n z : 0 <= z < Z.of_nat n -> In z (below n).
Proof.
  intros H. unfold below. apply in_map_iff. exists (Z.to_nat z). split; [lia|]. apply in_seq. lia.
Qed.
Lemma all_below n (f : Z -> bool) : forallb f (below n) = true -> forall z, 0 <= z < Z.of_nat n -> f z = true.
Proof. intros F z H. rewrite forallb_forall in F. apply F. now apply in_below. Qed.
Lemma all_below2 n m (f : Z -> Z -> bool) : forallb (fun x => forallb (f x) (below m)) (below n) = true ->
  forall x y, 0 <= x < Z.of_nat n -> 0 <= y < Z.of_nat m -> f x y = true.
Proof.
  intros F x y Hx Hy. pose proof (all_below n _ F x Hx) as F'. now apply (all_below m).
Qed.
Definition bl_eqb (a b : list bool) : bool := if list_eq_dec bool_dec a b then true else false.
Lemma bl_eqb_eq a b : bl_eqb a b = true -> a = b.
Proof. unfold bl_eqb. now destruct (list_eq_dec bool_dec a b). Qed.

Definition zo_eqb (a : option Z) (b : Z) : bool := match a with Some x => x =? b | None => false end.
Lemma zo_eqb_eq a b : zo_eqb a b = true -> a = Some b.
Proof. destruct a; cbn; intros H; [|easy]. f_equal. lia. Qed.

Lemma b64_alphabet v : 0 <= v < 64 -> nth_error alphabet (Z.to_nat v) = Some (b64_char v) /\ b64_value (b64_char v) = Some v.
Proof.
  intros H. split; apply zo_eqb_eq.
  - apply (all_below 64 (fun v => zo_eqb (nth_error alphabet (Z.to_nat v)) (b64_char v))); [vm_compute; reflexivity|easy].
  - apply (all_below 64 (fun v => zo_eqb (b64_value (b64_char v)) v)); [vm_compute; reflexivity|easy].
Qed.
Lemma b64_value_char c v : b64_value c = Some v -> 0 <= v < 64 /\ c = b64_char v.
Proof.
  unfold b64_value. intros H.
  destruct ((65 <=? c) && (c <=? 90)) eqn:E1; [injection H as <-; split; [lia|]|].
  { unfold b64_char. destruct (c - 65 <? 26) eqn:?; lia. }
  destruct ((97 <=? c) && (c <=? 122)) eqn:E2; [injection H as <-; split; [lia|]|].
  { unfold b64_char. destruct (c - 97 + 26 <? 26) eqn:?; [lia|]. destruct (c - 97 + 26 <? 52) eqn:?; lia. }
  destruct ((48 <=? c) && (c <=? 57)) eqn:E3; [injection H as <-; split; [lia|]|].
  { unfold b64_char. destruct (c - 48 + 52 <? 26) eqn:?; [lia|]. destruct (c - 48 + 52 <? 52) eqn:?; [lia|].
    destruct (c - 48 + 52 <? 62) eqn:?; lia. }
  destruct (c =? 43) eqn:E4; [injection H as <-; split; [lia|]; assert (c = 43) as -> by lia; reflexivity|].
  destruct (c =? 47) eqn:E5; [injection H as <-; split; [lia|]; assert (c = 47) as -> by lia; reflexivity|discriminate].
Qed.
Lemma b64_value_nth n c : nth_error alphabet n = Some c -> b64_value c = Some (Z.of_nat n) /\ (n < 64)%nat.
Proof.
  intros H. assert (n < 64)%nat as L. { assert (nth_error alphabet n <> None) as N by now rewrite H. apply nth_error_Some in N. exact N. }
  destruct (b64_alphabet (Z.of_nat n) ltac:(lia)) as [A B]. rewrite Nat2Z.id, H in A. injection A as ->. easy.
Qed.
Lemma b64_value_none c : b64_value c = None -> ~ In c alphabet.
Proof. intros H I. apply In_nth_error in I. destruct I as [n I]. apply b64_value_nth in I. destruct I. congruence. Qed.

Lemma sextets_values vs : Forall (fun v => 0 <= v < 64) vs ->
  sextets (map b64_char vs) (concat (map (bits 6) vs)).
Proof.
  induction 1 as [|v vs Hv _ IH]; cbn [map concat]; [constructor|].
  rewrite <- (Z2Nat.id v) at 2 by lia. constructor; [|easy]. now apply b64_alphabet.
Qed.
Lemma sextets_inv cs bs : sextets cs bs -> exists vs, cs = map b64_char vs /\ Forall (fun v => 0 <= v < 64) vs /\ bs = concat (map (bits 6) vs).
Proof.
  induction 1 as [|c n cs bs H _ (vs & -> & F & ->)]; [now exists []|]. exists (Z.of_nat n :: vs).
  apply b64_value_nth in H. destruct H as [H L]. apply b64_value_char in H. destruct H as [R ->]. repeat split; auto.
Qed.
Lemma bits_length k n : length (bits k n) = k.
Proof. induction k; cbn; auto. Qed.
Lemma concat_bits_length k l : length (concat (map (bits k) l)) = (k * length l)%nat.
Proof. induction l; cbn [map concat length]; [lia|]. rewrite app_length, bits_length. lia. Qed.

(* one byte from two characters *)
Lemma join1 w x : 0 <= w < 64 -> 0 <= x < 64 -> bits 8 (w * 4 + x / 16) = bits 6 w ++ firstn 2 (bits 6 x).
Proof.
  intros. apply bl_eqb_eq. apply (all_below2 64 64 (fun w x => bl_eqb (bits 8 (w * 4 + x / 16)) (bits 6 w ++ firstn 2 (bits 6 x)))); try lia.
  vm_compute. reflexivity.
Qed.
Lemma join2 x y : 0 <= x < 64 -> 0 <= y < 64 -> bits 8 (x mod 16 * 16 + y / 4) = skipn 2 (bits 6 x) ++ firstn 4 (bits 6 y).
Proof.
  intros. apply bl_eqb_eq. apply (all_below2 64 64 (fun x y => bl_eqb (bits 8 (x mod 16 * 16 + y / 4)) (skipn 2 (bits 6 x) ++ firstn 4 (bits 6 y)))); try lia.
  vm_compute. reflexivity.
Qed.
Lemma join3 y z : 0 <= y < 64 -> 0 <= z < 64 -> bits 8 (y mod 4 * 64 + z) = skipn 4 (bits 6 y) ++ bits 6 z.
Proof.
  intros. apply bl_eqb_eq. apply (all_below2 64 64 (fun y z => bl_eqb (bits 8 (y mod 4 * 64 + z)) (skipn 4 (bits 6 y) ++ bits 6 z))); try lia.
  vm_compute. reflexivity.
Qed.
Lemma join4 w x y z : 0 <= w < 64 -> 0 <= x < 64 -> 0 <= y < 64 -> 0 <= z < 64 ->
  bits 6 w ++ bits 6 x ++ bits 6 y ++ bits 6 z =
  bits 8 (w * 4 + x / 16) ++ bits 8 (x mod 16 * 16 + y / 4) ++ bits 8 (y mod 4 * 64 + z).
Proof.
  intros. rewrite join1, join2, join3 by easy.
  rewrite <- (firstn_skipn 2 (bits 6 x)) at 1. rewrite <- (firstn_skipn 4 (bits 6 y)) at 1. now rewrite <- !app_assoc.
Qed.
Lemma byte_1 w x : 0 <= w < 64 -> 0 <= x < 64 -> is_byte (w * 4 + x / 16).
Proof. intros. unfold is_byte. assert (0 <= x / 16 < 4) by (split; [apply Z.div_pos|apply Z.div_lt_upper_bound]; lia). lia. Qed.
Lemma byte_2 x y : 0 <= x < 64 -> 0 <= y < 64 -> is_byte (x mod 16 * 16 + y / 4).
Proof. intros. unfold is_byte. pose proof (Z.mod_pos_bound x 16). assert (0 <= y / 4 < 16) by (split; [apply Z.div_pos|apply Z.div_lt_upper_bound]; lia). lia. Qed.
Lemma byte_3 y z : 0 <= y < 64 -> 0 <= z < 64 -> is_byte (y mod 4 * 64 + z).
Proof. intros. unfold is_byte. pose proof (Z.mod_pos_bound y 4). lia. Qed.

(* induction by groups *)
Lemma list_ind4 {A} (P : list A -> Prop) : P [] -> (forall a, P [a]) -> (forall a b, P [a; b]) -> (forall a b c, P [a; b; c]) ->
  (forall a b c d l, P l -> P (a :: b :: c :: d :: l)) -> forall l, P l.
Proof.
  intros H0 H1 H2 H3 H4. assert (forall n l, (length l <= n)%nat -> P l) as G; [|intros l; now apply (G (length l))].
  induction n; intros l L.
  - destruct l; [easy|cbn in L; lia].
  - destruct l as [|a [|b [|c [|d l]]]]; auto. apply H4, IHn. cbn in L. lia.
Qed.
Lemma list_ind3 {A} (P : list A -> Prop) : P [] -> (forall a, P [a]) -> (forall a b, P [a; b]) ->
  (forall a b c l, P l -> P (a :: b :: c :: l)) -> forall l, P l.
Proof.
  intros H0 H1 H2 H3. assert (forall n l, (length l <= n)%nat -> P l) as G; [|intros l; now apply (G (length l))].
  induction n; intros l L.
  - destruct l; [easy|cbn in L; lia].
  - destruct l as [|a [|b [|c l]]]; auto. apply H3, IHn. cbn in L. lia.
Qed.

(* joining: the bytes, by digits *)
Lemma b64_join_ok vs : Forall (fun v => 0 <= v < 64) vs ->
  match b64_join vs with
  | Some (bs, n) => Forall is_byte bs /\ exists rest, concat (map (bits 6) vs) = octets bs ++ rest /\ (length rest < 6)%nat /\
      (n < 3)%nat /\ Nat.modulo (length vs + n) 4 = 0%nat
  | None => Nat.modulo (length vs) 4 = 1%nat
  end.
Proof.
  induction vs as [| |w x|w x y|w x y z vs IH] using list_ind4; intros F; cbn [b64_join].
  - split; [constructor|]. exists []. cbn. repeat split; lia.
  - reflexivity.
  - inversion F as [|? ? A F1]; subst. inversion F1 as [|? ? B F2]; subst.
    split; [constructor; [now apply byte_1|constructor]|]. exists (skipn 2 (bits 6 x)). unfold octets. cbn [map concat].
    rewrite !app_nil_r, join1 by easy. rewrite <- app_assoc, firstn_skipn. repeat split; cbn; lia.
  - inversion F as [|? ? A F1]; subst. inversion F1 as [|? ? B F2]; subst. inversion F2 as [|? ? C F3]; subst.
    split; [repeat constructor; try apply byte_1; try apply byte_2; easy|]. exists (skipn 4 (bits 6 y)). unfold octets. cbn [map concat].
    rewrite !app_nil_r, join1, join2 by easy. rewrite <- !app_assoc, firstn_skipn.
    rewrite (app_assoc (firstn 2 _)), firstn_skipn. repeat split; cbn; lia.
  - inversion F as [|? ? A F1]; subst. inversion F1 as [|? ? B F2]; subst. inversion F2 as [|? ? C F3]; subst. inversion F3 as [|? ? D F4]; subst.
    specialize (IH F4). destruct (b64_join vs) as [[bs n]|].
    + destruct IH as (IB & rest & E & L & N & M). split; [repeat constructor; auto using byte_1, byte_2, byte_3; try apply byte_1; try apply byte_2; try apply byte_3; easy|].
      exists rest. cbn [map concat]. rewrite E. unfold octets. cbn [map concat].
      split; [|split; [easy|split; [easy|]]].
      * rewrite !app_assoc. f_equal. f_equal. rewrite <- !app_assoc. now apply join4.
      * cbn [length]. replace (S (S (S (S (length vs)))) + n)%nat with (length vs + n + 1 * 4)%nat by lia. now rewrite Nat.mod_add by lia.
    + cbn [length]. replace (S (S (S (S (length vs))))) with (length vs + 1 * 4)%nat by lia. now rewrite Nat.mod_add by lia.
Qed.
Lemma octets_length b : length (octets b) = (8 * length b)%nat.
Proof. unfold octets. apply concat_bits_length. Qed.
Definition read_bits (l : list bool) : Z := fold_left (fun n b => n * 2 + (if b : bool then 1 else 0)) l 0.
Lemma read_bits_8 a : is_byte a -> read_bits (bits 8 a) = a.
Proof.
  intros A. apply Z.eqb_eq. apply (all_below 256 (fun a => read_bits (bits 8 a) =? a)); [vm_compute; reflexivity|exact A].
Qed.
Lemma bits_inj8 a b : is_byte a -> is_byte b -> bits 8 a = bits 8 b -> a = b.
Proof. intros A B H. rewrite <- (read_bits_8 a A), <- (read_bits_8 b B). now rewrite H. Qed.
Lemma octets_inj a : forall b, Forall is_byte a -> Forall is_byte b -> octets a = octets b -> a = b.
Proof.
  induction a as [|x a IH]; intros [|y b] Fa Fb H; try easy; try (apply (f_equal (@length bool)) in H; rewrite !octets_length in H; cbn in H; lia).
  unfold octets in H. cbn [map concat] in H. inversion Fa; subst. inversion Fb; subst.
  apply (f_equal (firstn 8)) in H as H'. apply (f_equal (skipn 8)) in H.
  rewrite !firstn_app, !skipn_app, !bits_length in *. cbn [Nat.sub] in *. rewrite !firstn_O, !app_nil_r in H'.
  rewrite !firstn_all2 in H' by (rewrite bits_length; lia). rewrite !skipn_all2 in H by (rewrite bits_length; lia). cbn [app] in H. rewrite !skipn_O in H.
  f_equal; [now apply bits_inj8|now apply IH].
Qed.

(* scanning *)
Lemma b64_space_spec c : b64_space c = negb (not_space c).
Proof. unfold b64_space, not_space. now rewrite negb_involutive. Qed.
Lemma value_not_space c v : b64_value c = Some v -> not_space c = true.
Proof.
  intros H. apply b64_value_char in H. destruct H as [R ->].
  apply (all_below 64 (fun v => not_space (b64_char v))); [vm_compute; reflexivity|easy].
Qed.
Lemma pad_not_space c : b64_pad c = true -> not_space c = true /\ pad c /\ b64_value c = None.
Proof.
  unfold b64_pad, pad. intros H. assert (c = 61 \/ c = 46) as [-> | ->] by lia; repeat split; auto.
Qed.
Lemma b64_scan_filter s : b64_scan (filter not_space s) =
  match b64_scan s with Some (vs, r) => Some (vs, filter not_space r) | None => None end.
Proof.
  induction s as [|c s IH]; [reflexivity|]. cbn [filter b64_scan].
  destruct (b64_value c) as [v|] eqn:V.
  - rewrite (value_not_space c v V). cbn [b64_scan]. rewrite V, IH. now destruct (b64_scan s) as [[vs r]|].
  - rewrite b64_space_spec. destruct (not_space c) eqn:N; cbn [negb]; [|exact IH].
    cbn [b64_scan]. rewrite V, b64_space_spec, N. cbn [negb]. destruct (b64_pad c) eqn:P; [|reflexivity]. cbn [filter]. now rewrite N.
Qed.
Lemma b64_pads_filter s : b64_pads (filter not_space s) = b64_pads s.
Proof.
  induction s as [|c s IH]; [reflexivity|]. cbn [filter b64_pads]. destruct (b64_pad c) eqn:P.
  - apply pad_not_space in P as P'. destruct P' as [-> _]. cbn [b64_pads]. now rewrite P, IH.
  - rewrite b64_space_spec. destruct (not_space c) eqn:N; cbn [negb]; [|exact IH]. cbn [b64_pads]. now rewrite P, b64_space_spec, N.
Qed.
Lemma unescape_filter s : Base64Unescape (filter not_space s) = Base64Unescape s.
Proof.
  unfold Base64Unescape. rewrite b64_scan_filter. destruct (b64_scan s) as [[vs r]|]; [|reflexivity]. now rewrite b64_pads_filter.
Qed.
Lemma b64_scan_chars vs r : Forall (fun v => 0 <= v < 64) vs -> (forall c r', r = c :: r' -> b64_pad c = true) ->
  b64_scan (map b64_char vs ++ r) = Some (vs, r).
Proof.
  intros F R. induction F as [|v vs Hv _ IH]; cbn [map app b64_scan].
  - destruct r as [|c r]; [reflexivity|]. cbn [b64_scan]. pose proof (R c r eq_refl) as P. pose proof (pad_not_space c P) as (N & _ & V).
    now rewrite V, b64_space_spec, N, P.
  - destruct (b64_alphabet v Hv) as [_ ->]. now rewrite IH.
Qed.
Lemma b64_scan_inv s : Forall (fun c => not_space c = true) s -> forall vs r, b64_scan s = Some (vs, r) ->
  s = map b64_char vs ++ r /\ Forall (fun v => 0 <= v < 64) vs.
Proof.
  induction 1 as [|c s N _ IH]; intros vs r H; cbn [b64_scan] in H; [injection H as <- <-; now split|].
  destruct (b64_value c) as [v|] eqn:V.
  - destruct (b64_scan s) as [[vs' r']|]; [|discriminate]. injection H as <- <-. destruct (IH _ _ eq_refl) as [-> F].
    apply b64_value_char in V. destruct V as [B ->]. split; [reflexivity|now constructor].
  - rewrite b64_space_spec, N in H. cbn [negb] in H. destruct (b64_pad c); [|discriminate]. injection H as <- <-. now split.
Qed.
Lemma b64_pads_inv s n : Forall (fun c => not_space c = true) s -> b64_pads s = Some n -> Forall pad s /\ length s = n.
Proof.
  intros F. revert n. induction F as [|c s N _ IH]; intros n H; cbn [b64_pads] in H; [injection H as <-; now split|].
  destruct (b64_pad c) eqn:P.
  - destruct (b64_pads s) as [k|]; [|discriminate]. injection H as <-. destruct (IH k eq_refl). apply pad_not_space in P.
    split; [constructor; tauto|cbn; lia].
  - rewrite b64_space_spec, N in H. discriminate.
Qed.
Lemma b64_pads_ok s : Forall pad s -> b64_pads s = Some (length s).
Proof.
  induction 1 as [|c s P _ IH]; [reflexivity|]. cbn [b64_pads length]. rewrite IH.
  assert (b64_pad c = true) as ->; [|reflexivity]. unfold b64_pad, pad in *. lia.
Qed.
Lemma filter_all s : Forall (fun c => not_space c = true) (filter not_space s).
Proof. apply Forall_forall. intros c H. now apply filter_In in H. Qed.

(* what is read, by digits *)
Lemma reads_unescape s b : Base64Unescape s = Some b <-> base64_reads s b.
Proof.
  rewrite <- unescape_filter. unfold base64_reads. pose proof (filter_all s) as N. set (t := filter not_space s) in *. clearbody t. clear s. split.
  - unfold Base64Unescape. destruct (b64_scan t) as [[vs r]|] eqn:SC; [|discriminate].
    destruct (b64_scan_inv t N _ _ SC) as [-> F]. pose proof (b64_join_ok vs F) as J.
    destruct (b64_join vs) as [[bs n]|]; [|discriminate]. destruct (b64_pads r) as [k|] eqn:P; [|discriminate].
    apply Forall_app in N. destruct N as [_ N]. destruct (b64_pads_inv r k N P) as [Pr Lr].
    destruct (Nat.eqb k 0 || Nat.eqb k n) eqn:K; [|discriminate]. intros H. injection H as <-.
    destruct J as (B & rest & E & L & N3 & M). exists (map b64_char vs), r, (concat (map (bits 6) vs)), rest.
    split; [easy|]. split; [now apply sextets_values|]. repeat split; auto. rewrite map_length. destruct r as [|c r]; [now left|right].
    cbn [length] in *. assert (n = S (length r)) as -> by lia. easy.
  - intros (cs & ps & bs & rest & -> & X & P & E & L & B & Q). apply sextets_inv in X. destruct X as (vs & -> & F & ->).
    unfold Base64Unescape. rewrite b64_scan_chars; auto.
    2:{ intros c r' ->. inversion P; subst. unfold b64_pad, pad in *. lia. }
    pose proof (b64_join_ok vs F) as J. rewrite (b64_pads_ok ps P). rewrite map_length in Q.
    assert (6 * length vs = 8 * length b + length rest)%nat as LL.
    { apply (f_equal (@length bool)) in E. now rewrite concat_bits_length, app_length, octets_length in E. }
    destruct (b64_join vs) as [[bs n]|].
    + destruct J as (B' & rest' & E' & L' & N3 & M).
      assert (length bs = length b) as LB.
      { apply (f_equal (@length bool)) in E'. rewrite concat_bits_length, app_length, octets_length in E'. lia. }
      assert (octets bs = octets b) as O.
      { rewrite E in E'. apply (f_equal (firstn (8 * length b))) in E'.
        rewrite !firstn_app, !octets_length, LB, Nat.sub_diag, !firstn_O, !app_nil_r in E'.
        rewrite !firstn_all2 in E' by (rewrite octets_length; lia). now symmetry. }
      apply octets_inj in O; auto. subst bs.
      assert (Nat.eqb (length ps) 0 || Nat.eqb (length ps) n = true) as ->; [|reflexivity].
      destruct Q as [->|[Q Q3]]; [reflexivity|]. apply orb_true_iff. right. apply Nat.eqb_eq.
      apply Nat.mod_divides in M; [|lia]. apply Nat.mod_divides in Q; [|lia]. destruct M as [m M], Q as [q Q]. lia.
    + exfalso. apply (f_equal Z.of_nat) in J. rewrite Nat2Z.inj_mod in J. pose proof (Z_div_mod_eq_full (Z.of_nat (length vs)) 4). 
      change (Z.of_nat 4) with 4 in *. change (Z.of_nat 1) with 1 in *. lia.
Qed.

(* escaping *)
Lemma split_byte a : is_byte a -> 0 <= a / 4 < 64 /\ 0 <= a mod 4 < 4 /\ 0 <= a / 16 < 16 /\ 0 <= a mod 16 < 16 /\ 0 <= a / 64 < 4 /\ 0 <= a mod 64 < 64.
Proof.
  unfold is_byte. intros H. repeat split; try (apply Z.div_pos; lia); try (apply Z.div_lt_upper_bound; lia); apply Z.mod_pos_bound; lia.
Qed.
Lemma sextets_app c1 b1 c2 b2 : sextets c1 b1 -> sextets c2 b2 -> sextets (c1 ++ c2) (b1 ++ b2).
Proof. induction 1 as [|c n cs bs H _ IH]; intros S2; [easy|]. cbn [app]. rewrite <- app_assoc. constructor; auto. Qed.
Lemma escape_ok b : Forall is_byte b -> base64 b (Base64Escape b).
Proof.
  induction b as [|a|a b|a b c l IH] using list_ind3; intros F.
  - exists [], 0%nat, 0%nat. cbn. repeat split; try lia. constructor.
  - inversion F as [|? ? A _]; subst. destruct (split_byte a A) as (A1 & A2 & _).
    exists (map b64_char [a / 4; a mod 4 * 16]), 4%nat, 2%nat. split; [reflexivity|]. split; [|repeat split; cbn; lia].
    replace (octets [a] ++ repeat false 4) with (concat (map (bits 6) [a / 4; a mod 4 * 16])).
    { apply sextets_values. repeat constructor; lia. }
    unfold octets. cbn [map concat]. rewrite !app_nil_r.
    apply bl_eqb_eq. apply (all_below 256 (fun a => bl_eqb (bits 6 (a / 4) ++ bits 6 (a mod 4 * 16)) (bits 8 a ++ repeat false 4))); [vm_compute; reflexivity|exact A].
  - inversion F as [|? ? A F1]; subst. inversion F1 as [|? ? B _]; subst.
    destruct (split_byte a A) as (A1 & A2 & _). destruct (split_byte b B) as (_ & _ & B1 & B2 & _).
    exists (map b64_char [a / 4; a mod 4 * 16 + b / 16; b mod 16 * 4]), 2%nat, 1%nat. split; [reflexivity|]. split; [|repeat split; cbn; lia].
    replace (octets [a; b] ++ repeat false 2) with (concat (map (bits 6) [a / 4; a mod 4 * 16 + b / 16; b mod 16 * 4])).
    { apply sextets_values. repeat constructor; lia. }
    unfold octets. cbn [map concat]. rewrite !app_nil_r. rewrite <- app_assoc.
    apply app_inv_tail with (l := bits 6 0). rewrite <- !app_assoc. rewrite join4 by lia.
    change (bits 6 0) with (repeat false 6). change (repeat false 2 ++ repeat false 6) with (bits 8 0). f_equal; [|f_equal; [|reflexivity || f_equal]].
    + f_equal. rewrite Z.div_add_l by lia. rewrite (Z.div_small (b / 16)) by lia. pose proof (Z_div_mod_eq_full a 4). lia.
    + f_equal. replace (a mod 4 * 16 + b / 16) with (b / 16 + a mod 4 * 16) by lia. rewrite Z.mod_add by lia. rewrite (Z.mod_small (b / 16)) by lia.
      rewrite Z.div_mul by lia. pose proof (Z_div_mod_eq_full b 16). lia.
    + rewrite Z.mod_mul by lia. lia.
  - inversion F as [|? ? A F1]; subst. inversion F1 as [|? ? B F2]; subst. inversion F2 as [|? ? C F3]; subst.
    destruct (split_byte a A) as (A1 & A2 & _). destruct (split_byte b B) as (_ & _ & B1 & B2 & _). destruct (split_byte c C) as (_ & _ & _ & _ & C1 & C2).
    destruct (IH F3) as (cs & zeros & n & E & X & ZZ & N & M). cbn [Base64Escape].
    set (vs := [a / 4; a mod 4 * 16 + b / 16; b mod 16 * 4 + c / 64; c mod 64]).
    exists (map b64_char vs ++ cs), zeros, n. rewrite E. split; [now rewrite <- app_assoc|].
    split; [|split; [easy|split; [easy|]]].
    2:{ rewrite <- E, app_length. cbn [length]. replace (4 + length (Base64Escape l))%nat with (length (Base64Escape l) + 1 * 4)%nat by lia.
        now rewrite Nat.mod_add by lia. }
    assert (Forall (fun v => 0 <= v < 64) vs) as V by (unfold vs; repeat constructor; lia).
    replace (octets (a :: b :: c :: l) ++ repeat false zeros) with (concat (map (bits 6) vs) ++ (octets l ++ repeat false zeros)).
    { apply sextets_app; [now apply sextets_values|easy]. }
    rewrite app_assoc. f_equal. unfold octets, vs. cbn [map concat]. rewrite app_nil_r, !app_assoc. f_equal. rewrite <- !app_assoc.
    inversion V as [|? ? V1 VV]; subst. inversion VV as [|? ? V2 VV2]; subst. inversion VV2 as [|? ? V3 VV3]; subst. inversion VV3 as [|? ? V4 _]; subst.
    rewrite join4 by easy. clear V VV VV2 VV3 V1 V2 V3 V4 IH F F1 F2 F3 X E M. f_equal; [|f_equal]; f_equal.
    + rewrite Z.div_add_l by lia. rewrite (Z.div_small (b / 16)) by lia. pose proof (Z_div_mod_eq_full a 4). lia.
    + replace (a mod 4 * 16 + b / 16) with (b / 16 + a mod 4 * 16) by lia. rewrite Z.mod_add by lia. rewrite (Z.mod_small (b / 16)) by lia.
      replace (b mod 16 * 4 + c / 64) with (c / 64 + b mod 16 * 4) by lia. rewrite Z.div_add by lia. rewrite (Z.div_small (c / 64)) by lia.
      pose proof (Z_div_mod_eq_full b 16). lia.
    + replace (b mod 16 * 4 + c / 64) with (c / 64 + b mod 16 * 4) by lia. rewrite Z.mod_add by lia. rewrite (Z.mod_small (c / 64)) by lia.
      pose proof (Z_div_mod_eq_full c 64). lia.
Qed.
Lemma base64_reads_back b s : Forall is_byte b -> base64 b s -> base64_reads s b.
Proof.
  intros F (cs & zeros & n & -> & X & ZZ & N & M). exists cs, (repeat 61 n), (octets b ++ repeat false zeros), (repeat false zeros).
  assert (filter not_space (cs ++ repeat 61 n) = cs ++ repeat 61 n) as ->.
  { apply sextets_inv in X. destruct X as (vs & -> & V & _). clear - V. induction V as [|v vs Hv _ IH]; cbn [map app filter].
    - induction n; cbn; [reflexivity|]. cbn in IHn. now rewrite IHn.
    - destruct (b64_alphabet v Hv) as [_ E]. now rewrite (value_not_space _ _ E), IH. }
  repeat split; auto.
  - apply Forall_forall. intros c H. apply repeat_spec in H. now left.
  - now rewrite repeat_length.
  - right. rewrite app_length, repeat_length in M. now rewrite repeat_length.
Qed.
