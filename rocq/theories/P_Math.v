(* C39: the math extension. *)
From Coq Require Import ZArith QArith List Bool String Lia ZifyBool.
From Verif Require Import Base M_Overflow M_Number M_Attr M_Value M_Expr M_Macro M_Math
  S_Num S_Value S_Math L_Number L_Order P_Num.
Import ListNotations.
Open Scope list_scope.
Open Scope Z_scope.

(* ---- greatest and least ---- *)
Lemma number_of_to n v fn : number_of v = Some n -> ValueToNumber fn v = Val n /\ NumberToValue n = v.
Proof. destruct v; try discriminate; intros [= <-]; split; reflexivity. Qed.
Lemma not_number fn v : number_of v = None ->
  ValueToNumber fn v = Err (mkStatus kInvalidArgument (fn ++ " arguments must be numeric")%string).
Proof. destruct v; try discriminate; reflexivity. Qed.
Lemma number_of_back n : number_of (NumberToValue n) = Some n.
Proof. now destruct n. Qed.
Lemma num_gt_irrefl a : number_ok a -> num_gt a a = false.
Proof.
  intros H. destruct (num_gt a a) eqn:E; [|reflexivity].
  destruct (C04_comparison_operators_consistent a a H H) as (A & _).
  destruct (NumCompare_answer a a H H) as [_ _ _ G _].
  apply num_gt_cmp in E. apply G in E. unfold math_gt, math_cmp in E.
  destruct (number_value a) as [x|]; [|discriminate]. cbn in E. injection E as E.
  destruct x; cbn in E; try discriminate. rewrite <- Qgt_alt in E. now apply Qlt_irrefl in E.
Qed.

Section Pick.
  Variable fn : string.
  Variable pick : number -> number -> number.
  Variable better : number -> number -> bool.
  Hypothesis Hpick : forall a b, pick a b = if better b a then b else a.
  Hypothesis Hirr : forall a, number_ok a -> better a a = false.
  Hypothesis Htrans : forall a b c, number_ok a -> number_ok b -> number_ok c ->
    better a b = true -> better b c = true -> better a c = true.

  Lemma pick_loop_ok l : Forall numeric l -> forall cur, number_ok cur ->
    exists r, pick_loop fn pick cur l = NumberToValue r /\ number_ok r /\
      (r = cur \/ In (NumberToValue r) l) /\
      (r = cur \/ better r cur = true) /\
      forall w n, In w l -> number_of w = Some n -> better n r = false.
  Proof.
    induction 1 as [|v l (n & Hv & Hn) Hl IH]; intros cur Hc.
    - exists cur. cbn. repeat split; auto; tauto.
    - destruct (number_of_to n v fn Hv) as [E1 E2].
      assert (Hp : number_ok (pick cur n)) by (rewrite Hpick; destruct (better n cur); auto).
      destruct (IH (pick cur n) Hp) as (r & Hr & Ok & Hin & Hge & Hbest).
      exists r. cbn [pick_loop]. rewrite E1. split; [exact Hr|]. split; [exact Ok|].
      rewrite Hpick in Hin, Hge. split; [|split].
      + destruct Hin as [->|Hin]; [|right; right; exact Hin].
        destruct (better n cur); [right; left; auto|left; auto].
      + destruct (better n cur) eqn:B; [|exact Hge].
        destruct Hge as [->|Hge]; [right; exact B|right]. now apply Htrans with n.
      + intros w m [<-|Hw] Hm; [|eapply Hbest; eauto].
        assert (m = n) by congruence. subst m.
        destruct (better n cur) eqn:B.
        * destruct Hge as [->|Hge]; [auto|]. destruct (better n r) eqn:X; [|reflexivity].
          rewrite <- (Hirr n Hn). symmetry. now apply Htrans with r.
        * destruct (better n r) eqn:X; [|reflexivity].
          destruct Hge as [->|Hge]; [congruence|].
          rewrite <- B. symmetry. now apply Htrans with r.
  Qed.
  Lemma pick_list_ok l : l <> [] -> Forall numeric l ->
    exists r, pick_list fn pick l = NumberToValue r /\ number_ok r /\ In (NumberToValue r) l /\
      (forall w n, In w l -> number_of w = Some n -> better n r = false) /\
      (forall n, hd_error l = Some (NumberToValue n) -> r = n \/ better r n = true).
  Proof.
    intros Hne H. destruct l as [|v l]; [congruence|].
    apply Forall_cons_iff in H. destruct H as [(n & Hv & Hn) Hl].
    destruct (number_of_to n v fn Hv) as [E1 E2].
    destruct (pick_loop_ok l Hl n Hn) as (r & Hr & Ok & Hin & Hge & Hbest).
    exists r. cbn [pick_list]. rewrite E1. repeat split; auto.
    - destruct Hin as [->|Hin]; [left; auto|right; auto].
    - intros w m [<-|Hw] Hm; [|eapply Hbest; eauto]. assert (m = n) by congruence. subst m.
      destruct Hge as [->|Hge]; auto. destruct (better n r) eqn:X; [|reflexivity].
      rewrite <- (Hirr n Hn). symmetry. now apply Htrans with r.
    - intros m [= Hm]. assert (Some m = Some n) as [= ->] by (rewrite <- Hv, Hm; symmetry; apply number_of_back). exact Hge.
  Qed.
  Lemma pick_list_error l : ~ Forall (fun v => number_of v <> None) l ->
    pick_list fn pick l = VError (mkStatus kInvalidArgument (fn ++ " arguments must be numeric")%string).
  Proof.
    assert (G : forall l cur, ~ Forall (fun v => number_of v <> None) l ->
      pick_loop fn pick cur l = VError (mkStatus kInvalidArgument (fn ++ " arguments must be numeric")%string)).
    { clear l. induction l as [|v l IH]; intros cur H; [now elim H|]. cbn [pick_loop].
      destruct (number_of v) as [n|] eqn:E.
      - destruct (number_of_to n v fn E) as [-> _]. apply IH. intros X. apply H. constructor; congruence.
      - now rewrite (not_number fn v E). }
    intros H. destruct l as [|v l]; [now elim H|]. cbn [pick_list].
    destruct (number_of v) as [n|] eqn:E.
    - destruct (number_of_to n v fn E) as [-> _]. apply G. intros X. apply H. constructor; congruence.
    - now rewrite (not_number fn v E).
  Qed.
End Pick.

Lemma gt_irr a : number_ok a -> num_gt a a = false. Proof. apply num_gt_irrefl. Qed.
Lemma lt_is_gt a b : number_ok a -> number_ok b -> num_lt a b = num_gt b a.
Proof. intros A B. now destruct (C04_comparison_operators_consistent a b A B). Qed.
Lemma lt_irr a : number_ok a -> num_lt a a = false.
Proof. intros H. rewrite lt_is_gt by auto. now apply num_gt_irrefl. Qed.
Lemma lt_trans a b c : number_ok a -> number_ok b -> number_ok c ->
  num_lt a b = true -> num_lt b c = true -> num_lt a c = true.
Proof. intros A B C. rewrite !lt_is_gt by auto. intros X Y. now apply num_gt_trans with b. Qed.
Definition max_ok := fun fn l => pick_list_ok fn MaxNumber num_gt (fun a b => eq_refl) gt_irr num_gt_trans l.
Definition min_ok := fun fn l => pick_list_ok fn MinNumber num_lt (fun a b => eq_refl) lt_irr lt_trans l.

Lemma numeric_number v n : numeric v -> number_of v = Some n -> number_ok n.
Proof. intros (m & E & H) E'. congruence. Qed.
Lemma not_gt_ge a b : number_ok a -> number_ok b -> ~ math_nan a -> ~ math_nan b ->
  num_gt a b = false -> num_ge b a = true.
Proof.
  intros A B Na Nb G. destruct (C04_comparison_operators_consistent b a B A) as (X & _ & Y & _ & _ & Z & T).
  rewrite Z. destruct (proj1 T Nb Na) as [(t & _ & _)|[(_ & -> & _)|(_ & _ & ->)]]; [congruence|apply orb_true_r|reflexivity].
Qed.

Lemma gt_not_nan a b : number_ok a -> number_ok b -> num_gt a b = true -> ~ math_nan a /\ ~ math_nan b.
Proof.
  intros A B G. apply num_gt_cmp in G. destruct (NumCompare_answer a b A B) as [_ _ _ X _]. apply X in G.
  unfold math_gt, math_cmp, math_nan in *. destruct (number_value a), (number_value b); try discriminate.
  split; discriminate.
Qed.
Lemma gt_math a b : number_ok a -> number_ok b -> exactly_comparable a b -> math_gt a b -> num_gt a b = true.
Proof.
  intros A B E G. apply num_gt_cmp. destruct (NumCompare_answer a b A B) as [X _ _ _ _]. rewrite X by exact E. exact G.
Qed.
Lemma exactly_sym a b : exactly_comparable a b -> exactly_comparable b a.
Proof. unfold exactly_comparable. intros [H|[H K]]; [left; congruence|right; auto]. Qed.
Lemma hd_number l : l <> [] -> Forall numeric l -> exists n, hd_error l = Some (NumberToValue n) /\ number_ok n.
Proof.
  intros Hne H. destruct l as [|v l]; [congruence|]. apply Forall_cons_iff in H. destruct H as [(n & Hv & Hn) _].
  exists n. split; [|exact Hn]. cbn. f_equal. symmetry. now apply (number_of_to n v ""%string).
Qed.
Lemma nan_value_back n : nan_value (NumberToValue n) <-> math_nan n.
Proof.
  split.
  - intros (m & E & H). rewrite number_of_back in E. injection E as <-. exact H.
  - intros H. exists n. split; [apply number_of_back|exact H].
Qed.

(* math.greatest of a non-empty list of numbers is one of them, and none is
   greater, neither by the language's comparison nor, where that is exact, in
   value.  Unless the first one is NaN, it is a number that is at least every
   other number. *)
Theorem C39_greatest : forall l, l <> [] -> Forall numeric l ->
  In (MaxList l) l /\
  (forall w, In w l -> ~ greater w (MaxList l)) /\
  (forall w, In w l -> comparable_exactly w (MaxList l) -> ~ greater_math w (MaxList l)) /\
  (forall first, hd_error l = Some first -> ~ nan_value first ->
     ~ nan_value (MaxList l) /\ forall w, In w l -> ~ nan_value w -> at_least (MaxList l) w) /\
  (forall first, hd_error l = Some first -> nan_value first -> MaxList l = first).
Proof.
  intros l Hne H. unfold MaxList.
  destruct (max_ok kMathMax l Hne H) as (r & Hr & Ok & Hin & Hbest & Hhd). rewrite Hr.
  rewrite Forall_forall in H.
  destruct (hd_number l Hne ltac:(now apply Forall_forall)) as (n & Hn & On). specialize (Hhd n Hn).
  split; [exact Hin|]. split; [|split; [|split]].
  - intros w Hw (x & y & X & Y & G). rewrite number_of_back in Y. injection Y as <-. rewrite (Hbest w x Hw X) in G. discriminate.
  - intros w Hw (x & y & X & Y & E) (x' & y' & X' & Y' & G). rewrite X in X'. injection X' as <-.
    rewrite number_of_back in Y, Y'. injection Y as <-. injection Y' as <-.
    apply (gt_math x r) in G; auto; [|eapply numeric_number; eauto]. rewrite (Hbest w x Hw X) in G. discriminate.
  - intros first Hf Hnn. rewrite Hn in Hf. injection Hf as <-. rewrite nan_value_back in Hnn.
    assert (Nr : ~ math_nan r).
    { destruct Hhd as [->|G]; [exact Hnn|]. now destruct (gt_not_nan r n Ok On G). }
    split; [now rewrite nan_value_back|]. intros w Hw Nw. destruct (H w Hw) as (x & X & Ox).
    exists r, x. split; [apply number_of_back|]. split; [exact X|].
    apply not_gt_ge; auto; [|now apply (Hbest w x)]. intros N. apply Nw. now exists x.
  - intros first Hf Hnn. rewrite Hn in Hf. injection Hf as <-. rewrite nan_value_back in Hnn.
    destruct Hhd as [->|G]; [reflexivity|]. destruct (gt_not_nan r n Ok On G). contradiction.
Qed.
Print Assumptions C39_greatest.
Example C39_greatest_case :
  MaxList [VInt 3; VDouble (double_of_Z 7); VUint 7; VInt (-2)] = VDouble (double_of_Z 7) /\
  MaxList [VInt 3; VDouble S754_nan; VUint 7] = VUint 7 /\
  MaxList [VDouble S754_nan; VInt 3; VUint 7] = VDouble S754_nan /\
  Forall numeric [VInt 3; VDouble S754_nan; VUint 7].
Proof.
  split; [vm_compute; reflexivity|]. split; [vm_compute; reflexivity|]. split; [vm_compute; reflexivity|].
  constructor; [exists (NInt 3)|constructor; [exists (NDouble S754_nan)|constructor; [exists (NUint 7)|constructor]]];
    (split; [reflexivity|vm_compute; reflexivity]).
Qed.

Theorem C39_least : forall l, l <> [] -> Forall numeric l ->
  In (MinList l) l /\
  (forall w, In w l -> ~ greater (MinList l) w) /\
  (forall w, In w l -> comparable_exactly (MinList l) w -> ~ greater_math (MinList l) w) /\
  (forall first, hd_error l = Some first -> ~ nan_value first ->
     ~ nan_value (MinList l) /\ forall w, In w l -> ~ nan_value w -> at_least w (MinList l)) /\
  (forall first, hd_error l = Some first -> nan_value first -> MinList l = first).
Proof.
  intros l Hne H. unfold MinList.
  destruct (min_ok kMathMin l Hne H) as (r & Hr & Ok & Hin & Hbest & Hhd). rewrite Hr.
  rewrite Forall_forall in H.
  assert (Hb : forall w x, In w l -> number_of w = Some x -> num_gt r x = false).
  { intros w x Hw X. rewrite <- lt_is_gt; auto; [eapply Hbest; eauto|eapply numeric_number; eauto]. }
  destruct (hd_number l Hne ltac:(now apply Forall_forall)) as (n & Hn & On). specialize (Hhd n Hn).
  rewrite lt_is_gt in Hhd by auto.
  split; [exact Hin|]. split; [|split; [|split]].
  - intros w Hw (y & x & Y & X & G). rewrite number_of_back in Y. injection Y as <-. rewrite (Hb w x Hw X) in G. discriminate.
  - intros w Hw (y & x & Y & X & E) (y' & x' & Y' & X' & G). rewrite X in X'. injection X' as <-.
    rewrite number_of_back in Y, Y'. injection Y as <-. injection Y' as <-.
    apply (gt_math r x) in G; auto; [|eapply numeric_number; eauto]. rewrite (Hb w x Hw X) in G. discriminate.
  - intros first Hf Hnn. rewrite Hn in Hf. injection Hf as <-. rewrite nan_value_back in Hnn.
    assert (Nr : ~ math_nan r).
    { destruct Hhd as [->|G]; [exact Hnn|]. now destruct (gt_not_nan n r On Ok G). }
    split; [now rewrite nan_value_back|]. intros w Hw Nw. destruct (H w Hw) as (x & X & Ox).
    exists x, r. split; [exact X|]. split; [apply number_of_back|].
    apply not_gt_ge; auto; [|now apply (Hb w x)]. intros N. apply Nw. now exists x.
  - intros first Hf Hnn. rewrite Hn in Hf. injection Hf as <-. rewrite nan_value_back in Hnn.
    destruct Hhd as [->|G]; [reflexivity|]. destruct (gt_not_nan n r On Ok G). contradiction.
Qed.
Print Assumptions C39_least.
Example C39_least_case :
  MinList [VInt 3; VDouble (double_of_Z (-2)); VUint 7; VInt (-2)] = VDouble (double_of_Z (-2)).
Proof. vm_compute. reflexivity. Qed.

(* The forms with one and two arguments agree with the list form. *)
Theorem C39_few_arguments : forall v w, numeric v -> numeric w ->
  pick_overload kMathMax MaxNumber [v] = Val v /\ pick_overload kMathMin MinNumber [v] = Val v /\
  pick_overload kMathMax MaxNumber [v; w] = Val (MaxList [v; w]) /\
  pick_overload kMathMin MinNumber [v; w] = Val (MinList [v; w]) /\
  pick_overload kMathMax MaxNumber [VList [v; w]] = Val (MaxList [v; w]) /\
  pick_overload kMathMin MinNumber [VList [v; w]] = Val (MinList [v; w]).
Proof.
  intros v w (x & X & _) (y & Y & _).
  destruct v; try discriminate; destruct w; try discriminate; repeat split; reflexivity.
Qed.
Print Assumptions C39_few_arguments.

(* An empty list and an element that is no number are the errors; nothing else
   is (C39_greatest, C39_least). *)
Theorem C39_pick_errors : forall l,
  (l = [] -> exists m, MaxList l = VError (mkStatus kInvalidArgument m)) /\
  (l = [] -> exists m, MinList l = VError (mkStatus kInvalidArgument m)) /\
  ((exists v, In v l /\ number_of v = None) -> exists m, MaxList l = VError (mkStatus kInvalidArgument m)) /\
  ((exists v, In v l /\ number_of v = None) -> exists m, MinList l = VError (mkStatus kInvalidArgument m)).
Proof.
  intros l. assert (G : (exists v, In v l /\ number_of v = None) -> ~ Forall (fun v => number_of v <> None) l).
  { intros (v & Hv & N) F. rewrite Forall_forall in F. now apply (F v). }
  repeat split; intros H; try (subst l; eexists; reflexivity); eexists; apply pick_list_error; auto.
Qed.
Print Assumptions C39_pick_errors.
Example C39_pick_errors_case : exists v, In v [VInt 1; VNull] /\ number_of v = None.
Proof. exists VNull. cbn; auto. Qed.

(* ---- absolute value and sign ---- *)
(* math.abs of an int is its absolute value, or an error when that is no int. *)
Theorem C39_abs : forall z, in_int64 z = true ->
  (in_int64 (Z.abs z) = true -> AbsInt z = Val (VInt (Z.abs z))) /\
  (in_int64 (Z.abs z) = false -> exists m, AbsInt z = Val (VError (mkStatus kInvalidArgument m))) /\
  (in_int64 (Z.abs z) = false <-> z = - 2 ^ 63) /\
  forall u, AbsUint u = VUint u.
Proof.
  intros z Hz. unfold AbsInt, c_int64, in_int64, int64_min, int64_max in *.
  repeat split; intros H; try lia.
  - destruct (z =? - 2 ^ 63) eqn:E; [lia|]. destruct (z <? 0) eqn:E2.
    + replace ((- 2 ^ 63 <=? - z) && (- z <=? 2 ^ 63 - 1))%bool with true by lia. cbn. repeat f_equal. lia.
    + repeat f_equal. lia.
  - replace (z =? - 2 ^ 63) with true by lia. eexists; reflexivity.
Qed.
Print Assumptions C39_abs.
Example C39_abs_case : AbsInt (-5) = Val (VInt 5) /\ in_int64 (-5) = true /\ in_int64 (Z.abs (- 2 ^ 63)) = false.
Proof. vm_compute. auto. Qed.

(* math.abs of a double has the double's magnitude; NaN stays NaN. *)
Theorem C39_abs_double : forall d, valid_double d = true ->
  valid_double (AbsDouble d) = true /\
  match double_value d, double_value (AbsDouble d) with
  | None, None => True
  | Some (Fin x), Some (Fin y) => (y == Qabs.Qabs x)%Q
  | Some (NegInf | PosInf), Some PosInf => True
  | _, _ => False
  end /\
  d_signbit (AbsDouble d) = false.
Proof.
  intros [s|s| |s m e] H.
  - cbn. repeat split; reflexivity.
  - destruct s; cbn; auto.
  - cbn; auto.
  - split; [exact H|]. split; [|reflexivity]. cbn [AbsDouble double_value].
    unfold dyadic. destruct (0 <=? e); [|destruct s; reflexivity].
    assert (E : forall p, inject_Z (Zneg p * 2 ^ e) = Qopp (inject_Z (Zpos p * 2 ^ e))).
    { intros p. unfold inject_Z, Qopp. cbn [Qnum Qden]. f_equal. change (Zneg p) with (- Zpos p). lia. }
    assert (P : forall p, (0 <= inject_Z (Zpos p * 2 ^ e))%Q).
    { intros p. change 0%Q with (inject_Z 0). rewrite <- Zle_Qle. pose proof (Z.pow_nonneg 2 e). lia. }
    destruct s.
    + rewrite E, Qabs.Qabs_opp, Qabs.Qabs_pos by apply P. reflexivity.
    + rewrite Qabs.Qabs_pos by apply P. reflexivity.
Qed.
Print Assumptions C39_abs_double.

(* math.sign: -1, 0 or 1 as the argument is below, equal to or above zero, in
   the argument's type; the sign of NaN is NaN. *)
Theorem C39_sign :
  (forall z, SignInt z = VInt (Z.sgn z)) /\
  (forall z, 0 <= z -> SignUint z = VUint (Z.sgn z)) /\
  (forall d, valid_double d = true ->
     (math_nan (NDouble d) -> SignDouble d = d) /\
     (math_lt (NDouble d) (NInt 0) -> SignDouble d = double_of_Z (-1)) /\
     (math_eq (NDouble d) (NInt 0) -> SignDouble d = double_of_Z 0) /\
     (math_gt (NDouble d) (NInt 0) -> SignDouble d = double_of_Z 1)).
Proof.
  split; [|split].
  - intros z. unfold SignInt. f_equal. destruct (z <? 0) eqn:A; [|destruct (0 <? z) eqn:B]; lia.
  - intros z Hz. unfold SignUint. f_equal. destruct (z =? 0) eqn:A; lia.
  - intros [s|s| |s m e] H; unfold math_nan, math_lt, math_eq, math_gt, math_cmp; cbn [number_value double_value spec_compare].
    + (repeat match goal with |- _ /\ _ => split end); try discriminate; intros X; vm_compute; reflexivity.
    + destruct s; (repeat match goal with |- _ /\ _ => split end); try (cbn; discriminate); intros X; vm_compute; reflexivity.
    + repeat split; try discriminate; auto.
    + (repeat match goal with |- _ /\ _ => split end); try discriminate; intros [= X]; destruct s; try (vm_compute; reflexivity); exfalso; revert X;
        unfold dyadic; (destruct (0 <=? e) eqn:E; [|cbn; congruence]); cbn [ext_compare];
        unfold inject_Z, Qcompare; cbn [Qnum Qden];
        pose proof (Z.pow_pos_nonneg 2 e ltac:(lia) ltac:(lia)); rewrite ?Z.compare_lt_iff, ?Z.compare_eq_iff, ?Z.compare_gt_iff; nia.
Qed.
Print Assumptions C39_sign.
Example C39_sign_case : math_lt (NDouble (double_of_Z (-7))) (NInt 0).
Proof. vm_compute. reflexivity. Qed.

(* ---- bits ---- *)
Lemma int_shiftr z : in_int64 z = true <-> Z.shiftr z 63 = 0 \/ Z.shiftr z 63 = -1.
Proof.
  unfold in_int64, int64_min, int64_max. rewrite Z.shiftr_div_pow2 by lia. split; intros H.
  - assert (z / 2 ^ 63 = 0 \/ z / 2 ^ 63 = -1); [|auto].
    destruct (Z.ltb_spec z 0); [right|left]; [|apply Z.div_small; lia].
    symmetry. apply Z.div_unique with (z + 2 ^ 63); lia.
  - pose proof (Z.mod_pos_bound z (2 ^ 63) ltac:(lia)). pose proof (Z.div_mod z (2 ^ 63) ltac:(lia)). lia.
Qed.
Lemma from_pattern_spec z p : in_int64 z = true -> p = z mod 2 ^ 64 -> from_pattern p = z.
Proof.
  unfold in_int64, from_pattern, int64_min, int64_max. intros H ->.
  destruct (Z.ltb_spec z 0).
  - replace (z mod 2 ^ 64) with (z + 2 ^ 64); [|apply Z.mod_unique with (-1); lia].
    destruct (z + 2 ^ 64 <=? 2 ^ 63 - 1) eqn:E; lia.
  - rewrite Z.mod_small by lia. destruct (z <=? 2 ^ 63 - 1) eqn:E; lia.
Qed.
Lemma testbit_mod z i : 0 <= i -> Z.testbit (z mod 2 ^ 64) i = ((i <? 64) && Z.testbit z i)%bool.
Proof.
  intros Hi. destruct (Z.ltb_spec i 64); [apply Z.mod_pow2_bits_low; lia|apply Z.mod_pow2_bits_high; lia].
Qed.
Lemma uint_bits z i : in_uint64 z = true -> 64 <= i -> Z.testbit z i = false.
Proof.
  unfold in_uint64, uint64_max. intros H Hi. rewrite <- (Z.mod_small z (2 ^ 64)) by lia.
  rewrite testbit_mod by lia. replace (i <? 64) with false by lia. reflexivity.
Qed.
Lemma bits_uint z : 0 <= z -> (forall i, 64 <= i -> Z.testbit z i = false) -> in_uint64 z = true.
Proof.
  intros Hz H. replace z with (z mod 2 ^ 64).
  - pose proof (Z.mod_pos_bound z (2 ^ 64) ltac:(lia)). unfold in_uint64, uint64_max. lia.
  - apply Z.bits_inj'. intros i Hi. rewrite testbit_mod by lia.
    destruct (Z.ltb_spec i 64); [reflexivity|]. now rewrite H.
Qed.

Section Bits.
  Variable f : bool -> bool -> bool.
  Variable op : Z -> Z -> Z.
  Hypothesis Hop : forall l r i, Z.testbit (op l r) i = f (Z.testbit l i) (Z.testbit r i).
  Hypothesis Hff : f false false = false.
  Lemma op_bitwise l r : bitwise f l r (op l r).
  Proof. intros i _. apply Hop. Qed.
  Lemma op_mod l r : op (l mod 2 ^ 64) (r mod 2 ^ 64) = (op l r) mod 2 ^ 64.
  Proof.
    apply Z.bits_inj'. intros i Hi. rewrite Hop, !testbit_mod, Hop by lia. destruct (i <? 64); auto.
  Qed.
  Lemma op_int l r : in_int64 l = true -> in_int64 r = true -> in_int64 (op l r) = true.
  Proof.
    rewrite !int_shiftr. intros Hl Hr.
    assert (E : Z.shiftr (op l r) 63 = op (Z.shiftr l 63) (Z.shiftr r 63)).
    { apply Z.bits_inj'. intros i Hi. now rewrite Hop, !Z.shiftr_spec, Hop by lia. }
    rewrite E.
    assert (G : forall a b, a = 0 \/ a = -1 -> b = 0 \/ b = -1 -> op a b = 0 \/ op a b = -1).
    { intros a b Ha Hb.
      assert (K : forall c, c = 0 \/ c = -1 -> exists q, forall i, 0 <= i -> Z.testbit c i = q).
      { intros c [->| ->]; [exists false|exists true]; intros i Hi; [apply Z.bits_0|now apply Z.bits_m1]. }
      destruct (K a Ha) as (qa & Qa), (K b Hb) as (qb & Qb).
      destruct (f qa qb) eqn:F; [right|left]; apply Z.bits_inj'; intros i Hi; rewrite Hop, Qa, Qb, F by lia;
        symmetry; [now apply Z.bits_m1|apply Z.bits_0]. }
    now apply G.
  Qed.
  Lemma op_from_pattern l r : in_int64 l = true -> in_int64 r = true ->
    from_pattern (op (pattern l) (pattern r)) = op l r.
  Proof. intros Hl Hr. apply from_pattern_spec; [now apply op_int|apply op_mod]. Qed.
  Lemma op_uint l r : 0 <= op l r -> in_uint64 l = true -> in_uint64 r = true -> in_uint64 (op l r) = true.
  Proof.
    intros H0 Hl Hr. apply bits_uint; [exact H0|]. intros i Hi. now rewrite Hop, !uint_bits.
  Qed.
End Bits.

(* math.bitAnd, bitOr and bitXor: every bit of the result is the operation on
   the operands' bits; the result fits the type. *)
Theorem C39_bit_operations :
  (forall l r, in_int64 l = true -> in_int64 r = true ->
     (exists z, BitAndInt l r = VInt z /\ in_int64 z = true /\ bitwise andb l r z) /\
     (exists z, BitOrInt l r = VInt z /\ in_int64 z = true /\ bitwise orb l r z) /\
     (exists z, BitXorInt l r = VInt z /\ in_int64 z = true /\ bitwise xorb l r z)) /\
  (forall l r, in_uint64 l = true -> in_uint64 r = true ->
     (exists z, BitAndUint l r = VUint z /\ in_uint64 z = true /\ bitwise andb l r z) /\
     (exists z, BitOrUint l r = VUint z /\ in_uint64 z = true /\ bitwise orb l r z) /\
     (exists z, BitXorUint l r = VUint z /\ in_uint64 z = true /\ bitwise xorb l r z)).
Proof.
  split; intros l r Hl Hr.
  - split; [|split]; [exists (Z.land l r)|exists (Z.lor l r)|exists (Z.lxor l r)]; split.
    + unfold BitAndInt. f_equal. now apply (op_from_pattern andb Z.land Z.land_spec).
    + split; [now apply (op_int andb Z.land Z.land_spec)|now apply (op_bitwise andb Z.land Z.land_spec)].
    + unfold BitOrInt. f_equal. now apply (op_from_pattern orb Z.lor Z.lor_spec).
    + split; [now apply (op_int orb Z.lor Z.lor_spec)|now apply (op_bitwise orb Z.lor Z.lor_spec)].
    + unfold BitXorInt. f_equal. now apply (op_from_pattern xorb Z.lxor Z.lxor_spec).
    + split; [now apply (op_int xorb Z.lxor Z.lxor_spec)|now apply (op_bitwise xorb Z.lxor Z.lxor_spec)].
  - assert (0 <= l /\ 0 <= r) as [Pl Pr] by (unfold in_uint64 in *; lia).
    split; [|split]; [exists (Z.land l r)|exists (Z.lor l r)|exists (Z.lxor l r)]; (split; [reflexivity|]); split.
    + apply (op_uint andb Z.land Z.land_spec); auto. apply Z.land_nonneg. auto.
    + now apply (op_bitwise andb Z.land Z.land_spec).
    + apply (op_uint orb Z.lor Z.lor_spec); auto. apply Z.lor_nonneg. auto.
    + now apply (op_bitwise orb Z.lor Z.lor_spec).
    + apply (op_uint xorb Z.lxor Z.lxor_spec); auto. apply Z.lxor_nonneg. tauto.
    + now apply (op_bitwise xorb Z.lxor Z.lxor_spec).
Qed.
Print Assumptions C39_bit_operations.
Example C39_bit_operations_case : BitAndInt (-2) 7 = VInt 6 /\ BitOrInt (-8) 3 = VInt (-5) /\ BitXorInt (-1) 5 = VInt (-6).
Proof. vm_compute. auto. Qed.

(* math.bitNot: -z - 1 on ints, 2^64 - 1 - z on uints; that is, every bit
   flipped. *)
Theorem C39_bit_not :
  (forall z, in_int64 z = true ->
     BitNotInt z = VInt (- z - 1) /\ in_int64 (- z - 1) = true /\
     forall i, 0 <= i -> Z.testbit (- z - 1) i = negb (Z.testbit z i)) /\
  (forall z, in_uint64 z = true ->
     BitNotUint z = VUint (2 ^ 64 - 1 - z) /\ in_uint64 (2 ^ 64 - 1 - z) = true /\
     forall i, 0 <= i < 64 -> Z.testbit (2 ^ 64 - 1 - z) i = negb (Z.testbit z i)).
Proof.
  assert (O : forall i, 0 <= i -> Z.testbit uint64_max i = (i <? 64)).
  { intros i Hi. unfold uint64_max. replace (2 ^ 64 - 1) with (Z.ones 64) by reflexivity.
    destruct (Z.ltb_spec i 64); [apply Z.ones_spec_low|apply Z.ones_spec_high]; lia. }
  assert (N : forall z, - z - 1 = Z.lnot z) by (intros; unfold Z.lnot; lia).
  split; intros z Hz.
  - rewrite N. split; [|split].
    + unfold BitNotInt, pattern. f_equal. apply from_pattern_spec.
      * rewrite <- N. unfold in_int64, int64_min, int64_max in *. lia.
      * apply Z.bits_inj'. intros i Hi. unfold c_uint64.
        rewrite Z.lxor_spec, !testbit_mod, O, Z.lnot_spec by lia.
        destruct (i <? 64), (Z.testbit z i); reflexivity.
    + rewrite <- N. unfold in_int64, int64_min, int64_max in *. lia.
    + intros i Hi. now apply Z.lnot_spec.
  - assert (E : Z.lxor z uint64_max = 2 ^ 64 - 1 - z).
    { replace (2 ^ 64 - 1 - z) with ((Z.lnot z) mod 2 ^ 64).
      - apply Z.bits_inj'. intros i Hi. rewrite Z.lxor_spec, testbit_mod, O, Z.lnot_spec by lia.
        destruct (Z.ltb_spec i 64); [destruct (Z.testbit z i); reflexivity|].
        rewrite (uint_bits z i) by auto. reflexivity.
      - rewrite <- N. symmetry. unfold in_uint64, uint64_max in Hz. apply Z.mod_unique with (-1); lia. }
    unfold BitNotUint. rewrite E. split; [reflexivity|]. split; [unfold in_uint64, uint64_max in *; lia|].
    intros i Hi. rewrite <- E, Z.lxor_spec, O by lia. replace (i <? 64) with true by lia.
    destruct (Z.testbit z i); reflexivity.
Qed.
Print Assumptions C39_bit_not.

(* The shifts: an error exactly for a negative count; otherwise, with no
   undefined behaviour, multiplication by 2^count modulo 2^64 and division of
   the unsigned bit pattern by 2^count rounded down. *)
Theorem C39_shifts : forall l r,
  (r < 0 -> exists m m',
     BitShiftLeftInt l r = Val (VError (mkStatus kInvalidArgument m)) /\
     BitShiftLeftUint l r = Val (VError (mkStatus kInvalidArgument m)) /\
     BitShiftRightInt l r = Val (VError (mkStatus kInvalidArgument m')) /\
     BitShiftRightUint l r = Val (VError (mkStatus kInvalidArgument m'))) /\
  (0 <= r -> in_int64 l = true ->
     (exists z, BitShiftLeftInt l r = Val (VInt z) /\ in_int64 z = true /\
        z mod 2 ^ 64 = (l * 2 ^ r) mod 2 ^ 64) /\
     (exists z, BitShiftRightInt l r = Val (VInt z) /\ in_int64 z = true /\
        z mod 2 ^ 64 = (l mod 2 ^ 64) / 2 ^ r)) /\
  (0 <= r -> in_uint64 l = true ->
     (exists z, BitShiftLeftUint l r = Val (VUint z) /\ in_uint64 z = true /\
        z = (l * 2 ^ r) mod 2 ^ 64) /\
     (exists z, BitShiftRightUint l r = Val (VUint z) /\ in_uint64 z = true /\ z = l / 2 ^ r)).
Proof.
  assert (Big : forall a r, 63 < r -> 0 <= a < 2 ^ 64 -> a / 2 ^ r = 0).
  { intros a r Hr Ha. apply Z.div_small. split; [lia|]. apply Z.lt_le_trans with (2 ^ 64); [lia|].
    apply Z.pow_le_mono_r; lia. }
  assert (Big2 : forall a r, 63 < r -> (a * 2 ^ r) mod 2 ^ 64 = 0).
  { intros a r Hr. replace r with (r - 64 + 64) by lia. rewrite Z.pow_add_r, Z.mul_assoc by lia. apply Z_mod_mult. }
  assert (FP : forall p, 0 <= p < 2 ^ 64 -> in_int64 (from_pattern p) = true /\ from_pattern p mod 2 ^ 64 = p).
  { intros p Hp. unfold from_pattern, in_int64, int64_max, int64_min.
    destruct (p <=? 2 ^ 63 - 1) eqn:E; split; lia. }
  assert (Dv : forall a r, 0 <= r -> 0 <= a < 2 ^ 64 -> 0 <= a / 2 ^ r < 2 ^ 64).
  { intros a r Hr Ha. pose proof (Z.pow_pos_nonneg 2 r ltac:(lia) Hr). split; [apply Z.div_pos; lia|].
    apply Z.le_lt_trans with a; [|lia]. apply Z.div_le_upper_bound; [lia|]. nia. }
  intros l r. unfold BitShiftLeftInt, BitShiftLeftUint, BitShiftRightInt, BitShiftRightUint, c_shl, c_shr, pattern, c_uint64.
  split; [|split].
  - intros Hr. replace (r <? 0) with true by lia. repeat eexists.
  - intros Hr Hl. replace (r <? 0) with false by lia.
    pose proof (Z.mod_pos_bound l (2 ^ 64) ltac:(lia)) as Hm.
    destruct (Z.ltb_spec 63 r).
    + split; exists 0; (split; [reflexivity|]); (split; [reflexivity|]); [now rewrite Big2|now rewrite Big].
    + replace ((0 <=? r) && (r <=? 63))%bool with true by lia. cbn [obind]. split.
      * eexists. split; [reflexivity|].
        destruct (FP ((l mod 2 ^ 64 * 2 ^ r) mod 2 ^ 64)) as [A B]; [apply Z.mod_pos_bound; lia|].
        split; [exact A|]. rewrite B. apply Z.mul_mod_idemp_l. lia.
      * eexists. split; [reflexivity|]. destruct (FP ((l mod 2 ^ 64) / 2 ^ r)) as [A B]; [now apply Dv|]. auto.
  - intros Hr Hl. replace (r <? 0) with false by lia. unfold in_uint64, uint64_max in *.
    destruct (Z.ltb_spec 63 r).
    + split; exists 0; (split; [reflexivity|]); (split; [reflexivity|]); [now rewrite Big2|rewrite Big; lia].
    + replace ((0 <=? r) && (r <=? 63))%bool with true by lia. cbn [obind]. split.
      * eexists. split; [reflexivity|]. split; [|reflexivity].
        pose proof (Z.mod_pos_bound (l * 2 ^ r) (2 ^ 64) ltac:(lia)). lia.
      * eexists. split; [reflexivity|]. split; [|reflexivity]. pose proof (Dv l r Hr ltac:(lia)). lia.
Qed.
Print Assumptions C39_shifts.
Example C39_shifts_case :
  BitShiftLeftInt (-1) 63 = Val (VInt (- 2 ^ 63)) /\ BitShiftRightInt (-1) 1 = Val (VInt (2 ^ 63 - 1)) /\
  BitShiftLeftUint 3 64 = Val (VUint 0).
Proof. vm_compute. auto. Qed.
