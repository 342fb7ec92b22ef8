(* Correctness of internal/number.h comparisons and conversions. *)
From Coq Require Import ZArith QArith Bool Lia ZifyBool.
From Verif Require Import Base M_Overflow M_Number S_Num S_Arith L_Overflow L_Float L_Round.
Open Scope Z_scope.

Lemma inject_scaled z K : 0 <= K -> (inject_Z z == (z * 2 ^ K) # (Z.to_pos (2 ^ K)))%Q.
Proof. intros. rewrite <- dyadic_int, (dyadic_scaled z 0 K), Z.add_0_l by lia. reflexivity. Qed.

Lemma Qle_same_den a b d : (a # d <= b # d)%Q <-> a <= b.
Proof. unfold Qle; cbn. split; intros; nia. Qed.

Lemma dyadic_le_int m e z : -1074 <= e ->
  (dyadic m e <= inject_Z z)%Q <-> m * 2 ^ (e + 1074) <= z * 2 ^ 1074.
Proof.
  intros. rewrite (dyadic_scaled m e 1074), (inject_scaled z 1074) by lia. apply Qle_same_den.
Qed.
Lemma int_le_dyadic m e z : -1074 <= e ->
  (inject_Z z <= dyadic m e)%Q <-> z * 2 ^ 1074 <= m * 2 ^ (e + 1074).
Proof.
  intros. rewrite (dyadic_scaled m e 1074), (inject_scaled z 1074) by lia. apply Qle_same_den.
Qed.

Lemma mul_le_r a b c : 0 < c -> (a * c <= b * c <-> a <= b).
Proof. nia. Qed.

Lemma ceil_aux p K lo r w q : p = K * lo + r -> 0 <= r < K -> p <= w * K ->
  (q = lo \/ (q = lo + 1 /\ r <> 0)) -> q <= w.
Proof. intros. nia. Qed.
Lemma floor_aux p K lo r w q : p = K * lo + r -> 0 <= r < K -> w * K <= p ->
  (q = lo \/ (q = lo + 1 /\ r <> 0)) -> w <= q.
Proof. intros. nia. Qed.

(* rounding p does not cross any double *)
Lemma round_no_cross p q : digs p <= 1000 ->
  (q = Zpos p / 2 ^ excess p \/
     (q = Zpos p / 2 ^ excess p + 1 /\ Zpos p mod 2 ^ excess p <> 0)) ->
  forall s m e, valid_double (S754_finite s m e) = true ->
  let v := dyadic (if s then Zneg m else Zpos m) e in
  ((inject_Z (Zpos p) <= v -> inject_Z (q * 2 ^ excess p) <= v) /\
   (v <= inject_Z (Zpos p) -> v <= inject_Z (q * 2 ^ excess p)))%Q.
Proof.
  intros Hd Hq s m e Hv v. apply valid_finite in Hv as (A1 & A2 & A3 & A4).
  subst v. rewrite !int_le_dyadic, !dyadic_le_int by lia.
  set (k := excess p) in *. assert (0 <= k) by (unfold k, excess; lia).
  assert (Pk : 0 < 2 ^ k) by (apply pow2_pos; lia).
  assert (PK : 0 < 2 ^ 1074) by (apply pow2_pos; lia).
  assert (Pe : 0 < 2 ^ (e + 1074)) by (apply pow2_pos; lia).
  pose proof (Z.div_mod (Zpos p) (2 ^ k) ltac:(lia)) as D.
  pose proof (Z.mod_pos_bound (Zpos p) (2 ^ k) ltac:(lia)) as Mb.
  assert (q0 : 0 <= Zpos p / 2 ^ k) by (apply Z.div_pos; lia).
  destruct (Z.eq_dec k 0) as [K0|K0].
  { rewrite K0 in *. change (2 ^ 0) with 1 in *. rewrite Z.div_1_r in *. rewrite Zmod_1_r in *.
    destruct Hq as [->|[_ Hq]]; [|congruence]. rewrite Z.mul_1_r. auto. }
  pose proof (digits2_pos_bounds p) as B. fold (digs p) in B.
  assert (Ek : digs p = k + 53) by (unfold k, excess in *; lia).
  assert (B52 : 2 ^ 52 * 2 ^ k <= Zpos p).
  { rewrite <- Z.pow_add_r by lia. replace (52 + k) with (digs p - 1) by lia. lia. }
  assert (qlo : 2 ^ 52 <= Zpos p / 2 ^ k) by (apply Z.div_le_lower_bound; lia).
  assert (qup : q * 2 ^ k >= 2 ^ 52 * 2 ^ k) by nia.
  destruct s.
  { (* negative *) assert (0 < Zpos m * 2 ^ (e + 1074)) by nia.
    change (Zneg m) with (- Zpos m). rewrite !Z.mul_opp_l.
    assert (0 <= q * 2 ^ k * 2 ^ 1074) by (apply Z.mul_nonneg_nonneg; lia).
    assert (0 < Zpos p * 2 ^ 1074) by (apply Z.mul_pos_pos; lia).
    split; intros; lia. }
  assert (Hek : 2 ^ 52 * 2 ^ k * 2 ^ 1074 <= Zpos m * 2 ^ (e + 1074) -> k <= e).
  { intros L. apply Z.nlt_ge. intro C.
    assert (Zpos m * 2 ^ (e + 1074) < 2 ^ 53 * 2 ^ (e + 1074)) by nia.
    assert (2 ^ 53 * 2 ^ (e + 1074) <= 2 ^ 52 * 2 ^ k * 2 ^ 1074).
    { rewrite <- !Z.pow_add_r by lia. apply Z.pow_le_mono_r; lia. }
    lia. }
  assert (Hmul : k <= e -> Zpos m * 2 ^ (e + 1074) = (Zpos m * 2 ^ (e - k)) * 2 ^ k * 2 ^ 1074).
  { intros. rewrite <- !Z.mul_assoc, <- !Z.pow_add_r by lia. do 2 f_equal. lia. }
  split; intros L.
  - assert (k <= e).
    { apply Hek. apply Z.le_trans with (Zpos p * 2 ^ 1074); [|exact L].
      apply Z.mul_le_mono_nonneg_r; lia. }
    rewrite Hmul in * by auto. rewrite mul_le_r in L |- * by auto.
    rewrite mul_le_r by auto. eapply ceil_aux; eauto.
  - destruct (Z.le_gt_cases (2 ^ 52 * 2 ^ k * 2 ^ 1074) (Zpos m * 2 ^ (e + 1074))) as [C|C].
    + apply Hek in C. rewrite Hmul in * by auto. rewrite mul_le_r in L |- * by auto.
      rewrite mul_le_r by auto. eapply floor_aux; eauto.
    + apply Z.le_trans with (2 ^ 52 * 2 ^ k * 2 ^ 1074); [lia|].
      apply Z.mul_le_mono_nonneg_r; lia.
Qed.

(* What we know about static_cast<double>(z). *)
Record rounded (z : Z) (d : double) (r : Z) : Prop := {
  rd_valid : valid_double d = true;
  rd_val : exists x, double_value d = Some (Fin x) /\ (x == inject_Z r)%Q;
  rd_small : Z.abs z <= 2 ^ 53 -> r = z;
  rd_near : Z.abs (r - z) <= 1024;
  rd_lo : forall d' v, valid_double d' = true -> double_value d' = Some (Fin v) ->
          (inject_Z z <= v -> inject_Z r <= v)%Q;
  rd_hi : forall d' v, valid_double d' = true -> double_value d' = Some (Fin v) ->
          (v <= inject_Z z -> v <= inject_Z r)%Q
}.

Lemma double_value_opp d : double_value (dneg d) =
  match double_value d with
  | Some (Fin v) => Some (Fin (match d with S754_finite s m e => dyadic (if negb s then Zneg m else Zpos m) e | _ => 0 end))
  | Some NegInf => Some PosInf | Some PosInf => Some NegInf | None => None end.
Proof. destruct d as [[]|[]| |[] m e]; reflexivity. Qed.

Lemma double_value_opp_fin d v : double_value d = Some (Fin v) ->
  exists v', double_value (dneg d) = Some (Fin v') /\ (v' == - v)%Q.
Proof.
  destruct d as [[]|[]| |[] m e]; cbn; intros [= <-]; eexists; (split; [reflexivity|]);
    try reflexivity.
  - rewrite dyadic_Zneg. ring.
  - apply dyadic_Zneg.
Qed.
Lemma valid_opp d : valid_double (dneg d) = valid_double d.
Proof. destruct d; reflexivity. Qed.
Lemma dneg_involutive d : dneg (dneg d) = d.
Proof. destruct d; cbn; rewrite ?negb_involutive; reflexivity. Qed.

Lemma digs_le p n : 0 <= n -> Zpos p <= 2 ^ n -> digs p <= n + 1.
Proof.
  intros Hn H. pose proof (digits2_pos_bounds p) as B. fold (digs p) in B.
  apply Z.nlt_ge. intro C.
  assert (2 ^ (n + 1) <= 2 ^ (digs p - 1)) by (apply Z.pow_le_mono_r; lia).
  rewrite Z.pow_add_r in H0 by lia. pose proof (pow2_pos n Hn). lia.
Qed.
Lemma digs_lt p n : 0 <= n -> Zpos p < 2 ^ n -> digs p <= n.
Proof.
  intros Hn H. pose proof (digits2_pos_bounds p) as B. fold (digs p) in B.
  apply Z.nlt_ge. intro C.
  assert (2 ^ n <= 2 ^ (digs p - 1)) by (apply Z.pow_le_mono_r; lia). lia.
Qed.

Lemma rounded_pos p : Zpos p <= 2 ^ 64 -> exists r, rounded (Zpos p) (double_of_Z (Zpos p)) r.
Proof.
  intros Hp. pose proof (digs_le p 64 ltac:(lia) Hp) as Hd.
  destruct (double_of_pos false p ltac:(lia)) as (q & m & e & H1 & H2 & H3 & H4 & H5 & H6).
  exists (q * 2 ^ excess p). unfold double_of_Z, binary_normalize. rewrite H1.
  assert (Hk : 0 <= excess p <= 12) by (unfold excess; lia).
  split.
  - exact H2.
  - eexists; split; [reflexivity|]. exact H3.
  - intros Hs. destruct (Z.eq_dec (Zpos p) (2 ^ 53)) as [E|E].
    + assert (digs p = 54) as D.
      { apply digits2_pos_unique; lia. }
      assert (excess p = 1) as X by (unfold excess; lia). rewrite X in *.
      change (2 ^ 1) with 2 in *. rewrite E in H4. 
      destruct H4 as [->|[_ H4]]; [rewrite E; reflexivity|]. now vm_compute in H4.
    + assert (digs p <= 53) by (apply digs_lt; lia).
      assert (excess p = 0) as X by (unfold excess; lia). rewrite X in *.
      rewrite H6 by auto. lia.
  - destruct (Z.eq_dec (Zpos p) (2 ^ 64)) as [E|E].
    + assert (digs p = 65) as D by (apply digits2_pos_unique; lia).
      assert (excess p = 12) as X by (unfold excess; lia). rewrite X in *.
      rewrite E in *. destruct H4 as [->|[_ H4]]; [|now vm_compute in H4]. reflexivity || (vm_compute; discriminate).
    + assert (digs p <= 64) by (apply digs_lt; lia).
      assert (excess p <= 11) by (unfold excess; lia).
      assert (2 ^ excess p <= 2 ^ 11) by (apply Z.pow_le_mono_r; lia).
      change (2 ^ 11) with 2048 in *. lia.
  - intros d' v Hv Hd'. pose proof (round_no_cross p q ltac:(lia) H4) as R.
    destruct d' as [[]|[]| |s' m' e']; cbn in Hd'; inversion Hd'; subst v; clear Hd'.
    + intros L. unfold Qle in L. cbn in L. lia.
    + intros L. unfold Qle in L. cbn in L. lia.
    + destruct (R s' m' e' Hv) as [R1 R2]. exact R1.
  - intros d' v Hv Hd'. pose proof (round_no_cross p q ltac:(lia) H4) as R.
    assert (0 <= q).
    { assert (0 <= Zpos p / 2 ^ excess p) by (apply Z.div_pos; [lia|apply pow2_pos; lia]). lia. }
    assert (0 <= q * 2 ^ excess p) by (apply Z.mul_nonneg_nonneg; [lia|apply Z.lt_le_incl, pow2_pos; lia]).
    destruct d' as [[]|[]| |s' m' e']; cbn in Hd'; inversion Hd'; subst v; clear Hd'.
    + intros L. unfold Qle. cbn -[Z.mul Z.pow]. lia.
    + intros L. unfold Qle. cbn -[Z.mul Z.pow]. lia.
    + destruct (R s' m' e' Hv) as [R1 R2]. exact R2.
Qed.

Lemma double_of_Z_neg p : double_of_Z (Zneg p) = dneg (double_of_Z (Zpos p)).
Proof.
  unfold double_of_Z, binary_normalize, binary_round, binary_round_aux.
  destruct (shl_align _ _ _) as [mz ez].
  destruct (shr_fexp _ _ _ ez _) as [m1 e1]. destruct (shr_fexp _ _ _ e1 _) as [m2 e2].
  destruct (shr_m m2); try reflexivity. destruct (e2 <=? _); reflexivity.
Qed.

Lemma Qopp_le_iff a b : (- a <= - b <-> b <= a)%Q.
Proof.
  split; intros H; [|now apply Qopp_le_compat].
  apply Qopp_le_compat in H. now rewrite !Qopp_involutive in H.
Qed.

Lemma rounded_any z : Z.abs z <= 2 ^ 64 -> exists r, rounded z (double_of_Z z) r.
Proof.
  intros Hz. destruct z as [|p|p].
  - exists 0. split; cbn; auto; try lia.
    exists 0%Q. split; reflexivity.
  - apply rounded_pos. lia.
  - destruct (rounded_pos p ltac:(lia)) as (r & [R1 R2 R3 R4 R5 R6]).
    exists (- r). rewrite double_of_Z_neg. split.
    + now rewrite valid_opp.
    + destruct R2 as (x & Hx1 & Hx2). destruct (double_value_opp_fin _ _ Hx1) as (x' & Hx3 & Hx4).
      exists x'. split; auto. rewrite Hx4, Hx2, inject_Z_opp. reflexivity.
    + intros H. rewrite R3 by lia. reflexivity.
    + change (Zneg p) with (- Zpos p). lia.
    + intros d' v Hv Hd'. destruct (double_value_opp_fin _ _ Hd') as (v' & Hv' & E).
      change (Zneg p) with (- Zpos p). rewrite !inject_Z_opp.
      pose proof (R6 (dneg d') v' ltac:(now rewrite valid_opp) Hv') as R.
      rewrite E in R. intros L. rewrite <- (Qopp_involutive v) in L |- *.
      rewrite Qopp_le_iff in L |- *. auto.
    + intros d' v Hv Hd'. destruct (double_value_opp_fin _ _ Hd') as (v' & Hv' & E).
      change (Zneg p) with (- Zpos p). rewrite !inject_Z_opp.
      pose proof (R5 (dneg d') v' ltac:(now rewrite valid_opp) Hv') as R.
      rewrite E in R. intros L. rewrite <- (Qopp_involutive v) in L |- *.
      rewrite Qopp_le_iff in L |- *. auto.
Qed.

(* --------------------------------------------------- comparison results *)

Definition cmp_of (r : cmpres) : option comparison :=
  match r with CLesser => Some Lt | CEqual => Some Eq | CGreater => Some Gt | CNan => None end.

Lemma d_cmp_bools a b :
  d_lt a b = match SFcompare a b with Some Lt => true | _ => false end /\
  d_gt a b = match SFcompare a b with Some Gt => true | _ => false end /\
  d_eq a b = match SFcompare a b with Some Eq => true | _ => false end.
Proof. auto. Qed.

Lemma ext_compare_refl x : ext_compare x x = Eq.
Proof. destruct x; cbn; auto. unfold Qcompare. apply Z.compare_refl. Qed.

Lemma SFcompare_refl a : valid_double a = true ->
  SFcompare a a = if d_isnan a then None else Some Eq.
Proof.
  intros. rewrite SFcompare_spec by auto. destruct a as [[]|[]| |[] m e]; cbn; auto;
  unfold Qcompare; now rewrite Z.compare_refl.
Qed.

Lemma DoubleCompare_ok a b : valid_double a = true -> valid_double b = true ->
  cmp_of (DoubleCompare a b) = spec_compare (double_value a) (double_value b).
Proof.
  intros Ha Hb. unfold DoubleCompare, d_eq, d_gt.
  rewrite !SFcompare_refl by auto. rewrite <- SFcompare_spec by auto.
  destruct (d_isnan a) eqn:Ea. { destruct a; try discriminate. reflexivity. }
  destruct (d_isnan b) eqn:Eb. { destruct b; try discriminate. destruct a; reflexivity. }
  cbn [negb orb].
  destruct (SFcompare a b) as [[]|] eqn:E; auto.
  rewrite SFcompare_spec in E by auto. destruct a, b; discriminate.
Qed.

Lemma CompareZ_ok a b : cmp_of (CompareZ a b) = Some (Z.compare a b).
Proof.
  unfold CompareZ. destruct (Z.compare_spec a b); destruct (b <? a) eqn:E1; try lia; cbn; auto;
  destruct (a =? b) eqn:E2; try lia; auto.
Qed.

Lemma Invert_ok r : cmp_of (Invert r) = option_map CompOpp (cmp_of r).
Proof. destruct r; reflexivity. Qed.

Lemma Qcompare_inject a b : Qcompare (inject_Z a) (inject_Z b) = Z.compare a b.
Proof. unfold Qcompare; cbn. now rewrite !Z.mul_1_r. Qed.

Lemma ext_compare_antisym a b : ext_compare b a = CompOpp (ext_compare a b).
Proof.
  destruct a, b; cbn; auto. unfold Qcompare. rewrite Z.compare_antisym. reflexivity.
Qed.
Lemma spec_compare_antisym a b : spec_compare b a = option_map CompOpp (spec_compare a b).
Proof. destruct a, b; cbn; auto. now rewrite ext_compare_antisym. Qed.


(* facts about one call of NumCompare *)
Record answer (r : option comparison) (a b : number) : Prop := {
  an_exact : exactly_comparable a b -> r = math_cmp a b;
  an_nan : r = None <-> math_cmp a b = None;
  an_lt : r = Some Lt -> math_lt a b;
  an_gt : r = Some Gt -> math_gt a b;
  an_eq : r = Some Eq -> math_eq a b \/ within 1024 a b
}.

Lemma answer_exact r a b : r = math_cmp a b -> answer r a b.
Proof. intros ->. unfold math_lt, math_gt, math_eq. split; auto. tauto. Qed.

Lemma within_sym k a b : within k a b -> within k b a.
Proof. intros (x & y & H1 & H2 & H3 & H4). exists y, x. auto. Qed.

Lemma CompOpp_some r c : option_map CompOpp r = Some c <-> r = Some (CompOpp c).
Proof. destruct r as [c'|]; cbn; split; try discriminate; intros [= H]; subst; try rewrite CompOpp_involutive; auto. Qed.

Lemma answer_sym r a b : answer r a b -> answer (option_map CompOpp r) b a.
Proof.
  intros [H1 H2 H3 H4 H5]. assert (E : math_cmp b a = option_map CompOpp (math_cmp a b)) by apply spec_compare_antisym.
  split.
  - intros X. rewrite E, H1; auto. destruct X as [X|[X Y]]; [left|right]; auto.
  - rewrite E. destruct r, (math_cmp a b); cbn; split; try discriminate; auto;
    [destruct H2 as [_ H2]|destruct H2 as [H2 _]]; specialize (H2 eq_refl); discriminate.
  - intros X. apply CompOpp_some in X. apply H4 in X. unfold math_gt, math_lt in *. rewrite E, X. reflexivity.
  - intros X. apply CompOpp_some in X. apply H3 in X. unfold math_gt, math_lt in *. rewrite E, X. reflexivity.
  - intros X. apply CompOpp_some in X. destruct (H5 X) as [Y|Y].
    + left. unfold math_eq in *. rewrite E, Y. reflexivity.
    + right. now apply within_sym.
Qed.

Lemma Qcompare_le a b : (Qcompare a b <> Gt <-> a <= b)%Q.
Proof. unfold Qcompare, Qle. apply iff_refl. Qed.

Lemma vd_const z : Z.abs z <= 2 ^ 64 -> valid_double (double_of_Z z) = true.
Proof. intros H. destruct (rounded_any z H) as (r & R). apply R. Qed.

(* comparing a double with an integer through its rounding *)
Lemma double_int_answer v z : valid_double v = true -> Z.abs z <= 2 ^ 64 ->
  forall n, number_value n = Some (Fin (inject_Z z)) -> is_double n = false ->
   (int_small n -> Z.abs z <= 2 ^ 53) ->
  answer (cmp_of (DoubleCompare v (double_of_Z z))) (NDouble v) n.
Proof.
  intros Hv Hz n Hn Hdn Hsm. destruct (rounded_any z Hz) as (r & R).
  rewrite DoubleCompare_ok by (auto; apply R).
  destruct (rd_val _ _ _ R) as (x & Hx & Ex). rewrite Hx.
  assert (M : math_cmp (NDouble v) n = spec_compare (double_value v) (Some (Fin (inject_Z z)))).
  { unfold math_cmp. now rewrite Hn. }
  destruct (double_value v) as [[|q|]|] eqn:Ev; cbn [spec_compare ext_compare] in *.
  - apply answer_exact. now rewrite M.
  - split.
    + intros [X|[_ X]]; [cbn in X; congruence|]. rewrite M. f_equal.
      rewrite Ex, (rd_small _ _ _ R) by auto. reflexivity.
    + rewrite M. split; discriminate.
    + unfold math_lt. rewrite M. intros [= X]. f_equal. rewrite Ex in X.
      apply Qlt_alt. apply Qlt_alt in X. apply Qnot_le_lt. intros C.
      apply (rd_lo _ _ _ R v q Hv Ev) in C. exact (Qlt_not_le _ _ X C).
    + unfold math_gt. rewrite M. intros [= X]. f_equal. rewrite Ex in X.
      apply Qgt_alt. apply Qgt_alt in X. apply Qnot_le_lt. intros C.
      apply (rd_hi _ _ _ R v q Hv Ev) in C. exact (Qlt_not_le _ _ X C).
    + intros [= X]. apply Qeq_alt in X. right. exists q, (inject_Z z).
      split; [exact Ev|]. split; [exact Hn|]. rewrite X, Ex.
      pose proof (rd_near _ _ _ R).
      unfold Qminus. rewrite <- !inject_Z_opp, <- !inject_Z_plus, <- !Zle_Qle. lia.
  - apply answer_exact. now rewrite M.
  - apply answer_exact. now rewrite M.
Qed.

Lemma d_gt_const v c r : valid_double v = true -> rounded c (double_of_Z c) r -> r = c ->
  d_gt v (double_of_Z c) = true ->
  spec_compare (double_value v) (Some (Fin (inject_Z c))) = Some Gt.
Proof.
  intros Hv R -> H. unfold d_gt in H. rewrite SFcompare_spec in H by (auto; apply R).
  destruct (rd_val _ _ _ R) as (x & Hx & Ex). rewrite Hx in H.
  destruct (double_value v) as [[|q|]|]; cbn in *; try discriminate; auto.
  rewrite Ex in H. destruct (Qcompare q (inject_Z c)); congruence.
Qed.
Lemma d_lt_const v c r : valid_double v = true -> rounded c (double_of_Z c) r -> r = c ->
  d_lt v (double_of_Z c) = true ->
  spec_compare (double_value v) (Some (Fin (inject_Z c))) = Some Lt.
Proof.
  intros Hv R -> H. unfold d_lt in H. rewrite SFcompare_spec in H by (auto; apply R).
  destruct (rd_val _ _ _ R) as (x & Hx & Ex). rewrite Hx in H.
  destruct (double_value v) as [[|q|]|]; cbn in *; try discriminate; auto.
  rewrite Ex in H. destruct (Qcompare q (inject_Z c)); congruence.
Qed.

Lemma pow2_rounded n : 0 <= n <= 64 -> rounded (2 ^ n) (double_of_Z (2 ^ n)) (2 ^ n).
Proof.
  intros Hn. assert (A : 2 ^ n <= 2 ^ 64) by (apply Z.pow_le_mono_r; lia).
  assert (B : 0 < 2 ^ n) by (apply pow2_pos; lia).
  destruct (rounded_any (2 ^ n) ltac:(lia)) as (r & R).
  enough (E : r = 2 ^ n) by (subst r; exact R).
  (* the power of two is itself a double, so rounding cannot cross it *)
  set (d := S754_finite false (Z.to_pos (2 ^ 52)) (n - 52)).
  assert (V : valid_double d = true) by (apply canon_valid; [cbn; lia|lia]).
  assert (Vd : double_value d = Some (Fin (dyadic (2 ^ 52) (n - 52)))) by reflexivity.
  assert (Q : (dyadic (2 ^ 52) (n - 52) == inject_Z (2 ^ n))%Q).
  { rewrite (dyadic_scaled _ _ 52), (inject_scaled _ 52) by lia.
    replace (n - 52 + 52) with n by lia. rewrite Z.mul_comm. reflexivity. }
  pose proof (rd_lo _ _ _ R d _ V Vd) as L1. pose proof (rd_hi _ _ _ R d _ V Vd) as L2.
  rewrite Q in L1, L2. specialize (L1 (Qle_refl _)). specialize (L2 (Qle_refl _)).
  rewrite <- Zle_Qle in L1, L2. lia.
Qed.

Lemma rounded_opp z d r : rounded z d r -> rounded (- z) (dneg d) (- r).
Proof.
  intros [R1 R2 R3 R4 R5 R6]. split.
  + now rewrite valid_opp.
  + destruct R2 as (x & Hx1 & Hx2). destruct (double_value_opp_fin _ _ Hx1) as (x' & Hx3 & Hx4).
    exists x'. split; auto. rewrite Hx4, Hx2, inject_Z_opp. reflexivity.
  + intros H. rewrite R3 by lia. reflexivity.
  + lia.
  + intros d' v Hv Hd'. destruct (double_value_opp_fin _ _ Hd') as (v' & Hv' & E).
    rewrite !inject_Z_opp.
    pose proof (R6 (dneg d') v' ltac:(now rewrite valid_opp) Hv') as R.
    rewrite E in R. intros L. rewrite <- (Qopp_involutive v) in L |- *.
    rewrite Qopp_le_iff in L |- *. auto.
  + intros d' v Hv Hd'. destruct (double_value_opp_fin _ _ Hd') as (v' & Hv' & E).
    rewrite !inject_Z_opp.
    pose proof (R5 (dneg d') v' ltac:(now rewrite valid_opp) Hv') as R.
    rewrite E in R. intros L. rewrite <- (Qopp_involutive v) in L |- *.
    rewrite Qopp_le_iff in L |- *. auto.
Qed.

Lemma kIntMax_eq : kDoubleToIntMax = double_of_Z (2 ^ 63). Proof. vm_compute. reflexivity. Qed.
Lemma kIntMin_eq : kDoubleToIntMin = double_of_Z (- 2 ^ 63). Proof. vm_compute. reflexivity. Qed.
Lemma kUintMax_eq : kDoubleToUintMax = double_of_Z (2 ^ 64). Proof. vm_compute. reflexivity. Qed.
Lemma rounded_imin : rounded (- 2 ^ 63) (double_of_Z (- 2 ^ 63)) (- 2 ^ 63).
Proof.
  change (double_of_Z (- 2 ^ 63)) with (dneg (double_of_Z (2 ^ 63))).
  apply rounded_opp, (pow2_rounded 63). lia.
Qed.
Lemma rounded_0 : rounded 0 dzero 0.
Proof.
  split; cbn; auto; try lia. exists 0%Q. split; reflexivity.
Qed.

Lemma spec_trans_gt a x y : spec_compare a (Some (Fin x)) = Some Gt -> (y <= x)%Q ->
  spec_compare a (Some (Fin y)) = Some Gt.
Proof.
  destruct a as [[|q|]|]; cbn; try discriminate; auto. intros [= H] L. f_equal.
  apply Qgt_alt in H. apply Qgt_alt. eapply Qle_lt_trans; eauto.
Qed.
Lemma spec_trans_lt a x y : spec_compare a (Some (Fin x)) = Some Lt -> (x <= y)%Q ->
  spec_compare a (Some (Fin y)) = Some Lt.
Proof.
  destruct a as [[|q|]|]; cbn; try discriminate; auto. intros [= H] L. f_equal.
  apply Qlt_alt in H. apply Qlt_alt. eapply Qlt_le_trans; eauto.
Qed.

Lemma DoubleCompareInt_ok v z : valid_double v = true -> in_int64 z = true ->
  answer (cmp_of (DoubleCompareInt v z)) (NDouble v) (NInt z).
Proof.
  intros Hv Hz. apply in_int64_iff in Hz. unfold DoubleCompareInt.
  destruct (d_gt v kDoubleToIntMax) eqn:E1.
  { apply answer_exact. rewrite kIntMax_eq in E1.
    eapply d_gt_const in E1; [| |apply (pow2_rounded 63); lia|]; auto.
    unfold math_cmp. cbn [number_value]. symmetry. eapply spec_trans_gt; [exact E1|].
    rewrite <- Zle_Qle. lia. }
  destruct (d_lt v kDoubleToIntMin) eqn:E2.
  { apply answer_exact. rewrite kIntMin_eq in E2.
    eapply d_lt_const in E2; [| |apply rounded_imin|]; auto.
    unfold math_cmp. cbn [number_value]. symmetry. eapply spec_trans_lt; [exact E2|].
    rewrite <- Zle_Qle. lia. }
  apply double_int_answer; auto. pows. lia.
Qed.
Lemma DoubleCompareUint_ok v z : valid_double v = true -> in_uint64 z = true ->
  answer (cmp_of (DoubleCompareUint v z)) (NDouble v) (NUint z).
Proof.
  intros Hv Hz. apply in_uint64_iff in Hz. unfold DoubleCompareUint.
  destruct (d_gt v kDoubleToUintMax) eqn:E1.
  { apply answer_exact. rewrite kUintMax_eq in E1.
    eapply d_gt_const in E1; [| |apply (pow2_rounded 64); lia|]; auto.
    unfold math_cmp. cbn [number_value]. symmetry. eapply spec_trans_gt; [exact E1|].
    rewrite <- Zle_Qle. lia. }
  destruct (d_lt v dzero) eqn:E2.
  { apply answer_exact. change dzero with (double_of_Z 0) in E2.
    eapply d_lt_const in E2; [| |apply rounded_0|]; auto.
    unfold math_cmp. cbn [number_value]. symmetry. eapply spec_trans_lt; [exact E2|].
    rewrite <- Zle_Qle. lia. }
  apply double_int_answer; auto. pows. lia.
Qed.

Lemma UintCompareInt_ok u i : in_uint64 u = true -> in_int64 i = true ->
  cmp_of (UintCompareInt u i) = Some (Z.compare u i).
Proof.
  intros Hu Hi. apply in_uint64_iff in Hu. apply in_int64_iff in Hi. unfold UintCompareInt.
  destruct ((int64_max <? u) || (i <? 0)) eqn:E.
  - cbn. f_equal. symmetry. apply Z.compare_gt_iff. unr. lia.
  - rewrite CompareZ_ok. unfold c_uint64. rewrite Z.mod_small; auto. unr. lia.
Qed.

Lemma NumCompare_answer a b : number_ok a -> number_ok b ->
  answer (cmp_of (NumCompare a b)) a b.
Proof.
  intros Ha Hb. destruct a as [x|x|x], b as [y|y|y]; cbn [NumCompare number_ok] in *.
  - apply answer_exact. now apply DoubleCompare_ok.
  - now apply DoubleCompareUint_ok.
  - now apply DoubleCompareInt_ok.
  - rewrite Invert_ok. apply answer_sym. now apply DoubleCompareUint_ok.
  - apply answer_exact. rewrite CompareZ_ok. unfold math_cmp; cbn [number_value spec_compare ext_compare]. now rewrite Qcompare_inject.
  - apply answer_exact. rewrite UintCompareInt_ok by auto. unfold math_cmp; cbn [number_value spec_compare ext_compare]. now rewrite Qcompare_inject.
  - rewrite Invert_ok. apply answer_sym. now apply DoubleCompareInt_ok.
  - apply answer_exact. rewrite Invert_ok, UintCompareInt_ok by auto. unfold math_cmp; cbn [number_value spec_compare ext_compare option_map]. rewrite Qcompare_inject.
    f_equal. symmetry. apply Z.compare_antisym.
  - apply answer_exact. rewrite CompareZ_ok. unfold math_cmp; cbn [number_value spec_compare ext_compare]. now rewrite Qcompare_inject.
Qed.

Lemma math_cmp_none a b : math_cmp a b = None <-> math_nan a \/ math_nan b.
Proof.
  unfold math_cmp, math_nan, spec_compare. destruct (number_value a), (number_value b); split; intuition (try discriminate; auto).
Qed.
