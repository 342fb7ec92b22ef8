(* Clauses, precisions, the whole format string. *)
From Coq Require Import ZArith String List Bool Ascii Permutation Sorting.Sorted Lia ZifyBool.
From Verif Require Import Base M_Overflow M_Number M_Value L_Value.
From Verif Require Import M_Format S_Format L_Format L_Format2.
Import ListNotations.
Open Scope list_scope.
Open Scope Z_scope.

(** ** Upper case *)
Definition up (c : Z) : Z := if (97 <=? c) && (c <=? 122) then c - 32 else c.
Lemma up_digit c d : digit_value false c = Some d -> digit_value true (up c) = Some d.
Proof.
  unfold digit_value, up. intros H.
  destruct ((48 <=? c) && (c <=? 57)) eqn:E.
  - replace ((97 <=? c) && (c <=? 122)) with false by lia. now rewrite E.
  - destruct ((97 <=? c) && (c <=? 102)) eqn:E2; [|discriminate].
    replace ((97 <=? c) && (c <=? 122)) with true by lia.
    replace ((48 <=? c - 32) && (c - 32 <=? 57)) with false by lia.
    replace ((65 <=? c - 32) && (c - 32 <=? 70)) with true by lia. injection H as <-. f_equal; lia.
Qed.
Lemma up_value b t n : place_value false b t n -> place_value true b (map up t) n.
Proof.
  induction 1; [constructor|]. rewrite map_app. cbn. econstructor; [easy|now apply up_digit|easy].
Qed.
Lemma up_numeral b t n : natural_numeral false b t n -> natural_numeral true b (map up t) n.
Proof.
  intros (A & B & C). split; [now apply up_value|]. split; [now destruct t|].
  destruct t as [|c t]; [easy|]. cbn in C |- *. intros E.
  assert (D : exists d, digit_value false c = Some d).
  { clear B C E. remember (c :: t) as l eqn:El. revert c t El.
    induction A as [|l n x d A IH Hx Hd]; intros c t El; [discriminate|].
    destruct l as [|y l]; [injection El as -> _; now exists d|]. injection El as -> _. now apply (IH c l). }
  destruct D as (d & D). pose proof (up_digit _ _ D) as U. rewrite E in U. cbn in U. injection U as <-.
  apply digit_value_zero in D. subst c. specialize (C eq_refl). injection C as ->. reflexivity.
Qed.
Lemma up_integer b t n : integer_numeral false b t n -> integer_numeral true b (map up t) n.
Proof.
  intros [[H A]|[H (u & -> & A)]]; [left; split; [easy|now apply up_numeral]|].
  right. split; [easy|]. exists (map up u). split; [reflexivity|now apply up_numeral].
Qed.
Lemma AsciiStrToUpper_up s : AsciiStrToUpper s = map up s.
Proof. reflexivity. Qed.

(** ** Bytes in hexadecimal *)
Lemma hex_bytes_ok s : Forall (fun b => 0 <= b < 256) s -> hex_bytes false s (BytesToHexString s).
Proof.
  induction 1 as [|b s Hb F IH]; [constructor|]. cbn.
  pose proof (Z.div_mod b 16 ltac:(lia)). pose proof (Z.mod_pos_bound b 16 ltac:(lia)).
  eapply (hx_byte _ b s _ _ (b / 16) (b mod 16)); [apply digit_char_value|apply digit_char_value| | | |exact IH]; lia.
Qed.
Lemma hex_bytes_up s t : hex_bytes false s t -> hex_bytes true s (map up t).
Proof. induction 1; [constructor|]. cbn. econstructor; eauto using up_digit. Qed.
Lemma hex_bytes_unique upper s t : hex_bytes upper s t -> forall t', hex_bytes upper s t' -> t = t'.
Proof.
  induction 1 as [|b s h l d e t Hh Hl Hd He E H IH]; intros t' H'; inversion H' as [|? ? h' l' d' e' t'' Hh' Hl' Hd' He' E']; [easy|]. subst.
  assert (d = d' /\ e = e') as [<- <-] by lia.
  rewrite (digit_value_inj _ _ _ _ Hh Hh'), (digit_value_inj _ _ _ _ Hl Hl'), (IH t''); easy.
Qed.

(** ** Integer clauses *)
Lemma signed_digits_ok b n : 2 <= b <= 16 -> - 2 ^ 63 <= n < 2 ^ 63 ->
  integer_numeral false b (if n <? 0 then 45 :: digits b (unsigned_neg n) else digits b n) n.
Proof.
  intros Hb Hn. destruct (n <? 0) eqn:E.
  - right. split; [lia|]. eexists. split; [reflexivity|]. rewrite unsigned_neg_ok by lia. apply digits_ok; lia.
  - left. split; [lia|]. apply digits_ok; lia.
Qed.
Lemma unsigned_digits_ok b n : 2 <= b <= 16 -> 0 <= n -> integer_numeral false b (digits b n) n.
Proof. intros Hb Hn. left. split; [lia|]. apply digits_ok; lia. Qed.
Lemma FormatBinary_int n : - 2 ^ 63 <= n < 2 ^ 63 -> exists t, prints (FormatBinary (VInt n)) t /\ integer_numeral false 2 t n.
Proof.
  intros Hn. unfold prints. cbn [FormatBinary]. destruct (n <? 0) eqn:E.
  - rewrite unsigned_neg_ok by lia. destruct (binary_ok (- n) true []) as (t & E1 & u & N & ->); [lia|lia|].
    rewrite E1. eexists. split; [now eexists|]. right. split; [lia|]. now exists u.
  - destruct (binary_ok n false []) as (t & E1 & u & N & ->); [lia|easy|].
    rewrite E1. eexists. split; [now eexists|]. left. split; [lia|easy].
Qed.
Lemma FormatBinary_uint n : 0 <= n -> exists t, prints (FormatBinary (VUint n)) t /\ integer_numeral false 2 t n.
Proof.
  intros Hn. unfold prints. cbn [FormatBinary]. destruct (binary_ok n false []) as (t & E1 & u & N & ->); [lia|easy|].
  rewrite E1. eexists. split; [now eexists|]. left. split; [lia|easy].
Qed.

(** ** Precisions *)
Lemma fold_value t : forall a n, fold_left (fun a c => a * 10 + (c - 48)) t a = n ->
  forallb is_digit t = true -> forall u, place_value false 10 u a -> place_value false 10 (u ++ t) n.
Proof.
  induction t as [|c t IH]; cbn; intros a n E F u Hu; [subst; now rewrite app_nil_r|].
  apply andb_true_iff in F as [Fc Ft]. change (c :: t) with ([c] ++ t). rewrite app_assoc.
  eapply IH; [exact E|easy|]. unfold is_digit in Fc. econstructor; [easy| |lia].
  unfold digit_value. now rewrite Fc.
Qed.
Lemma value_fold t n : place_value false 10 t n ->
  fold_left (fun a c => a * 10 + (c - 48)) t 0 = n /\ forallb is_digit t = true.
Proof.
  induction 1 as [|t n c d H [IH1 IH2] Hc Hd]; [easy|].
  rewrite fold_left_app, forallb_app, IH1, IH2. cbn. unfold digit_value in Hc.
  unfold is_digit. destruct ((48 <=? c) && (c <=? 57)) eqn:E; [injection Hc as <-; lia|].
  destruct ((97 <=? c) && (c <=? 102)) eqn:E2; [injection Hc as <-; lia|discriminate].
Qed.
Lemma digit_run_split t : exists u r, t = u ++ r /\ length u = digit_run t /\ forallb is_digit u = true /\
  match r with [] => True | c :: _ => is_digit c = false end.
Proof.
  induction t as [|c t (u & r & E & L & F & H)]; [now exists [], []|]. cbn.
  destruct (is_digit c) eqn:Ec.
  - exists (c :: u), r. cbn. rewrite Ec, F, L, E. easy.
  - exists [], (c :: t). easy.
Qed.
Lemma digit_run_app u c r : forallb is_digit u = true -> is_digit c = false -> digit_run (u ++ c :: r) = length u.
Proof.
  intros F H. induction u as [|x u IH]; cbn; [now rewrite H|].
  cbn in F. apply andb_true_iff in F as [-> F]. now rewrite IH.
Qed.
Lemma ParsePrecision_sound f max i p : f <> [] -> ParsePrecision f max = Val (i, p) ->
  exists pt c r, f = pt ++ c :: r /\ length pt = i /\ precision max pt p.
Proof.
  destruct f as [|c t]; [easy|]. intros _. cbn [ParsePrecision]. destruct (c =? 46) eqn:E; cbn [negb].
  - assert (c = 46) as -> by lia.
    destruct (digit_run_split t) as (u & r & -> & L & F & H). rewrite <- L.
    destruct (Nat.eqb_spec (S (length u)) (length (46 :: u ++ r))) as [X|X]; [discriminate|].
    cbn in X. rewrite app_length in X. cbn [Nat.sub]. rewrite Nat.sub_0_r.
    rewrite firstn_app, Nat.sub_diag, firstn_all. cbn [firstn]. rewrite app_nil_r.
    destruct (SimpleAtoi u) as [n|] eqn:Ea; [|discriminate].
    destruct (n >? max) eqn:En; [discriminate|]. intros [= <- <-].
    destruct r as [|c r]; [cbn in X; lia|].
    exists (46 :: u), c, r. split; [reflexivity|]. split; [reflexivity|].
    unfold SimpleAtoi in Ea. destruct u as [|x u]; [discriminate|].
    set (w := x :: u) in *. cbv zeta in Ea.
    destruct (_ <=? int32_max); [|discriminate]. injection Ea as Ea.
    apply pr_some; [easy| |lia]. apply (fold_value w 0 n Ea F []). constructor.
  - intros [= <- <-]. exists [], c, t. now repeat split; constructor.
Qed.
Lemma ParsePrecision_complete pt p c r max : precision max pt p -> max <= int32_max -> is_digit c = false -> c <> 46 ->
  ParsePrecision (pt ++ c :: r) max = Val (length pt, p).
Proof.
  intros H Hm Hc Hd. destruct H as [|t n Ht Hv Hn].
  - cbn. replace (c =? 46) with false by lia. reflexivity.
  - destruct (value_fold _ _ Hv) as [Ef Fd].
    cbn [app ParsePrecision]. change (46 =? 46) with true. cbn [negb]. rewrite digit_run_app by easy.
    replace (Nat.eqb (S (length t)) (length (46 :: t ++ c :: r))) with false
      by (symmetry; apply Nat.eqb_neq; cbn; rewrite app_length; cbn; lia).
    cbn [Nat.sub]. rewrite Nat.sub_0_r, firstn_app, Nat.sub_diag, firstn_all. cbn [firstn]. rewrite app_nil_r.
    unfold SimpleAtoi. destruct t as [|x t]; [easy|]. cbv zeta. rewrite Ef.
    replace (n <=? int32_max) with true by lia. replace (n >? max) with false by lia. reflexivity.
Qed.
Lemma ParsePrecision_fine f max : fine (ParsePrecision f max).
Proof.
  unfold ParsePrecision. destruct f as [|c t]; [apply fine_val|].
  destruct (negb _); [apply fine_val|]. cbv zeta. destruct (Nat.eqb _ _); [apply fine_err|].
  destruct (SimpleAtoi _); [|apply fine_err]. destruct (_ >? _); [apply fine_err|apply fine_val].
Qed.

Section Texts.
  Variable double_text : double -> list Z.
  Variable fixed_text scientific_text : Z -> double -> list Z.
  Variable timestamp_text : time -> list Z.
  Local Notation FS := (FormatString double_text timestamp_text).
  Local Notation shows := (shows double_text timestamp_text).
  Local Notation clause := (clause double_text fixed_text scientific_text timestamp_text).
  Local Notation renders := (renders double_text fixed_text scientific_text timestamp_text).
  Local Notation FD := (FormatDouble fixed_text scientific_text).

  (* the formatting of one clause, by its letter *)
  Definition by_letter (c : Z) (precision : option Z) (v : value) (scratch : list Z) : printed :=
    if c =? 115 then FS v scratch
    else if c =? 100 then FormatDecimal fixed_text scientific_text v scratch
    else if c =? 102 then FormatFixed fixed_text scientific_text v precision scratch
    else if c =? 101 then FormatScientific fixed_text scientific_text v precision scratch
    else if c =? 98 then FormatBinary v scratch
    else if (c =? 120) || (c =? 88) then FormatHex v (c =? 88) scratch
    else if c =? 111 then FormatOctal v scratch
    else Err (invalid "unrecognized formatting clause ").
  Definition letter (c : Z) : bool :=
    (c =? 115) || (c =? 100) || (c =? 102) || (c =? 101) || (c =? 98) || (c =? 120) || (c =? 88) || (c =? 111).

  Lemma FD_ok d p sci : prints (FD d p sci) (number_text (if sci : bool then scientific_text else fixed_text) p d).
  Proof.
    unfold prints, FormatDouble, number_text. pose proof (special_double_iff d) as H.
    destruct (special_double d) as [t|].
    - destruct H as [[-> ->]|[(-> & -> & ->)|(-> & -> & -> & ->)]]; now eexists.
    - destruct H as (-> & -> & ->). unfold value_or, kDefaultPrecision. destruct sci; eexists; reflexivity.
  Qed.
  Lemma bytes_eqb_eq a b : bytes_eqb a b = true <-> a = b.
  Proof. unfold bytes_eqb. rewrite <- bytes_cmp_eq. destruct (bytes_cmp a b); now split. Qed.
  Lemma GetDouble_iff v d : GetDouble v = Val d <-> number v d.
  Proof.
    split.
    - destruct v; cbn [GetDouble]; try discriminate; try (intros [= <-]; constructor).
      destruct (bytes_eqb s (str "NaN")) eqn:E1; [apply bytes_eqb_eq in E1 as ->; intros [= <-]; apply nb_nan|].
      destruct (bytes_eqb s (str "Infinity")) eqn:E2; [apply bytes_eqb_eq in E2 as ->; intros [= <-]; apply nb_inf|].
      destruct (bytes_eqb s (str "-Infinity")) eqn:E3; [apply bytes_eqb_eq in E3 as ->; intros [= <-]; apply nb_neg_inf|].
      discriminate.
    - destruct 1; reflexivity.
  Qed.
  Lemma GetDouble_fine v : fine (GetDouble v).
  Proof.
    destruct v; cbn [GetDouble]; try apply fine_val; try apply fine_err.
    repeat match goal with |- fine (if ?b then _ else _) => destruct b; try apply fine_val end; apply fine_err.
  Qed.
  Lemma prints_number v p sci t :
    prints (fun sc => obind (GetDouble v) (fun d => FD d p sci sc)) t <->
    exists d, number v d /\ t = number_text (if sci : bool then scientific_text else fixed_text) p d.
  Proof.
    unfold prints. split.
    - intros (s & E). destruct (GetDouble v) as [d| |] eqn:Ed; cbn in E; try discriminate.
      exists d. split; [now apply GetDouble_iff|]. apply (prints_fun (FD d p sci)); [now exists s|apply FD_ok].
    - intros (d & N & ->). apply GetDouble_iff in N. rewrite N. cbn. apply FD_ok.
  Qed.

  Lemma letter_clause c p v t : clause c p v t -> letter c = true.
  Proof.
    assert (I : forall c u b, integer_clause c = Some (u, b) -> letter c = true).
    { intros c0 u b. unfold integer_clause, letter.
      destruct (c0 =? 98) eqn:?; [intros _; now rewrite ?orb_true_r|].
      destruct (c0 =? 111) eqn:?; [intros _; now rewrite ?orb_true_r|].
      destruct (c0 =? 100) eqn:?; [intros _; now rewrite ?orb_true_r|].
      destruct (c0 =? 120) eqn:?; [intros _; now rewrite ?orb_true_r|].
      destruct (c0 =? 88) eqn:?; [intros _; now rewrite ?orb_true_r|discriminate]. }
    destruct 1; try reflexivity; eauto.
  Qed.
  Lemma integer_clause_inv c u b : integer_clause c = Some (u, b) ->
    (c, u, b) = (98, false, 2) \/ (c, u, b) = (111, false, 8) \/ (c, u, b) = (100, false, 10) \/
    (c, u, b) = (120, false, 16) \/ (c, u, b) = (88, true, 16).
  Proof.
    unfold integer_clause.
    repeat match goal with |- context [?c =? ?k] => destruct (Z.eqb_spec c k) as [->|?] end; intros [= <- <-]; auto 10.
  Qed.
  Lemma integer_clause_base c u b : integer_clause c = Some (u, b) -> 2 <= b <= 16.
  Proof.
    intros I. apply integer_clause_inv in I as [I|[I|[I|[I|I]]]]; injection I as -> -> ->; lia.
  Qed.
  Lemma by_int c u b p n : integer_clause c = Some (u, b) -> - 2 ^ 63 <= n < 2 ^ 63 ->
    exists t, prints (by_letter c p (VInt n)) t /\ integer_numeral u b t n.
  Proof.
    intros H Hn. apply integer_clause_inv in H as [[= -> -> ->]|[[= -> -> ->]|[[= -> -> ->]|[[= -> -> ->]|[= -> -> ->]]]]].
    - apply FormatBinary_int; easy.
    - eexists. split; [eexists; reflexivity|]. apply signed_digits_ok; lia.
    - eexists. split; [eexists; reflexivity|]. apply int_text_ok.
    - eexists. split; [eexists; reflexivity|]. apply signed_digits_ok; lia.
    - eexists. split; [eexists; reflexivity|]. apply up_integer. apply signed_digits_ok; lia.
  Qed.
  Lemma by_uint c u b p n : integer_clause c = Some (u, b) -> 0 <= n ->
    exists t, prints (by_letter c p (VUint n)) t /\ integer_numeral u b t n.
  Proof.
    intros H Hn. apply integer_clause_inv in H as [[= -> -> ->]|[[= -> -> ->]|[[= -> -> ->]|[[= -> -> ->]|[= -> -> ->]]]]].
    - apply FormatBinary_uint; easy.
    - eexists. split; [eexists; reflexivity|]. apply unsigned_digits_ok; lia.
    - eexists. split; [eexists; reflexivity|]. apply int_text_ok.
    - eexists. split; [eexists; reflexivity|]. apply unsigned_digits_ok; lia.
    - eexists. split; [eexists; reflexivity|]. apply up_integer. apply unsigned_digits_ok; lia.
  Qed.

  Lemma clause_complete c p v t : plain v -> clause c p v t -> prints (by_letter c p v) t.
  Proof.
    intros Pv H. destruct H as [p v t H|c u b p n t I H|c u b p n t I H|p d|p b|c u p s t I H|c u p s t I H|p v d H|p v d H].
    - apply FormatString_iff; [easy|eapply shows_distinct; exact H|exact H].
    - inversion Pv; subst. destruct (by_int c u b p n I) as (t' & E & N); [easy|].
      replace t with t'; [easy|]. apply integer_clause_base in I.
      eapply (integer_numeral_unique u b); [lia|exact N|exact H].
    - inversion Pv; subst. destruct (by_uint c u b p n I) as (t' & E & N); [easy|].
      replace t with t'; [easy|]. apply integer_clause_base in I.
      eapply (integer_numeral_unique u b); [lia|exact N|exact H].
    - apply (FD_ok d None false).
    - eexists. reflexivity.
    - inversion Pv; subst. apply integer_clause_inv in I as [[=]|[[=]|[[=]|[[= -> ->]|[= -> ->]]]]].
      + rewrite (hex_bytes_unique _ _ _ H _ (hex_bytes_ok s ltac:(easy))). eexists; reflexivity.
      + rewrite (hex_bytes_unique _ _ _ H _ (hex_bytes_up _ _ (hex_bytes_ok s ltac:(easy)))). eexists; reflexivity.
    - inversion Pv; subst. apply integer_clause_inv in I as [[=]|[[=]|[[=]|[[= -> ->]|[= -> ->]]]]].
      + rewrite (hex_bytes_unique _ _ _ H _ (hex_bytes_ok s ltac:(easy))). eexists; reflexivity.
      + rewrite (hex_bytes_unique _ _ _ H _ (hex_bytes_up _ _ (hex_bytes_ok s ltac:(easy)))). eexists; reflexivity.
    - apply (prints_number v p false). now exists d.
    - apply (prints_number v p true). now exists d.
  Qed.
  Lemma clause_sound c p v t : plain v -> distinct_keys v -> prints (by_letter c p v) t -> clause c p v t.
  Proof.
    intros Pv Dv H.
    assert (I : forall u b, integer_clause c = Some (u, b) -> match v with VInt _ | VUint _ => True | _ => False end -> clause c p v t).
    { intros u b Ic Hv. destruct v; try easy; inversion Pv; subst.
      - destruct (by_int c u b p i Ic) as (t' & E & N); [easy|]. rewrite (prints_fun _ _ _ H E). eapply cl_int; eauto.
      - destruct (by_uint c u b p u0 Ic) as (t' & E & N); [easy|]. rewrite (prints_fun _ _ _ H E). eapply cl_uint; eauto. }
    unfold by_letter in H.
    destruct (Z.eqb_spec c 115) as [->|N1]; [apply cl_string; now apply FormatString_iff|].
    destruct (Z.eqb_spec c 100) as [->|N2].
    { destruct v; try (now apply (I false 10)); try (destruct H as (s9 & E9); discriminate E9).
      rewrite (prints_fun _ _ _ H (FD_ok d None false)). apply cl_decimal_double. }
    destruct (Z.eqb_spec c 102) as [->|N3].
    { apply (prints_number v p false) in H as (d & N & ->). now apply cl_fixed. }
    destruct (Z.eqb_spec c 101) as [->|N4].
    { apply (prints_number v p true) in H as (d & N & ->). now apply cl_scientific. }
    destruct (Z.eqb_spec c 98) as [->|N5].
    { destruct v; try (now apply (I false 2)); try (destruct H as (s9 & E9); discriminate E9). destruct H as (s9 & E9). injection E9 as <- _. apply cl_binary_bool. }
    destruct (Z.eqb_spec c 120) as [->|N6].
    { destruct v; try (now apply (I false 16)); try (destruct H as (s9 & E9); discriminate E9); destruct H as (s9 & E9); injection E9 as <- _; inversion Pv; subst.
      - apply (cl_hex_string _ _ _ _ 120 false); [easy|now apply hex_bytes_ok].
      - apply (cl_hex_bytes _ _ _ _ 120 false); [easy|now apply hex_bytes_ok]. }
    destruct (Z.eqb_spec c 88) as [->|N7].
    { destruct v; try (now apply (I true 16)); try (destruct H as (s9 & E9); discriminate E9); destruct H as (s9 & E9); injection E9 as <- _; inversion Pv; subst.
      - apply (cl_hex_string _ _ _ _ 88 true); [easy|now apply hex_bytes_up, hex_bytes_ok].
      - apply (cl_hex_bytes _ _ _ _ 88 true); [easy|now apply hex_bytes_up, hex_bytes_ok]. }
    cbn [orb] in H.
    destruct (Z.eqb_spec c 111) as [->|N8].
    { destruct v; try (now apply (I false 8)); try (destruct H as (s9 & E9); discriminate E9). }
    destruct H as (s & [=]).
  Qed.
  Lemma binary_fine n sign sc : fine (binary n sign sc).
  Proof.
    unfold binary. destruct (n =? 0) eqn:E0; [apply fine_val|].
    destruct sign; [|apply fine_val].
    pose proof (binary_loop_length (Z.to_nat (bit_width n + Z.b2z true)) n) as L. cbv zeta.
    destruct (binary_loop _ n []) as [|x l]; [|apply fine_val].
    exfalso. cbn in L. unfold bit_width in L. rewrite E0 in L. pose proof (Z.log2_nonneg n). lia.
  Qed.
  Lemma by_letter_fine c p v sc : fine (by_letter c p v sc).
  Proof.
    assert (F : forall d q sci s, fine (FD d q sci s)).
    { intros d q sci s. unfold FormatDouble.
      repeat match goal with |- fine (if ?b then _ else _) => destruct b; try apply fine_val end. }
    unfold by_letter.
    destruct (c =? 115); [apply FormatString_fine|].
    destruct (c =? 100); [destruct v; cbn [FormatDecimal]; try apply fine_val; try apply fine_err; apply F|].
    destruct (c =? 102); [apply fine_bind; [apply GetDouble_fine|intros; apply F]|].
    destruct (c =? 101); [apply fine_bind; [apply GetDouble_fine|intros; apply F]|].
    destruct (c =? 98).
    { destruct v; cbn [FormatBinary]; try apply fine_val; try apply fine_err; try apply binary_fine.
      destruct (_ <? 0); apply binary_fine. }
    destruct (_ || _); [destruct v; cbn [FormatHex obind]; try apply fine_val; try apply fine_err|].
    destruct (c =? 111); [destruct v; cbn [FormatOctal]; try apply fine_val; try apply fine_err|apply fine_err].
  Qed.

  Lemma clause_unfold pt p c r v max sc :
    ParsePrecision (pt ++ c :: r) max = Val (length pt, p) ->
    ParseAndFormatClause double_text fixed_text scientific_text timestamp_text (pt ++ c :: r) v max sc =
    obind (by_letter c p v sc) (fun q => Val (length pt, fst q)).
  Proof.
    intros E. unfold ParseAndFormatClause. rewrite E. cbn [obind].
    rewrite nth_error_app2, Nat.sub_diag by lia. reflexivity.
  Qed.

  Local Notation loop := (Format_loop double_text fixed_text scientific_text timestamp_text).
  Lemma loop_fine fuel max args : forall i rest res, (length rest < fuel)%nat -> fine (loop fuel max args i rest res).
  Proof.
    induction fuel as [|fuel IH]; intros i rest res Hf; [lia|]. cbn [Format_loop].
    destruct rest as [|c rest]; [apply fine_val|]. cbn in Hf.
    destruct (negb (c =? 37)); [apply IH; lia|].
    destruct rest as [|c' rest']; [apply fine_err|]. cbn in Hf.
    destruct (c' =? 37); [apply IH; lia|].
    destruct (Nat.leb_spec (length args) i) as [L|L]; [apply fine_err|].
    destruct (nth_error args i) as [v|] eqn:En; [|apply nth_error_None in En; lia].
    destruct (ParsePrecision_fine (c' :: rest') max) as [([j p] & E)|(st & E & C)].
    - destruct (ParsePrecision_sound (c' :: rest') max _ _ ltac:(discriminate) E) as (pt & x & r & Er & <- & _).
      rewrite Er in E |- *. rewrite (clause_unfold _ _ _ _ _ _ _ E).
      destruct (by_letter_fine x p v []) as [([t s] & Et)|(st & Et & C)]; rewrite Et; cbn [obind fst snd].
      + apply IH. rewrite skipn_length. assert (L2 : length (c' :: rest') = length (pt ++ x :: r)) by now rewrite Er.
        cbn [length] in L2. lia.
      + right. now exists st.
    - unfold ParseAndFormatClause. rewrite E. cbn. right. now exists st.
  Qed.

  Lemma letter_facts c : letter c = true -> is_digit c = false /\ c <> 46 /\ c <> 37.
  Proof. unfold letter, is_digit. lia. Qed.
  Lemma by_letter_letter c p v t : prints (by_letter c p v) t -> letter c = true.
  Proof.
    unfold by_letter, letter. intros (s & E).
    repeat match type of E with context [?c =? ?k] => destruct (c =? k) eqn:?; cbn [orb] in E; try (now rewrite ?orb_true_r) end.
  Qed.

  Lemma skipn_nth {X} (l : list X) : forall i a, nth_error l i = Some a -> skipn i l = a :: skipn (S i) l.
  Proof. induction l as [|x l IH]; intros [|i] a E; try discriminate; [now injection E as ->|now apply IH]. Qed.
  Lemma skipn_cons {X} (l : list X) i a r : skipn i l = a :: r -> nth_error l i = Some a /\ r = skipn (S i) l.
  Proof.
    revert i. induction l as [|x l IH]; intros [|i] E; try discriminate; [now injection E as -> ->|now apply IH].
  Qed.
  Lemma plain_nth args i v : Forall plain args -> nth_error args i = Some v -> plain v.
  Proof. intros F E. rewrite Forall_forall in F. apply F. eapply nth_error_In; eauto. Qed.

  (* what the loop computes, whatever the values are *)
  Inductive emits (max : Z) : list Z -> list value -> list Z -> Prop :=
  | em_end args : emits max [] args []
  | em_char c f args o : c <> 37 -> emits max f args o -> emits max (c :: f) args (c :: o)
  | em_percent f args o : emits max f args o -> emits max (37 :: 37 :: f) args (37 :: o)
  | em_clause pt p c v t f args o :
      precision max pt p -> prints (by_letter c p v) t -> emits max f args o ->
      emits max (37 :: pt ++ c :: f) (v :: args) (t ++ o).

  Lemma loop_emits fuel max args : forall i rest res o,
    loop fuel max args i rest res = Val o -> exists o', o = res ++ o' /\ emits max rest (skipn i args) o'.
  Proof.
    induction fuel as [|fuel IH]; intros i rest res o E; [discriminate|]. cbn [Format_loop] in E.
    destruct rest as [|c rest]; [injection E as <-; exists []; split; [now rewrite app_nil_r|constructor]|].
    destruct (Z.eqb_spec c 37) as [->|Nc]; cbn [negb] in E.
    - destruct rest as [|c' rest']; [discriminate|].
      destruct (Z.eqb_spec c' 37) as [->|Nc'].
      + apply IH in E as (o' & -> & R). exists (37 :: o'). rewrite <- app_assoc. split; [easy|now apply em_percent].
      + destruct (Nat.leb (length args) i); [discriminate|].
        destruct (nth_error args i) as [v|] eqn:En; [|discriminate].
        destruct (ParsePrecision (c' :: rest') max) as [[j p]| |] eqn:Ep;
          try (unfold ParseAndFormatClause in E; rewrite Ep in E; discriminate).
        destruct (ParsePrecision_sound (c' :: rest') max _ _ ltac:(discriminate) Ep) as (pt & x & r & Er & <- & Hp).
        rewrite Er in E, Ep |- *. rewrite (clause_unfold _ _ _ _ _ _ _ Ep) in E.
        destruct (by_letter x p v []) as [[t s]| |] eqn:Et; cbn [obind fst snd] in E; try discriminate.
        apply IH in E as (o' & -> & R). exists (t ++ o'). rewrite <- app_assoc. split; [easy|].
        rewrite (skipn_nth _ _ _ En).
        replace (skipn (S (length pt)) (pt ++ x :: r)) with r in R.
        2:{ rewrite skipn_app, skipn_all2 by lia. replace (S (length pt) - length pt)%nat with 1%nat by lia. reflexivity. }
        apply (em_clause max pt p x v t r); [easy|now exists s|easy].
    - apply IH in E as (o' & -> & R). exists (c :: o'). rewrite <- app_assoc. split; [easy|now constructor].
  Qed.
  Lemma emits_renders max f args o : Forall plain args -> Forall distinct_keys args -> emits max f args o -> renders max f args o.
  Proof.
    intros P D H. induction H as [args|c f args o Nc R IH|f args o R IH|pt p c v t f args o Hp Hc R IH].
    - apply rn_end.
    - apply rn_char; auto.
    - apply rn_percent; auto.
    - apply Forall_cons_iff in P as [P1 P2]. apply Forall_cons_iff in D as [D1 D2].
      apply (rn_clause _ _ _ _ max pt p c v t f); [easy|now apply clause_sound|now apply IH].
  Qed.

  Lemma loop_complete max args0 : max <= int32_max -> Forall plain args0 -> forall rest args o,
    renders max rest args o -> forall fuel i res, args = skipn i args0 -> (length rest < fuel)%nat ->
    loop fuel max args0 i rest res = Val (res ++ o).
  Proof.
    intros Hm Pa rest args o R. induction R as [args|c f args o Nc R IH|f args o R IH|pt p c v t f args o Hp Hc R IH];
      intros fuel i res Ea Hf; (destruct fuel as [|fuel]; [lia|]); cbn [Format_loop].
    - now rewrite app_nil_r.
    - replace (c =? 37) with false by lia. cbn [negb]. cbn in Hf. rewrite (IH fuel i (res ++ [c])); [|easy|lia].
      now rewrite <- app_assoc.
    - change (37 =? 37) with true. cbn [negb]. cbn in Hf. rewrite (IH fuel i (res ++ [37])); [|easy|lia].
      now rewrite <- app_assoc.
    - change (37 =? 37) with true. cbn [negb].
      destruct (letter_facts c (letter_clause _ _ _ _ Hc)) as (F1 & F2 & F3).
      symmetry in Ea. destruct (skipn_cons _ _ _ _ Ea) as [En Er].
      assert (Hd : exists x r, pt ++ c :: f = x :: r /\ x <> 37).
      { destruct Hp; [now exists c, f|]. eexists 46, _. split; [reflexivity|lia]. }
      destruct Hd as (x & r & Ex & Nx). rewrite Ex. replace (x =? 37) with false by lia.
      assert (i < length args0)%nat by (apply nth_error_Some; congruence).
      replace (Nat.leb (length args0) i) with false by (symmetry; apply Nat.leb_gt; lia).
      rewrite En, <- Ex. rewrite (clause_unfold _ p); [|now apply ParsePrecision_complete].
      destruct (clause_complete c p v t) as (s & Et); [now apply (plain_nth args0 i)|easy|].
      rewrite Et. cbn [obind fst snd].
      replace (skipn (S (length pt)) (pt ++ c :: f)) with f.
      2:{ rewrite skipn_app, skipn_all2 by lia. replace (S (length pt) - length pt)%nat with 1%nat by lia. reflexivity. }
      rewrite (IH fuel (S i) (res ++ t)); [now rewrite <- app_assoc|easy|].
      cbn in Hf. rewrite app_length in Hf. cbn in Hf. lia.
  Qed.

  Lemma Format_fine max f args : fine (Format double_text fixed_text scientific_text timestamp_text max f args).
  Proof. apply loop_fine. lia. Qed.
  Lemma Format_iff max f args o : max <= int32_max -> Forall plain args -> Forall distinct_keys args ->
    Format double_text fixed_text scientific_text timestamp_text max f args = Val o <-> renders max f args o.
  Proof.
    intros Hm Pa Da. split.
    - intros E. apply loop_emits in E as (o' & -> & R). now apply emits_renders.
    - intros R. unfold Format. apply (loop_complete max args Hm Pa f args o R _ _ []); [reflexivity|lia].
  Qed.
End Texts.
