(* C80-C83: the format() function of the strings extension. *)
From Coq Require Import ZArith String List Bool Ascii Permutation Sorting.Sorted Lia ZifyBool.
From Verif Require Import Base M_Overflow M_Number M_Value L_Value S_Utf8.
From Verif Require Import M_Format S_Format L_Format L_Format2 L_Format3 L_Format4.
Import ListNotations.
Open Scope list_scope.
Open Scope Z_scope.

Lemma clamp_max n : clamp n 0 kMaxPrecision = Z.max 0 (Z.min 1000 n) /\ clamp n 0 kMaxPrecision <= int32_max.
Proof.
  unfold clamp, kMaxPrecision, int32_max. change (2 ^ 31 - 1) with 2147483647.
  destruct (n <? 0) eqn:?, (1000 <? n) eqn:?; lia.
Qed.

(* The function gives exactly the text the format string stands for, and gives
   one exactly when the format string stands for one. *)
Theorem C80_format : forall double_text fixed_text scientific_text timestamp_text max_precision format args text,
  Forall plain args -> Forall distinct_keys args ->
  format_function double_text fixed_text scientific_text timestamp_text max_precision format args = Val text <->
  renders double_text fixed_text scientific_text timestamp_text (Z.max 0 (Z.min 1000 max_precision)) format args text.
Proof.
  intros dt ft st tt mp f args t P D. unfold format_function. destruct (clamp_max mp) as [<- B].
  now apply Format_iff.
Qed.
Print Assumptions C80_format.

(* Every format string and list of arguments, well-formed or not, gives a text
   or an invalid-argument error; nothing is undefined. *)
Theorem C80_total : forall double_text fixed_text scientific_text timestamp_text max_precision format args,
  (exists text, format_function double_text fixed_text scientific_text timestamp_text max_precision format args = Val text) \/
  (exists st, format_function double_text fixed_text scientific_text timestamp_text max_precision format args = Err st /\
     st_code st = kInvalidArgument).
Proof. intros. apply Format_fine. Qed.
Print Assumptions C80_total.

Definition no_double (d : double) : list Z := [].
Definition no_fixed (p : Z) (d : double) : list Z := [].
Definition no_time (t : time) : list Z := [].
(* "%s is %d%% of %X" with a map, -7 and bytes *)
Example C80_case :
  let args := [VMap [(KString [98], VList [VInt 1; VNull]); (KInt (-3), VDuration (DFin (-1500000000)))];
               VInt (-7); VBytes [0; 255]; VBool true] in
  Forall plain args /\ Forall distinct_keys args /\
  format_function no_double no_fixed no_fixed no_time 1000 (text "%s is %d%% of %.3X") args
  = Val (text "{-3: -1.500s, b: [1, null]} is -7% of 00FF").
Proof.
  cbv zeta. split; [|split].
  - repeat first [apply Forall_cons | apply Forall_nil | split | constructor | (cbn; lia)].
  - repeat apply Forall_cons; try apply Forall_nil; try (now apply dk_other). apply dk_map.
    + repeat apply Forall_cons; try apply Forall_nil; try (now apply dk_other). apply dk_list.
      repeat apply Forall_cons; try apply Forall_nil; now apply dk_other.
    + intros [|[|i]] [|[|j]] a b t Ea Eb Ka Kb; cbn in Ea, Eb; try easy; try (now destruct i); try (now destruct j);
        injection Ea as <-; injection Eb as <-; cbn in Ka, Kb; inversion Ka; inversion Kb; subst; exfalso.
      * match goal with H : integer_numeral _ _ [98] _ |- _ => destruct H as [[? _]|[_ (u & [=] & _)]]; lia end.
      * match goal with H : integer_numeral _ _ [98] _ |- _ => destruct H as [[? _]|[_ (u & [=] & _)]]; lia end.
  - vm_compute. reflexivity.
Qed.

(* The integer clauses %b, %o, %d, %x, %X print every 64-bit integer, the
   smallest included, as its numeral. *)
Theorem C81_integer : forall double_text fixed_text scientific_text timestamp_text max_precision letter upper base n,
  integer_clause letter = Some (upper, base) ->
  (- 2 ^ 63 <= n < 2 ^ 63 -> exists t,
    format_function double_text fixed_text scientific_text timestamp_text max_precision [37; letter] [VInt n] = Val t /\
    integer_numeral upper base t n) /\
  (0 <= n < 2 ^ 64 -> exists t,
    format_function double_text fixed_text scientific_text timestamp_text max_precision [37; letter] [VUint n] = Val t /\
    integer_numeral upper base t n).
Proof.
  intros dt ft st tt mp c u b n I. split; intros Hn.
  - destruct (by_int dt ft st tt c u b None n I Hn) as (t & H & N). exists t. split; [|easy].
    apply C80_format.
    + repeat constructor; lia.
    + constructor; [now apply dk_other|constructor].
    + replace t with (t ++ []) by apply app_nil_r.
      apply (rn_clause _ _ _ _ _ [] None c (VInt n) t [] []); [constructor| |constructor]. now apply (cl_int _ _ _ _ c u b).
  - destruct (by_uint dt ft st tt c u b None n I) as (t & H & N); [lia|]. exists t. split; [|easy].
    apply C80_format.
    + repeat constructor; lia.
    + constructor; [now apply dk_other|constructor].
    + replace t with (t ++ []) by apply app_nil_r.
      apply (rn_clause _ _ _ _ _ [] None c (VUint n) t [] []); [constructor| |constructor]. now apply (cl_uint _ _ _ _ c u b).
Qed.
Print Assumptions C81_integer.

(* So no two integers print alike, and no integer prints in two ways. *)
Theorem C81_injective : forall upper base t n t' n', 2 <= base <= 16 ->
  integer_numeral upper base t n -> integer_numeral upper base t' n' -> (t = t' <-> n = n').
Proof.
  intros u b t n t' n' Hb A B. split; [intros <-|intros <-; now apply (integer_numeral_unique u b t t' n ltac:(lia))].
  assert (M : forall m w, ~ natural_numeral u b (45 :: w) m).
  { intros m w (V & _). apply place_value_cons_inv in V as (d & k & D & _); [|lia]. now destruct u. }
  destruct A as [[? (A & _)]|[? (w & -> & (A & _))]], B as [[? B]|[? (w' & E & B)]].
  - apply (place_value_fun u b t ltac:(lia)); [exact A|apply B].
  - subst t. exfalso. apply place_value_cons_inv in A as (d & k & D & _); [|lia]. now destruct u.
  - exfalso. now apply (M n' w).
  - injection E as ->. assert (- n = - n') by (apply (place_value_fun u b w' ltac:(lia)); [easy|apply B]). lia.
Qed.
Print Assumptions C81_injective.
Example C81_case : integer_clause 98 = Some (false, 2) /\ integer_clause 88 = Some (true, 16) /\
  format_function no_double no_fixed no_fixed no_time 0 (text "%X") [VInt (- 2 ^ 63)] = Val (text "-8000000000000000").
Proof. repeat split. Qed.

(* The order in which a map iterates over its entries is not specified, so the
   text of a map must not depend on it; but of two keys with the same text, such
   as 1 and "1", only the entry met first is printed. *)
Theorem C82_order_refuted : exists m m',
  Permutation m m' /\ plain (VMap m) /\ NoDup (map fst m) /\
  format_function no_double no_fixed no_fixed no_time 0 (text "%s") [VMap m] = Val (text "{1: true}") /\
  format_function no_double no_fixed no_fixed no_time 0 (text "%s") [VMap m'] = Val (text "{1: false}").
Proof.
  exists [(KInt 1, VBool true); (KString (text "1"), VBool false)], [(KString (text "1"), VBool false); (KInt 1, VBool true)].
  split; [apply perm_swap|]. split; [|split; [|split; reflexivity]].
  - apply pl_map. repeat first [apply Forall_cons | apply Forall_nil | split | constructor | (cbn; lia)].
  - repeat constructor; cbn; intuition discriminate.
Qed.
Print Assumptions C82_order_refuted.

(* When no map has two keys with the same text, the order makes no difference,
   at any depth. *)
Theorem C82_order_partial : forall double_text fixed_text scientific_text timestamp_text max_precision format args args',
  Forall plain args -> Forall distinct_keys args -> Forall2 reordered args args' ->
  forall text,
  format_function double_text fixed_text scientific_text timestamp_text max_precision format args = Val text <->
  format_function double_text fixed_text scientific_text timestamp_text max_precision format args' = Val text.
Proof.
  intros dt ft st tt mp f args args' P D R t.
  assert (P' : Forall plain args').
  { clear - P R. induction R; [constructor|]. apply Forall_cons_iff in P as [P1 P2]. constructor; [eapply reordered_plain; eauto|auto]. }
  assert (D' : Forall distinct_keys args').
  { clear - D R. induction R; [constructor|]. apply Forall_cons_iff in D as [P1 P2]. constructor; [eapply reordered_distinct; eauto|auto]. }
  assert (R' : Forall2 reordered args' args).
  { clear - R. induction R; constructor; [now apply reordered_sym|easy]. }
  rewrite !C80_format by easy. split; intros H; eapply reordered_renders; eauto.
Qed.
Print Assumptions C82_order_partial.
Example C82_case :
  let m := [(KInt 2, VBool true); (KString (text "1"), VMap [])] in
  Forall2 reordered [VMap m] [VMap (rev m)] /\
  format_function no_double no_fixed no_fixed no_time 0 (text "%s") [VMap m] = Val (text "{1: {}, 2: true}").
Proof.
  cbv zeta. split; [|reflexivity]. constructor; [|constructor].
  apply (ro_map _ [(KInt 2, VBool true); (KString (text "1"), VMap [])]); [|apply perm_swap].
  repeat constructor.
Qed.

(* CEL strings are sequences of Unicode code points; but %s of a bytes value
   copies the bytes, and the result is a string that is not well-formed UTF-8. *)
Theorem C83_utf8_refuted : exists v t,
  plain v /\ format_function no_double no_fixed no_fixed no_time 0 (text "%s") [v] = Val t /\ ~ well_formed t.
Proof.
  exists (VBytes [255]), [255]. split; [constructor; repeat constructor; lia|]. split; [reflexivity|].
  intros W. apply L_Utf8.wf_bad in W; [easy|]. intros c t Sc E. unfold scalar in Sc.
  unfold utf8 in E.
  destruct (c <? 128) eqn:E1; [apply (f_equal (hd 0)) in E; cbn [hd app] in E; lia|].
  destruct (c <? 2048) eqn:E2.
  { apply (f_equal (hd 0)) in E; cbn [hd app] in E. assert (c / 64 < 32) by (apply Z.div_lt_upper_bound; lia). lia. }
  destruct (c <? 65536) eqn:E3.
  { apply (f_equal (hd 0)) in E; cbn [hd app] in E. assert (c / 4096 < 16) by (apply Z.div_lt_upper_bound; lia). lia. }
  apply (f_equal (hd 0)) in E; cbn [hd app] in E. assert (c / 262144 < 8) by (apply Z.div_lt_upper_bound; lia). lia.
Qed.
Print Assumptions C83_utf8_refuted.

(* Without bytes values the result is well-formed, provided the format string
   and the strings among the arguments are. *)
Theorem C83_utf8_partial : forall double_text fixed_text scientific_text timestamp_text max_precision format args text,
  (forall d, Forall (fun c => 0 <= c < 128) (double_text d)) ->
  (forall p d, Forall (fun c => 0 <= c < 128) (fixed_text p d)) ->
  (forall p d, Forall (fun c => 0 <= c < 128) (scientific_text p d)) ->
  (forall t, Forall (fun c => 0 <= c < 128) (timestamp_text t)) ->
  well_formed format -> Forall (utf8_value well_formed) args -> Forall plain args ->
  format_function double_text fixed_text scientific_text timestamp_text max_precision format args = Val text ->
  well_formed text.
Proof. intros dt ft st tt mp f args t H1 H2 H3 H4 W U P E. eapply Format_wf; [| | | | | | |exact E]; eauto. Qed.
Print Assumptions C83_utf8_partial.
Example C83_case : Forall (utf8_value well_formed) [VList [VString (utf8 8364); VDouble (S754_infinity true)]] /\
  format_function no_double no_fixed no_fixed no_time 0 (utf8 955 ++ text ": %s") [VList [VString (utf8 8364); VDouble (S754_infinity true)]]
  = Val (utf8 955 ++ text ": [" ++ utf8 8364 ++ text ", -Infinity]").
Proof.
  split; [|reflexivity]. constructor; [|constructor]. apply u8_list.
  repeat apply Forall_cons; try apply Forall_nil; apply u8_other; [|easy].
  exists [8364]. split; [|reflexivity]. constructor; [unfold scalar; lia|constructor].
Qed.
