(* C33: balancing of logical operator chains. *)
From Coq Require Import ZArith List Bool String Lia ZifyBool.
From Verif Require Import Base M_Overflow M_Number M_Attr M_Value M_Logic M_Expr M_Balancer S_Attr S_Eval
  L_Attr L_Seval L_Core L_Meaning P_Logic P_Eval P_Macro.
Import ListNotations.
Open Scope list_scope.
Open Scope Z_scope.
Local Open Scope out_scope.
Ltac Zify.zify_post_hook ::= Z.to_euclidean_division_equations.

(* ---- specification ---- *)
(* The operands and operator ids of a tree from left to right. *)
Fixpoint tokens (t : pexpr) : list (expr + Z) :=
  match t with
  | PTerm e => [inl e]
  | PCall id _ args =>
      (fix go (first : bool) (l : list pexpr) : list (expr + Z) :=
         match l with
         | [] => []
         | a :: l' => (if first then [] else [inr id]) ++ tokens a ++ go false l'
         end) true args
  end.
(* Every operator node is a binary call of fn. *)
Fixpoint binary (fn : string) (t : pexpr) : Prop :=
  match t with
  | PTerm _ => True
  | PCall _ f [a; b] => f = fn /\ binary fn a /\ binary fn b
  | PCall _ _ _ => False
  end.
Fixpoint depth (t : pexpr) : nat :=
  match t with
  | PTerm _ => 0
  | PCall _ _ args => S (fold_right Nat.max 0%nat (map depth args))
  end.
(* the tokens of the source text: first op e op e ... *)
Definition chain_tokens (first : expr) (rest : list (Z * expr)) : list (expr + Z) :=
  inl first :: flat_map (fun x => [inr (fst x); inl (snd x)]) rest.
(* ((first fn e1) fn e2) ... *)
Definition left_chain (fn : string) (first : expr) (rest : list (Z * expr)) : expr :=
  fold_left (fun acc x => ECall fn None [acc; snd x]) rest first.

(* ---- the tree ---- *)
(* the tokens of operators lo..hi with the operands around them, given all
   operands and operators *)
Fixpoint segment (terms : list expr) (ops : list Z) (n : nat) : list (expr + Z) :=
  match n, terms, ops with
  | O, e :: _, _ => [inl e]
  | S n', e :: terms', o :: ops' => inl e :: inr o :: segment terms' ops' n'
  | _, _, _ => []
  end.
Lemma segment_split terms ops n : (n <= List.length ops)%nat -> List.length terms = S (List.length ops) ->
  forall k, (k < n)%nat -> exists o, nth_error ops k = Some o /\
  segment terms ops n = segment terms ops k ++ inr o :: segment (skipn (S k) terms) (skipn (S k) ops) (n - S k).
Proof.
  revert terms ops. induction n as [|n IH]; intros terms ops Hn Hl k Hk; [lia|].
  destruct terms as [|e terms]; [discriminate|]. destruct ops as [|o ops]; [cbn in Hn; lia|].
  cbn [List.length] in Hn, Hl. destruct k as [|k].
  - exists o. split; [reflexivity|]. cbn [segment skipn app]. replace (S n - 1)%nat with n by lia. reflexivity.
  - destruct (IH terms ops ltac:(lia) ltac:(lia) k ltac:(lia)) as (q & E1 & E2).
    exists q. split; [exact E1|]. cbn [segment app]. rewrite E2. reflexivity.
Qed.

(* entries lo .. hi + 1 are still there *)
Definition present (terms : list expr) (lo hi : Z) (st : balancer_terms) : Prop :=
  List.length st = List.length terms /\
  forall i, lo <= i <= hi + 1 -> nth_error st (Z.to_nat i) = Some (nth_error terms (Z.to_nat i)) /\
                                 nth_error terms (Z.to_nat i) <> None.
(* the entries outside lo .. hi + 1 are as before *)
Definition kept_outside (lo hi : Z) (st st' : balancer_terms) : Prop :=
  List.length st' = List.length st /\
  forall i, 0 <= i -> ~ (lo <= i <= hi + 1) -> nth_error st' (Z.to_nat i) = nth_error st (Z.to_nat i).

Lemma nth_firstn {A} (l : list A) : forall i j, (j < i)%nat -> nth_error (firstn i l) j = nth_error l j.
Proof.
  induction l as [|a l IH]; intros [|i] [|j] H; try lia; try reflexivity. cbn [firstn nth_error]. apply IH. lia.
Qed.
Lemma nth_skipn {A} (l : list A) : forall i j, nth_error (skipn i l) j = nth_error l (i + j).
Proof. induction l as [|a l IH]; intros [|i] j; try reflexivity; [now destruct j|]. cbn. apply IH. Qed.
Lemma take_ok (terms : list expr) i (st : balancer_terms) e : 0 <= i -> nth_error st (Z.to_nat i) = Some (Some e) ->
  List.length st = List.length terms ->
  exists st', take i st = Val (e, st') /\ List.length st' = List.length st /\
    forall j, 0 <= j -> j <> i -> nth_error st' (Z.to_nat j) = nth_error st (Z.to_nat j).
Proof.
  intros Hi E Hl. unfold take. destruct (Z.ltb_spec i 0); [lia|]. rewrite E. eexists. split; [reflexivity|].
  assert (Hlt : (Z.to_nat i < List.length st)%nat) by (apply nth_error_Some; congruence).
  split.
  - rewrite app_length, firstn_length. cbn [List.length]. rewrite skipn_length. lia.
  - intros j Hj Hne. destruct (Z.lt_ge_cases j i).
    + rewrite nth_error_app1 by (rewrite firstn_length; lia). clear - H0 Hj Hlt.
      apply nth_firstn. lia.
    + rewrite nth_error_app2 by (rewrite firstn_length; lia). rewrite firstn_length.
      replace (Z.to_nat j - Nat.min (Z.to_nat i) (List.length st))%nat with (S (Z.to_nat j - S (Z.to_nat i)))%nat by lia.
      cbn [nth_error]. rewrite nth_skipn. f_equal. lia.
Qed.

Lemma op_at_ok i ops : 0 <= i < Z.of_nat (List.length ops) ->
  exists o, op_at i ops = Val o /\ nth_error ops (Z.to_nat i) = Some o.
Proof.
  intros H. unfold op_at. destruct (Z.ltb_spec i 0); [lia|].
  destruct (nth_error ops (Z.to_nat i)) as [o|] eqn:E; [eauto|]. apply nth_error_None in E. lia.
Qed.
Lemma int_add_ok a b : -2 ^ 31 <= a + b < 2 ^ 31 -> int_add a b = Val (a + b).
Proof. intros H. unfold int_add. destruct (_ && _) eqn:E; [reflexivity|]. lia. Qed.

(* depth of a tree of n operators *)
Definition log_depth (n : Z) (d : nat) : Prop := Z.of_nat d <= Z.log2_up (n + 1).
Lemma log_step n a b : 1 <= n -> log_depth (n / 2) a -> log_depth (n - 1 - n / 2) b ->
  log_depth n (S (Nat.max a (Nat.max b 0))).
Proof.
  unfold log_depth. intros Hn Ha Hb.
  assert (Hb' : Z.of_nat b <= Z.log2_up (n / 2 + 1)).
  { etransitivity; [exact Hb|]. apply Z.log2_up_le_mono. lia. }
  assert (H : Z.log2_up (n / 2 + 1) + 1 <= Z.log2_up (n + 1)).
  { clear - Hn. rewrite <- !Z.add_1_r || idtac.
    destruct (Z.eq_dec n 1) as [->|]; [vm_compute; discriminate|].
    rewrite (Z.log2_up_eqn (n / 2 + 1)) by lia. rewrite (Z.log2_up_eqn (n + 1)) by lia.
    replace (Z.pred (n / 2 + 1)) with (n / 2) by lia. replace (Z.pred (n + 1)) with n by lia.
    assert (E : Z.log2 n = Z.succ (Z.log2 (n / 2))).
    { rewrite <- Z.div2_div, <- Z.log2_shiftr with (n := 1) || idtac.
      replace n with (2 * (n / 2) + n mod 2) at 1 by (symmetry; apply Z.div_mod; lia).
      destruct (Z.mod_pos_bound n 2 ltac:(lia)).
      assert (Hm : n mod 2 = 0 \/ n mod 2 = 1) by lia. destruct Hm as [-> | ->].
      - rewrite Z.add_0_r. apply Z.log2_double. lia.
      - apply Z.log2_succ_double. lia. }
    lia. }
  lia.
Qed.
Section Tree.
  Variables (fn : string) (terms : list expr) (ops : list Z).
  Hypothesis Hlen : List.length terms = S (List.length ops).
  Hypothesis Hsize : Z.of_nat (List.length ops) <= 2 ^ 30.

  Definition seg (lo n : Z) : list (expr + Z) :=
    segment (skipn (Z.to_nat lo) terms) (skipn (Z.to_nat lo) ops) (Z.to_nat n).
  Lemma seg_one i e : 0 <= i -> nth_error terms (Z.to_nat i) = Some e -> seg i 0 = [inl e].
  Proof.
    intros Hi E. unfold seg. pose proof (nth_skipn terms (Z.to_nat i) 0) as H.
    rewrite Nat.add_0_r, E in H. destruct (skipn (Z.to_nat i) terms) as [|a l]; [discriminate|].
    injection H as ->. reflexivity.
  Qed.
  Lemma skipn_skipn' {A} (l : list A) : forall a b, skipn a (skipn b l) = skipn (b + a) l.
  Proof.
    induction l as [|x l IH]; intros a [|b]; cbn [skipn Nat.add]; auto.
    now destruct a.
  Qed.
  Lemma seg_split lo n k o : 0 <= lo -> 0 <= k < n -> lo + n <= Z.of_nat (List.length ops) ->
    nth_error ops (Z.to_nat (lo + k)) = Some o ->
    seg lo n = seg lo k ++ inr o :: seg (lo + k + 1) (n - k - 1).
  Proof.
    intros Hlo Hk Hn Ho. unfold seg.
    destruct (segment_split (skipn (Z.to_nat lo) terms) (skipn (Z.to_nat lo) ops) (Z.to_nat n)) with (k := Z.to_nat k)
      as (q & E1 & E2).
    - rewrite skipn_length. lia.
    - rewrite !skipn_length. lia.
    - lia.
    - rewrite nth_skipn in E1. replace (Z.to_nat lo + Z.to_nat k)%nat with (Z.to_nat (lo + k)) in E1 by lia.
      assert (q = o) by congruence. subst q. rewrite E2. do 2 f_equal. rewrite !skipn_skipn'.
      replace (Z.to_nat lo + S (Z.to_nat k))%nat with (Z.to_nat (lo + k + 1)) by lia.
      replace (Z.to_nat n - S (Z.to_nat k))%nat with (Z.to_nat (n - k - 1)) by lia. reflexivity.
  Qed.

  Lemma one_term i st : 0 <= i -> present terms i (i - 1) st ->
    exists e st', (r <- take i st ;; Val (PTerm (fst r), snd r)) = Val (PTerm e, st') /\
      kept_outside i (i - 1) st st' /\ [inl e] = seg i 0.
  Proof.
    intros Hi [Hl Hp]. destruct (Hp i ltac:(lia)) as [H1 H2].
    destruct (nth_error terms (Z.to_nat i)) as [e|] eqn:E; [|congruence].
    destruct (take_ok terms i st e Hi H1 Hl) as (st' & E1 & E2 & E3). exists e, st'. rewrite E1. cbn [obind fst snd].
    split; [reflexivity|]. split.
    - split; [exact E2|]. intros j Hj Hn. apply E3; [exact Hj|lia].
    - symmetry. now apply seg_one.
  Qed.
  Lemma present_part lo hi lo' hi' st : lo <= lo' -> hi' <= hi -> present terms lo hi st -> present terms lo' hi' st.
  Proof. intros H1 H2 [Hl Hp]. split; [exact Hl|]. intros i Hi. apply Hp. lia. Qed.
  Lemma present_kept lo hi lo' hi' st st' : 0 <= lo' -> (forall i, lo' <= i <= hi' + 1 -> ~ (lo <= i <= hi + 1)) ->
    kept_outside lo hi st st' -> present terms lo' hi' st -> present terms lo' hi' st'.
  Proof.
    intros H0 Hd [K1 K2] [P1 P2]. split; [lia|]. intros i Hi. rewrite K2 by (lia || now apply Hd). now apply P2.
  Qed.

  Lemma tree_ok fuel : forall lo hi st, 0 <= lo <= hi -> hi < Z.of_nat (List.length ops) ->
    hi - lo < Z.of_nat fuel -> present terms lo hi st ->
    exists t st', BalancedTree fuel fn ops lo hi st = Val (t, st') /\ kept_outside lo hi st st' /\
      tokens t = seg lo (hi - lo + 1) /\ binary fn t /\ log_depth (hi - lo + 1) (depth t).
  Proof.
    induction fuel as [|fuel IH]; intros lo hi st Hlo Hhi Hf Hp; [lia|].
    cbn [BalancedTree]. rewrite int_add_ok by lia. cbn [obind]. rewrite int_add_ok by lia. cbn [obind].
    set (mid := Z.quot (lo + hi + 1) 2).
    assert (Hm : mid = lo + (hi - lo + 1) / 2) by (unfold mid; lia).
    assert (Hmb : lo <= mid <= hi) by lia. clearbody mid.
    (* left *)
    assert (GL : exists t st', (if mid =? lo then r <- take mid st ;; Val (PTerm (fst r), snd r)
                                else BalancedTree fuel fn ops lo (mid - 1) st) = Val (t, st') /\
              kept_outside lo (mid - 1) st st' /\ tokens t = seg lo (mid - lo) /\ binary fn t /\
              log_depth (mid - lo) (depth t)).
    { destruct (Z.eqb_spec mid lo) as [->|Hne].
      - destruct (one_term lo st) as (e & st' & E1 & E2 & E3); [lia| |].
        { eapply present_part; [| |exact Hp]; lia. }
        exists (PTerm e), st'. replace (lo - lo) with 0 by lia. split; [exact E1|]. split; [exact E2|].
        split; [exact E3|]. split; [exact I|]. vm_compute. discriminate.
      - destruct (IH lo (mid - 1) st) as (t & st' & E); try lia.
        { eapply present_part; [| |exact Hp]; lia. }
        exists t, st'. replace (mid - 1 - lo + 1) with (mid - lo) in E by lia. exact E. }
    destruct GL as (tl & st1 & -> & KL & TL & BL & DL). cbn [obind fst snd].
    assert (GR : exists t st', (if mid =? hi then r <- take (mid + 1) st1 ;; Val (PTerm (fst r), snd r)
                                else BalancedTree fuel fn ops (mid + 1) hi st1) = Val (t, st') /\
              kept_outside (mid + 1) hi st1 st' /\ tokens t = seg (mid + 1) (hi - mid) /\ binary fn t /\
              log_depth (hi - mid) (depth t)).
    { assert (Hp1 : present terms (mid + 1) hi st1).
      { eapply present_kept; [| |exact KL|]; [lia|lia|]. eapply present_part; [| |exact Hp]; lia. }
      destruct (Z.eqb_spec mid hi) as [->|Hne].
      - destruct (one_term (hi + 1) st1) as (e & st' & E1 & E2 & E3); [lia| |].
        { eapply present_part; [| |exact Hp1]; lia. }
        exists (PTerm e), st'. replace (hi - hi) with 0 by lia. replace (hi + 1 - 1) with hi in E2 by lia.
        split; [exact E1|]. split; [exact E2|]. split; [exact E3|]. split; [exact I|]. vm_compute. discriminate.
      - destruct (IH (mid + 1) hi st1) as (t & st' & E); try lia; [exact Hp1|].
        exists t, st'. replace (hi - (mid + 1) + 1) with (hi - mid) in E by lia. exact E. }
    destruct GR as (tr & st2 & -> & KR & TR & BR & DR). cbn [obind fst snd].
    destruct (op_at_ok mid ops ltac:(lia)) as (o & Eo & No). rewrite Eo. cbn [obind].
    exists (PCall o fn [tl; tr]), st2. split; [reflexivity|]. split.
    { destruct KL as [L1 L2], KR as [R1 R2]. split; [lia|]. intros i Hi Hn. rewrite R2 by lia. apply L2; lia. }
    split. { cbn [tokens app]. rewrite app_nil_r, TL, TR. rewrite (seg_split lo (hi - lo + 1) (mid - lo) o) by
        (lia || (replace (lo + (mid - lo)) with mid by lia; exact No)).
      do 2 f_equal. f_equal; lia. }
    split; [cbn; auto|]. cbn [depth map fold_right]. apply log_step; [lia| |].
    - replace ((hi - lo + 1) / 2) with (mid - lo) by lia. exact DL.
    - replace (hi - lo + 1 - 1 - (hi - lo + 1) / 2) with (hi - mid) by lia. exact DR.
  Qed.
End Tree.

Lemma chain_state rest : forall a b,
  fold_left (fun st x => (fst st ++ [snd x], snd st ++ [fst x])) rest (a, b) =
  (a ++ map snd rest, b ++ map (@fst Z expr) rest).
Proof.
  induction rest as [|[o e] rest IH]; intros a b; cbn [fold_left map fst snd]; [now rewrite !app_nil_r|].
  rewrite IH, <- !app_assoc. reflexivity.
Qed.
Lemma segment_chain rest : forall first,
  segment (first :: map snd rest) (map fst rest) (List.length rest) = chain_tokens first rest.
Proof.
  induction rest as [|[o e] rest IH]; intros first; [reflexivity|].
  transitivity (inl first :: inr o :: segment (e :: map snd rest) (map fst rest) (List.length rest)); [reflexivity|].
  rewrite IH. reflexivity.
Qed.

(* A chain parsed with balancing is a binary tree whose operands and operator
   ids, from left to right, are those of the text, and whose depth is at most
   the logarithm of the number of operands. *)
Theorem C33_tree : forall fn first rest, Z.of_nat (List.length rest) <= 2 ^ 30 ->
  exists t, balance_chain false fn first rest = Val t /\
    tokens t = chain_tokens first rest /\ binary fn t /\
    Z.of_nat (depth t) <= Z.log2_up (Z.of_nat (List.length rest) + 1).
Proof.
  intros fn first rest Hn. unfold balance_chain. rewrite chain_state. cbn [fst snd app].
  unfold Balance. destruct rest as [|x rest].
  - exists (PTerm first). repeat split. vm_compute. discriminate.
  - set (l := x :: rest) in *.
    assert (Hl : (0 < List.length l)%nat) by (cbn; lia). clearbody l.
    rewrite map_length, int_add_ok by lia. cbn [obind].
    destruct (tree_ok fn (first :: map snd l) (map fst l)) with
      (fuel := S (List.length l)) (lo := 0) (hi := Z.of_nat (List.length l) + -1) (st := map Some (first :: map snd l))
      as (t & st' & E & _ & T & B & D); rewrite ?map_length; cbn [List.length]; rewrite ?map_length; try lia.
    + split; [now rewrite map_length|]. intros i Hi.
      assert (H : nth_error (first :: map snd l) (Z.to_nat i) <> None)
        by (apply nth_error_Some; cbn [List.length]; rewrite map_length; lia).
      split; [|exact H]. destruct (nth_error _ (Z.to_nat i)) as [e|] eqn:Ee; [|congruence].
      rewrite (map_nth_error Some _ _ Ee). reflexivity.
    + rewrite E. cbn [obind fst]. exists t. split; [destruct l; [cbn in Hl; lia|reflexivity]|]. split; [|split; [exact B|]].
      * rewrite T, <- segment_chain. unfold seg. cbn [Z.to_nat skipn]. f_equal. lia.
      * unfold log_depth in D. replace (Z.of_nat (List.length l) + -1 - 0 + 1) with (Z.of_nat (List.length l)) in D by lia.
        exact D.
Qed.
Print Assumptions C33_tree.
Example C33_tree_ex : exists t, balance_chain false "_||_" (EIdent "a")
    [(1, EIdent "b"); (2, EIdent "c"); (3, EIdent "d"); (4, EIdent "e")] = Val t /\
  depth t = 3%nat /\ t = PCall 3 "_||_" [PCall 2 "_||_" [PCall 1 "_||_" [PTerm (EIdent "a"); PTerm (EIdent "b")];
                                                           PTerm (EIdent "c")];
                                          PCall 4 "_||_" [PTerm (EIdent "d"); PTerm (EIdent "e")]].
Proof. eexists. split; [vm_compute; reflexivity|]. split; reflexivity. Qed.

(* ---- evaluation ---- *)
(* The values the logical operators are meant for. *)
Definition operand_ok (unk : bool) (v : value) : Prop :=
  match v with
  | VBool _ | VError _ => True
  | VUnknown s => unk = true /\ set_ok s
  | _ => False
  end.
Definition operand_outcome (C : config) (o : out vt) : Prop :=
  match o with Val v => operand_ok (unk C) (fst v) | _ => True end.

Lemma union_id s : set_ok s -> set_add_all [] s = s.
Proof.
  intros Hs. destruct (set_add_all_in s [] set_ok_nil (proj2 Hs)) as [O I]. apply set_ext; auto.
  intros x. rewrite I. cbn. tauto.
Qed.
Lemma union_ok s t : set_ok s -> set_ok t -> set_ok (set_add_all s t).
Proof. intros Hs Ht. apply set_add_all_in; auto. apply Ht. Qed.
Lemma union_assoc a b c : set_ok a -> set_ok b -> set_ok c ->
  set_add_all (set_add_all a b) c = set_add_all a (set_add_all b c).
Proof.
  intros Ha Hb Hc. pose proof (union_ok a b Ha Hb) as Hab. pose proof (union_ok b c Hb Hc) as Hbc.
  destruct (set_add_all_in c _ Hab (proj2 Hc)) as [O1 I1]. destruct (set_add_all_in _ _ Ha (proj2 Hbc)) as [O2 I2].
  destruct (set_add_all_in b a Ha (proj2 Hb)) as [_ I3]. destruct (set_add_all_in c b Hb (proj2 Hc)) as [_ I4].
  apply set_ext; auto. intros x. rewrite I1, I2, I3, I4. tauto.
Qed.
Inductive operand_form (unk : bool) : value -> Prop :=
| of_bool b : operand_form unk (VBool b)
| of_error e : operand_form unk (VError e)
| of_unknown s : unk = true -> set_ok s -> operand_form unk (VUnknown s).
Lemma operand_cases unk v : operand_ok unk v -> operand_form unk v.
Proof. destruct v; cbn; intros H; try contradiction; try constructor; apply H. Qed.
Lemma calculate_assoc unk op a b c : operand_ok unk a -> operand_ok unk b -> operand_ok unk c ->
  operand_ok unk (Calculate unk op a b) /\
  Calculate unk op (Calculate unk op a b) c = Calculate unk op a (Calculate unk op b c).
Proof.
  intros Ha Hb Hc. apply operand_cases in Ha, Hb, Hc. pose proof union_ok as UO.
  destruct Ha as [[]|ea|sa Ua Ha], Hb as [[]|eb|sb Ub Hb], Hc as [[]|ec|sc Uc Hc], op.
  all: destruct unk; try discriminate; cbn; repeat (rewrite union_id by auto);
    try (rewrite union_assoc by auto); auto.
Qed.
Lemma calculate_decides unk op a b : operand_ok unk a -> operand_ok unk b ->
  decides op (Calculate unk op a b) = decides op a || decides op b.
Proof.
  intros Ha Hb. apply operand_cases in Ha, Hb.
  destruct Ha as [[]|ea|sa Ua Ha], Hb as [[]|eb|sb Ub Hb], op, unk; try discriminate; reflexivity.
Qed.
Lemma decided_calculate unk op a b : decides op a = true -> Calculate unk op a b = a.
Proof. destruct a as [|[]| | | | | | | | | | | | |], op; cbn; try discriminate; reflexivity. Qed.

Lemma logic_domain C op a b : operand_outcome C a -> operand_outcome C b -> operand_outcome C (logic_outcome C op a b).
Proof.
  intros Ha Hb. unfold logic_outcome. destruct a as [x|e|]; cbn; auto.
  destruct (_ && _); cbn; auto. destruct b as [y|e|]; cbn; auto.
  exact (proj1 (calculate_assoc _ op (fst x) (fst y) (VBool true) Ha Hb I)).
Qed.
Lemma logic_assoc C op a b c : operand_outcome C a -> operand_outcome C b -> operand_outcome C c ->
  logic_outcome C op (logic_outcome C op a b) c = logic_outcome C op a (logic_outcome C op b c).
Proof.
  intros Ha Hb Hc. unfold logic_outcome. destruct a as [x|e|]; cbn; auto.
  destruct (sc C && decides op (fst x)) eqn:Dx; cbn; [now rewrite Dx|].
  destruct b as [y|e|]; cbn; auto. cbn in Ha, Hb.
  rewrite calculate_decides, andb_orb_distrib_r, Dx by assumption. cbn.
  destruct (sc C && decides op (fst y)) eqn:Dy; cbn; [reflexivity|].
  destruct c as [z|e|]; cbn; auto. cbn in Hc. do 2 f_equal. apply calculate_assoc; assumption.
Qed.
Lemma fold_domain C op l : forall a, operand_outcome C a -> Forall (operand_outcome C) l ->
  operand_outcome C (fold_left (logic_outcome C op) l a).
Proof.
  induction l as [|c l IH]; intros a Ha Hl; [exact Ha|]. apply Forall_cons_iff in Hl as [Hc Hl].
  cbn [fold_left]. apply IH; auto. now apply logic_domain.
Qed.
Lemma logic_fold C op l : forall a b, operand_outcome C a -> operand_outcome C b -> Forall (operand_outcome C) l ->
  fold_left (logic_outcome C op) l (logic_outcome C op a b) =
  logic_outcome C op a (fold_left (logic_outcome C op) l b).
Proof.
  induction l as [|c l IH]; intros a b Ha Hb Hl; [reflexivity|]. apply Forall_cons_iff in Hl as [Hc Hl].
  cbn [fold_left]. rewrite logic_assoc by assumption. apply IH; auto. now apply logic_domain.
Qed.
Definition operands (l : list (expr + Z)) : list expr :=
  flat_map (fun x => match x with inl e => [e] | inr _ => [] end) l.
Definition logic_name (fn : string) (op : op_type) : Prop := fn = op_name op.
Lemma logic_call C R op a l rho : meaning C R (ECall (op_name op) None (a :: l)) rho =
  fold_left (logic_outcome C op) (map (fun e => meaning C R e rho) l) (meaning C R a rho).
Proof. destruct op; reflexivity. Qed.
Lemma binary_ind fn (Q : pexpr -> Prop) : (forall e, Q (PTerm e)) ->
  (forall id a b, Q a -> Q b -> Q (PCall id fn [a; b])) -> forall t, binary fn t -> Q t.
Proof.
  intros Ht Hc. fix IH 1. intros [e|id f [|a [|b [|]]]] H; [apply Ht|..]; try contradiction H.
  destruct H as (-> & Ha & Hb). apply Hc; apply IH; assumption.
Qed.
Lemma tokens_call id fn a b : tokens (PCall id fn [a; b]) = tokens a ++ inr id :: tokens b.
Proof. cbn. now rewrite app_nil_r. Qed.
Lemma operands_app l l' : operands (l ++ l') = operands l ++ operands l'.
Proof. apply flat_map_app. Qed.
Lemma tree_meaning C R op rho t : binary (op_name op) t ->
  Forall (fun e => operand_outcome C (meaning C R e rho)) (operands (tokens t)) ->
  exists a l, operands (tokens t) = a :: l /\
    operand_outcome C (meaning C R (erase t) rho) /\
    meaning C R (erase t) rho =
    fold_left (logic_outcome C op) (map (fun e => meaning C R e rho) l) (meaning C R a rho).
Proof.
  intros Hb. pattern t. revert t Hb. apply (binary_ind (op_name op)).
  - intros e H. apply Forall_cons_iff in H as [H _]. exists e, []. auto.
  - intros id ta tb IHa IHb H. rewrite tokens_call, operands_app in *. cbn [operands flat_map app] in *.
    fold (operands (tokens tb)) in *. apply Forall_app in H as [Ha Hb].
    destruct (IHa Ha) as (a & la & Ea & Da & Ma). destruct (IHb Hb) as (b & lb & Eb & Db & Mb).
    exists a, (la ++ b :: lb). split; [now rewrite Ea, Eb|].
    cbn [erase map]. rewrite logic_call. cbn [map fold_left]. rewrite Mb, Ma.
    rewrite Eb in Hb. apply Forall_cons_iff in Hb as [Hb Hlb].
    assert (Hl : Forall (operand_outcome C) (map (fun e => meaning C R e rho) lb)).
    { apply Forall_map. exact Hlb. }
    split.
    + rewrite <- Ma, <- Mb. now apply logic_domain.
    + rewrite map_app, fold_left_app. cbn [map fold_left]. rewrite <- Ma. symmetry. apply logic_fold; auto.
Qed.
Lemma chain_operands first rest : operands (chain_tokens first rest) = first :: map snd rest.
Proof.
  unfold chain_tokens, operands. cbn [flat_map app]. f_equal.
  induction rest as [|x rest IH]; [reflexivity|]. cbn [flat_map app map]. now rewrite IH.
Qed.
Lemma left_chain_meaning C R op rho rest : forall first,
  meaning C R (left_chain (op_name op) first rest) rho =
  fold_left (logic_outcome C op) (map (fun e => meaning C R e rho) (map snd rest)) (meaning C R first rho).
Proof.
  unfold left_chain. induction rest as [|x rest IH]; intros first; [reflexivity|].
  cbn [fold_left map]. rewrite IH, logic_call. reflexivity.
Qed.

(* Balanced, variadic and left-nested forms evaluate alike, whenever the operands
   evaluate to booleans, errors and unknowns, or fail outright. *)
Theorem C33_evaluation : forall C R op rho variadic first rest, Z.of_nat (List.length rest) <= 2 ^ 30 ->
  Forall (fun e => operand_outcome C (meaning C R e rho)) (first :: map snd rest) ->
  exists t, balance_chain variadic (op_name op) first rest = Val t /\
    meaning C R (erase t) rho = meaning C R (left_chain (op_name op) first rest) rho.
Proof.
  intros C R op rho variadic first rest Hn H. rewrite left_chain_meaning. destruct variadic.
  - unfold balance_chain. rewrite chain_state. cbn [fst snd app]. destruct rest as [|x rest].
    + exists (PTerm first). auto.
    + cbn [map Balance op_at]. eexists. split; [reflexivity|]. cbn [erase].
      rewrite map_map. cbn [map erase]. rewrite logic_call. cbn [map].
      repeat f_equal. rewrite map_map. reflexivity.
  - destruct (C33_tree (op_name op) first rest Hn) as (t & E & Et & Bt & _). exists t. split; [exact E|].
    destruct (tree_meaning C R op rho t Bt) as (a & l & El & _ & M).
    + rewrite Et, chain_operands. exact H.
    + rewrite Et, chain_operands in El. injection El as <- <-. exact M.
Qed.
Print Assumptions C33_evaluation.
(* The variadic form: one call with the operands in order and the first
   operator's id. *)
Theorem C33_variadic : forall fn first x rest,
  balance_chain true fn first (x :: rest) = Val (PCall (fst x) fn (map PTerm (first :: snd x :: map snd rest))).
Proof.
  intros fn first x rest. unfold balance_chain. rewrite chain_state. reflexivity.
Qed.
Print Assumptions C33_variadic.

(* ---- operands of any type ---- *)
(* The same, except perhaps for which error it is. *)
Definition same_but_error (a b : out vt) : Prop :=
  a = b \/ exists e e' t, a = Val (VError e, t) /\ b = Val (VError e', t).
Definition unknowns_ok (o : out vt) : Prop := match o with Val (VUnknown s, _) => set_ok s | _ => True end.
Section Any.
  Variable C : config.
  Notation unk := (M_Expr.unk C).
  Variable e0 : status.
  Definition as_operand (v : value) : value :=
    match v with
    | VBool _ => v
    | VUnknown _ => if unk then v else VError e0
    | _ => VError e0
    end.
  Definition as_outcome (o : out vt) : out vt := x <- o ;; Val (as_operand (fst x), snd x).
  Lemma calculate_as op a b :
    as_operand (Calculate unk op a b) = as_operand (Calculate unk op (as_operand a) (as_operand b)).
  Proof.
    unfold as_operand.
    destruct a as [|[]| | | | | | | | | | | | |sa], b as [|[]| | | | | | | | | | | | |sb], op;
      destruct unk eqn:U; cbn; rewrite ?U; reflexivity.
  Qed.
  Lemma decides_as op a : decides op (as_operand a) = decides op a.
  Proof. unfold as_operand. destruct a as [|[]| | | | | | | | | | | | |sa], op, unk; reflexivity. Qed.
  Lemma logic_as op a b :
    as_outcome (logic_outcome C op a b) = as_outcome (logic_outcome C op (as_outcome a) (as_outcome b)).
  Proof.
    unfold logic_outcome, as_outcome. destruct a as [x|e|]; cbn [obind fst snd]; auto. rewrite decides_as.
    destruct (_ && _); cbn [obind fst snd].
    - do 2 f_equal. unfold as_operand. destruct (fst x), unk eqn:U; rewrite ?U; reflexivity.
    - destruct b as [y|e|]; cbn [obind fst snd]; auto. do 2 f_equal. apply calculate_as.
  Qed.
  Lemma as_idem a : as_outcome (as_outcome a) = as_outcome a.
  Proof.
    unfold as_outcome, as_operand. destruct a as [[x t]|e|]; cbn [obind fst snd]; auto.
    destruct x, unk eqn:U; rewrite ?U; reflexivity.
  Qed.
  Lemma fold_as op l : forall a,
    as_outcome (fold_left (logic_outcome C op) l a) =
    as_outcome (fold_left (logic_outcome C op) (map as_outcome l) (as_outcome a)).
  Proof.
    assert (G : forall l a b, as_outcome a = as_outcome b ->
      as_outcome (fold_left (logic_outcome C op) l a) =
      as_outcome (fold_left (logic_outcome C op) (map as_outcome l) b)).
    { clear l. induction l as [|c l IH]; intros a b H; [exact H|]. cbn [fold_left map]. apply IH.
      rewrite (logic_as op a), (logic_as op b), H, as_idem. reflexivity. }
    intros a. apply G. symmetry. apply as_idem.
  Qed.
  Lemma as_domain o : unknowns_ok o -> operand_outcome C (as_outcome o).
  Proof.
    destruct o as [[v t]|e|]; cbn; auto. unfold as_operand. destruct v, unk eqn:U; cbn; auto.
  Qed.
  (* a result of the operators *)
  Definition is_result (o : out vt) : Prop :=
    match o with Val (VBool _, _) | Val (VError _, _) => True | Val (VUnknown _, _) => unk = true | Val _ => False | _ => True end.
  Lemma logic_result op a b : is_result (logic_outcome C op a b).
  Proof.
    unfold logic_outcome. destruct a as [[x t]|e|]; cbn [obind fst]; [|exact I|exact I].
    destruct (_ && decides op x) eqn:D.
    - destruct x as [|[]| | | | | | | | | | | | |]; cbn; try exact I; rewrite ?andb_false_r in D; destruct op; rewrite ?andb_false_r in D; discriminate.
    - destruct b as [[y u]|e|]; cbn [obind fst]; [|exact I|exact I].
      destruct x as [|[]| | | | | | | | | | | | |sa], y as [|[]| | | | | | | | | | | | |sb], op;
        cbn; destruct unk eqn:U; cbn; try exact I; auto.
  Qed.
  Lemma as_same a b : is_result a -> is_result b -> as_outcome a = as_outcome b -> same_but_error a b.
  Proof.
    unfold as_outcome, as_operand, same_but_error.
    destruct a as [[v t]|e|], b as [[w u]|e'|]; cbn [obind fst snd]; try discriminate;
      try (intros _ _ H; left; congruence).
    intros Ha Hb. destruct v; cbn in Ha; try contradiction; destruct w; cbn in Hb; try contradiction.
    all: rewrite ?Ha, ?Hb; intros H; try discriminate; injection H; intros; subst; eauto 8.
  Qed.
End Any.

Lemma tree_any C R op rho e0 t : binary (op_name op) t ->
  Forall (fun e => unknowns_ok (meaning C R e rho)) (operands (tokens t)) ->
  exists a l, operands (tokens t) = a :: l /\
    operand_outcome C (as_outcome C e0 (meaning C R (erase t) rho)) /\
    as_outcome C e0 (meaning C R (erase t) rho) =
    as_outcome C e0 (fold_left (logic_outcome C op) (map (fun e => as_outcome C e0 (meaning C R e rho)) l)
                    (as_outcome C e0 (meaning C R a rho))).
Proof.
  intros Hb. pattern t. revert t Hb. apply (binary_ind (op_name op)).
  - intros e H. apply Forall_cons_iff in H as [H _]. exists e, []. split; [reflexivity|].
    split; [now apply as_domain|]. cbn. symmetry. apply as_idem.
  - intros id ta tb IHa IHb H. rewrite tokens_call, operands_app in *. cbn [operands flat_map app] in *.
    fold (operands (tokens tb)) in *. apply Forall_app in H as [Ha Hb].
    destruct (IHa Ha) as (a & la & Ea & Da & Ma). destruct (IHb Hb) as (b & lb & Eb & Db & Mb).
    exists a, (la ++ b :: lb). split; [now rewrite Ea, Eb|].
    cbn [erase map]. rewrite logic_call. cbn [map fold_left].
    rewrite Eb in Hb. apply Forall_cons_iff in Hb as [Hb Hlb].
    set (A := as_outcome C e0) in *. set (M := fun e => A (meaning C R e rho)) in *.
    assert (Hl : Forall (operand_outcome C) (map M lb)).
    { apply Forall_map. eapply Forall_impl; [|exact Hlb]. intros e He. now apply as_domain. }
    assert (HMb : operand_outcome C (M b)) by now apply as_domain.
    assert (E : A (logic_outcome C op (meaning C R (erase ta) rho) (meaning C R (erase tb) rho)) =
      A (fold_left (logic_outcome C op) (map M (la ++ b :: lb)) (M a))).
    { rewrite map_app, fold_left_app. cbn [map fold_left].
      etransitivity; [apply (logic_as C e0)|]. change (as_outcome C e0) with A. rewrite Ma, Mb.
      etransitivity; [symmetry; apply (logic_as C e0)|]. change (as_outcome C e0) with A.
      rewrite logic_fold; auto. apply (fold_domain C op (map M la)).
      - rewrite Ea in Ha. apply Forall_cons_iff in Ha as [Ha _]. now apply as_domain.
      - rewrite Ea in Ha. apply Forall_cons_iff in Ha as [_ Ha]. apply Forall_map.
        eapply Forall_impl; [|exact Ha]. intros e He. now apply as_domain. }
    split; [|exact E].
    unfold A at 1. rewrite (logic_as C e0). change (as_outcome C e0) with A.
    pose proof (logic_domain C op _ _ Da Db) as D. revert D.
    generalize (logic_outcome C op (A (meaning C R (erase ta) rho)) (A (meaning C R (erase tb) rho))).
    intros o Ho. apply as_domain. destruct o as [[[]]|e|]; cbn in *; tauto.
Qed.
(* With operands of any type the three forms evaluate alike up to which error
   is reported. *)
Theorem C33_evaluation_any : forall C R op rho variadic first rest, Z.of_nat (List.length rest) <= 2 ^ 30 ->
  Forall (fun e => unknowns_ok (meaning C R e rho)) (first :: map snd rest) ->
  exists t, balance_chain variadic (op_name op) first rest = Val t /\
    same_but_error (meaning C R (erase t) rho) (meaning C R (left_chain (op_name op) first rest) rho).
Proof.
  intros C R op rho variadic first rest Hn H. rewrite left_chain_meaning. destruct variadic.
  - unfold balance_chain. rewrite chain_state. cbn [fst snd app]. destruct rest as [|x rest].
    + exists (PTerm first). split; [reflexivity|]. now left.
    + cbn [map Balance op_at]. eexists. split; [reflexivity|]. left. cbn [erase].
      rewrite map_map. cbn [map erase]. rewrite logic_call. cbn [map].
      repeat f_equal. rewrite map_map. reflexivity.
  - destruct (C33_tree (op_name op) first rest Hn) as (t & E & Et & Bt & _). exists t. split; [exact E|].
    destruct rest as [|x rest].
    { vm_compute in E. injection E as <-. now left. }
    destruct (tree_any C R op rho (mkStatus kInternal "") t Bt) as (a & l & El & _ & M).
    + rewrite Et, chain_operands. exact H.
    + rewrite Et, chain_operands in El. injection El as <- <-.
      eapply as_same; [| |etransitivity; [exact M|]].
      * destruct t as [e|id f [|a [|b [|]]]]; cbn in Bt; try contradiction; [discriminate Et|].
        destruct Bt as (-> & _). cbn [erase map]. rewrite logic_call. apply logic_result.
      * change (map snd (x :: rest)) with (snd x :: map snd rest). cbn [map fold_left].
        generalize (map (fun e => meaning C R e rho) (map snd rest)). intros l.
        generalize (logic_result C op (meaning C R first rho) (meaning C R (snd x) rho)).
        generalize (logic_outcome C op (meaning C R first rho) (meaning C R (snd x) rho)).
        induction l as [|c l IH]; intros o Ho; [exact Ho|]. cbn [fold_left]. apply IH, logic_result.
      * rewrite (fold_as C (mkStatus kInternal "") op (map (fun e => meaning C R e rho) _)), map_map. reflexivity.
Qed.
Print Assumptions C33_evaluation_any.

(* false || false || error || true || unreached *)
Definition ex_chain : list (Z * expr) :=
  [(1, ex_false); (2, EConst (VError ex_div_error)); (3, EConst (VBool true)); (4, EIdent "nope")].
Example C33_evaluation_ex : exists t,
  balance_chain false (op_name OpOr) ex_false ex_chain = Val t /\
  meaning ex_mc [] (erase t) no_locals = meaning ex_mc [] (left_chain (op_name OpOr) ex_false ex_chain) no_locals /\
  meaning ex_mc [] (erase t) no_locals = @Val vt (VBool true, None).
Proof. eexists. split; [vm_compute; reflexivity|]. split; vm_compute; reflexivity. Qed.
(* false || false || 1 || error: which error it is does change *)
Theorem C33_error_choice : exists C R first rest t e e',
  balance_chain false "_||_" first rest = Val t /\ e <> e' /\
  meaning C R (erase t) no_locals = @Val vt (VError e, None) /\
  meaning C R (left_chain "_||_" first rest) no_locals = @Val vt (VError e', None).
Proof.
  exists ex_mc, [], ex_false, [(1, ex_false); (2, ex_int 1); (3, EConst (VError ex_div_error))].
  eexists. do 2 eexists. split; [vm_compute; reflexivity|]. split; [|split; vm_compute; reflexivity].
  discriminate.
Qed.
Print Assumptions C33_error_choice.
