(* What ParseDuration accepts. *)
From Coq Require Import ZArith String List Bool Lia.
From Verif Require Import Base M_Overflow M_Value M_Format S_Time S_Format L_Format.
From Verif Require Import M_Civil M_Convert S_Convert L_Calendar L_Convert.
Import ListNotations.
Open Scope list_scope.
Open Scope Z_scope.

Lemma starts_inv p : forall s r, starts s p = Some r -> s = p ++ r.
Proof.
  induction p as [|c p IH]; intros s r H.
  - destruct s; cbn in H; now injection H as <-.
  - destruct s as [|x s]; [easy|]. cbn in H. destruct (x =? c) eqn:E; [|easy]. apply IH in H as ->. cbn. f_equal. lia.
Qed.
Lemma read_digits_inv s : forall acc count v k r, read_digits s acc count = (v, k, r) ->
  exists t, s = t ++ r /\ forallb is_digit t = true /\ k = (count + length t)%nat.
Proof.
  induction s as [|c s IH]; intros acc count v k r H; cbn in H.
  - injection H as <- <- <-. exists []. split; [easy|]. split; [easy|cbn; lia].
  - destruct (is_digit c) eqn:E.
    + apply IH in H as (t & -> & F & ->). exists (c :: t). cbn. rewrite E. split; [easy|]. split; [easy|lia].
    + injection H as <- <- <-. exists []. split; [easy|]. split; [easy|cbn; lia].
Qed.
Lemma read_fraction_inv s : forall part scale v k r, read_fraction s part scale = (v, k, r) ->
  exists t, s = t ++ r /\ forallb is_digit t = true /\ (t = [] -> k = scale).
Proof.
  induction s as [|c s IH]; intros part scale v k r H; cbn in H.
  - injection H as <- <- <-. now exists [].
  - destruct (is_digit c) eqn:E.
    + assert (exists part' scale', read_fraction s part' scale' = (v, k, r)) as (part' & scale' & H').
      { destruct (scale <=? _); eauto. }
      apply IH in H' as (t & -> & F & _). exists (c :: t). cbn. rewrite E. easy.
    + injection H as <- <- <-. now exists [].
Qed.
Lemma unit_inv s unit r : ConsumeDurationUnit s = Some (unit, r) -> exists u, In (u, unit) units /\ s = u ++ r.
Proof.
  unfold ConsumeDurationUnit. cbn [first_unit].
  destruct (starts s (str "ns")) as [x|] eqn:E1; [intros [= <- <-]; apply starts_inv in E1; exists (text "ns"); cbn; auto 8|].
  destruct (starts s (str "us")) as [x|] eqn:E2; [intros [= <- <-]; apply starts_inv in E2; exists (text "us"); cbn; auto 8|].
  destruct (starts s (str "ms")) as [x|] eqn:E3; [intros [= <- <-]; apply starts_inv in E3; exists (text "ms"); cbn; auto 8|].
  destruct (starts s (str "s")) as [x|] eqn:E4; [intros [= <- <-]; apply starts_inv in E4; exists (text "s"); cbn; auto 8|].
  destruct (starts s (str "m")) as [x|] eqn:E5; [intros [= <- <-]; apply starts_inv in E5; exists (text "m"); cbn; auto 8|].
  destruct (starts s (str "h")) as [x|] eqn:E6; [intros [= <- <-]; apply starts_inv in E6; exists (text "h"); cbn; auto 8|easy].
Qed.
Lemma number_unit_inv s i f k s1 unit r : ConsumeDurationNumber s = Some (i, f, k, s1) -> ConsumeDurationUnit s1 = Some (unit, r) ->
  exists t, s = t ++ r /\ term_shape t.
Proof.
  intros H U. apply unit_inv in U as (u & Hu & ->). unfold ConsumeDurationNumber in H.
  destruct (read_digits s 0 0) as [[v c] s0] eqn:E. apply read_digits_inv in E as (is & -> & Fi & ->).
  destruct (_ <? v); [easy|]. destruct (starts s0 (str ".")) as [s2|] eqn:E2.
  - apply starts_inv in E2 as ->. destruct (read_fraction s2 0 1) as [[p q] s3] eqn:E3.
    apply read_fraction_inv in E3 as (fs & -> & Ff & Q).
    destruct (Nat.eqb (0 + length is) 0 && (q =? 1)) eqn:N; [easy|]. injection H as <- <- <- ->.
    exists (is ++ text "." ++ fs ++ u). split; [rewrite <- !app_assoc; reflexivity|].
    exists is, fs, u, unit. do 2 eexists. split; [easy|]. split; [now apply digits_place|]. split; [now apply digits_place|].
    right. split; [|easy]. destruct is; [|now left]. right. intros ->. rewrite Q in N by easy. easy.
  - destruct (Nat.eqb (0 + length is) 0) eqn:N; [easy|]. injection H as <- <- <- ->.
    exists (is ++ u). split; [now rewrite <- app_assoc|].
    exists is, [], u, unit. do 2 eexists. split; [easy|]. split; [now apply digits_place|]. split; [constructor|].
    left. split; [now destruct is|easy].
Qed.
Lemma parse_terms_inv fuel : forall sign s dur d, parse_terms fuel sign s dur = Some d ->
  exists parts, s = concat parts /\ Forall term_shape parts.
Proof.
  induction fuel as [|fuel IH]; intros sign s dur d H.
  - destruct s; [|easy]. now exists [].
  - destruct s as [|c s]; [now exists []|]. cbn [parse_terms] in H.
    destruct (ConsumeDurationNumber (c :: s)) as [[[[i f] k] s1]|] eqn:E1; [|easy].
    destruct (ConsumeDurationUnit s1) as [[unit s2]|] eqn:E2; [|easy].
    destruct (number_unit_inv _ _ _ _ _ _ _ E1 E2) as (t & -> & T).
    apply IH in H as (parts & -> & F). exists (t :: parts). split; [easy|]. now constructor.
Qed.
Theorem ParseDuration_shape s ns : ParseDuration s = Some (DFin ns) -> duration_shape s.
Proof.
  unfold ParseDuration.
  assert (G : forall sg s1 r, (if bytes_eqb s1 [] then None
     else if bytes_eqb s1 (str "0") then Some (DFin 0)
     else if bytes_eqb s1 (str "inf") then Some (DInf (sg =? -1))
     else parse_terms (length s1) sg s1 (DFin 0)) = Some (DFin r) ->
     s1 = text "0" \/ exists parts, s1 = concat parts /\ parts <> [] /\ Forall term_shape parts).
  { intros sg s1 r H. destruct (bytes_eqb s1 []) eqn:E0; [easy|].
    destruct (bytes_eqb s1 (str "0")) eqn:E1.
    { left. unfold bytes_eqb in E1. destruct (bytes_cmp s1 _) eqn:X; try easy. now apply bytes_cmp_eq in X. }
    destruct (bytes_eqb s1 (str "inf")); [easy|]. apply parse_terms_inv in H as (parts & -> & F).
    right. exists parts. split; [easy|]. split; [now intros ->|easy]. }
  destruct (starts s (str "-")) as [r1|] eqn:E1.
  { intros H. apply starts_inv in E1 as ->. exists (text "-").
    destruct (G _ _ _ H) as [->|(parts & -> & N & F)]; [exists []; cbn; auto|exists parts; split; [cbn; auto|right; auto]]. }
  destruct (starts s (str "+")) as [r1|] eqn:E2.
  { intros H. apply starts_inv in E2 as ->. exists (text "+").
    destruct (G _ _ _ H) as [->|(parts & -> & N & F)]; [exists []; cbn; auto|exists parts; split; [cbn; auto|right; auto]]. }
  intros H. exists [].
  destruct (G _ _ _ H) as [->|(parts & -> & N & F)]; [exists []; cbn; auto|exists parts; split; [cbn; auto|right; auto]].
Qed.
