(* Lemmas about the text of types. *)
From Coq Require Import String Ascii List Bool Arith Lia.
From Verif Require Import M_TypeName S_TypeName.
Import ListNotations.
Open Scope string_scope.
Open Scope list_scope.

Section Ind.
Variable P : Type_ -> Prop.
Hypothesis basic : forall t, (forall e, t <> TList e) -> (forall k v, t <> TMap k v) -> (forall n ps, t <> TOpaque n ps) -> (forall p, t <> TType (Some p)) -> P t.
Hypothesis plist : forall e, P e -> P (TList e).
Hypothesis pmap : forall k v, P k -> P v -> P (TMap k v).
Hypothesis popaque : forall n ps, Forall P ps -> P (TOpaque n ps).
Hypothesis ptype : forall p, P p -> P (TType (Some p)).
Fixpoint type_ind' (t : Type_) : P t.
Proof.
  destruct t as [| | | | | | | | |x| | |e|k v| |n ps| | |x| |p|x| | | | |x y]; try (apply basic; congruence).
  - apply plist, type_ind'.
  - apply pmap; apply type_ind'.
  - apply popaque. induction ps as [|p ps IH]; constructor; [apply type_ind'|exact IH].
  - destruct p as [p|]; [apply ptype, type_ind'|apply basic; congruence].
Qed.
End Ind.

Lemma sapp_assoc a b c : ((a ++ b) ++ c = a ++ b ++ c)%string.
Proof. induction a as [|x a IH]; [reflexivity|]. cbn. now rewrite IH. Qed.
Lemma sapp_nil a : (a ++ "" = a)%string.
Proof. induction a as [|x a IH]; [reflexivity|]. cbn. now rewrite IH. Qed.

(* written, with the text that follows *)
Fixpoint rest (ps : list term) : string :=
  match ps with [] => ")" | p :: ps => ", " ++ written p ++ rest ps end%string.
Lemma written_rest n p ps : written (Term n (p :: ps)) = (n ++ "(" ++ written p ++ rest ps)%string.
Proof.
  cbn [written]. f_equal. f_equal. cbn [map]. revert p. induction ps as [|q ps IH]; intros p; cbn [map]; [reflexivity|].
  cbn [rest]. rewrite <- IH. cbn [map String.concat]. rewrite !sapp_assoc. reflexivity.
Qed.

Definition printed (t : Type_) : Prop := exists n, forall m st out, format_loop (n + m) (mkRecord t 0 :: st) out = format_loop m st (out ++ written (reads t)).
Lemma opaque_rest name ps : Forall printed ps -> forall done left, ps = done ++ left -> done <> [] ->
  exists n, forall m st out, format_loop (n + m) (mkRecord (TOpaque name ps) (List.length done) :: st) out = format_loop m st (out ++ rest (map reads left)).
Proof.
  intros hp done left. revert done. induction left as [|p left IH]; intros done e nd.
  - exists 1. intros m st out. cbn [format_loop Nat.add FormatImpl rec_type rec_offset].
    assert (z : Nat.eqb (List.length done) 0 = false) by (destruct done; [congruence|reflexivity]). rewrite z.
    rewrite e, app_nil_r. rewrite (proj2 (nth_error_None done (List.length done))) by lia. reflexivity.
  - destruct (IH (done ++ [p])) as [n2 h2]; [rewrite <- app_assoc; exact e|destruct done; discriminate|].
    assert (ip : In p ps) by (rewrite e; apply in_elt). rewrite Forall_forall in hp. destruct (hp p ip) as [n1 h1].
    exists (S (n1 + n2)). intros m st out. cbn [format_loop Nat.add FormatImpl rec_type rec_offset].
    assert (z : Nat.eqb (List.length done) 0 = false) by (destruct done; [congruence|reflexivity]). rewrite z.
    assert (nt : nth_error ps (List.length done) = Some p).
    { rewrite e, nth_error_app2, Nat.sub_diag by lia. reflexivity. }
    rewrite nt. unfold push. rewrite <- Nat.add_assoc, h1. rewrite app_length in h2. cbn [List.length] in h2. rewrite h2.
    cbn [map rest]. rewrite !sapp_assoc. reflexivity.
Qed.
Lemma all_printed t : printed t.
Proof.
  induction t as [t n1 n2 n3 n4|e [n h]|k v [n1 h1] [n2 h2]|name ps hp|p [n h]] using type_ind'.
  - exists 1. intros m st out. destruct t; cbn [format_loop Nat.add FormatImpl rec_type rec_offset reads written word];
      try reflexivity; try (destruct (n1 t eq_refl)); try (destruct (n2 t1 t2 eq_refl)); try (destruct (n3 name parameters eq_refl)).
    destruct parameter as [p|]; [destruct (n4 p eq_refl)|reflexivity].
  - exists (S (n + 1)). intros m st out. cbn [format_loop Nat.add FormatImpl rec_type rec_offset Nat.eqb]. unfold push.
    rewrite <- Nat.add_assoc, h. cbn [Nat.add format_loop FormatImpl rec_type rec_offset Nat.eqb]. cbn [reads].
    rewrite written_rest. cbn [rest]. rewrite !sapp_assoc. reflexivity.
  - exists (S (n1 + S (n2 + 1))). intros m st out. cbn [format_loop Nat.add FormatImpl rec_type rec_offset Nat.eqb]. unfold push.
    rewrite <- Nat.add_assoc, h1. cbn [format_loop Nat.add FormatImpl rec_type rec_offset Nat.eqb]. unfold push.
    rewrite <- Nat.add_assoc, h2. cbn [format_loop Nat.add FormatImpl rec_type rec_offset Nat.eqb].
    cbn [reads]. rewrite written_rest. cbn [rest]. rewrite !sapp_assoc. reflexivity.
  - destruct ps as [|p ps].
    + exists 1. reflexivity.
    + destruct (opaque_rest name (p :: ps) hp [p] ps eq_refl ltac:(discriminate)) as [n2 h2].
      inversion hp as [|? ? [n1 h1] _]; subst.
      exists (S (n1 + n2)). intros m st out. cbn [format_loop Nat.add FormatImpl rec_type rec_offset Nat.eqb]. unfold push.
      rewrite <- Nat.add_assoc, h1. cbn [List.length] in h2. rewrite h2. cbn [reads map]. rewrite written_rest. rewrite !sapp_assoc. reflexivity.
  - exists (S (n + 1)). intros m st out. cbn [format_loop Nat.add FormatImpl rec_type rec_offset Nat.eqb]. unfold push.
    rewrite <- Nat.add_assoc, h. cbn [Nat.add format_loop FormatImpl rec_type rec_offset Nat.eqb]. cbn [reads].
    rewrite written_rest. cbn [rest]. rewrite !sapp_assoc. reflexivity.
Qed.
Lemma loop_more n m st out s : format_loop n st out = Some s -> format_loop (n + m) st out = Some s.
Proof.
  revert st out. induction n as [|n IH]; intros [|r st] out; cbn [format_loop Nat.add]; try discriminate.
  - destruct m; auto.
  - auto.
  - destruct (FormatImpl _ _ _ _). apply IH.
Qed.

(** ** Reading terms *)
Inductive wf : term -> Prop := wf_term n ps : plain n -> Forall wf ps -> wf (Term n ps).
Definition starts (s : string) (cs : list ascii) : Prop := match s with "" => True | String c _ => In c cs end.
Lemma head_split n n' u u' : plain n -> plain n' -> starts u ["("; ")"; ","]%char -> starts u' ["("; ")"; ","]%char ->
  (n ++ u = n' ++ u')%string -> n = n' /\ u = u'.
Proof.
  assert (br : forall c, In c ["("; ")"; ","]%char -> bracket c = true) by (intros c [<-|[<-|[<-|[]]]]; reflexivity).
  revert n'. induction n as [|c n IH]; intros [|c' n'] p p' s s' e; cbn in e.
  - auto.
  - subst u. cbn in s. discriminate (eq_trans (eq_sym (p' c' (or_introl eq_refl))) (br c' s)).
  - subst u'. cbn in s'. discriminate (eq_trans (eq_sym (p c (or_introl eq_refl))) (br c s')).
  - injection e as -> e. destruct (IH n') as [-> ->]; auto; intros x ix; [apply p|apply p']; right; exact ix.
Qed.
Fixpoint size (t : term) : nat := match t with Term _ ps => S (fold_right (fun p k => size p + k) 0 ps) end.
Lemma read_back k : forall t t' u u', size t <= k -> wf t -> wf t' -> starts u [")"; ","]%char -> starts u' [")"; ","]%char ->
  (written t ++ u = written t' ++ u')%string -> t = t' /\ u = u'.
Proof.
  induction k as [|k IH]; intros [n ps] [n' ps'] u u' sz w w' s s' e; [cbn in sz; lia|].
  inversion w as [? ? pn wps]; inversion w' as [? ? pn' wps']; subst.
  assert (st : forall x, starts x [")"; ","]%char -> starts x ["("; ")"; ","]%char) by (intros [|c x]; cbn; intuition).
  destruct ps as [|p ps], ps' as [|p' ps']; try rewrite !written_rest in e; rewrite ?sapp_assoc in e; cbn [written] in e.
  - apply head_split in e as [-> ->]; auto.
  - apply head_split in e as [_ ->]; auto; [|cbn; auto]. cbn in s. destruct s as [s|[s|[]]]; discriminate.
  - apply head_split in e as [_ <-]; auto; [|cbn; auto]. cbn in s'. destruct s' as [s'|[s'|[]]]; discriminate.
  - apply head_split in e as [-> e]; [|exact pn|exact pn'|cbn; auto|cbn; auto].
    cbn [String.append] in e. injection e as e. cbn in sz.
    assert (rs : forall l x, starts (rest l ++ x) [")"; ","]%char) by (intros [|? ?] x; cbn; auto).
    inversion wps as [|? ? wp wr]; inversion wps' as [|? ? wp' wr']; subst.
    apply IH in e as [-> e]; [|lia|exact wp|exact wp'|apply rs|apply rs].
    assert (sz' : fold_right (fun p k => size p + k) 0 ps <= k) by lia.
    assert (g : ps = ps' /\ u = u').
    { clear sz wps wps' w w' wp wp'. revert ps' wr' e. induction ps as [|q ps IHl]; intros [|q' ps'] wr' e; cbn [rest] in e; rewrite ?sapp_assoc in e; cbn [String.append] in e.
      - injection e as e. auto.
      - discriminate.
      - discriminate.
      - injection e as e. inversion wr as [|? ? wq wr2]; inversion wr' as [|? ? wq' wr2']; subst. cbn in sz'.
        apply IH in e as [-> e]; [|lia|exact wq|exact wq'|apply rs|apply rs].
        destruct (IHl wr2 ltac:(lia) ps' wr2' e) as [-> ->]. auto. }
    destruct g as [-> ->]. auto.
Qed.
