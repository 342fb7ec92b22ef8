(* The count of the check against the ways of building a value. *)
From Coq Require Import ZArith String Ascii List Bool Arith Lia.
From Verif Require Import Base M_Overflow M_Number M_Attr M_Value M_Expr M_Machine S_Eval S_Macro L_Meaning.
From Verif Require Import M_Vulnerable S_Growth L_Growth L_Growth2.
Import ListNotations.
Open Scope list_scope.
Local Open Scope nat_scope.


Section Copies.
  Variable x : string.

  Lemma sum_le {A} (f : A -> nat) (Q : A -> nat -> Prop) l ns :
    Forall2 Q l ns -> (forall a n, In a l -> Q a n -> n <= f a) -> list_sum ns <= list_sum (map f l).
  Proof.
    induction 1 as [|a n l ns Ha _ IH]; intros H; [apply Nat.le_refl|]. cbn [map list_sum fold_right].
    pose proof (H a n (or_introl eq_refl) Ha). specialize (IH (fun b m Hb => H b m (or_intror Hb))).
    unfold list_sum in IH. lia.
  Qed.
  Lemma go_sum_entries (l : list (bool * (expr * expr))) : (fix go (l : list (bool * (expr * expr))) : nat :=
         match l with [] => 0 | (_, (_, v)) :: l' => refs v x + go l' end) l
         = list_sum (map (fun p => refs (snd (snd p)) x) l).
  Proof. induction l as [|[o [k v]] l IH]; [reflexivity|]. cbn [map list_sum fold_right snd]. now rewrite IH. Qed.

  Lemma copies_le e : forall n, copies x e n -> n <= refs e x.
  Proof.
    induction e as [v|s|a f t IHa|fn t args IHt IHl|l IHl|l IHl|i i2 y r n0 c s b IHr IHn IHc IHs IHb] using expr_ind'; intros n H.
    - inversion H; subst; lia.
    - inversion H; subst; [lia|]. cbn [refs]. rewrite String.eqb_refl. lia.
    - inversion H; subst; [lia|]. cbn [refs]. now apply IHa.
    - rewrite Forall_forall in IHl. inversion H; subst; try lia.
      + cbn [refs String.eqb Ascii.eqb Bool.eqb andb List.length Nat.eqb]. 
        assert (n <= refs a x) by (apply IHl; cbn; auto). lia.
      + cbn [refs String.eqb Ascii.eqb Bool.eqb andb List.length Nat.eqb]. 
        assert (n <= refs b x) by (apply IHl; cbn; auto). lia.
      + cbn [refs String.eqb Ascii.eqb Bool.eqb andb]. rewrite go_sum. eapply sum_le; [eassumption|]. auto.
      + cbn [refs String.eqb Ascii.eqb Bool.eqb andb orb List.length Nat.eqb]. apply IHl; cbn; auto.
      + cbn [refs String.eqb Ascii.eqb Bool.eqb andb orb List.length Nat.eqb]. apply IHl; cbn; auto.
    - rewrite Forall_forall in IHl. inversion H; subst; [lia|]. cbn [refs]. rewrite go_sum_elems, map_map.
      eapply (sum_le (fun p => refs (snd p) x)); [eassumption|]. cbn. intros p m Hp. now apply IHl.
    - rewrite Forall_forall in IHl. inversion H; subst; [lia|]. cbn [refs]. rewrite go_sum_entries.
      eapply (sum_le (fun p => refs (snd (snd p)) x)); [eassumption|]. cbn. intros p m Hp. now apply IHl.
    - inversion H; subst; cbn [refs].
      + lia.
      + match goal with A : copies x r _, B : copies x n0 _ |- _ => apply IHr in A; apply IHn in B end. lia.
      + match goal with A : copies x s _ |- _ => apply IHs in A end.
        assert (E : String.eqb y x = false) by now apply String.eqb_neq. assert (E' : String.eqb i x = false) by now apply String.eqb_neq.
        rewrite E, E'. cbn [negb andb]. lia.
      + match goal with A : copies x b _ |- _ => apply IHb in A end.
        assert (E : String.eqb y x = false) by now apply String.eqb_neq. rewrite E. cbn [negb]. lia.
  Qed.

  Lemma copies_exact e : copies x e (refs e x).
  Proof.
    induction e as [v|s|a f t IHa|fn t args IHt IHl|l IHl|l IHl|i i2 y r n0 c s b IHr IHn IHc IHs IHb] using expr_ind'; cbn [refs].
    - apply copies_none.
    - destruct (String.eqb_spec s x) as [->|_]; [apply copies_var|apply copies_none].
    - destruct t; [apply copies_none|now apply copies_select].
    - destruct (String.eqb_spec fn "_?_:_") as [->|N1]; cbn [andb].
      { destruct (Nat.eqb_spec (List.length args) 3) as [L|L].
        - destruct args as [|c [|a [|b [|]]]]; try discriminate L. inversion IHl as [|? ? _ I1]; subst. inversion I1 as [|? ? Ia I2]; subst. inversion I2 as [|? ? Ib _]; subst.
          destruct (Nat.max_dec (refs a x) (refs b x)) as [-> | ->]; [now apply copies_then|now apply copies_else].
        - cbn. apply copies_none. }
      destruct (String.eqb_spec fn "_+_") as [->|N2].
      { rewrite go_sum. apply copies_add. induction IHl; constructor; auto. }
      destruct (String.eqb_spec fn "_[_]") as [->|N3]; cbn [andb orb].
      { destruct (Nat.eqb_spec (List.length args) 2) as [L|L]; [|cbn; apply copies_none].
        destruct args as [|a [|k [|]]]; try discriminate L. cbn [orb]. inversion IHl; subst. now apply copies_index. }
      destruct (String.eqb_spec fn "dyn") as [->|N4]; cbn [andb]; [|apply copies_none].
      destruct (Nat.eqb_spec (List.length args) 1) as [L|L]; [|apply copies_none].
      destruct args as [|a [|]]; try discriminate L. inversion IHl; subst. now apply copies_dyn.
    - rewrite go_sum_elems, map_map. apply copies_list. induction IHl; constructor; auto.
    - rewrite go_sum_entries. apply copies_map. induction IHl as [|p l Hp _ IH]; constructor; [apply Hp|exact IH].
    - match goal with |- copies x _ (Nat.max ?A (Nat.max ?B ?D)) => set (a := A); set (d := B); set (z := D) end.
      assert (Ha : copies x (EComp i i2 y r n0 c s b) a).
      { subst a. destruct (String.eqb_spec y x) as [->|Ny]; cbn [negb andb]; [apply copies_none|].
        destruct (String.eqb_spec i x) as [->|Ni]; cbn [negb]; [apply copies_none|]. now apply copies_step. }
      assert (Hd : copies x (EComp i i2 y r n0 c s b) d).
      { subst d. destruct (String.eqb_spec y x) as [->|Ny]; cbn [negb]; [apply copies_none|]. now apply copies_result. }
      assert (Hz : copies x (EComp i i2 y r n0 c s b) z).
      { subst z. rewrite Nat.add_comm. now apply copies_start. }
      destruct (Nat.max_dec a (Nat.max d z)) as [-> | ->]; [exact Ha|]. destruct (Nat.max_dec d z) as [-> | ->]; assumption.
  Qed.
End Copies.
