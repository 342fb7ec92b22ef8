(* Whole programs that use strings. *)
From Coq Require Import List Bool ZArith Arith Lia Permutation.
From Verif Require Import Base.
From Verif Require Import M_ByteString S_ByteString L_ByteString L_ByteString2.
Import ListNotations.
Open Scope list_scope.
Open Scope bs_scope.

Definition obj_rel (h : heap) (o : option obj) (t : option thing) : Prop :=
  match o, t with
  | None, None => True
  | Some (Str r), Some (AString (Some (s, d))) => rep_is h r s d
  | Some (Str _), Some (AString None) => True
  | Some (Crd c), Some (ACord s) => cord_is h c s
  | _, _ => False
  end.
Definition Inv (h : heap) (vs : vars) (w : world) : Prop :=
  heap_ok h (vars_refs vs) /\ Forall2 (obj_rel h) vs (things w) /\ dead h = gone w.

Lemma obj_rel_le h h' o t : heap_le h h' -> obj_rel h o t -> obj_rel h' o t.
Proof.
  intros L. destruct o as [[r|c]|], t as [[[[s d]|]|s]|]; cbn; auto; [now apply rep_le|now apply cord_le].
Qed.
Lemma F2_nth {A B} (P : A -> B -> Prop) l l' n a : Forall2 P l l' -> nth_error l n = Some a -> exists b, nth_error l' n = Some b /\ P a b.
Proof. intros F. revert n. induction F as [|x y l l' Pxy F IH]; intros [|n]; cbn; try discriminate; [intros [= <-]; eauto|apply IH]. Qed.
Lemma F2_nth' {A B} (P : A -> B -> Prop) l l' n b : Forall2 P l l' -> nth_error l' n = Some b -> exists a, nth_error l n = Some a /\ P a b.
Proof. intros F. revert n. induction F as [|x y l l' Pxy F IH]; intros [|n]; cbn; try discriminate; [intros [= <-]; eauto|apply IH]. Qed.
Lemma F2_set {A B} (P : A -> B -> Prop) l l' n a b : Forall2 P l l' -> P a b -> Forall2 P (set_nth n a l) (set_nth n b l').
Proof. intros F H. revert n. induction F as [|x y l l' Pxy F IH]; intros [|n]; cbn; constructor; auto. Qed.
Lemma F2_impl {A B} (P Q : A -> B -> Prop) l l' : (forall a b, P a b -> Q a b) -> Forall2 P l l' -> Forall2 Q l l'.
Proof. intros I. induction 1; constructor; auto. Qed.

(* the references of one variable, and of two *)
Lemma refs_split vs x old : nth_error vs x = Some old -> exists rest, Permutation (vars_refs vs) (obj_refs old ++ rest) /\
  forall new, Permutation (vars_refs (set_nth x new vs)) (obj_refs new ++ rest).
Proof.
  revert x. induction vs as [|o vs IH]; intros [|x]; cbn [nth_error]; try discriminate.
  - intros [= ->]. exists (vars_refs vs). split; [apply Permutation_refl|]. intros new. apply Permutation_refl.
  - intros N. destruct (IH x N) as (rest & P & S). exists (obj_refs o ++ rest). cbn [vars_refs flat_map set_nth]. fold (vars_refs vs). split.
    + rewrite P. rewrite !app_assoc. apply Permutation_app_tail, Permutation_app_comm.
    + intros new. fold (vars_refs (set_nth x new vs)). rewrite S. rewrite !app_assoc. apply Permutation_app_tail, Permutation_app_comm.
Qed.
Lemma refs_split2 vs x y ox oy : x <> y -> nth_error vs x = Some ox -> nth_error vs y = Some oy ->
  exists rest, Permutation (vars_refs vs) (obj_refs ox ++ obj_refs oy ++ rest) /\
  forall nx ny, Permutation (vars_refs (set_nth x nx (set_nth y ny vs))) (obj_refs nx ++ obj_refs ny ++ rest).
Proof.
  revert x y. induction vs as [|o vs IH]; intros [|x] [|y] D; cbn [nth_error]; try discriminate; try (now destruct D).
  - intros [= ->] N. destruct (refs_split vs y oy N) as (rest & P & S). exists rest. cbn [vars_refs flat_map set_nth]. fold (vars_refs vs). split.
    + now rewrite P.
    + intros nx ny. fold (vars_refs (set_nth y ny vs)). now rewrite S.
  - intros N [= ->]. destruct (refs_split vs x ox N) as (rest & P & S). exists rest. cbn [vars_refs flat_map set_nth]. fold (vars_refs vs). split.
    + rewrite P. rewrite !app_assoc. apply Permutation_app_tail, Permutation_app_comm.
    + intros nx ny. fold (vars_refs (set_nth x nx vs)). rewrite S. rewrite !app_assoc. apply Permutation_app_tail, Permutation_app_comm.
  - intros Nx Ny. destruct (IH x y ltac:(lia) Nx Ny) as (rest & P & S). exists (obj_refs o ++ rest). cbn [vars_refs flat_map set_nth]. fold (vars_refs vs). split.
    + rewrite P. rewrite !app_assoc. apply Permutation_app_tail. rewrite <- app_assoc. apply Permutation_app_comm.
    + intros nx ny. fold (vars_refs (set_nth x nx (set_nth y ny vs))). rewrite S. rewrite !app_assoc. apply Permutation_app_tail. rewrite <- app_assoc. apply Permutation_app_comm.
Qed.
Lemma refs_incl vs x o : nth_error vs x = Some o -> incl (obj_refs o) (vars_refs vs).
Proof. intros N. destruct (refs_split vs x o N) as (rest & P & _). intros b I. eapply Permutation_in; [symmetry; exact P|]. apply in_or_app. now left. Qed.

(* what the world says about a variable *)
Lemma at_string h vs w x s d : Inv h vs w -> string_at w x = Some (s, d) ->
  exists r, nth_error vs x = Some (Some (Str r)) /\ rep_is h r s d /\ incl (rep_refs r) (vars_refs vs) /\ nth_error (things w) x = Some (Some (AString (Some (s, d)))).
Proof.
  intros (_ & F & _) E. unfold string_at, thing_at in E. destruct (nth_error (things w) x) as [t|] eqn:N; [|discriminate].
  destruct t as [[[v|]|]|]; try discriminate. injection E as ->. destruct (F2_nth' _ _ _ _ _ F N) as (o & No & R).
  destruct o as [[r|c]|]; cbn in R; try contradiction. exists r. split; [exact No|]. split; [exact R|]. split; [|reflexivity]. exact (refs_incl vs x _ No).
Qed.
Lemma at_is_string h vs w x : Inv h vs w -> is_string w x = true ->
  exists r v, nth_error vs x = Some (Some (Str r)) /\ nth_error (things w) x = Some (Some (AString v)) /\ thing_at w x = Some (AString v).
Proof.
  intros (_ & F & _) E. unfold is_string, thing_at in *. destruct (nth_error (things w) x) as [t|] eqn:N; [|discriminate].
  destruct t as [[v|]|]; try discriminate. destruct (F2_nth' _ _ _ _ _ F N) as (o & No & R).
  destruct o as [[r|c]|]; cbn in R; try contradiction. exists r, v. auto.
Qed.
Lemma at_cord h vs w x s : Inv h vs w -> thing_at w x = Some (ACord s) ->
  exists c, nth_error vs x = Some (Some (Crd c)) /\ cord_is h c s /\ incl (cord_refs c) (vars_refs vs).
Proof.
  intros (_ & F & _) E. unfold thing_at in E. destruct (nth_error (things w) x) as [t|] eqn:N; [|discriminate]. subst t.
  destruct (F2_nth' _ _ _ _ _ F N) as (o & No & R). destruct o as [[r|c]|]; cbn in R; try contradiction.
  exists c. split; [exact No|]. split; [exact R|]. exact (refs_incl vs x _ No).
Qed.
Lemma at_empty h vs w x : Inv h vs w -> empty_at w x = true -> nth_error vs x = Some None.
Proof.
  intros (_ & F & _) E. unfold empty_at in E. destruct (nth_error (things w) x) as [t|] eqn:N; [|discriminate]. destruct t; [discriminate|].
  destruct (F2_nth' _ _ _ _ _ F N) as (o & No & R). destruct o as [[r|c]|]; cbn in R; try contradiction. exact No.
Qed.
Lemma usable_ok h vs w a : Inv h vs w -> usable w a = true -> arena_ok h a.
Proof.
  intros (_ & _ & E) U. destruct a as [a|]; [|exact Logic.I]. cbn in *. rewrite E. unfold exists_arena in U. rewrite andb_true_r in U. now apply negb_true_iff in U.
Qed.
Lemma exists_ok h vs w a : Inv h vs w -> exists_arena w a = true -> arena_ok h (Some a).
Proof. intros I E. eapply usable_ok; [exact I|]. cbn. now rewrite E. Qed.
Lemma alloc_usable_ok h vs w a : Inv h vs w -> alloc_usable w a = true -> alloc_ok h a.
Proof. intros I U. destruct a as [a|]; [|exact Logic.I]. eapply usable_ok; eassumption. Qed.

(* changing one variable, and two *)
Lemma Inv_set h h' vs w x old new t : Inv h vs w -> heap_le h h' -> nth_error vs x = Some old ->
  (forall rest, Permutation (vars_refs vs) (obj_refs old ++ rest) -> heap_ok h' (obj_refs new ++ rest)) -> obj_rel h' new t ->
  Inv h' (set_nth x new vs) (put w x t).
Proof.
  intros (O & F & D) L N H R. destruct (refs_split vs x old N) as (rest & P & S). split; [|split].
  - eapply heap_ok_perm; [symmetry; apply S|]. now apply H.
  - cbn. apply F2_set; [|exact R]. eapply F2_impl; [|exact F]. intros o u. now apply obj_rel_le.
  - cbn. now rewrite (dead_le _ _ L).
Qed.
Lemma Inv_set2 h h' vs w x y ox oy nx ny tx ty : Inv h vs w -> heap_le h h' -> x <> y -> nth_error vs x = Some ox -> nth_error vs y = Some oy ->
  (forall rest, Permutation (vars_refs vs) (obj_refs ox ++ obj_refs oy ++ rest) -> heap_ok h' (obj_refs nx ++ obj_refs ny ++ rest)) ->
  obj_rel h' nx tx -> obj_rel h' ny ty -> Inv h' (set_nth x nx (set_nth y ny vs)) (put (put w y ty) x tx).
Proof.
  intros (O & F & D) L N Nx Ny H Rx Ry. destruct (refs_split2 vs x y ox oy N Nx Ny) as (rest & P & S). split; [|split].
  - eapply heap_ok_perm; [symmetry; apply S|]. now apply H.
  - cbn. apply F2_set; [|exact Rx]. apply F2_set; [|exact Ry]. eapply F2_impl; [|exact F]. intros o u. now apply obj_rel_le.
  - cbn. now rewrite (dead_le _ _ L).
Qed.
Definition good (w' : world) (out : list (list Z)) (h' : heap) (p : vars * list (list Z)) : Prop := Inv h' (fst p) w' /\ snd p = out.
(* creating a string in an empty variable *)
Lemma made_good h vs w x s d h' r : Inv h vs w -> nth_error vs x = Some None -> made h (vars_refs vs) s d h' r ->
  Inv h' (set_nth x (Some (Str r)) vs) (put w x (new_string s d)).
Proof.
  intros I N (L & O & R). eapply Inv_set; [exact I|exact L|exact N| |exact R].
  intros rest P. cbn in P. eapply heap_ok_perm; [|exact O]. cbn. now apply Permutation_app_head.
Qed.
Lemma create_inv w x t w' out : create w x t = Some (w', out) -> exists t', t = Some t' /\ empty_at w x = true /\ w' = put w x t /\ out = [].
Proof.
  unfold create, when. destruct t as [t|]; [|discriminate]. destruct (empty_at w x) eqn:E; [|discriminate]. intros [= <- <-]. eauto.
Qed.
Lemma when_inv {A} b (o : option A) x : when b o = Some x -> b = true /\ o = Some x.
Proof. destruct b; cbn; [auto|discriminate]. Qed.
Lemma wp_fresh h vs x m (Q : heap -> vars * list (list Z) -> Prop) : nth_error vs x = Some None ->
  wp m h (fun h' o => Q h' (set_nth x (Some o) vs, [])) -> wp (fresh vs x m) h Q.
Proof. intros N W. unfold fresh. rewrite N. apply wp_bind. eapply wp_mono; [exact W|]. intros h' o K. now apply wp_ret. Qed.
Lemma wp_str {A} h vs y r (f : rep -> M A) Q : nth_error vs y = Some (Some (Str r)) -> wp (f r) h Q -> wp (str vs y f) h Q.
Proof. intros N W. unfold str, get. now rewrite N. Qed.
Lemma wp_crd {A} h vs y c (f : cord -> M A) Q : nth_error vs y = Some (Some (Crd c)) -> wp (f c) h Q -> wp (crd vs y f) h Q.
Proof. intros N W. unfold crd, get. now rewrite N. Qed.

Ltac made_it I N := let h' := fresh "h'" in let r := fresh "r'" in let M := fresh "M" in
  intros h' r M; apply wp_ret; split; [eapply made_good; [exact I|exact N|exact M]|reflexivity].
Ltac string_of I E r := let R := fresh "R" in let J := fresh "J" in let T := fresh "T" in let N := fresh "N" in
  destruct (at_string _ _ _ _ _ _ I E) as (r & N & R & J & T).
Ltac created E X := let t := fresh "t" in apply create_inv in E as (t & _ & X & -> & ->).

Theorem exec_ok o h vs w w' out : Inv h vs w -> effect false o w = Some (w', out) -> wp (exec rel o vs) h (good w' out).
Proof.
  intros I E. pose proof I as (O & F & D). destruct o; cbn [effect exec] in *.
  - (* NewView *)
    apply when_inv in E as [U E]. created E X. pose proof (at_empty _ _ _ _ I X) as N. apply wp_fresh; [exact N|].
    apply wp_bind. eapply wp_FromView; [exact O|eapply usable_ok; eassumption|]. made_it I N.
  - (* NewExternal *)
    created E X. pose proof (at_empty _ _ _ _ I X) as N. apply wp_fresh; [exact N|].
    apply wp_bind. eapply wp_FromExternal; [exact O|]. made_it I N.
  - (* NewCord *)
    created E X. pose proof (at_empty _ _ _ _ I X) as N. apply wp_fresh; [exact N|]. apply wp_ret. split; [|reflexivity].
    assert (C : cord_is h (map Copied s) (concat s) /\ cord_refs (map Copied s) = []).
    { clear. induction s as [|a s [IH1 IH2]]; cbn; split; [constructor|reflexivity|now constructor|exact IH2]. }
    eapply Inv_set; [exact I|apply heap_le_refl|exact N| |exact (proj1 C)]. intros rest P. cbn. rewrite (proj2 C). cbn. cbn in P. eapply heap_ok_perm; eassumption.
  - (* NewFromCord *)
    destruct (thing_at w y) as [[v|s]|] eqn:Ty; try discriminate. apply when_inv in E as [U E]. created E X.
    pose proof (at_empty _ _ _ _ I X) as N. apply wp_fresh; [exact N|]. destruct (at_cord _ _ _ _ _ I Ty) as (c & Nc & C & J).
    eapply wp_crd; [exact Nc|]. apply wp_bind. eapply wp_FromCord; [exact O|exact J|exact C|eapply usable_ok; eassumption|]. made_it I N.
  - (* NewBorrowed *)
    destruct (string_at w y) as [[s d]|] eqn:Sy; [|discriminate]. apply when_inv in E as [Le E]. created E X. apply Nat.leb_le in Le.
    pose proof (at_empty _ _ _ _ I X) as N. apply wp_fresh; [exact N|]. string_of I Sy r. eapply wp_str; [eassumption|].
    apply wp_bind. eapply wp_Borrowed; [exact O|eassumption|eassumption|exact Le|]. made_it I N.
  - (* NewCopy *)
    destruct (string_at w y) as [[s d]|] eqn:Sy; [|discriminate]. apply when_inv in E as [U E]. created E X.
    pose proof (at_empty _ _ _ _ I X) as N. apply wp_fresh; [exact N|]. string_of I Sy r. eapply wp_str; [eassumption|].
    apply wp_bind. eapply wp_ConstructCopy; [exact O|eassumption|eassumption|eapply alloc_usable_ok; eassumption|]. made_it I N.
  - (* NewMove *)
    destruct (string_at w y) as [[s d]|] eqn:Sy; [|discriminate]. apply when_inv in E as [U E]. created E X. string_of I Sy r.
    assert (Dxy : x <> y).
    { intros ->. unfold empty_at, put in X. cbn in X. erewrite nth_set_same in X by eassumption. discriminate. }
    assert (X' : empty_at w x = true).
    { unfold empty_at, put in *. cbn in X. rewrite nth_set_other in X by congruence. exact X. }
    pose proof (at_empty _ _ _ _ I X') as N'. rewrite N'. eapply wp_str; [eassumption|]. apply wp_bind.
    destruct (refs_split vs y _ N) as (rest & P & _).
    eapply (wp_ConstructMove h rest); [eapply heap_ok_perm; [exact P|exact O]|eassumption|eapply alloc_usable_ok; eassumption|].
    intros h' p (L & O' & R'). apply wp_ret. split; [|reflexivity]. cbn [fst].
    eapply Inv_set2; [exact I|exact L|exact Dxy|exact N'|exact N| |exact R'|exact Logic.I].
    intros rest' P'. cbn [obj_refs]. cbn [obj_refs] in P, P'. cbn [app] in P'.
    assert (Pr : Permutation rest rest') by (eapply Permutation_app_inv_l; rewrite <- P; exact P').
    eapply heap_ok_perm; [|exact O']. now rewrite Pr.
  - (* Assign *)
    destruct (string_at w y) as [[s d]|] eqn:Sy; [|discriminate]. apply when_inv in E as [S E]. injection E as <- <-.
    replace (match string_at w x with Some (_, _) => d | None => d end) with d by (now destruct (string_at w x) as [[? ?]|]).
    string_of I Sy r. destruct (at_is_string _ _ _ _ I S) as (t & v & Nt & _ & _).
    eapply wp_str; [exact Nt|]. eapply wp_str; [exact N|]. destruct (Nat.eqb_spec x y) as [->|Dxy].
    + apply wp_ret. split; [|reflexivity]. cbn [fst].
      assert (Self : forall A n (l : list A) z, nth_error l n = Some z -> set_nth n z l = l).
      { intros A n l z. revert n. induction l as [|q l IH]; intros [|n]; cbn; intros Hn; try discriminate; [congruence|]. now rewrite IH. }
      unfold put, new_string. rewrite Self by exact T. destruct w. exact I.
    + apply wp_bind. destruct (refs_split vs x _ Nt) as (rest & P & _).
      eapply (wp_CopyFrom h rest); [eapply heap_ok_perm; [exact P|exact O]| |eassumption|].
      { destruct (refs_split2 vs x y _ _ Dxy Nt N) as (rest2 & P2 & _). cbn [obj_refs] in P, P2. intros b Hb.
        assert (Pr : Permutation rest (rep_refs r ++ rest2)) by (eapply Permutation_app_inv_l; rewrite <- P; exact P2).
        eapply Permutation_in; [symmetry; exact Pr|]. apply in_or_app. now left. }
      intros h' r' (L & O' & R'). apply wp_ret. split; [|reflexivity]. cbn [fst].
      eapply Inv_set; [exact I|exact L|exact Nt| |exact R']. intros rest' P'. cbn [obj_refs] in *.
      assert (Pr : Permutation rest rest') by (eapply Permutation_app_inv_l; rewrite <- P; exact P').
      eapply heap_ok_perm; [|exact O']. now rewrite Pr.
  - (* MoveAssign *)
    destruct (string_at w y) as [[s d]|] eqn:Sy; [|discriminate]. apply when_inv in E as [S E]. injection E as <- <-.
    replace (match string_at w x with Some (_, _) => d | None => d end) with d by (now destruct (string_at w x) as [[? ?]|]).
    apply andb_true_iff in S as [S Dxy]. apply negb_true_iff, Nat.eqb_neq in Dxy.
    string_of I Sy r. destruct (at_is_string _ _ _ _ I S) as (t & v & Nt & _ & _).
    eapply wp_str; [exact Nt|]. eapply wp_str; [exact N|]. destruct (Nat.eqb_spec x y) as [->|_]; [contradiction|].
    apply wp_bind. destruct (refs_split2 vs x y _ _ Dxy Nt N) as (rest & P & _).
    eapply (wp_MoveFrom h rest); [eapply heap_ok_perm; [exact P|exact O]|eassumption|].
    intros h' p (L & O' & R'). apply wp_ret. split; [|reflexivity]. cbn [fst].
    eapply Inv_set2; [exact I|exact L|exact Dxy|exact Nt|exact N| |exact R'|exact Logic.I].
    intros rest' P'. cbn [obj_refs] in *.
    assert (Pr : Permutation rest rest').
    { rewrite P' in P. rewrite !app_assoc in P. apply Permutation_app_inv_l in P. now symmetry. }
    eapply heap_ok_perm; [|exact O']. now rewrite Pr.
  - (* SwapVars *)
    apply when_inv in E as [S E]. injection E as <- <-. apply andb_true_iff in S as [Sx Sy].
    destruct (at_is_string _ _ _ _ I Sx) as (t & v & Nt & Tx & ->). destruct (at_is_string _ _ _ _ I Sy) as (r & u & N & Ty & ->).
    eapply wp_str; [exact Nt|]. eapply wp_str; [exact N|]. destruct (Nat.eqb_spec x y) as [->|Dxy].
    + apply wp_ret. split; [|reflexivity]. cbn [fst].
      assert (Self : forall A n (l : list A) z, nth_error l n = Some z -> set_nth n z l = l).
      { intros A n l z. revert n. induction l as [|q l IH]; intros [|n]; cbn; intros Hn; try discriminate; [congruence|]. now rewrite IH. }
      unfold put. cbn. rewrite (Self _ _ (set_nth y (Some (AString v)) (things w))); rewrite Self by exact Tx; [destruct w; exact I|exact Ty].
    + apply wp_bind. apply wp_Swap. apply wp_ret. split; [|reflexivity]. cbn [fst snd].
      destruct (F2_nth _ _ _ _ _ F Nt) as (tx & Ntx & Rx). rewrite Tx in Ntx. injection Ntx as <-.
      destruct (F2_nth _ _ _ _ _ F N) as (ty & Nty & Ry). rewrite Ty in Nty. injection Nty as <-.
      eapply Inv_set2; [exact I|apply heap_le_refl|exact Dxy|exact Nt|exact N| |exact Ry|exact Rx].
      intros rest P. eapply heap_ok_perm; [|exact O]. rewrite P. cbn [obj_refs]. rewrite !app_assoc. apply Permutation_app_tail, Permutation_app_comm.
  - (* NewSubstring *)
    destruct (string_at w y) as [[s d]|] eqn:Sy; [|discriminate]. apply when_inv in E as [Le E]. created E X.
    apply andb_true_iff in Le as [L1 L2]. apply Nat.leb_le in L1, L2.
    pose proof (at_empty _ _ _ _ I X) as N. apply wp_fresh; [exact N|]. string_of I Sy r. eapply wp_str; [eassumption|].
    apply wp_bind. eapply wp_Substring; [exact O|eassumption|eassumption|exact L1|exact L2|]. made_it I N.
  - (* DropPrefix *)
    destruct (string_at w x) as [[s d]|] eqn:Sx; [|discriminate]. apply when_inv in E as [Le E]. injection E as <- <-. apply Nat.leb_le in Le.
    string_of I Sx r. eapply wp_str; [eassumption|]. apply wp_bind. destruct (refs_split vs x _ N) as (rest & P & _).
    eapply (wp_RemovePrefix h rest); [eapply heap_ok_perm; [exact P|exact O]|eassumption|exact Le|].
    intros h' r' (L & O' & R'). apply wp_ret. split; [|reflexivity]. cbn [fst]. eapply Inv_set; [exact I|exact L|exact N| |exact R'].
    intros rest' P'. cbn [obj_refs] in *. assert (Pr : Permutation rest rest') by (eapply Permutation_app_inv_l; rewrite <- P; exact P').
    eapply heap_ok_perm; [|exact O']. now rewrite Pr.
  - (* DropSuffix *)
    destruct (string_at w x) as [[s d]|] eqn:Sx; [|discriminate]. apply when_inv in E as [Le E]. injection E as <- <-. apply Nat.leb_le in Le.
    string_of I Sx r. eapply wp_str; [eassumption|]. apply wp_bind. destruct (refs_split vs x _ N) as (rest & P & _).
    eapply (wp_RemoveSuffix h rest); [eapply heap_ok_perm; [exact P|exact O]|eassumption|exact Le|].
    intros h' r' (L & O' & R'). apply wp_ret. split; [|reflexivity]. cbn [fst]. eapply Inv_set; [exact I|exact L|exact N| |exact R'].
    intros rest' P'. cbn [obj_refs] in *. assert (Pr : Permutation rest rest') by (eapply Permutation_app_inv_l; rewrite <- P; exact P').
    eapply heap_ok_perm; [|exact O']. now rewrite Pr.
  - (* NewToCord *)
    destruct (string_at w y) as [[s d]|] eqn:Sy; [|discriminate]. created E X.
    pose proof (at_empty _ _ _ _ I X) as N. apply wp_fresh; [exact N|]. string_of I Sy r. eapply wp_str; [eassumption|].
    apply wp_bind. eapply wp_ToCord; [exact O|eassumption|eassumption|]. intros h' c (L & O' & C). apply wp_ret. split; [|reflexivity]. cbn [fst].
    eapply Inv_set; [exact I|exact L|exact N| |exact C]. intros rest P. cbn in P. eapply heap_ok_perm; [|exact O']. cbn. now apply Permutation_app_head.
  - (* NewToCordMove *)
    destruct (string_at w y) as [[s d]|] eqn:Sy; [|discriminate]. created E X. string_of I Sy r.
    assert (Dxy : x <> y).
    { intros ->. unfold empty_at, put in X. cbn in X. erewrite nth_set_same in X by eassumption. discriminate. }
    assert (X' : empty_at w x = true).
    { unfold empty_at, put in *. cbn in X. rewrite nth_set_other in X by congruence. exact X. }
    pose proof (at_empty _ _ _ _ I X') as N'. rewrite N'. eapply wp_str; [eassumption|]. apply wp_bind.
    destruct (refs_split vs y _ N) as (rest & P & _).
    eapply (wp_ToCordMove h rest); [eapply heap_ok_perm; [exact P|exact O]|eassumption|].
    intros h' c r' L O' C. apply wp_ret. split; [|reflexivity]. cbn [fst snd].
    eapply Inv_set2; [exact I|exact L|exact Dxy|exact N'|exact N| |exact C|exact Logic.I].
    intros rest' P'. cbn [obj_refs]. cbn [obj_refs] in P, P'. cbn [app] in P'.
    assert (Pr : Permutation rest rest') by (eapply Permutation_app_inv_l; rewrite <- P; exact P').
    eapply heap_ok_perm; [|exact O']. now rewrite Pr.
  - (* AppendToCord *)
    destruct (thing_at w x) as [[v|s]|] eqn:Tx; try discriminate. destruct (string_at w y) as [[t d]|] eqn:Sy; [|discriminate]. injection E as <- <-.
    destruct (at_cord _ _ _ _ _ I Tx) as (c & Nc & C & J). string_of I Sy r. eapply wp_crd; [exact Nc|]. eapply wp_str; [exact N|].
    apply wp_bind. eapply wp_ToCord; [exact O|eassumption|eassumption|]. intros h' c' (L & O' & C'). apply wp_ret. split; [|reflexivity]. cbn [fst].
    eapply Inv_set; [exact I|exact L|exact Nc| |]. 
    + intros rest P. cbn [obj_refs] in *. eapply heap_ok_perm; [|exact O']. rewrite cord_app_refs, P, !app_assoc. apply Permutation_app_tail, Permutation_app_comm.
    + cbn. apply cord_app_is; [eapply cord_le; eassumption|exact C'].
  - (* NewConcat *)
    destruct (string_at w y) as [[s d]|] eqn:Sy; [|discriminate]. destruct (string_at w z) as [[t e]|] eqn:Sz; [|discriminate].
    apply when_inv in E as [A E]. created E X. pose proof (at_empty _ _ _ _ I X) as N. apply wp_fresh; [exact N|].
    string_of I Sy l. string_of I Sz r. eapply wp_str; [eassumption|]. eapply wp_str; [eassumption|].
    apply wp_bind. eapply wp_Concat; [exact O| | |eassumption|eassumption|eapply exists_ok; eassumption|]; try eassumption. made_it I N.
  - (* NewClone *)
    destruct (string_at w y) as [[s d]|] eqn:Sy; [|discriminate]. apply when_inv in E as [A E]. created E X.
    pose proof (at_empty _ _ _ _ I X) as N. apply wp_fresh; [exact N|]. string_of I Sy r. eapply wp_str; [eassumption|].
    apply wp_bind. eapply wp_Clone; [exact O|eassumption|eassumption|eapply exists_ok; eassumption|]. made_it I N.
  - (* Read *)
    destruct (thing_at w x) as [[[[s d]|]|s]|] eqn:Tx; try discriminate; injection E as <- <-.
    + assert (Sx : string_at w x = Some (s, d)) by (unfold string_at; now rewrite Tx). string_of I Sx r. unfold get. rewrite N.
      apply wp_bind. eapply wp_ToString; [exact O|eassumption|eassumption|]. apply wp_ret. split; [exact I|reflexivity].
    + destruct (at_cord _ _ _ _ _ I Tx) as (c & Nc & C & J). unfold get. rewrite Nc.
      apply wp_bind. eapply wp_read_cord; [exact O|eassumption|eassumption|]. apply wp_ret. split; [exact I|reflexivity].
  - (* Delete *)
    destruct (thing_at w x) as [t|] eqn:Tx; [|discriminate]. injection E as <- <-. unfold thing_at in Tx.
    destruct (nth_error (things w) x) as [t'|] eqn:Nx; [|discriminate]. subst t'. destruct (F2_nth' _ _ _ _ _ F Nx) as (ob & No & R). unfold get. rewrite No.
    destruct (refs_split vs x _ No) as (rest & P & _).
    assert (Fin : forall h', heap_le h h' -> heap_ok h' rest -> good (put w x None) [] h' (set_nth x None vs, [])).
    { intros h' L O'. split; [|reflexivity]. cbn [fst]. eapply Inv_set; [exact I|exact L|exact No| |exact Logic.I].
      intros rest' P'. cbn [obj_refs]. assert (Pr : Permutation rest rest') by (eapply Permutation_app_inv_l; rewrite <- P; exact P').
      eapply heap_ok_perm; [exact Pr|exact O']. }
    destruct ob as [[r|c]|]; [| |destruct t as [[[]|]|]; contradiction]; cbn [obj_refs] in P.
    + apply wp_bind. eapply (wp_Destroy h rest); [eapply heap_ok_perm; [exact P|exact O]|]. intros h' L O'. apply wp_ret. now apply Fin.
    + apply wp_bind. eapply (wp_drop_cord h rest); [eapply heap_ok_perm; [exact P|exact O]|]. intros h' L O'. apply wp_ret. now apply Fin.
  - (* DeleteArena *)
    apply when_inv in E as [U E]. injection E as <- <-. unfold wp. split; [|reflexivity]. cbn [fst]. split; [|split].
    + destruct O as [Fo Ho]. split; [eapply Forall_impl; [|exact Fo]; intros b (s & n & f & N); now exists s, n, f|exact Ho].
    + cbn [things]. apply negb_true_iff in U.
      assert (U' : forall t, In t (things w) -> uses a t = false).
      { intros t It. destruct (uses a t) eqn:Ut; [|reflexivity]. rewrite <- U. symmetry. apply existsb_exists. eauto. }
      clear - F U'. revert U'. induction F as [|ob t vs ts R F IH]; intros U'; constructor; [|apply IH; intros t' It; apply U'; now right].
      specialize (U' t (or_introl eq_refl)). destruct ob as [[r|c]|], t as [[[[s d]|]|s]|]; cbn in *; auto.
      * destruct r as [a' s'|b off n o|c]; cbn in *; auto.
        -- destruct o as [b'|a'|]; auto. destruct R as (B & J & Dd). split; [exact B|]. split; [exact J|]. cbn.
           destruct (Nat.eqb_spec a' a) as [->|Na]; [|exact Dd]. exfalso.
           assert (existsb (Nat.eqb a) d = true) by (apply existsb_exists; exists a; split; [exact J|apply Nat.eqb_refl]). congruence.
        -- clear - R. induction R; constructor; auto.
      * clear - R. induction R; constructor; auto.
    + cbn. now rewrite D.
Qed.
Theorem run_ok ops h vs w w' out : Inv h vs w -> history false ops w = Some (w', out) -> wp (run rel ops vs) h (good w' out).
Proof.
  revert h vs w out. induction ops as [|o ops IH]; intros h vs w out I E; cbn [history run] in *.
  - injection E as <- <-. apply wp_ret. split; [exact I|reflexivity].
  - destruct (effect false o w) as [[w1 out1]|] eqn:E1; [|discriminate].
    destruct (history false ops w1) as [[w2 out2]|] eqn:E2; [|discriminate]. injection E as <- <-.
    apply wp_bind. eapply wp_mono; [eapply exec_ok; eassumption|]. intros h1 [vs1 o1] [I1 Eo]. cbn in I1, Eo. subst o1. cbn [fst snd].
    apply wp_bind. eapply wp_mono; [eapply IH; eassumption|]. intros h2 [vs2 o2] [I2 Eo]. cbn in I2, Eo. subst o2. apply wp_ret. split; [exact I2|reflexivity].
Qed.
