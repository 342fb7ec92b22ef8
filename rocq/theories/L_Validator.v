(* Lemmas on the validators: the nodes seen and the expressions they stand for. *)
From Coq Require Import ZArith String List Bool Lia.
From Verif Require Import Base M_Overflow M_Number M_Value M_Ast S_Ast L_Ast L_Ast2 L_Ast3 M_AstProto.
From Verif Require Import M_Civil M_Convert.
From Verif Require Import M_Validator S_Validator.
Import ListNotations.
Open Scope list_scope.
Open Scope Z_scope.

(* every expression after those below it, with those above it *)
Inductive visited : list Expr -> Expr -> list (list Expr * Expr) -> Prop :=
| visited_expr above e ls : Forall2 (visited (e :: above)) (children e) ls -> visited above e (concat ls ++ [(above, e)]).
Lemma visited_total e : forall above, exists vs, visited above e vs.
Proof.
  induction e as [e IH] using children_ind. intros above.
  destruct (Forall2_total (visited (e :: above)) (children e)) as (ls & F); [intros c C; apply IH, C|]. eexists. constructor. exact F.
Qed.
Lemma inside_top e up x : inside e up x <-> (up = [] /\ x = e) \/ exists c up', In c (children e) /\ inside c up' x /\ up = up' ++ [e].
Proof.
  split.
  - induction 1 as [|up y x H IH C]; [now left|]. right. destruct IH as [[-> ->]|(c & up' & Hc & Hi & ->)].
    + exists x, []. split; [exact C|]. split; [constructor|reflexivity].
    + exists c, (y :: up'). split; [exact Hc|]. split; [now econstructor|reflexivity].
  - intros [[-> ->]|(c & up' & Hc & Hi & ->)]; [constructor|].
    induction Hi as [|up' y x H IH C]; cbn; [econstructor; [constructor|exact Hc]|now econstructor].
Qed.
Lemma visited_in e : forall ab vs, visited ab e vs -> forall above x, In (above, x) vs <-> exists up, inside e up x /\ above = up ++ ab.
Proof.
  induction e as [e IH] using children_ind. intros ab vs V above x. inversion V as [? ? ls F]; subst. rewrite in_app_iff. cbn [In].
  assert (K : In (above, x) (concat ls) <-> exists c up, In c (children e) /\ inside c up x /\ above = up ++ e :: ab).
  { revert IH F. clear. generalize (children e). intros cs IH F. induction F as [|c l cs ls V F IHF]; cbn.
    - split; [easy|]. intros (c & up & [] & _).
    - rewrite in_app_iff, IHF by (intros; apply IH; [now right|assumption]). rewrite (IH c (or_introl eq_refl) _ _ V). split.
      + intros [(up & I & E)|(c' & up & C & I & E)]; [exists c, up; auto|exists c', up; auto].
      + intros (c' & up & [<-|C] & I & E); [left; eauto|right; eauto 6]. }
  rewrite K. split.
  - intros [(c & up & C & I & E)|[[= <- <-]|[]]].
    + exists (up ++ [e]). rewrite <- app_assoc. split; [|exact E]. apply inside_top. right. exists c, up. auto.
    + exists []. split; [constructor|reflexivity].
  - intros (up & I & ->). apply inside_top in I as [[-> ->]|(c & up' & C & I & ->)]; [right; now left|].
    left. exists c, up'. rewrite <- app_assoc. auto.
Qed.

Section Md.
  Variable md : metadata.
  Notation F := (fits (m_nodes md) (m_postorder md)).
  Notation FK := (fits_kids (m_nodes md) (m_postorder md)).

  (* the nodes upwards are those of the expressions *)
  Inductive chain : option nat -> list Expr -> Prop :=
  | chain_top : chain None []
  | chain_node i n above : nth_error (m_nodes md) i = Some n -> n_node_kind n = GetNodeKind (n_expr n) ->
      chain (n_parent n) above -> chain (Some i) (n_expr n :: above).
  Definition node_for (j : nat) (c : Expr) : Prop := exists m, nth_error (m_nodes md) j = Some m /\ n_expr m = c.
  Definition sees (j : nat) (v : list Expr * Expr) : Prop :=
    exists n, nth_error (m_nodes md) j = Some n /\ n_expr n = snd v /\ n_node_kind n = GetNodeKind (snd v) /\ n_index n = j /\
      chain (n_parent n) (fst v) /\ (length (fst v) < length (m_nodes md))%nat /\ Forall2 node_for (n_children n) (children (snd v)).

  Lemma fits_sees : (forall par ci rel depth i e pre post, F par ci rel depth i e pre post ->
      forall above vs, chain par above -> length above = depth -> visited above e vs -> Forall2 sees post vs /\ node_for i e) /\
    (forall e i depth k ps js pres posts, FK e i depth k ps js pres posts ->
      forall above ls, chain (Some i) (e :: above) -> length above = depth -> Forall2 (visited (e :: above)) (map snd ps) ls ->
        Forall2 sees (concat posts) (concat ls) /\ Forall2 node_for js (map snd ps)).
  Proof.
    apply (fits_both (m_nodes md) (m_postorder md)
      (fun par ci rel depth i e pre post _ => forall above vs, chain par above -> length above = depth -> visited above e vs -> Forall2 sees post vs /\ node_for i e)
      (fun e i depth k ps js pres posts _ => forall above ls, chain (Some i) (e :: above) -> length above = depth -> Forall2 (visited (e :: above)) (map snd ps) ls ->
        Forall2 sees (concat posts) (concat ls) /\ Forall2 node_for js (map snd ps))).
    - intros par ci rel depth i e js l h pres posts N Pl Th K IH E1 E2 E3 above vs C L V. inversion V as [? ? ls Fl]; subst.
      assert (CH : chain (Some i) (e :: above)) by (eapply (chain_node i _ above N); [reflexivity|exact C]).
      destruct (IH above ls CH eq_refl Fl) as [S1 S2]. split.
      + apply Forall2_app; [exact S1|]. repeat constructor. exists (mkNode par e rel (GetNodeKind e) i (length l) h ci js).
        cbn. repeat split; auto. apply Nat.le_lt_trans with i; [assumption|]. apply nth_error_Some. rewrite N. discriminate.
      + eexists. split; [exact N|reflexivity].
    - intros e i depth k above ls _ _ H. inversion H; subst. split; constructor.
    - intros e i depth k r c ps j js pre pres post posts Hf IHf Hk IHk above ls C L H. cbn in H. inversion H as [|? l ? ls' V Fl]; subst.
      destruct (IHf (e :: above) l C eq_refl V) as [A B]. destruct (IHk above ls' C eq_refl Fl) as [A' B']. cbn. split.
      + now apply Forall2_app.
      + now constructor.
  Qed.
End Md.
Lemma Build_sees fuel e md : Build fuel e = Some (Val md) -> exists root l vs,
  Root md = Val root /\ n_expr root = e /\ (exists h, tall e h /\ n_height root = h) /\
  DescendantsPostorder md root = Val l /\ visited [] e vs /\ Forall2 (sees md) l vs.
Proof.
  intros B. destruct (Build_fits fuel e md B) as (l & pre & post & Pl & En & _ & Ep & E & Ln & Fi).
  destruct (visited_total e []) as (vs & V). destruct (proj1 (fits_sees md) _ _ _ _ _ _ _ _ Fi [] vs (chain_top md) eq_refl V) as [S _].
  pose proof (fits_mirrors md _ _ _ _ _ _ _ _ Fi) as Mi. inversion Mi as [? ? ? ? n hs l' N Ee Ei Ep' Eci Ek Pl' Ts Th Hh Lc Kc]. clear Mi Lc Kc Ek Eci Ep'.
  exists n, post, vs. split; [unfold Root, at_index; now rewrite N|]. split; [exact Ee|]. split; [eauto|]. split; [|auto].
  unfold DescendantsPostorder, subspan. rewrite Ei, Ts. cbn [Nat.leb skipn]. f_equal. rewrite Ep.
  apply firstn_all2. destruct (proj1 (fits_orders md) _ _ _ _ _ _ _ _ Fi) as (_ & _ & P). apply Permutation.Permutation_length in P.
  rewrite E, seq_length in P. rewrite <- P. now rewrite (preorder_fun _ _ _ Pl Pl').
Qed.

(** ** The loop over the nodes *)
Definition found {A B} (f : A -> option B) (l : list A) : list B := concat (map (fun x => match f x with Some y => [y] | None => [] end) l).
Lemma in_found {A B} (f : A -> option B) l y : In y (found f l) <-> exists x, In x l /\ f x = Some y.
Proof.
  unfold found. rewrite in_concat. split.
  - intros (z & H & Hy). apply in_map_iff in H as (x & <- & Hx). exists x. split; [exact Hx|]. destruct (f x); cbn in Hy; intuition congruence.
  - intros (x & Hx & E). exists [y]. split; [|now left]. apply in_map_iff. exists x. now rewrite E.
Qed.
Lemma found_nil {A B} (f : A -> option B) l : found f l = [] <-> forall x, In x l -> f x = None.
Proof.
  split.
  - intros E x Hx. destruct (f x) as [y|] eqn:Ef; [|reflexivity]. assert (In y (found f l)) as H by (apply in_found; eauto). rewrite E in H. easy.
  - intros H. destruct (found f l) as [|y r] eqn:E; [reflexivity|]. assert (In y (found f l)) as Hy by (rewrite E; now left).
    apply in_found in Hy as (x & Hx & Ef). rewrite (H x Hx) in Ef. discriminate.
Qed.
Lemma scan_found md stop check (f : list Expr * Expr -> option issue) l vs :
  Forall2 (sees md) l vs -> (forall j n v, sees md j v -> In v vs -> nth_error (m_nodes md) j = Some n -> check n = Val (f v)) ->
  scan md stop check l = Val (if stop then firstn 1 (found f vs) else found f vs).
Proof.
  intros S. induction S as [|j v l vs Sj S IH]; intros H; [now destruct stop|].
  cbn [scan]. pose proof Sj as (n & N & _). unfold at_index. rewrite N. cbn [obind].
  rewrite (H j n v Sj (or_introl eq_refl) N). cbn [obind]. unfold found. cbn [map concat].
  rewrite IH by (intros; eapply H; eauto; now right). destruct (f v) as [x|]; [|reflexivity]. destruct stop; reflexivity.
Qed.
Lemma over_found fuel e md types (stop : bool) check (f : list Expr * Expr -> option issue) : Build fuel e = Some (Val md) ->
  (forall j n above x, sees md j (above, x) -> inside e above x -> nth_error (m_nodes md) j = Some n -> check (mkContext md types) n = Val (f (above, x))) ->
  exists vs : list (list Expr * Expr), (forall above x, In (above, x) vs <-> inside e above x) /\
    let issues := if stop then firstn 1 (found f vs) else found f vs in
    over_nodes stop check (mkContext md types) = Val (match issues with [] => true | _ => false end, issues).
Proof.
  intros B H. destruct (Build_sees fuel e md B) as (root & l & vs & R & _ & _ & D & V & S). exists vs.
  assert (K : forall above x, In (above, x) vs <-> inside e above x).
  { intros above x. rewrite (visited_in e [] vs V). split; [intros (up & I & ->); now rewrite app_nil_r|]. intros I. exists above. now rewrite app_nil_r. }
  split; [exact K|]. cbv zeta. unfold over_nodes. cbn [c_ast]. rewrite R. cbn [obind]. rewrite D. cbn [obind].
  rewrite (scan_found md stop _ f l vs S); [reflexivity|]. intros j n [above x] Sj Iv N. apply (H j n above x Sj); [now apply K|exact N].
Qed.
