(* Without unknown tracking the recursive evaluator's result references alias
   no slot that is read later (C22). *)
From Coq Require Import ZArith List Bool String Lia.
From Verif Require Import Base M_Overflow M_Number M_Attr M_Value M_Logic M_Expr M_Plan M_Machine M_Direct
  S_Direct S_Eval L_Seval L_Direct.
Import ListNotations.
Local Open Scope string_scope.
Open Scope list_scope.
Open Scope Z_scope.

(* ---- slots ---- *)

Lemma touches_false : forall n r M, touches n M r = false -> overwrites n M r = false /\ in_place n M r = true.
Proof.
  intros n. induction r as [v|y|y k|k i|op a b IHa IHb|c a b IHc IHa IHb|k a b IHa IHb|op args IH
    |it it2 ac r i c st b IHr IHi IHc IHs IHb|k i e b IHe IHb] using rcore_ind'; intros M H; cbn [touches] in H;
    cbn [overwrites in_place]; auto.
  - apply orb_false_iff in H. destruct H as [H1 H2]. rewrite H1, H2. auto.
  - apply orb_false_iff in H. destruct H as [H1 H2].
    destruct (IHa _ H1) as [A1 A2], (IHb _ H2) as [B1 B2]. rewrite A1, A2, B1, H2. auto.
  - apply orb_false_iff in H. destruct H as [H H3]. apply orb_false_iff in H. destruct H as [H1 H2].
    destruct (IHc _ H1) as [C1 C2], (IHa _ H2) as [A1 A2], (IHb _ H3) as [B1 B2].
    rewrite C1, A1, A2, B1, B2. auto.
  - apply orb_false_iff in H. destruct H as [H1 H2].
    destruct (IHa _ H1) as [A1 A2], (IHb _ H2) as [B1 B2]. rewrite A1, A2, B1, H2. auto.
  - assert (G : any_of (overwrites n M) args = false /\ all_of (in_place n M) args = true /\
                match args with [] => True | x :: l => in_place n M x = true /\ any_of (touches n M) l = false end).
    { induction args as [|x args IHl]; cbn [any_of all_of]; [auto|].
      inversion IH as [|u l Hx Hl]; subst. cbn [any_of] in H. apply orb_false_iff in H. destruct H as [H1 H2].
      destruct (Hx _ H1) as [A1 A2]. destruct (IHl Hl H2) as (B1 & B2 & _).
      fold (any_of (overwrites n M)). fold (all_of (in_place n M)). rewrite A1, A2, B1, B2. auto. }
    destruct G as (G1 & G2 & G3). split; [exact G1|].
    destruct op; try exact G2; destruct args; try reflexivity; destruct G3 as [-> ->]; reflexivity.
  - repeat (apply orb_false_iff in H; destruct H as [H ?]).
    destruct (IHr M) as [R1 R2]; [assumption|]. destruct (IHi M) as [I1 I2]; [assumption|].
    destruct (IHc M) as [C1 C2]; [assumption|]. destruct (IHs M) as [S1 S2]; [assumption|].
    destruct (IHb M) as [B1 B2]; [assumption|]. rewrite R1, I1, C1, S1, B1, B2.
    split; [|reflexivity]. repeat (apply orb_false_iff; split); auto.
  - repeat (apply orb_false_iff in H; destruct H as [H ?]).
    destruct (IHe M) as [E1 E2]; [assumption|]. destruct (IHb _ ltac:(eassumption)) as [B1 B2].
    rewrite E1, B1, B2, H. auto.
Qed.

(* ---- related states ---- *)

(* D: slots whose contents may differ; K: slots that stay set *)
Record sim (D K : nat -> Prop) (s s' : est) : Prop := mkSim {
  sim_slots : forall k, ~ D k -> e_slots s' k = e_slots s k;
  sim_none : forall k x, e_slots s' k = Some x -> snd x = None;
  sim_set : forall k, K k -> e_slots s' k <> None;
  sim_rest : e_iterations s' = e_iterations s /\ e_log s' = e_log s /\ e_loops s' = e_loops s /\
             e_inits s' = e_inits s }.
Definition plus (v : option nat) (D : nat -> Prop) : nat -> Prop :=
  match v with None => D | Some n => fun k => D k \/ k = n end.
Definition inside (v : option nat) (K : nat -> Prop) : Prop := forall n, v = Some n -> K n.

Lemma sim_eqv D D' K s s' : (forall k, D k <-> D' k) -> sim D K s s' -> sim D' K s s'.
Proof.
  intros H [A B E F]. constructor; auto. intros k Hk. apply A. rewrite H. exact Hk.
Qed.
Lemma sim_grow (D D' : nat -> Prop) K s s' : (forall k, D k -> D' k) -> sim D K s s' -> sim D' K s s'.
Proof. intros H [A B E F]. constructor; auto. Qed.
Lemma sim_less D (K K' : nat -> Prop) s s' : (forall k, K' k -> K k) -> sim D K s s' -> sim D K' s s'.
Proof. intros H [A B E F]. constructor; auto. Qed.
Lemma plus_twice v D k : plus v (plus v D) k <-> plus v D k.
Proof. destruct v; cbn [plus]; tauto. Qed.
Lemma plus_in v (D : nat -> Prop) k : D k -> plus v D k.
Proof. destruct v; cbn [plus]; auto. Qed.
Lemma plus_incl v (D K : nat -> Prop) : (forall k, D k -> K k) -> inside v K -> forall k, plus v D k -> K k.
Proof. intros H Hv k. destruct v as [n|]; cbn [plus]; auto. intros [Hk | ->]; auto. Qed.

Lemma slot_same k x f : slot_set k x f k = x.
Proof. unfold slot_set. rewrite Nat.eqb_refl. reflexivity. Qed.
Lemma slot_other k x f m : m <> k -> slot_set k x f m = f m.
Proof. intros H. unfold slot_set. rewrite (proj2 (Nat.eqb_neq m k) H). reflexivity. Qed.

Lemma sim_set_both D K s s' n (x : vt) : snd x = None -> sim D K s s' ->
  sim D (plus (Some n) K) (set_slot n x s) (set_slot n x s').
Proof.
  intros Hx [A B E F]. constructor; cbn [set_slot e_slots e_iterations e_log e_loops e_inits plus]; auto.
  - intros k Hk. unfold slot_set. destruct (Nat.eqb k n); auto.
  - intros k y. unfold slot_set. destruct (Nat.eqb k n); [intros [= <-]; exact Hx | apply B].
  - intros k Hk. unfold slot_set. destruct (Nat.eqb_spec k n); [discriminate | apply E; tauto].
Qed.
Lemma sim_keep_both D K s s' n (x : vt) : snd x = None -> sim D K s s' ->
  sim D K (set_slot n x s) (set_slot n x s').
Proof.
  intros Hx H. eapply sim_less; [|apply sim_set_both; eassumption]. intros k Hk. cbn [plus]. auto.
Qed.
Lemma sim_clear_both D (K : nat -> Prop) s s' n : ~ K n -> sim D K s s' -> sim D K (clear_slot n s) (clear_slot n s').
Proof.
  intros Hn [A B E F]. constructor; cbn [clear_slot e_slots e_iterations e_log e_loops e_inits]; auto.
  - intros k Hk. unfold slot_set. destruct (Nat.eqb k n); auto.
  - intros k y. unfold slot_set. destruct (Nat.eqb k n); [discriminate | apply B].
  - intros k Hk. unfold slot_set. destruct (Nat.eqb_spec k n) as [->|]; [contradiction | auto].
Qed.
Lemma sim_log D K s s' l : sim D K s s' -> sim D K (add_log l s) (add_log l s').
Proof. intros [A B E (F1 & F2 & F3 & F4)]. constructor; cbn; auto. rewrite F1, F2, F3, F4. auto. Qed.
Lemma sim_count D K s s' : sim D K s s' -> sim D K (count_loop s) (count_loop s').
Proof. intros [A B E (F1 & F2 & F3 & F4)]. constructor; cbn; auto. Qed.
Lemma sim_init D K s s' i : sim D K s s' -> sim D K (count_init i s) (count_init i s').
Proof. intros [A B E (F1 & F2 & F3 & F4)]. constructor; cbn; auto. rewrite F1, F2, F3, F4. auto. Qed.
Lemma sim_put v D K s s' w : sim (plus v D) K s s' -> sim (plus v D) K s (put_value v w s').
Proof.
  intros H. destruct v as [n|]; [|exact H]. cbn [put_value].
  destruct (e_slots s' n) as [x|] eqn:En; [|exact H]. destruct H as [A B E F].
  constructor; cbn [set_slot e_slots e_iterations e_log e_loops e_inits]; auto.
  - intros k Hk. rewrite slot_other; [auto|]. intros ->. apply Hk. cbn [plus]. auto.
  - intros k y. unfold slot_set. destruct (Nat.eqb k n); [intros [= <-]; cbn; eapply B; eassumption | apply B].
  - intros k Hk. unfold slot_set. destruct (Nat.eqb k n); [discriminate | auto].
Qed.
Lemma sim_trail D K s s' m : sim D K s s' -> sim D K s (put_trail m None s').
Proof.
  intros H. destruct m as [n|]; [|exact H]. cbn [put_trail].
  destruct (e_slots s' n) as [x|] eqn:En; [|exact H]. destruct H as [A B E F].
  pose proof (B n x En) as Hx. destruct x as [x xt]. cbn in Hx. subst xt.
  constructor; cbn [set_slot e_slots e_iterations e_log e_loops e_inits fst]; auto.
  - intros k Hk. unfold slot_set. destruct (Nat.eqb_spec k n) as [->|]; [rewrite <- (A n Hk); auto | auto].
  - intros k y. unfold slot_set. destruct (Nat.eqb k n); [intros [= <-]; reflexivity | apply B].
  - intros k Hk. unfold slot_set. destruct (Nat.eqb k n); [discriminate | auto].
Qed.

(* ---- related results ---- *)

Definition relg {A} (P : A -> est -> Prop) (D K : nat -> Prop) (r r' : res A) : Prop :=
  match r, r' with
  | RVal x s, RVal x' s' => x' = x /\ P x s' /\ sim D K s s'
  | RErr e s, RErr e' s' =>
      e' = e /\ e_iterations s' = e_iterations s /\ e_log s' = e_log s /\ e_loops s' = e_loops s /\
      e_inits s' = e_inits s
  | RFault w, RFault w' => w' = w
  | RUB, RUB => True
  | _, _ => False
  end.
Definition holds (v : option nat) (x : vt) (s : est) : Prop :=
  snd x = None /\ forall n, v = Some n -> e_slots s n = Some x.
Definition rel (v : option nat) (D K : nat -> Prop) : res vt -> res vt -> Prop :=
  relg (holds v) (plus v D) K.

Lemma relg_bind {A B} (P : A -> est -> Prop) (Q : B -> est -> Prop) D D' K K' r r' k k' :
  relg P D K r r' ->
  (forall x s s', P x s' -> sim D K s s' -> relg Q D' K' (k x s) (k' x s')) ->
  relg Q D' K' (rbind r k) (rbind r' k').
Proof.
  destruct r, r'; cbn [relg rbind]; try contradiction; auto.
  intros (-> & H1 & H2) H. apply H; auto.
Qed.
Lemma relg_lift {A B} (Q : B -> est -> Prop) D D' K K' (o : out A) s s' k k' :
  sim D K s s' ->
  (forall x, o = Val x -> relg Q D' K' (k x s) (k' x s')) ->
  relg Q D' K' (rbind (rlift o s) k) (rbind (rlift o s') k').
Proof.
  intros Hs H. destruct o; cbn [rlift rbind]; auto; cbn [relg]; auto.
  destruct Hs as [_ _ _ (? & ? & ? & ?)]. auto.
Qed.
Lemma rel_ret v a D K (x : vt) s s' : snd x = None -> sim (plus v D) K s s' -> inside v K ->
  rel v D K (RVal x s) (ret (mkRef v a) x s').
Proof.
  intros Hx Hs Hv. unfold ret. cbn [r_val r_att]. rewrite Hx. unfold rel. cbn [relg].
  split; [reflexivity|]. split.
  - split; [exact Hx|]. intros n ->. pose proof (sim_set _ _ _ _ Hs n (Hv n eq_refl)) as Hn.
    cbn [put_value]. destruct (e_slots s' n) as [y|] eqn:En; [|congruence].
    pose proof (sim_none _ _ _ _ Hs n y En) as Hy. destruct x as [x xt]. cbn in Hx, Hy. subst xt.
    destruct y as [y yt]. cbn in Hy. subst yt. cbn [fst snd].
    destruct a as [m|]; cbn [put_trail set_slot e_slots]; [|apply slot_same].
    destruct (Nat.eq_dec m n) as [->|Hm].
    + rewrite slot_same. cbn [set_slot e_slots fst]. apply slot_same.
    + rewrite slot_other by exact Hm. destruct (e_slots s' m); cbn [set_slot e_slots].
      * rewrite slot_other by congruence. apply slot_same.
      * apply slot_same.
  - apply sim_trail, sim_put, Hs.
Qed.
Lemma rel_ret0 v a D K (x : vt) s s' : snd x = None -> sim D K s s' -> inside v K ->
  rel v D K (RVal x s) (ret (mkRef v a) x s').
Proof. intros Hx Hs Hv. apply rel_ret; auto. eapply sim_grow; [|exact Hs]. intros k. apply plus_in. Qed.
Lemma rel_plus v D K r r' : rel v (plus v D) K r r' -> rel v D K r r'.
Proof.
  unfold rel, relg. destruct r, r'; auto. intros (A & B & E). split; [exact A|]. split; [exact B|].
  eapply sim_eqv; [|exact E]. intros k. apply plus_twice.
Qed.
Lemma rel_same v D K (x : vt) s s' : holds v x s' -> sim (plus v D) K s s' -> rel v D K (RVal x s) (RVal x s').
Proof. intros A B. split; [reflexivity|]. split; assumption. Qed.
Lemma obind_rlift {A B} (o : out A) (g : A -> B) (s : est) (k : B -> est -> res vt) :
  rbind (rlift (obind o (fun x => Val (g x))) s) k = rbind (rlift o s) (fun x s1 => k (g x) s1).
Proof. destruct o; reflexivity. Qed.

Lemma rbind_ret {A} (r : res A) : rbind r (fun x s => RVal x s) = r.
Proof. destruct r; reflexivity. Qed.

Lemma rbind_assoc {A B E} (r : res A) (k : A -> est -> res B) (h : B -> est -> res E) :
  rbind (rbind r k) h = rbind r (fun x s => rbind (k x s) h).
Proof. destruct r; reflexivity. Qed.
Lemma add_log_nil s : add_log [] s = s.
Proof. destruct s; reflexivity. Qed.

(* ---- steps keep trails empty ---- *)

Section Off.
Variable C : config.
Hypothesis Hu : unk C = false.

Lemma unknown_off t : unknown_exact C t = None.
Proof. unfold unknown_exact. rewrite Hu. reflexivity. Qed.
Lemma lookup_off n x : LookupIdent C n = Val x -> snd x = None.
Proof.
  unfold LookupIdent. rewrite unknown_off, Hu. destruct (cf_vars C n) as [[v|]| |]; cbn; try discriminate;
    intros H; inversion H; reflexivity.
Qed.
Lemma select_off f b (a x : vt) : snd a = None -> DirectSelect C f b a = Val x -> snd x = None.
Proof.
  destruct a as [v t]. cbn [snd]. intros -> H. unfold DirectSelect in H. rewrite Hu, unknown_off in H.
  destruct v; try (inversion H; reflexivity); try (destruct b; inversion H; reflexivity).
  destruct (o_optional_types (cf_opts C)); [|inversion H; reflexivity].
  destruct o as [w|]; destruct b; try (inversion H; reflexivity); destruct w; inversion H; reflexivity.
Qed.
Lemma index_off (a b x : vt) : DirectLookup C a b None = Val x -> snd x = None.
Proof.
  unfold DirectLookup. rewrite Hu. cbn [andb]. rewrite unknown_off.
  destruct (PerformLookup _ _ _ _); cbn [obind]; try discriminate. intros H; inversion H; reflexivity.
Qed.
Lemma first_off k (x y : vt) : snd x = None -> direct_or_first k x = Some y -> snd y = None.
Proof.
  destruct x as [v t]. cbn [snd]. intros -> H. unfold direct_or_first in H. cbn [fst snd] in H.
  destruct v; try (inversion H; reflexivity). destruct o; [destruct k|]; inversion H; reflexivity.
Qed.
Lemma second_off k (x : vt) : snd x = None -> snd (direct_or_second k x) = None.
Proof.
  destruct x as [v t]. cbn [snd]. intros ->. unfold direct_or_second. cbn [fst snd].
  destruct v; try reflexivity; destruct k; reflexivity.
Qed.
Lemma or_off k (x y : vt) : snd x = None -> snd y = None -> snd (EvalOptionalOr k x y) = None.
Proof.
  destruct x as [v t], y as [w u]. cbn [snd]. intros -> ->. unfold EvalOptionalOr. cbn [fst snd].
  destruct v; try reflexivity. destruct o; [destruct k; reflexivity|].
  destruct w; try reflexivity; destruct k; reflexivity.
Qed.
Lemma check_off (x y : vt) : snd x = None -> ternary_stop None x = Some y -> snd y = None.
Proof.
  destruct x as [v t]. cbn [snd]. intros -> H. unfold ternary_stop in H. cbn [fst] in H.
  destruct v; inversion H; reflexivity.
Qed.
Lemma logic_off op x y : logic_result C op x y None = (DirectLogic (unk C) op x y, None).
Proof.
  unfold logic_result, DirectLogic. destruct (M_Logic.decides op x); [reflexivity|].
  destruct (M_Logic.decides op y); [reflexivity|]. rewrite Hu. cbn [andb].
  destruct (is_error x); [reflexivity|]. destruct (is_error y); [reflexivity|].
  destruct x; try reflexivity. destruct y; reflexivity.
Qed.
Lemma iter_off b t kv : snd (iter_one C b t kv) = None.
Proof. unfold iter_one. rewrite Hu. reflexivity. Qed.
Lemma iter2_off t kv : snd (fst (iter_two C t kv)) = None /\ snd (snd (iter_two C t kv)) = None.
Proof. unfold iter_two. rewrite Hu. auto. Qed.
Lemma sim_iter D K s s' it it2 b t kv : sim D K s s' ->
  sim D K (set_iter C it it2 b t kv s) (set_iter C it it2 b t kv s').
Proof.
  intros H. unfold set_iter. destruct (Nat.eqb it it2); [apply sim_keep_both; [apply iter_off | exact H]|].
  pose proof (iter2_off t kv) as [H1 H2]. destruct (iter_two C t kv) as [x y]. cbn [fst snd] in H1, H2.
  apply sim_keep_both; [exact H2|]. apply sim_keep_both; assumption.
Qed.
Lemma sim_open D K s s' it it2 : sim D K s s' -> sim D K (open_iter it it2 s) (open_iter it it2 s').
Proof.
  intros H. unfold open_iter. destruct (Nat.eqb it it2); repeat apply sim_keep_both; auto.
Qed.
Lemma sim_clear_iter D (K : nat -> Prop) s s' it it2 : ~ K it -> ~ K it2 -> sim D K s s' ->
  sim D K (clear_iter it it2 s) (clear_iter it it2 s').
Proof. intros H1 H2 H. unfold clear_iter. destruct (Nat.eqb it it2); repeat apply sim_clear_both; auto. Qed.
Lemma sim_increment D K s s' : sim D K s s' ->
  relg (fun _ _ => True) D K (IncrementIterations C s) (IncrementIterations C s').
Proof.
  intros H. unfold IncrementIterations. destruct (o_max_iterations (cf_opts C) =? 0); [cbn; auto|].
  destruct H as [A B E (F1 & F2 & F3 & F4)]. rewrite F1.
  destruct (_ <=? _); cbn [relg e_iterations e_log e_loops e_inits]; [repeat split; auto|].
  split; [reflexivity|]. split; [exact I|]. constructor; cbn; auto.
Qed.
Lemma list_unknown_off acc x : list_unknown C acc x = acc.
Proof. unfold list_unknown. rewrite Hu. reflexivity. Qed.
Lemma map_unknown_off acc x : map_unknown C acc x = acc.
Proof. unfold map_unknown. rewrite Hu. reflexivity. Qed.

(* ---- the recursive evaluator ---- *)

Variable mv : value -> value.

Record ok (M : nat -> nat -> bool) (D K : nat -> Prop) (v : option nat) (r : rcore) : Prop := mkOk {
  ok_incl : forall n, D n -> K n;
  ok_dirty : forall n, D n -> touches n (fun j => M j n) r = false;
  ok_keep : forall n, K n -> overwrites n (fun j => M j n) r = false;
  ok_val : forall n, v = Some n -> K n /\ (D n \/ in_place n (fun j => M j n) r = true) }.
Definition lzrel (M : nat -> nat -> bool) (lz : nat -> comp) (lz' : nat -> dstep) : Prop :=
  forall i (D K : nat -> Prop) rf s s',
    (forall n, D n -> K n) ->
    (forall n, K n -> M i n = false) ->
    inside (r_val rf) K -> sim D K s s' ->
    rel (r_val rf) D K (lz i s) (lz' i None rf None s').
Definition follows (M : nat -> nat -> bool) (f : comp) (f' : ref -> trail -> est -> res vt) (r : rcore) : Prop :=
  forall (D K : nat -> Prop) rf s s', ok M D K (r_val rf) r -> sim D K s s' ->
    rel (r_val rf) D K (f s) (f' rf None s').

Definition free (M : nat -> nat -> bool) (D K : nat -> Prop) (r : rcore) : Prop :=
  (forall n, D n -> touches n (fun j => M j n) r = false) /\
  (forall n, K n -> overwrites n (fun j => M j n) r = false).
Lemma ok_temps M (D K : nat -> Prop) r : (forall n, D n -> K n) -> free M D K r -> ok M D K None r.
Proof. intros HI [H1 H2]. constructor; auto. discriminate. Qed.
Lemma ok_inside M D K v r : ok M D K v r -> inside v K.
Proof. intros H n Hn. apply (ok_val _ _ _ _ _ H n Hn). Qed.
Lemma ok_later M (D K : nat -> Prop) v r : (forall n, D n -> K n) -> inside v K -> free M (plus v D) K r ->
  ok M (plus v D) K v r.
Proof.
  intros HI Hv [H1 H2]. constructor; auto.
  - apply plus_incl; assumption.
  - intros n ->. split; [apply Hv; reflexivity|]. left. cbn [plus]. auto.
Qed.

Section Literal.
Variables (M : nat -> nat -> bool) (f : rcore -> comp) (f' : operand) (v a : option nat) (K : nat -> Prop).
Hypothesis Hv : inside v K.

Definition els_ok (D : nat -> Prop) (els : list rcore) : Prop :=
  match els with
  | [] => True
  | e :: els' => ok M D K v e /\ Forall (free M (plus v D) K) els'
  end.
Lemma list_follows : forall els (D : nat -> Prop) opts l s s',
  (forall n, D n -> K n) ->
  Forall (fun e => follows M (f e) (f' e) e) els ->
  els_ok D els -> sim D K s s' ->
  rel v D K (d_list f els opts l s) (direct_list C mv f' (mkRef v a) None els opts None acc_new l s').
Proof.
  induction els as [|e els IH]; intros D opts l s s' HI HF Hok Hs; cbn [d_list direct_list].
  - apply rel_ret0; auto.
  - inversion HF as [|u w He Hl]; subst. destruct Hok as [Hok Hrest].
    cbn [r_val]. eapply relg_bind; [apply (He D K (mkRef v None)); assumption|].
    intros x s1 s1' [Hx Hxs] Hs1. cbn [r_val] in Hs1.
    rewrite list_unknown_off. cbn [negb acc_IsEmpty acc_new acc_set acc_present].
    assert (Hnext : forall s2 s2', sim (plus v D) K s2 s2' -> forall l',
      rel v D K (d_list f els (tl_opt opts) l' s2)
              (direct_list C mv f' (mkRef v a) None els (tl_opt opts) None acc_new l' s2')).
    { intros s2 s2' H2 l'. apply rel_plus. apply IH; [apply plus_incl; assumption |exact Hl| |exact H2].
      destruct els as [|e1 els1]; [exact I|]. inversion Hrest; subst. split.
      - apply ok_later; assumption.
      - eapply Forall_impl; [|eassumption]. intros e2 [H H']. split; [|exact H'].
        intros n Hn. apply H. apply plus_twice. exact Hn. }
    replace (snd x) with (@None attribute) by (symmetry; exact Hx).
    change (match opts with [] => [] | _ :: o => o end) with (tl_opt opts).
    change (match opts with o :: _ => o | [] => false end) with (hd_opt opts).
    unfold list_one. destruct (is_error (fst x)) eqn:Ee.
    + cbn [rlift rbind]. destruct x as [x xt]. cbn [fst snd] in *. subst xt.
      apply rel_same; [split; auto | exact Hs1].
    + destruct (hd_opt opts).
      * destruct (fst x); try (cbn [rlift rbind]; apply rel_ret; auto).
        destruct o as [w|].
        2:{ cbn [rlift rbind]. apply Hnext. exact Hs1. }
        destruct w; try (cbn [rlift rbind]; apply rel_ret; now auto);
        (rewrite (obind_rlift (ListAdd l _)); eapply relg_lift; [exact Hs1|]; intros l' _; apply Hnext; exact Hs1).
      * rewrite (obind_rlift (ListAdd l (fst x))). eapply relg_lift; [exact Hs1|]. intros l' _.
        apply Hnext. apply sim_put. exact Hs1.
Qed.

Variable D : nat -> Prop.
Hypothesis HI : forall n, D n -> K n.
Lemma map_follows : forall n els opts m s s', (List.length els <= n)%nat ->
  Forall (fun e => follows M (f e) (f' e) e) els ->
  Forall (free M D K) els -> sim D K s s' ->
  rel v D K (d_map C f els opts m s) (direct_map C f' (mkRef v a) None els opts acc_new m s').
Proof.
  induction n as [|n IH]; intros els opts m s s' Hn HF Hok Hs.
  - destruct els; [|cbn in Hn; lia]. apply rel_ret0; auto.
  - destruct els as [|ke els]; [apply rel_ret0; auto|]. destruct els as [|ve els]; [apply rel_ret0; auto|].
    cbn [d_map direct_map].
    inversion HF as [|u w Hk HF1]; subst. inversion HF1 as [|u w He Hl]; subst.
    inversion Hok as [|u w Ok Hok1]; subst. inversion Hok1 as [|u w Oe Ol]; subst.
    eapply relg_bind; [apply (Hk D K temps); [apply ok_temps; assumption | exact Hs]|].
    intros k s1 s1' [Hkn _] Hs1. cbn [r_val temps plus] in Hs1. rewrite !map_unknown_off.
    replace (snd k) with (@None attribute) by (symmetry; exact Hkn).
    change (match opts with [] => [] | _ :: o => o end) with (tl_opt opts).
    change (match opts with o :: _ => o | [] => false end) with (hd_opt opts).
    unfold key_one. destruct (is_error (fst k)); [cbn [rlift rbind]; apply rel_ret0; auto|].
    destruct (CheckMapKey (fst k)); [|cbn [rlift rbind]; apply rel_ret0; now auto|exact I].
    cbn [rlift rbind].
    eapply relg_bind; [apply (He D K temps); [apply ok_temps; assumption | exact Hs1]|].
    intros x s2 s2' [Hx _] Hs2. cbn [r_val temps plus] in Hs2. rewrite !map_unknown_off.
    cbn [negb acc_IsEmpty acc_new acc_set acc_present].
    assert (Hnext : forall s3 s3', sim D K s3 s3' -> forall m',
      rel v D K (d_map C f els (tl_opt opts) m' s3)
              (direct_map C f' (mkRef v a) None els (tl_opt opts) acc_new m' s3')).
    { intros s3 s3' H3 m'. apply IH; auto. cbn in Hn. lia. }
    unfold entry_one. destruct (is_error (fst x)); [cbn [rlift rbind]; apply rel_ret0; now auto|].
    destruct (hd_opt opts).
    + destruct (fst x); try (cbn [rlift rbind]; apply rel_ret0; now auto).
      destruct o as [w|].
      2:{ cbn [rlift rbind]. apply Hnext. exact Hs2. }
      destruct w; try (cbn [rlift rbind]; apply rel_ret0; now auto);
      (rewrite (obind_rlift (MapPut m (fst k) _)); eapply relg_lift; [exact Hs2|]; intros l' _; apply Hnext; exact Hs2).
    + rewrite (obind_rlift (MapPut m (fst k) (fst x))). eapply relg_lift; [exact Hs2|]. intros l' _.
      apply Hnext. exact Hs2.
Qed.

Lemma args_follow : forall els s s',
  Forall (fun e => follows M (f e) (f' e) e) els ->
  Forall (free M D K) els -> sim D K s s' ->
  relg (fun xs _ => Forall (fun x => snd x = None) xs) D K (seval_list f els s) (direct_args f' els s').
Proof.
  induction els as [|e els IH]; intros s s' HF Hok Hs; cbn [seval_list direct_args].
  - split; [reflexivity|]. split; [constructor | exact Hs].
  - inversion HF as [|u w He Hl]; subst. inversion Hok as [|u w Oe Ol]; subst.
    eapply relg_bind; [apply (He D K temps); [apply ok_temps; assumption | exact Hs]|].
    intros x s1 s1' [Hx _] Hs1. cbn [r_val temps plus] in Hs1.
    eapply relg_bind; [apply IH; assumption|].
    intros xs s2 s2' Hxs Hs2. split; [reflexivity|]. split; [constructor; assumption | exact Hs2].
Qed.
End Literal.

Lemma loop_follows M it it2 ac b rt (fc fs : comp) fc' fs' c st (D K : nat -> Prop) :
  follows M fc fc' c -> follows M fs fs' st ->
  (forall n, D n -> K n) -> ~ D ac ->
  free M D (plus (Some ac) K) c -> free M D (plus (Some ac) K) st ->
  in_place ac (fun j => M j ac) st = true ->
  forall items s s', sim D (plus (Some ac) K) s s' ->
  relg (fun _ _ => True) D (plus (Some ac) K)
    (dloop C it it2 ac b rt fc fs items s) (direct_loop C it it2 ac b rt fc' fs' items None s').
Proof.
  intros Hc Hst HI Hac Fc Fs Hin. induction items as [|kv items IH]; intros s s' Hs; cbn [dloop direct_loop].
  - split; [reflexivity|]. split; [exact I | exact Hs].
  - assert (HI' : forall n, D n -> plus (Some ac) K n) by (intros n Hn; left; auto).
    eapply relg_bind; [apply sim_increment; exact Hs|]. intros _ s1 s1' _ Hs1.
    eapply relg_bind.
    { apply (Hc D (plus (Some ac) K) temps); [apply ok_temps; assumption|].
      apply sim_iter, sim_count, Hs1. }
    intros x s2 s2' [Hx _] Hs2. cbn [r_val temps plus] in Hs2.
    destruct (loop_condition x) as [r|bb].
    + split; [reflexivity|]. split; [exact I | exact Hs2].
    + destruct (negb bb && sc C); [split; [reflexivity|]; split; [exact I | exact Hs2]|].
      assert (Hst2 : slot_trail ac s2' = None).
      { unfold slot_trail. destruct (e_slots s2' ac) eqn:E; [|reflexivity]. eapply sim_none; eassumption. }
      rewrite Hst2.
      eapply relg_bind.
      { apply (Hst D (plus (Some ac) K) (mkRef (Some ac) (Some ac))); [|exact Hs2].
        constructor; try assumption; try apply Fs.
        intros n [= <-]. split; [right; reflexivity | right; exact Hin]. }
      intros y s3 s3' [Hy Hslot] Hs3. cbn [r_val plus] in Hs3, Hslot.
      replace (snd x) with (@None attribute) by (symmetry; exact Hx). apply IH.
      specialize (Hslot ac eq_refl). destruct Hs3 as [A B E F].
      constructor; cbn [set_slot e_slots e_iterations e_log e_loops e_inits]; auto.
      intros k Hk. unfold slot_set. destruct (Nat.eqb_spec k ac) as [->|Hne]; [exact Hslot|].
      apply A. intros [H | H]; contradiction.
Qed.

Ltac cut_free H :=
  let H1 := fresh in let H2 := fresh in let G := fresh in
  destruct H as [H1 H2]; split; intros n Hn;
  [ pose proof (H1 n Hn) as G | pose proof (H2 n Hn) as G ]; cbn [touches overwrites] in G;
  repeat (apply orb_false_iff in G; destruct G as [G ?]); assumption.
Lemma free_logic M D K op a b : free M D K (RLogic op a b) -> free M D K a /\ free M D K b.
Proof. intros H. split; cut_free H. Qed.
Lemma free_or M D K op a b : free M D K (ROr op a b) -> free M D K a /\ free M D K b.
Proof. intros H. split; cut_free H. Qed.
Lemma free_cond M D K c a b : free M D K (RCond c a b) -> free M D K c /\ free M D K a /\ free M D K b.
Proof. intros H. split; [|split]; cut_free H. Qed.
Lemma free_comp M D K it it2 ac r i c st b : free M D K (RComp it it2 ac r i c st b) ->
  free M D K r /\ free M D K i /\ free M D K c /\ free M D K st /\ free M D K b.
Proof. intros H. split; [|split; [|split; [|split]]]; cut_free H. Qed.
Lemma free_args M D K op args : free M D K (RApp op args) -> Forall (free M D K) args.
Proof.
  intros [H1 H2]. cbn [touches overwrites] in H1, H2. induction args as [|x args IH]; [constructor|].
  constructor.
  - split; intros n Hn; [specialize (H1 n Hn) | specialize (H2 n Hn)]; cbn [any_of] in *;
      [apply orb_false_iff in H1 | apply orb_false_iff in H2]; tauto.
  - apply IH; intros n Hn; [specialize (H1 n Hn) | specialize (H2 n Hn)]; cbn [any_of] in *;
      [apply orb_false_iff in H1 | apply orb_false_iff in H2]; tauto.
Qed.
Lemma ok_free M D K v r : ok M D K v r -> free M D K r.
Proof. intros H. split; apply H. Qed.
(* a subterm evaluated into the same reference *)
Lemma ok_sub M D K v r r' : ok M D K v r -> free M D K r' ->
  (forall n, in_place n (fun j => M j n) r = true -> in_place n (fun j => M j n) r' = true) -> ok M D K v r'.
Proof.
  intros H [F1 F2] Hp. constructor; auto; [apply H|].
  intros n Hn. destruct (ok_val _ _ _ _ _ H n Hn) as [A [B | B]]; split; auto.
Qed.
(* a subterm evaluated after a write to the reference *)
Lemma free_later M D K v r r' : ok M D K v r -> free M D K r' ->
  (forall n, in_place n (fun j => M j n) r = true -> touches n (fun j => M j n) r' = false) ->
  free M (plus v D) K r'.
Proof.
  intros H [F1 F2] Hp. split; [|exact F2]. intros n Hn. destruct v as [m|]; cbn [plus] in Hn; [|auto].
  destruct Hn as [Hn | ->]; [auto|]. destruct (ok_val _ _ _ _ _ H m eq_refl) as [A [B | B]]; auto.
Qed.
Lemma in_all {n M x l} : all_of (in_place n M) (x :: l) = true -> in_place n M x = true.
Proof. cbn [all_of]. intros H. apply andb_true_iff in H. tauto. Qed.

Theorem alias_follows : forall r M lz lz',
  alias_free M r = true -> lzrel M lz lz' ->
  follows M (dsev C r lz) (fun rf t s => deval C mv r lz' None rf t s) r.
Proof.
  induction r as [v|y|y k|k i|op a b IHa IHb|c a b IHc IHa IHb|k a b IHa IHb|op args IH
    |it it2 ac r i c st b IHr IHi IHc IHs IHb|k i e b IHe IHb] using rcore_ind';
    intros M lz lz' Haf Hlz D K [v2 a2] s s' Hok Hs; cbn [r_val] in *;
    pose proof (ok_incl _ _ _ _ _ Hok) as HI; pose proof (ok_inside _ _ _ _ _ Hok) as Hv;
    pose proof (ok_free _ _ _ _ _ Hok) as Hf;
    cbn [dsev deval deeper]; cbn [alias_free] in Haf.
  - apply rel_ret0; auto.
  - rewrite <- (rbind_ret (rlift (LookupIdent C y) s)). eapply relg_lift; [exact Hs|]. intros x Hx. rewrite Hu.
    pose proof (lookup_off _ _ Hx) as Hxt. destruct x as [x xt]. cbn [snd] in Hxt. subst xt. apply rel_ret0; auto.
  - unfold read_slot. assert (Hk : ~ D k).
    { intros H. pose proof (proj1 Hf k H) as G. cbn [touches] in G. rewrite Nat.eqb_refl in G. discriminate. }
    rewrite (sim_slots _ _ _ _ Hs k Hk). destruct (e_slots s k) as [x|] eqn:E; [|reflexivity].
    cbn [rbind]. rewrite Hu. assert (Hx : snd x = None).
    { eapply sim_none; [exact Hs|]. rewrite (sim_slots _ _ _ _ Hs k Hk). exact E. }
    destruct x as [x xt]. cbn [snd] in Hx. subst xt. apply rel_ret0; auto.
  - assert (Hk : ~ K k).
    { intros H. pose proof (proj2 Hf k H) as G. cbn [overwrites] in G. rewrite Nat.eqb_refl in G. discriminate. }
    assert (HkD : ~ D k) by auto.
    rewrite (sim_slots _ _ _ _ Hs k HkD). destruct (e_slots s k) as [x|] eqn:E.
    + apply rel_ret0; auto. eapply sim_none; [exact Hs|]. rewrite (sim_slots _ _ _ _ Hs k HkD). exact E.
    + eapply relg_bind.
      { apply (Hlz i D K (mkRef v2 a2)); auto.
        - intros n Hn. pose proof (proj2 Hf n Hn) as G. cbn [overwrites] in G. apply orb_false_iff in G. tauto.
        - apply sim_init. exact Hs. }
      intros x s1 s1' [Hx Hslot] Hs1. cbn [r_val] in *. apply rel_same.
      * split; [exact Hx|]. intros n Hn. cbn [set_slot e_slots]. unfold slot_set.
        destruct (Nat.eqb_spec n k); [reflexivity | apply Hslot; exact Hn].
      * apply sim_keep_both; assumption.
  - apply andb_true_iff in Haf. destruct Haf as [Aa Ab]. destruct (free_logic _ _ _ _ _ _ Hf) as [Fa Fb].
    eapply relg_bind.
    { apply (IHa M lz lz' Aa Hlz D K (mkRef v2 a2)); [|exact Hs]. eapply ok_sub; [exact Hok | exact Fa |].
      intros n Hn. cbn [in_place] in Hn. apply andb_true_iff in Hn. tauto. }
    intros x s1 s1' [Hx Hslot] Hs1. cbn [r_val] in *.
    destruct (sc C && M_Logic.decides op (fst x)); [apply rel_same; [split; assumption | exact Hs1]|].
    replace (snd x) with (@None attribute) by (symmetry; exact Hx).
    eapply relg_bind.
    { apply (IHb M lz lz' Ab Hlz (plus v2 D) K (mkRef None a2)); [|exact Hs1]. apply ok_temps.
      - apply plus_incl; assumption.
      - eapply free_later; [exact Hok | exact Fb |]. intros n Hn. cbn [in_place] in Hn.
        apply andb_true_iff in Hn. destruct Hn as [_ Hn]. apply negb_true_iff in Hn. exact Hn. }
    intros z s2 s2' [Hz _] Hs2. cbn [r_val plus] in *.
    replace (snd z) with (@None attribute) by (symmetry; exact Hz). rewrite logic_off.
    apply rel_ret; auto.
  - apply andb_true_iff in Haf. destruct Haf as [Haf Ab]. apply andb_true_iff in Haf. destruct Haf as [Ac Aa].
    destruct (free_cond _ _ _ _ _ _ Hf) as (Fc & Fa & Fb).
    eapply relg_bind.
    { apply (IHc M lz lz' Ac Hlz D K temps); [|exact Hs]. apply ok_temps; assumption. }
    intros x s1 s1' [Hx _] Hs1. cbn [r_val temps plus] in *.
    pose proof (check_off x) as Hco.
    destruct (sc C).
    + destruct (ternary_stop None x) as [r|]; [apply rel_ret0; auto|].
      destruct (is_true (fst x)).
      * apply (IHa M lz lz' Aa Hlz D K (mkRef v2 a2)); [|exact Hs1]. eapply ok_sub; [exact Hok | exact Fa |].
        intros n Hn. cbn [in_place] in Hn. apply andb_true_iff in Hn. tauto.
      * apply (IHb M lz lz' Ab Hlz D K (mkRef v2 a2)); [|exact Hs1]. eapply ok_sub; [exact Hok | exact Fb |].
        intros n Hn. cbn [in_place] in Hn. apply andb_true_iff in Hn. tauto.
    + eapply relg_bind.
      { apply (IHa M lz lz' Aa Hlz D K temps); [|exact Hs1]. apply ok_temps; assumption. }
      intros y s2 s2' [Hy _] Hs2. cbn [r_val temps plus] in *.
      eapply relg_bind.
      { apply (IHb M lz lz' Ab Hlz D K temps); [|exact Hs2]. apply ok_temps; assumption. }
      intros z s3 s3' [Hz _] Hs3. cbn [r_val temps plus] in *.
      apply rel_ret0; auto. destruct (ternary_stop None x) as [r|]; [auto|]. destruct (is_true (fst x)); assumption.
  - apply andb_true_iff in Haf. destruct Haf as [Aa Ab]. destruct (free_or _ _ _ _ _ _ Hf) as [Fa Fb].
    eapply relg_bind.
    { apply (IHa M lz lz' Aa Hlz D K (mkRef v2 a2)); [|exact Hs]. eapply ok_sub; [exact Hok | exact Fa |].
      intros n Hn. cbn [in_place] in Hn. apply andb_true_iff in Hn. tauto. }
    intros x s1 s1' [Hx Hslot] Hs1. cbn [r_val] in *.
    assert (Fb' : free M (plus v2 D) K b).
    { eapply free_later; [exact Hok | exact Fb |]. intros n Hn. cbn [in_place] in Hn.
      apply andb_true_iff in Hn. destruct Hn as [_ Hn]. apply negb_true_iff in Hn. exact Hn. }
    destruct (sc C).
    + destruct (direct_or_first k x) as [r|] eqn:E; [apply rel_ret; auto; eapply first_off; eassumption|].
      replace (snd x) with (@None attribute) by (symmetry; exact Hx). apply rel_plus.
      eapply relg_bind.
      { apply (IHb M lz lz' Ab Hlz (plus v2 D) K (mkRef v2 a2)); [|exact Hs1]. apply ok_later; assumption. }
      intros z s2 s2' [Hz _] Hs2. cbn [r_val] in *. apply rel_ret; auto. apply second_off. exact Hz.
    + eapply relg_bind.
      { apply (IHb M lz lz' Ab Hlz (plus v2 D) K temps); [|exact Hs1]. apply ok_temps; [|exact Fb'].
        apply plus_incl; assumption. }
      intros z s2 s2' [Hz _] Hs2. cbn [r_val temps plus] in *. apply rel_ret; auto. apply or_off; assumption.
  - assert (HF : Forall (fun e => follows M (dsev C e lz) (fun rf t s => deval C mv e lz' None rf t s) e) args).
    { clear Hok Hf. induction args as [|x args IHl]; [constructor|]. inversion IH; subst.
      cbn [all_of] in Haf. apply andb_true_iff in Haf. destruct Haf as [A1 A2]. constructor; auto. }
    pose proof (free_args _ _ _ _ _ Hf) as Fargs.
    assert (Hone : forall x : rcore, args = [x] -> forall n, all_of (in_place n (fun j => M j n)) args = true ->
      in_place n (fun j => M j n) x = true).
    { intros x -> n Hn. apply in_all in Hn. exact Hn. }
    assert (Hin : forall x l, args = x :: l -> (forall n, in_place n (fun j => M j n) (RApp op args) = true ->
        in_place n (fun j => M j n) x && negb (any_of (touches n (fun j => M j n)) l) = true) ->
      ok M D K v2 x /\ Forall (free M (plus v2 D) K) l).
    { intros x l -> Hp. inversion Fargs as [|u w Fx Fl]; subst. split.
      - eapply ok_sub; [exact Hok | exact Fx|]. intros n Hn. apply Hp in Hn. apply andb_true_iff in Hn. tauto.
      - assert (G : forall n, in_place n (fun j => M j n) (RApp op (x :: l)) = true ->
                    any_of (touches n (fun j => M j n)) l = false).
        { intros n Hn. apply Hp in Hn. apply andb_true_iff in Hn. destruct Hn as [_ Hn].
          apply negb_true_iff in Hn. exact Hn. }
        clear Hp HF Hone IH Haf Hf Fargs Fx. revert G. generalize (ok_val _ _ _ _ _ Hok) as Hov. intros Hov G.
        assert (G' : forall n, v2 = Some n -> D n \/ any_of (touches n (fun j => M j n)) l = false).
        { intros n Hn. destruct (Hov n Hn) as [_ [H | H]]; [left; exact H | right; apply G; exact H]. }
        clear G Hov Hok. induction l as [|z l IHl]; [constructor|]. inversion Fl as [|u w Fz Fl']; subst.
        constructor.
        + split; [|apply Fz]. intros n Hn. destruct v2 as [m|]; cbn [plus] in Hn; [|apply Fz; exact Hn].
          destruct Hn as [Hn | ->]; [apply Fz; exact Hn|]. destruct (G' m eq_refl) as [H | H]; [apply Fz; exact H|].
          cbn [any_of] in H. apply orb_false_iff in H. tauto.
        + apply IHl; [exact Fl'|]. intros n Hn. destruct (G' n Hn) as [H | H]; [left; exact H|].
          right. cbn [any_of] in H. apply orb_false_iff in H. tauto. }
    destruct op.
    + destruct args as [|x [|y args]]; try exact I. cbn [seval_list direct_arity List.length Nat.eqb direct_app].
      rewrite !rbind_assoc. inversion HF as [|u w Hx _]; subst. inversion Fargs as [|u w Fx _]; subst.
      eapply relg_bind.
      { apply (Hx D K (mkRef v2 a2)); [|exact Hs]. eapply ok_sub; [exact Hok | exact Fx |].
        intros n Hn. apply (Hone x eq_refl). exact Hn. }
      intros z s1 s1' [Hz _] Hs1. cbn [r_val rbind] in *. unfold do_direct. cbn [op_invokes direct_op].
      rewrite add_log_nil. rewrite <- (rbind_ret (rlift _ s1)). eapply relg_lift; [exact Hs1|].
      intros w Hw. apply rel_ret; auto. eapply select_off; eassumption.
    + destruct args as [|x [|y [|? ?]]]; try exact I. cbn [seval_list direct_arity List.length Nat.eqb direct_app].
      inversion HF as [|u w Hx HF1]; subst. inversion HF1 as [|u w Hy _]; subst.
      inversion Fargs as [|u w Fx Fl]; subst. inversion Fl as [|u w Fy _]; subst.
      rewrite !rbind_assoc. eapply relg_bind; [apply (Hx D K temps); [apply ok_temps; assumption | exact Hs]|].
      intros z s1 s1' [Hz _] Hs1. cbn [r_val temps plus] in *. rewrite !rbind_assoc.
      eapply relg_bind; [apply (Hy D K temps); [apply ok_temps; assumption | exact Hs1]|].
      intros z2 s2 s2' [Hz2 _] Hs2. cbn [r_val temps plus rbind] in *. unfold do_direct. cbn [op_invokes direct_op].
      rewrite add_log_nil. rewrite <- (rbind_ret (rlift _ s2)). eapply relg_lift; [exact Hs2|].
      intros w Hw. apply rel_ret0; auto. eapply index_off; eassumption.
    + destruct args as [|x [|y args]]; try exact I. cbn [seval_list direct_arity List.length Nat.eqb direct_app].
      rewrite !rbind_assoc. inversion HF as [|u w Hx _]; subst. inversion Fargs as [|u w Fx _]; subst.
      eapply relg_bind.
      { apply (Hx D K (mkRef v2 a2)); [|exact Hs]. eapply ok_sub; [exact Hok | exact Fx |].
        intros n Hn. apply (Hone x eq_refl). exact Hn. }
      intros z s1 s1' [Hz _] Hs1. cbn [r_val rbind] in *. unfold do_direct. cbn [op_invokes direct_op rlift].
      rewrite add_log_nil. apply rel_ret; auto.
    + destruct args as [|x [|y args]]; try exact I. cbn [seval_list direct_arity List.length Nat.eqb direct_app].
      rewrite !rbind_assoc. inversion HF as [|u w Hx _]; subst. inversion Fargs as [|u w Fx _]; subst.
      eapply relg_bind.
      { apply (Hx D K (mkRef v2 a2)); [|exact Hs]. eapply ok_sub; [exact Hok | exact Fx |].
        intros n Hn. apply (Hone x eq_refl). exact Hn. }
      intros z s1 s1' [Hz _] Hs1. cbn [r_val rbind] in *. unfold do_direct. cbn [op_invokes direct_op rlift].
      rewrite add_log_nil. apply rel_ret; auto.
    + destruct args as [|x [|y [|? ?]]]; try exact I. cbn [seval_list direct_arity List.length Nat.eqb direct_app].
      destruct (Hin x [y] eq_refl) as [Ox Fl]; [intros n Hn; exact Hn|].
      inversion HF as [|u w Hx HF1]; subst. inversion HF1 as [|u w Hy _]; subst. inversion Fl as [|u w Fy _]; subst.
      rewrite !rbind_assoc. cbn [r_val].
      eapply relg_bind; [apply (Hx D K (mkRef v2 None)); [exact Ox | exact Hs]|].
      intros z s1 s1' [Hz _] Hs1. cbn [r_val] in *. rewrite !rbind_assoc.
      eapply relg_bind; [apply (Hy (plus v2 D) K temps); [apply ok_temps; [apply plus_incl; assumption | exact Fy] | exact Hs1]|].
      intros z2 s2 s2' [Hz2 _] Hs2. cbn [r_val temps plus rbind] in *. unfold do_direct. cbn [op_invokes direct_op].
      rewrite add_log_nil. rewrite <- (rbind_ret (rlift _ s2)), (obind_rlift (EqualityStep C _ z z2)).
      eapply relg_lift; [exact Hs2|]. intros w Hw. apply rel_ret; auto.
    + destruct args as [|x [|y [|? ?]]]; try exact I. cbn [seval_list direct_arity List.length Nat.eqb direct_app].
      destruct (Hin x [y] eq_refl) as [Ox Fl]; [intros n Hn; exact Hn|].
      inversion HF as [|u w Hx HF1]; subst. inversion HF1 as [|u w Hy _]; subst. inversion Fl as [|u w Fy _]; subst.
      rewrite !rbind_assoc. cbn [r_val].
      eapply relg_bind; [apply (Hx D K (mkRef v2 None)); [exact Ox | exact Hs]|].
      intros z s1 s1' [Hz _] Hs1. cbn [r_val] in *. rewrite !rbind_assoc.
      eapply relg_bind; [apply (Hy (plus v2 D) K temps); [apply ok_temps; [apply plus_incl; assumption | exact Fy] | exact Hs1]|].
      intros z2 s2 s2' [Hz2 _] Hs2. cbn [r_val temps plus rbind] in *. unfold do_direct. cbn [op_invokes direct_op].
      rewrite add_log_nil. rewrite <- (rbind_ret (rlift _ s2)), (obind_rlift (InStep C z z2)).
      eapply relg_lift; [exact Hs2|]. intros w Hw. apply rel_ret; auto.
    + cbn [direct_arity direct_app]. eapply relg_bind.
      { apply (args_follow M (fun x => dsev C x lz) (fun e rf t s => deval C mv e lz' None rf t s) K D HI args s s' HF Fargs Hs). }
      intros xs s1 s1' _ Hs1. unfold do_direct, do_op. cbn [direct_op].
      rewrite <- (rbind_ret (rlift _ (add_log _ s1))), obind_rlift.
      eapply relg_lift; [apply sim_log; exact Hs1|]. intros w _. apply rel_ret0; auto. apply sim_log. exact Hs1.
    + cbn [direct_app].
      apply (list_follows M (fun x => dsev C x lz) (fun e rf t s => deval C mv e lz' None rf t s) v2 a2 K Hv);
        try assumption.
      destruct args as [|x l]; [exact I|]. apply (Hin x l eq_refl). intros n Hn. exact Hn.
    + cbn [direct_app].
      apply (map_follows M (fun x => dsev C x lz) (fun e rf t s => deval C mv e lz' None rf t s) v2 a2 K Hv D HI
               (List.length args)); try assumption. lia.
  - repeat (apply andb_true_iff in Haf; destruct Haf as [Haf ?]).
    apply negb_true_iff in Haf. rename Haf into Oc.
    match goal with H : negb (overwrites ac _ st) = true |- _ => apply negb_true_iff in H; rename H into Os end.
    match goal with H : in_place ac _ st = true |- _ => rename H into Hin end.
    destruct (free_comp _ _ _ _ _ _ _ _ _ _ _ Hf) as (Fr & Fi & Fc & Fs & Fb).
    assert (Hslots : forall n, K n -> n <> it /\ n <> it2 /\ n <> ac).
    { intros n Hn. pose proof (proj2 Hf n Hn) as G. cbn [overwrites] in G.
      repeat (apply orb_false_iff in G; destruct G as [G ?]).
      repeat match goal with H : Nat.eqb _ _ = false |- _ => apply Nat.eqb_neq in H end. auto. }
    eapply relg_bind; [apply (IHr M lz lz' ltac:(assumption) Hlz D K temps); [apply ok_temps; assumption | exact Hs]|].
    intros rv s1 s1' [Hrv _] Hs1. cbn [r_val temps plus] in *.
    destruct (comp_init C rv) as [q|[bm items]]; [apply rel_ret0; auto|].
    eapply relg_bind; [apply (IHi M lz lz' ltac:(assumption) Hlz D K temps); [apply ok_temps; assumption | exact Hs1]|].
    intros iv s2 s2' [Hiv _] Hs2. cbn [r_val temps plus] in *.
    assert (Fc' : free M D (plus (Some ac) K) c).
    { split; [apply Fc|]. intros n [Hn | ->]; [apply Fc; exact Hn | exact Oc]. }
    assert (Fs' : free M D (plus (Some ac) K) st).
    { split; [apply Fs|]. intros n [Hn | ->]; [apply Fs; exact Hn | exact Os]. }
    assert (HacD : ~ D ac). { intros Hb. apply HI in Hb. apply Hslots in Hb. tauto. }
    eapply relg_bind.
    { eapply (loop_follows M it it2 ac bm (snd rv) (dsev C c lz) (dsev C st lz)
        (fun rf t s => deval C mv c lz' None rf t s) (fun rf t s => deval C mv st lz' None rf t s) c st D K);
        try assumption.
      - apply IHc; assumption.
      - apply IHs; assumption.
      - apply sim_open. apply sim_set_both; assumption. }
    intros o s3 s3' _ Hs3. apply (sim_less _ _ K) in Hs3; [|intros n Hn; left; exact Hn].
    assert (Hs4 : sim D K (clear_iter it it2 s3) (clear_iter it it2 s3')).
    { apply sim_clear_iter; [| |exact Hs3]; intros Hb; apply Hslots in Hb; tauto. }
    eapply relg_bind with (P := holds v2) (D := plus v2 D) (K := K).
    { destruct o as [w|].
      - apply rel_ret0; auto.
      - apply (IHb M lz lz' ltac:(assumption) Hlz D K (mkRef v2 a2)); [|exact Hs4].
        eapply ok_sub; [exact Hok | exact Fb |]. intros n Hn. exact Hn. }
    intros x s5 s5' [Hx Hslot] Hs5. apply rel_same.
    + split; [exact Hx|]. intros n Hn. cbn [clear_slot e_slots]. rewrite slot_other; [apply Hslot; exact Hn|].
      intros ->. specialize (Hv ac Hn). apply Hslots in Hv. tauto.
    + apply sim_clear_both; [|exact Hs5]. intros Hb. apply Hslots in Hb. tauto.
  - apply andb_true_iff in Haf. destruct Haf as [Ae Ab].
    assert (Hk : forall n, K n -> n <> k /\ overwrites n (fun j => M j n) e = false /\
               overwrites n (also i (touches n (fun j => M j n) e) (fun j => M j n)) b = false).
    { intros n Hn. pose proof (proj2 Hf n Hn) as G. cbn [overwrites] in G.
      repeat (apply orb_false_iff in G; destruct G as [G ?]). apply Nat.eqb_neq in G. auto. }
    assert (Ht : forall n, D n -> touches n (fun j => M j n) e = false /\
               touches n (also i (touches n (fun j => M j n) e) (fun j => M j n)) b = false).
    { intros n Hn. pose proof (proj1 Hf n Hn) as G. cbn [touches] in G.
      repeat (apply orb_false_iff in G; destruct G as [G ?]). auto. }
    eapply relg_bind.
    { apply (IHb _ (set_lz i (dsev C e lz) lz)
               (set_dlz i (fun room2 => deval C mv e lz' room2) lz') Ab); [|clear Hs|exact Hs].
      - intros j D0 K0 rf s0 s0' HI0 HM Hv0 Hs0. unfold set_lz, set_dlz. destruct (Nat.eqb j i) eqn:Ej.
        + apply (IHe M lz lz' Ae Hlz D0 K0 rf); [|exact Hs0].
          assert (G : forall n, K0 n -> overwrites n (fun j => M j n) e = false /\ in_place n (fun j => M j n) e = true).
          { intros n Hn. apply touches_false. specialize (HM n Hn). rewrite ?Ej in HM. exact HM. }
          constructor; [exact HI0 | | |].
          * intros n Hn. specialize (HM n (HI0 n Hn)). rewrite ?Ej in HM. exact HM.
          * intros n Hn. apply G. exact Hn.
          * intros n Hn. split; [apply Hv0; exact Hn|]. right. apply G. apply Hv0. exact Hn.
        + apply Hlz; auto.
      - constructor; auto.
        + intros n Hn. apply (Ht n Hn).
        + intros n Hn. apply (Hk n Hn).
        + intros n Hn. split; [apply Hv; exact Hn|]. destruct (ok_val _ _ _ _ _ Hok n Hn) as [_ [H | H]]; [left; exact H|].
          right. exact H. }
    intros x s1 s1' [Hx Hslot] Hs1. cbn [r_val] in *. apply rel_same.
    + split; [exact Hx|]. intros n Hn. cbn [clear_slot e_slots]. rewrite slot_other; [apply Hslot; exact Hn|].
      intros ->. specialize (Hv k Hn). apply Hk in Hv. tauto.
    + apply sim_clear_both; [|exact Hs1]. intros H. apply Hk in H. tauto.
Qed.

Theorem direct_run_dsev r : alias_free no_inits r = true ->
  match dsev C r (fun _ _ => RUB) est_init with
  | RVal x s => exists s', direct_run C mv None r = RVal (fst x) s' /\ snd x = None /\
      e_iterations s' = e_iterations s /\ e_log s' = e_log s /\ e_loops s' = e_loops s /\ e_inits s' = e_inits s
  | RErr e s => exists s', direct_run C mv None r = RErr e s' /\
      e_iterations s' = e_iterations s /\ e_log s' = e_log s /\ e_loops s' = e_loops s /\ e_inits s' = e_inits s
  | RFault w => direct_run C mv None r = RFault w
  | RUB => direct_run C mv None r = RUB
  end.
Proof.
  intros H.
  assert (G : rel None (fun _ => False) (fun _ => False) (dsev C r (fun _ _ => RUB) est_init)
                (deval C mv r no_dlazy None temps None est_init)).
  { apply (alias_follows r no_inits (fun _ _ => RUB) no_dlazy H) with (rf := temps).
    - intros i D K rf s s' _ _ _ _. exact I.
    - constructor; cbn [r_val temps]; try contradiction; discriminate.
    - constructor; auto; try contradiction. discriminate. }
  unfold direct_run. unfold rel, relg in G.
  destruct (dsev C r (fun _ _ => RUB) est_init) as [x s|e s|w|],
           (deval C mv r no_dlazy None temps None est_init) as [x' s'|e' s'|w'|]; try contradiction.
  - destruct G as (-> & [Hx _] & [_ _ _ Hr]). eauto.
  - destruct G as (-> & Hr). eauto.
  - congruence.
  - reflexivity.
Qed.
End Off.
