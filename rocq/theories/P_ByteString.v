(* Properties C78 and C79: what strings contain, and who frees their memory. *)
From Coq Require Import List Bool ZArith Arith Lia Permutation.
From Verif Require Import Base.
From Verif Require Import M_ByteString S_ByteString L_ByteString L_ByteString2 L_ByteString3.
Import ListNotations.
Open Scope list_scope.

Lemma Inv_start n : Inv no_memory (repeat None n) (nothing n).
Proof.
  split; [|split; [|reflexivity]].
  - assert (E : vars_refs (repeat None n) = []) by (induction n; cbn; auto). rewrite E. split; [constructor|]. intros b s m f N. destruct b; discriminate.
  - cbn. induction n; cbn; constructor; auto. exact Logic.I.
Qed.
(* C78: a program that uses strings properly (S_ByteString) meets no undefined
   behaviour, and reads the bytes it should, whatever representation the strings
   have.  Release builds. *)
Theorem C78_contents n ops w' out : history false ops (nothing n) = Some (w', out) ->
  exists h' vs', run false ops (repeat None n) no_memory = Done h' (vs', out).
Proof.
  intros H. pose proof (run_ok ops no_memory (repeat None n) (nothing n) w' out (Inv_start n) H) as W. unfold wp in W.
  destruct (run false ops (repeat None n) no_memory) as [h' [vs' out']| |]; try contradiction. destruct W as [_ E]. cbn in E. subst out'. eauto.
Qed.
Print Assumptions C78_contents.

(* C79: counted memory is freed at most once; when no string or Cord is left, all
   of it has been. *)
Theorem C79_freed_once n ops w' out h' vs' : history false ops (nothing n) = Some (w', out) ->
  run false ops (repeat None n) no_memory = Done h' (vs', out) ->
  forall b k, nth_error (blocks h') b = Some k -> (exists m, b_home k = Counted m) ->
    (b_freed k <= 1)%nat /\ (Forall (eq None) (things w') -> b_freed k = 1%nat).
Proof.
  intros H R b k N [m C]. pose proof (run_ok ops no_memory (repeat None n) (nothing n) w' out (Inv_start n) H) as W. unfold wp in W. rewrite R in W.
  destruct W as [(O & F & _) _]. cbn [fst] in O, F. destruct O as [_ O]. destruct k as [s w f]. cbn in C. subst w. destruct (O b s m f N) as [-> ->]. cbn [b_freed].
  split; [destruct (_ =? _)%nat; lia|]. intros A. assert (E : vars_refs vs' = []).
  { clear - F A. induction F as [|o t vs ts R F IH]; [reflexivity|]. inversion A; subst. cbn in R. destruct o as [[r|c]|]; cbn in R; try contradiction. cbn. auto. }
  rewrite E. reflexivity.
Qed.
Print Assumptions C79_freed_once.
(* ... and not while a string or Cord that was not moved from still has bytes in it *)
Theorem C79_not_early n ops w' out h' vs' : history false ops (nothing n) = Some (w', out) ->
  run false ops (repeat None n) no_memory = Done h' (vs', out) ->
  forall x b off size, nth_error vs' x = Some (Some (Str (Medium b off size (ORef b)))) -> 
    exists k, nth_error (blocks h') b = Some k /\ b_freed k = 0%nat /\ alive h' k = true.
Proof.
  intros H R x b off size N. pose proof (run_ok ops no_memory (repeat None n) (nothing n) w' out (Inv_start n) H) as W. unfold wp in W. rewrite R in W.
  destruct W as [(O & _ & _) _]. cbn [fst] in O. assert (I : In b (vars_refs vs')) by (apply (refs_incl vs' x _ N); now left).
  destruct (held_count h' _ b O I) as (s & m & f & Nb & _). exists (mkBlock s (Counted (S m)) f). split; [exact Nb|]. split; [|reflexivity].
  cbn. destruct O as [_ O]. destruct (O b s (S m) f Nb) as [_ ->]. reflexivity.
Qed.
Print Assumptions C79_not_early.

Definition text (n : nat) : list Z := repeat 97%Z n.
(* The comment of the class says that the allocator of a string never changes.
   Assignment does change it: a string made without an arena then points into
   the arena of the other one, which may be destroyed first. *)
Theorem C79_allocator_refuted : exists n ops w' out,
  history true ops (nothing n) = Some (w', out) /\ run false ops (repeat None n) no_memory = Undefined.
Proof.
  exists 2%nat, [NewView 0 None []; NewView 1 (Some 7%nat) (text 20); Assign 0 1; Delete 1; DeleteArena 7%nat; Read 0]. do 2 eexists. split; vm_compute; reflexivity.
Qed.
Print Assumptions C79_allocator_refuted.
(* Debug builds stop at a check: copying a short substring of a long string into
   an arena, and swapping with a string moved from. *)
Theorem C78_debug_refuted :
  (exists n ops w' out, history false ops (nothing n) = Some (w', out) /\ In (NewCopy 2 (Some (Some 7%nat)) 1) ops /\
     run true ops (repeat None n) no_memory = CheckFailed) /\
  (exists n ops w' out, history false ops (nothing n) = Some (w', out) /\ In (SwapVars 1 3) ops /\
     run true ops (repeat None n) no_memory = CheckFailed).
Proof.
  split.
  - exists 3%nat, [NewView 0 None (text 20); NewSubstring 1 0 2 5; NewCopy 2 (Some (Some 7%nat)) 1]. do 2 eexists.
    split; [vm_compute; reflexivity|]. split; [cbn; tauto|]. vm_compute. reflexivity.
  - exists 4%nat, [NewCord 0 [text 10; text 10]; NewFromCord 1 None 0; NewMove 2 None 1; NewView 3 None []; SwapVars 1 3]. do 2 eexists.
    split; [vm_compute; reflexivity|]. split; [cbn; tauto|]. vm_compute. reflexivity.
Qed.
Print Assumptions C78_debug_refuted.

(* ---- a non-trivial history: all representations, sharing, moves ---- *)
Definition story : list op :=
  [NewView 0 None (text 20); NewCopy 1 None 0; NewSubstring 2 0 3 19; NewToCord 3 0; NewFromCord 4 None 3; Delete 0;
   DropPrefix 1 10; NewConcat 5 2 4 7%nat; NewMove 0 None 4; SwapVars 0 1; Assign 2 5; Read 0; Read 1; Read 2; Delete 5; Read 3;
   Delete 2; DeleteArena 7%nat; Read 3; Delete 0; Delete 1; Delete 3; Delete 4].
Example C78_case : history false story (nothing 6) =
  Some (mkWorld (repeat None 6) [7%nat], [text 10; text 20; text 36; text 20; text 20]).
Proof. vm_compute. reflexivity. Qed.
