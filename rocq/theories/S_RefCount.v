(* Specification of reference counting: programs that own references, and their
   executions. *)
From Coq Require Import List Bool ZArith.
From Verif Require Import Base.
From Verif Require Import M_RefCount.
Import ListNotations.
Open Scope Z_scope.

Record system := mkSystem { the_block : block; threads : list thread }.
Definition total (f : thread -> Z) (l : list thread) : Z := fold_right (fun t n => f t + n) 0 l.
Definition strong_owned (s : system) : Z := total own_strong (threads s).
Definition weak_owned (s : system) : Z := total own_weak (threads s).

(* The rules for using references.  Making a new reference and reading the
   object need a reference that some thread owns (it need not be the one that
   acts: objects holding references are shared); the others need one owned by
   the thread that acts. *)
Definition may (s : system) (t : thread) (a : action) : Prop :=
  match a with
  | AStrongRef | AUse | AUnique => 0 < strong_owned s
  | AWeakRef | AExpired => 0 < strong_owned s \/ 0 < weak_owned s
  | AStrongUnref => 0 < own_strong t
  | AWeakUnref | ALoad => 0 < own_weak t
  | AFinalize | AReleaseWeak | ADelete | AExchange _ => True
  end.

Fixpoint set_thread (l : list thread) (i : nat) (t : thread) : list thread :=
  match l, i with
  | [], _ => []
  | _ :: l', O => t :: l'
  | x :: l', S j => x :: set_thread l' j t
  end.

(* One step of an execution: a thread acts; or an idle thread hands references
   over to another idle thread; or a thread starts.  [None] after an action
   that is undefined behaviour. *)
Inductive event :=
| Acts (i : nat) (a : action) (returned : option bool)
| Hands (i j : nat) (n m : Z)
| Starts.
Inductive runs : system -> event -> option system -> Prop :=
| run_action s i t a b' t' r :
    nth_error (threads s) i = Some t -> may s t a ->
    act (the_block s) t a = Some (Next b' t' r) ->
    runs s (Acts i a r) (Some (mkSystem b' (set_thread (threads s) i t')))
| run_undefined s i t a :
    nth_error (threads s) i = Some t -> may s t a ->
    act (the_block s) t a = Some Undefined ->
    runs s (Acts i a None) None
| run_hand s i j t u n m :
    i <> j -> nth_error (threads s) i = Some t -> nth_error (threads s) j = Some u ->
    at_place t = Idle -> at_place u = Idle ->
    0 <= n <= own_strong t -> 0 <= m <= own_weak t ->
    runs s (Hands i j n m)
      (Some (mkSystem (the_block s)
        (set_thread (set_thread (threads s) i (mkThread (own_strong t - n) (own_weak t - m) Idle))
           j (mkThread (own_strong u + n) (own_weak u + m) Idle))))
| run_start s :
    runs s Starts (Some (mkSystem (the_block s) (threads s ++ [mkThread 0 0 Idle]))).

(* Executions start with one thread owning the one strong reference.  [limit]:
   the states in which fewer than 2^31 references of each kind are owned, the
   block's own included. *)
Definition limit (s : system) : Prop := strong_owned s < 2 ^ 31 /\ weak_owned s < 2 ^ 31 - 1.
Definition start : system := mkSystem new_block [mkThread 1 0 Idle].
Inductive reaches (ok : system -> Prop) : system -> Prop :=
| reach_start : reaches ok start
| reach_step s e s' : reaches ok s -> runs s e (Some s') -> ok s' -> reaches ok s'.

Definition quiet (s : system) : Prop :=
  Forall (fun t => own_strong t = 0 /\ own_weak t = 0 /\ at_place t = Idle) (threads s).
