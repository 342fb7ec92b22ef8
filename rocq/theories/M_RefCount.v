(* Model of the reference counts that values shared between threads use:
   common/internal/reference_count.h.  Every atomic operation is one step of
   one thread; the operations of the threads are interleaved in any order.
   Simplified: the interleaving is sequentially consistent (all accesses are to
   two atomic variables, and only the loads of StrengthenRef, IsUniqueRef and
   IsExpiredRef are not read-modify-write operations). *)
From Coq Require Import List Bool ZArith.
From Verif Require Import Base.
Import ListNotations.
Open Scope Z_scope.

(* int32_t arithmetic of std::atomic wraps around *)
Definition wrap32 (z : Z) : Z := (z + 2 ^ 31) mod 2 ^ 32 - 2 ^ 31.

(* reference_count.h:124-150 class ReferenceCount: the two counters (148-149),
   and how often the virtual functions Finalize, which destroys the object, and
   Delete, which frees the memory of the counters, have been called.  *)
Record block := mkBlock { strong : Z; weak : Z; finalized : nat; deleted : nat }.
(* 148-149: both counters start at 1; creating it gives one strong reference *)
Definition new_block : block := mkBlock 1 1 0 0.

(* Where a thread is within one of the functions. *)
Inductive place :=
| Idle
| ToFinalize            (* StrongUnref, 309: the count was 1 *)
| ToReleaseWeak         (* StrongUnref, 310: before WeakUnref *)
| ToDelete              (* WeakUnref, 361: the count was 1 *)
| ToExchange (count : Z). (* StrengthenRef, 329: count has been read and is not 0 *)
(* A thread: the strong and weak references it owns. *)
Record thread := mkThread { own_strong : Z; own_weak : Z; at_place : place }.

(* The steps. *)
Inductive action :=
| AStrongRef | AStrongUnref | AFinalize | AReleaseWeak | ADelete
| AWeakRef | AWeakUnref
| ALoad | AExchange (spurious : bool)
| AUnique | AExpired
| AUse.                (* reading the object through a strong reference *)

(* What a step gives: the state after it and the value the function returns,
   if it returns one at this step; or undefined behaviour. *)
Inductive result := Next (b : block) (t : thread) (returned : option bool) | Undefined.

(* Any access to the counters after Delete, and any access to the object after
   Finalize, is undefined.  A step that the thread's place does not lead to is
   not a step (None). *)
Definition act (b : block) (t : thread) (a : action) : option result :=
  let live r := Some (if Nat.eqb (deleted b) 0 then r else Undefined) in
  let set_strong n := mkBlock n (weak b) (finalized b) (deleted b) in
  let set_weak n := mkBlock (strong b) n (finalized b) (deleted b) in
  match at_place t, a with
  (* reference_count.h:291-295 StrongRef; the debug-only check of the old count is
     left out, here and below (344-346) *)
  | Idle, AStrongRef =>
      live (Next (set_strong (wrap32 (strong b + 1)))
                 (mkThread (own_strong t + 1) (own_weak t) Idle) None)
  (* 303-308 StrongUnref: the decrement and the test *)
  | Idle, AStrongUnref =>
      live (if strong b <=? 0 then Undefined (* ABSL_ASSUME(count > 0) *)
            else Next (set_strong (wrap32 (strong b - 1)))
                      (mkThread (own_strong t - 1) (own_weak t)
                         (if strong b =? 1 then ToFinalize else Idle)) None)
  (* 309 Finalize: destroys the object (EmplacedReferenceCount::Finalize 186-188 etc.) *)
  | ToFinalize, AFinalize =>
      live (if Nat.eqb (finalized b) 0
            then Next (mkBlock (strong b) (weak b) (S (finalized b)) (deleted b))
                      (mkThread (own_strong t) (own_weak t) ToReleaseWeak) None
            else Undefined)
  (* 310 WeakUnref, 355-360 *)
  | ToReleaseWeak, AReleaseWeak =>
      live (if weak b <=? 0 then Undefined
            else Next (set_weak (wrap32 (weak b - 1)))
                      (mkThread (own_strong t) (own_weak t)
                         (if weak b =? 1 then ToDelete else Idle)) None)
  (* 361 Delete (ReferenceCounted::Delete 163) *)
  | ToDelete, ADelete =>
      live (Next (mkBlock (strong b) (weak b) (finalized b) (S (deleted b)))
                 (mkThread (own_strong t) (own_weak t) Idle) None)
  (* 343-347 WeakRef *)
  | Idle, AWeakRef =>
      live (Next (set_weak (wrap32 (weak b + 1)))
                 (mkThread (own_strong t) (own_weak t + 1) Idle) None)
  (* 355-363 WeakUnref by an owner *)
  | Idle, AWeakUnref =>
      live (if weak b <=? 0 then Undefined
            else Next (set_weak (wrap32 (weak b - 1)))
                      (mkThread (own_strong t) (own_weak t - 1)
                         (if weak b =? 1 then ToDelete else Idle)) None)
  (* 321-328 StrengthenRef: the load, and the test for 0 *)
  | Idle, ALoad =>
      live (if strong b <? 0 then Undefined
            else if strong b =? 0 then Next b t (Some false)
            else Next b (mkThread (own_strong t) (own_weak t) (ToExchange (strong b))) None)
  (* 329-333 compare_exchange_weak, which may fail though the values are equal;
     when it fails, count is the current value and the loop continues at 323 *)
  | ToExchange count, AExchange spurious =>
      live (if (strong b =? count) && negb spurious
            then Next (set_strong (wrap32 (count + 1)))
                      (mkThread (own_strong t + 1) (own_weak t) Idle) (Some true)
            else if strong b <? 0 then Undefined
            else if strong b =? 0
            then Next b (mkThread (own_strong t) (own_weak t) Idle) (Some false)
            else Next b (mkThread (own_strong t) (own_weak t) (ToExchange (strong b))) None)
  (* 372-377 IsUniqueRef *)
  | Idle, AUnique =>
      live (if strong b <=? 0 then Undefined else Next b t (Some (strong b =? 1)))
  (* 385-390 IsExpiredRef *)
  | Idle, AExpired =>
      live (if strong b <? 0 then Undefined else Next b t (Some (strong b =? 0)))
  | Idle, AUse =>
      live (if Nat.eqb (finalized b) 0 then Next b t None else Undefined)
  | _, _ => None
  end.
