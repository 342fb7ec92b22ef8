(* What concurrent lookups in one activation may be seen to do (C58), in terms
   of the events: calls of providers, their returns, and results of lookups. *)
From Coq Require Import ZArith List Bool String.
From Verif Require Import Base M_Value.
From Verif Require Import M_Activation.
Import ListNotations.
Open Scope list_scope.

(* two threads about to touch the same data, one to change it *)
Definition race (s : sys) : Prop :=
  exists t1 t2 f1 r1 d1 f2 r2 d2 l k1 k2,
    t1 <> t2 /\ sy_threads s t1 = mkThread (f1 :: r1) d1 /\ sy_threads s t2 = mkThread (f2 :: r2) d2 /\
    In (l, k1) (accesses f1) /\ In (l, k2) (accesses f2) /\ (k1 = Write \/ k2 = Write).

(* the provider call in progress after these events, latest first *)
Fixpoint running (tr : list event) : option (nat * string) :=
  match tr with
  | [] => None
  | EvCall t n _ _ :: _ => Some (t, n)
  | EvReturn _ _ _ :: _ => None
  | EvResult _ _ _ _ :: tr' => running tr'
  end.
Definition by_thread (e : event) : nat :=
  match e with EvCall t _ _ _ | EvReturn t _ _ | EvResult t _ _ _ => t end.
(* the last thing a thread was seen to do *)
Fixpoint last_of (t : nat) (tr : list event) : option event :=
  match tr with
  | [] => None
  | e :: tr' => if Nat.eqb (by_thread e) t then Some e else last_of t tr'
  end.
(* a variable's provider has given a value *)
Definition was_provided (n : string) (v : held) (tr : list event) : Prop :=
  exists t, In (EvReturn t n (Provided v)) tr.

(* A call is in order: no provider runs, this is the variable's provider, and
   the variable has no value yet. *)
Definition call_in_order (m : values) (n : string) (p : nat) (earlier : list event) : Prop :=
  running earlier = None /\ m n = Some (mkVE None (Some p)) /\ forall v, ~ was_provided n v earlier.
(* A result is right: the value bound; for a variable with a provider the value
   it gave, to whomever, or else what it has just told this thread. *)
Definition result_right (m : values) (t : nat) (n : string) (r : found) (earlier : list event) : Prop :=
  match m n with
  | None => r = NotFound
  | Some (mkVE (Some v) _) => r = Found v
  | Some (mkVE None None) => r = NotFound
  | Some (mkVE None (Some p)) =>
      match r with
      | Found v => was_provided n v earlier
      | NotFound => last_of t earlier = Some (EvReturn t n Nothing)
      | Error e => last_of t earlier = Some (EvReturn t n (Failed e))
      end
  end.
