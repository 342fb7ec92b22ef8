(* Model of runtime/activation.cc and runtime/activation.h: variables bound to
   values and to providers, looked up by any number of threads.

   Each step is one access to shared data, one operation on the mutex, or the
   start or end of a call of a host's provider.  A provider may look up other
   variables while it runs and returns anything its host may give.

   Simplifications.  Threads interleave (sequential consistency); C58_no_race
   shows that no two accesses race, so this loses nothing.  The descriptor pool
   and message factory arguments are left out.  A value records the arena it
   lives on, if any. *)
From Coq Require Import ZArith List Bool String.
From Verif Require Import Base M_Value.
Import ListNotations.
Open Scope list_scope.

Definition arena := nat.
Record held := mkHeld { h_value : value; h_arena : option arena }.

(* activation.h:122-127 ValueEntry; a provider is known by a number *)
Record ventry := mkVE { ve_value : option held; ve_provider : option nat }.
Definition values := string -> option ventry.
Definition set_entry (m : values) (n : string) (e : ventry) : values :=
  fun k => if String.eqb k n then Some e else m k.
Definition is_some {A} (o : option A) : bool := match o with Some _ => true | None => false end.

(* activation.cc:103-107 InsertOrAssignValue: whether the name was new *)
Definition InsertOrAssignValue (m : values) (n : string) (v : held) : bool * values :=
  (negb (is_some (m n)), set_entry m n (mkVE (Some v) None)).
(* activation.cc:109-114 InsertOrAssignValueProvider *)
Definition InsertOrAssignValueProvider (m : values) (n : string) (p : nat) : bool * values :=
  (negb (is_some (m n)), set_entry m n (mkVE None (Some p))).

(* what a provider returns: StatusOr<optional<Value>> *)
Inductive provided := Provided (v : held) | Nothing | Failed (e : status).
(* what FindVariable returns: StatusOr<bool> and *result *)
Inductive found := Found (v : held) | NotFound | Error (e : status).

(* where in FindVariable and ProvideValue a lookup is *)
Inductive pc :=
| PFind                    (* about to look for the entry, cc:48 *)
| PProvider                (* about to test entry.provider, cc:54 *)
| PPlain                   (* about to read entry.value, cc:57 *)
| PLock                    (* about to lock, cc:69 *)
| PMemo                    (* holds the lock; about to read entry.value, cc:70-73 *)
| PCall                    (* about to call the provider, cc:78-80 *)
| PInside (p : nat)        (* the provider runs *)
| PStore (o : provided)    (* it has returned, cc:81 *)
| PUnlock (r : found).     (* about to unlock and return, cc:75, 84, 86 *)
Record frame := mkFrame { f_name : string; f_arena : arena; f_pc : pc }.
Definition at_pc (f : frame) (c : pc) : frame := mkFrame (f_name f) (f_arena f) c.

(* a thread's lookups in progress, innermost first, and those it will make *)
Record thread := mkThread { th_stack : list frame; th_todo : list (string * arena) }.
Record sys := mkSys { sy_values : values; sy_mutex : option nat; sy_threads : nat -> thread }.
Definition set_thread (T : nat -> thread) (t : nat) (x : thread) : nat -> thread :=
  fun k => if Nat.eqb k t then x else T k.

(* what can be seen from outside *)
Inductive event :=
| EvCall (t : nat) (n : string) (p : nat) (a : arena)        (* a provider is called *)
| EvReturn (t : nat) (n : string) (o : provided)             (* it returns *)
| EvResult (t : nat) (n : string) (a : arena) (r : found).   (* a lookup ends *)

(* the hosts' providers: the variables one may look up while it runs, and what
   it may return, given its arena *)
Record host := mkHost {
  h_looks : nat -> arena -> string -> arena -> Prop;
  h_gives : nat -> string -> arena -> provided -> Prop }.

(* cc:48-61: FindVariable without a provider *)
Definition find_next (e : option ventry) (c : pc) : option (pc + found) :=
  match c, e with
  | PFind, None => Some (inr NotFound)
  | PFind, Some _ => Some (inl PProvider)
  | PProvider, Some e => Some (inl (if is_some (ve_provider e) then PLock else PPlain))
  | PPlain, Some e => Some (inr match ve_value e with Some v => Found v | None => NotFound end)
  | _, _ => None
  end.
(* cc:70-76: ProvideValue once locked *)
Definition memo_next (e : ventry) : pc :=
  match ve_value e with Some v => PUnlock (Found v) | None => PCall end.
(* cc:78-86: ProvideValue once the provider has returned; the entry after it *)
Definition store_next (e : ventry) (o : provided) : ventry * found :=
  match o with
  | Provided v => (mkVE (Some v) (ve_provider e), Found v)
  | Nothing => (e, NotFound)
  | Failed s => (e, Error s)
  end.

Inductive step (H : host) : sys -> nat -> option event -> sys -> Prop :=
| step_start m mu T t n a todo :
    T t = mkThread [] ((n, a) :: todo) ->
    step H (mkSys m mu T) t None (mkSys m mu (set_thread T t (mkThread [mkFrame n a PFind] todo)))
| step_find m mu T t f rest todo c :
    T t = mkThread (f :: rest) todo -> find_next (m (f_name f)) (f_pc f) = Some (inl c) ->
    step H (mkSys m mu T) t None (mkSys m mu (set_thread T t (mkThread (at_pc f c :: rest) todo)))
| step_found m mu T t f rest todo r :
    T t = mkThread (f :: rest) todo -> find_next (m (f_name f)) (f_pc f) = Some (inr r) ->
    step H (mkSys m mu T) t (Some (EvResult t (f_name f) (f_arena f) r))
         (mkSys m mu (set_thread T t (mkThread rest todo)))
| step_lock m T t f rest todo :
    T t = mkThread (f :: rest) todo -> f_pc f = PLock ->
    step H (mkSys m None T) t None
         (mkSys m (Some t) (set_thread T t (mkThread (at_pc f PMemo :: rest) todo)))
| step_memo m mu T t f rest todo e :
    T t = mkThread (f :: rest) todo -> f_pc f = PMemo -> m (f_name f) = Some e ->
    step H (mkSys m mu T) t None (mkSys m mu (set_thread T t (mkThread (at_pc f (memo_next e) :: rest) todo)))
| step_call m mu T t f rest todo e p :
    T t = mkThread (f :: rest) todo -> f_pc f = PCall -> m (f_name f) = Some e -> ve_provider e = Some p ->
    step H (mkSys m mu T) t (Some (EvCall t (f_name f) p (f_arena f)))
         (mkSys m mu (set_thread T t (mkThread (at_pc f (PInside p) :: rest) todo)))
| step_nested m mu T t f rest todo p n a :
    T t = mkThread (f :: rest) todo -> f_pc f = PInside p -> h_looks H p (f_arena f) n a ->
    step H (mkSys m mu T) t None
         (mkSys m mu (set_thread T t (mkThread (mkFrame n a PFind :: f :: rest) todo)))
| step_return m mu T t f rest todo p o :
    T t = mkThread (f :: rest) todo -> f_pc f = PInside p -> h_gives H p (f_name f) (f_arena f) o ->
    step H (mkSys m mu T) t (Some (EvReturn t (f_name f) o))
         (mkSys m mu (set_thread T t (mkThread (at_pc f (PStore o) :: rest) todo)))
| step_store m mu T t f rest todo e o :
    T t = mkThread (f :: rest) todo -> f_pc f = PStore o -> m (f_name f) = Some e ->
    step H (mkSys m mu T) t None
         (mkSys (set_entry m (f_name f) (fst (store_next e o))) mu
                (set_thread T t (mkThread (at_pc f (PUnlock (snd (store_next e o))) :: rest) todo)))
| step_unlock m mu T t f rest todo r :
    T t = mkThread (f :: rest) todo -> f_pc f = PUnlock r ->
    step H (mkSys m mu T) t (Some (EvResult t (f_name f) (f_arena f) r))
         (mkSys m None (set_thread T t (mkThread rest todo))).

(* every schedule from an activation with these variables, whose threads make
   these lookups; the events, latest first *)
Definition start (m : values) (todo : nat -> list (string * arena)) : sys :=
  mkSys m None (fun t => mkThread [] (todo t)).
Definition record (ev : option event) (tr : list event) : list event :=
  match ev with Some e => e :: tr | None => tr end.
Inductive runs (H : host) (m : values) (todo : nat -> list (string * arena)) : sys -> list event -> Prop :=
| runs_start : runs H m todo (start m todo) []
| runs_step s tr t ev s' : runs H m todo s tr -> step H s t ev s' -> runs H m todo s' (record ev tr).

(* the shared data each step touches *)
Inductive location :=
| LMap                   (* values_ itself *)
| LEngaged (n : string)  (* whether the entry has a provider *)
| LValue (n : string)    (* the entry's value *)
| LState (n : string).   (* what the entry's provider keeps *)
Inductive mode := Read | Write.
Definition accesses (f : frame) : list (location * mode) :=
  let n := f_name f in
  match f_pc f with
  | PFind => [(LMap, Read)]
  | PProvider => [(LEngaged n, Read)]
  | PPlain => [(LValue n, Read)]
  | PLock => []
  | PMemo => [(LMap, Read); (LValue n, Read)]
  | PCall | PInside _ => [(LState n, Write)]
  | PStore (Provided _) => [(LValue n, Write)]
  | PStore _ => []
  | PUnlock (Found _) => [(LValue n, Read)]
  | PUnlock _ => []
  end.

(* ---- moving ---- *)

(* activation.h:168-182 the data members; functions, patterns and the attribute
   matcher as opaque data *)
Record activation (F P M : Type) := mkActivation {
  a_values : values; a_functions : F; a_unknown : P; a_missing : P; a_matcher : option M }.
Arguments mkActivation {F P M}. Arguments a_values {F P M}. Arguments a_functions {F P M}.
Arguments a_unknown {F P M}. Arguments a_missing {F P M}. Arguments a_matcher {F P M}.
(* activation.h:151-157 swap *)
Definition swap {F P M} (ab : activation F P M * activation F P M) : activation F P M * activation F P M :=
  let (a, b) := ab in
  (mkActivation (a_values b) (a_functions b) (a_unknown b) (a_missing b) (a_matcher a),
   mkActivation (a_values a) (a_functions a) (a_unknown a) (a_missing a) (a_matcher b)).
Definition empty_activation {F P M} (f : F) (p : P) : activation F P M :=
  mkActivation (fun _ => None) f p p None.
(* activation.cc:129-132 the move constructor: the new activation, and other *)
Definition move_construct {F P M} (f : F) (p : P) (other : activation F P M) := swap (empty_activation f p, other).
(* activation.cc:134-139 move assignment: *this and other *)
Definition move_assign {F P M} (f : F) (p : P) (this other : activation F P M) :=
  let (tmp, other') := move_construct f p other in
  let (this', _) := swap (this, tmp) in
  (this', other').
