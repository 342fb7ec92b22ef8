(* What a program that uses strings relies on: every string and Cord is a sequence
   of bytes, on which its operations act, and nothing else matters, except how
   long arenas have to live. *)
From Coq Require Import List Bool ZArith Arith.
From Verif Require Import Base.
From Verif Require Import M_ByteString.
Import ListNotations.
Open Scope list_scope.

(* A string: its bytes and the arenas it may use; or moved from, after which it may
   only be assigned to, swapped and destroyed.  A Cord never uses an arena. *)
Inductive thing := AString (v : option (list Z * list nat)) | ACord (s : list Z).
Record world := mkWorld { things : list (option thing); gone : list nat (* destroyed arenas *) }.

Definition thing_at (w : world) (x : nat) : option thing :=
  match nth_error (things w) x with Some o => o | None => None end.
Definition string_at (w : world) (x : nat) : option (list Z * list nat) :=
  match thing_at w x with Some (AString (Some v)) => Some v | _ => None end.
Definition is_string (w : world) (x : nat) : bool :=
  match thing_at w x with Some (AString _) => true | _ => false end.
Definition empty_at (w : world) (x : nat) : bool := match nth_error (things w) x with Some None => true | _ => false end.
Definition put (w : world) (x : nat) (t : option thing) : world := mkWorld (set_nth x t (things w)) (gone w).
Definition exists_arena (w : world) (a : nat) : bool := negb (existsb (Nat.eqb a) (gone w)).
Definition arenas_of (a : option nat) : list nat := match a with Some a => [a] | None => [] end.
Definition usable (w : world) (a : option nat) : bool := forallb (exists_arena w) (arenas_of a).

Definition when {A} (b : bool) (x : option A) : option A := if b then x else None.
Definition create (w : world) (x : nat) (t : option thing) : option (world * list (list Z)) :=
  match t with Some t => when (empty_at w x) (Some (put w x (Some t), [])) | None => None end.
Definition new_string (s : list Z) (d : list nat) : option thing := Some (AString (Some (s, d))).
(* the arenas an allocator argument leaves: its own, or those of the source *)
Definition arenas_after (alloc : option (option nat)) (d : list nat) : list nat :=
  match alloc with Some a => arenas_of a | None => d end.
Definition alloc_usable (w : world) (alloc : option (option nat)) : bool :=
  match alloc with Some a => usable w a | None => true end.
Definition uses (a : nat) (o : option thing) : bool :=
  match o with Some (AString (Some (_, d))) => existsb (Nat.eqb a) d | _ => false end.

(* None: the program misuses the operation.  With [documented] the rule of
   byte_string.h:158-165 for assignment: a string keeps its allocator. *)
Definition effect (documented : bool) (o : op) (w : world) : option (world * list (list Z)) :=
  match o with
  | NewView x a s => when (usable w a) (create w x (new_string s (arenas_of a)))
  | NewExternal x s => create w x (new_string s [])
  | NewCord x l => create w x (Some (ACord (concat l)))
  | NewFromCord x a y =>
      match thing_at w y with
      | Some (ACord s) => when (usable w a) (create w x (new_string s (arenas_of a)))
      | _ => None
      end
  | NewBorrowed x y pos len =>
      match string_at w y with
      | Some (s, d) => when (pos + len <=? length s)%nat (create w x (new_string (slice pos len s) d))
      | None => None
      end
  | NewCopy x alloc y =>
      match string_at w y with
      | Some (s, d) => when (alloc_usable w alloc) (create w x (new_string s (arenas_after alloc d)))
      | None => None
      end
  | NewMove x alloc y =>
      match string_at w y with
      | Some (s, d) => when (alloc_usable w alloc)
                         (create (put w y (Some (AString None))) x (new_string s (arenas_after alloc d)))
      | None => None
      end
  | Assign x y =>
      match string_at w y with
      | Some (s, d) =>
          let d' := match string_at w x with Some (_, d0) => if documented then d0 else d | None => d end in
          when (is_string w x) (Some (put w x (new_string s d'), []))
      | None => None
      end
  | MoveAssign x y =>
      match string_at w y with
      | Some (s, d) =>
          let d' := match string_at w x with Some (_, d0) => if documented then d0 else d | None => d end in
          when (is_string w x && negb (x =? y)%nat) (Some (put (put w y (Some (AString None))) x (new_string s d'), []))
      | None => None
      end
  | SwapVars x y => when (is_string w x && is_string w y) (Some (put (put w y (thing_at w x)) x (thing_at w y), []))
  | NewSubstring x y pos npos =>
      match string_at w y with
      | Some (s, d) => when ((pos <=? npos)%nat && (npos <=? length s)%nat)
                         (create w x (new_string (slice pos (npos - pos) s) d))
      | None => None
      end
  | DropPrefix x n =>
      match string_at w x with
      | Some (s, d) => when (n <=? length s)%nat (Some (put w x (new_string (skipn n s) d), []))
      | None => None
      end
  | DropSuffix x n =>
      match string_at w x with
      | Some (s, d) => when (n <=? length s)%nat (Some (put w x (new_string (firstn (length s - n) s) d), []))
      | None => None
      end
  | NewToCord x y => match string_at w y with Some (s, _) => create w x (Some (ACord s)) | None => None end
  | NewToCordMove x y =>
      match string_at w y with
      | Some (s, _) => create (put w y (Some (AString None))) x (Some (ACord s))
      | None => None
      end
  | AppendToCord x y =>
      match thing_at w x, string_at w y with
      | Some (ACord s), Some (t, _) => Some (put w x (Some (ACord (s ++ t))), [])
      | _, _ => None
      end
  | NewConcat x y z a =>
      match string_at w y, string_at w z with
      | Some (s, d), Some (t, e) => when (exists_arena w a) (create w x (new_string (s ++ t) (a :: d ++ e)))
      | _, _ => None
      end
  | NewClone x y a =>
      match string_at w y with
      | Some (s, _) => when (exists_arena w a) (create w x (new_string s [a]))
      | None => None
      end
  | Read x =>
      match thing_at w x with
      | Some (AString (Some (s, _))) | Some (ACord s) => Some (w, [s])
      | _ => None
      end
  | Delete x => match thing_at w x with Some _ => Some (put w x None, []) | None => None end
  | DeleteArena a => when (negb (existsb (uses a) (things w))) (Some (mkWorld (things w) (a :: gone w), []))
  end.
(* a whole history: None if some operation is misused, else what the reads give *)
Fixpoint history (documented : bool) (ops : list op) (w : world) : option (world * list (list Z)) :=
  match ops with
  | [] => Some (w, [])
  | o :: r =>
      match effect documented o w with
      | Some (w', out) => match history documented r w' with Some (w2, out') => Some (w2, out ++ out') | None => None end
      | None => None
      end
  end.
Definition nothing (n : nat) : world := mkWorld (repeat None n) [].
