(* Model of the strings of the runtime and who owns their bytes:
   common/internal/byte_string.h and byte_string.cc.
   Memory is a list of blocks that are never reused.  Simplified: the reference
   count of a block does not overflow (C75); a Cord is a list of chunks, and a copy
   of a Cord takes a reference of its own to every shared chunk, where absl::Cord
   shares the node that holds the reference; sizes are below 2^62. *)
From Coq Require Import List Bool ZArith Arith.
From Verif Require Import Base.
Import ListNotations.
Open Scope list_scope.

(* Where the bytes of a block live: counted (MakeReferenceCountedString), in an
   arena, or memory the caller promises to keep (FromExternal). *)
Inductive home := Counted (n : nat) | InArena (a : nat) | Elsewhere.
Record block := mkBlock { b_bytes : list Z; b_home : home; b_freed : nat (* how often *) }.
Record heap := mkHeap { blocks : list block; dead : list nat (* arenas destroyed *) }.

(* Done, undefined behaviour (use of freed memory, overrun), or a failed
   ABSL_DCHECK, which only exists in debug builds. *)
Inductive res (A : Type) := Done (h : heap) (x : A) | Undefined | CheckFailed.
Arguments Done {A} h x. Arguments Undefined {A}. Arguments CheckFailed {A}.
Definition M (A : Type) := heap -> res A.
Definition ret {A} (x : A) : M A := fun h => Done h x.
Definition undefined {A} : M A := fun _ => Undefined.
Definition bind {A B} (m : M A) (f : A -> M B) : M B :=
  fun h => match m h with Done h' x => f x h' | Undefined => Undefined | CheckFailed => CheckFailed end.
Declare Scope bs_scope.
Notation "x <- m ;; k" := (bind m (fun x => k)) (at level 61, m at next level, right associativity) : bs_scope.
Notation "m ;;; k" := (bind m (fun _ => k)) (at level 61, right associativity) : bs_scope.
Open Scope bs_scope.

Definition alive (h : heap) (k : block) : bool :=
  match b_home k with
  | Counted n => negb (n =? 0)%nat
  | InArena a => negb (existsb (Nat.eqb a) (dead h))
  | Elsewhere => true
  end.
Fixpoint set_nth {A} (n : nat) (x : A) (l : list A) : list A :=
  match l, n with
  | [], _ => []
  | _ :: r, O => x :: r
  | y :: r, S m => y :: set_nth m x r
  end.
Definition slice (pos len : nat) (l : list Z) : list Z := firstn len (skipn pos l).
(* reading through a pointer *)
Definition view (b off size : nat) : M (list Z) :=
  fun h => match nth_error (blocks h) b with
           | Some k => if alive h k && (off + size <=? length (b_bytes k))%nat
                       then Done h (slice off size (b_bytes k)) else Undefined
           | None => Undefined
           end.
Definition new_block (s : list Z) (w : home) : M nat :=
  fun h => Done (mkHeap (blocks h ++ [mkBlock s w 0]) (dead h)) (length (blocks h)).
(* an allocation from a destroyed arena is undefined *)
Definition arena_block (a : nat) (s : list Z) : M nat :=
  fun h => if existsb (Nat.eqb a) (dead h) then Undefined else new_block s (InArena a) h.
(* reference_count.h: StrongRef, StrongUnref *)
Definition strong_ref (b : nat) : M unit :=
  fun h => match nth_error (blocks h) b with
           | Some (mkBlock s (Counted (S n)) f) => Done (mkHeap (set_nth b (mkBlock s (Counted (S (S n))) f) (blocks h)) (dead h)) tt
           | _ => Undefined
           end.
Definition strong_unref (b : nat) : M unit :=
  fun h => match nth_error (blocks h) b with
           | Some (mkBlock s (Counted (S n)) f) =>
               Done (mkHeap (set_nth b (mkBlock s (Counted n) (if (n =? 0)%nat then S f else f)) (blocks h)) (dead h)) tt
           | _ => Undefined
           end.

(* absl::Cord: chunks that are copies, and chunks that share a counted block
   (MakeCordFromExternal with ReferenceCountReleaser, byte_string.cc:524-556) *)
Inductive chunk := Copied (s : list Z) | Shared (b off len : nat).
Definition cord := list chunk.
(* byte_string.h:80-90, 118-130: `owner` of medium strings *)
Inductive owner := ORef (b : nat) | OArena (a : nat) | ONone.
Inductive rep :=
| Small (arena : option nat) (data : list Z)
| Medium (b off size : nat) (o : owner)
| Large (c : cord).

Definition chunk_size (c : chunk) : nat := match c with Copied s => length s | Shared _ _ n => n end.
Definition cord_size (c : cord) : nat := fold_right (fun x n => chunk_size x + n)%nat 0%nat c.
Definition read_chunk (c : chunk) : M (list Z) := match c with Copied s => ret s | Shared b o n => view b o n end.
Fixpoint read_cord (c : cord) : M (list Z) :=
  match c with [] => ret [] | x :: r => s <- read_chunk x ;; t <- read_cord r ;; ret (s ++ t) end.
Fixpoint copy_cord (c : cord) : M cord :=
  match c with
  | [] => ret []
  | Copied s :: r => r' <- copy_cord r ;; ret (Copied s :: r')
  | Shared b o n :: r => strong_ref b ;;; r' <- copy_cord r ;; ret (Shared b o n :: r')
  end.
Fixpoint drop_cord (c : cord) : M unit :=
  match c with
  | [] => ret tt
  | Copied _ :: r => drop_cord r
  | Shared b _ _ :: r => strong_unref b ;;; drop_cord r
  end.
Definition cut (pos len : nat) (c : chunk) : chunk :=
  match c with Copied s => Copied (slice pos len s) | Shared b o _ => Shared b (o + pos) len end.
(* Cord::Subcord: the part from pos, of at most len bytes *)
Fixpoint part (pos len : nat) (c : cord) : cord :=
  match c with
  | [] => []
  | x :: r =>
      if (len =? 0)%nat then []
      else if (chunk_size x <=? pos)%nat then part (pos - chunk_size x) len r
      else let n := Nat.min len (chunk_size x - pos) in cut pos n x :: part 0 (len - n) r
  end.
Definition Subcord (pos len : nat) (c : cord) : M cord := copy_cord (part pos len c).

Section ByteString.
Variable debug : bool.
Definition dcheck (b : bool) : M unit := if debug && negb b then fun _ => CheckFailed else ret tt.

(* byte_string.h:93-94: 23 - sizeof(Arena pointer) *)
Definition kSmallByteStringCapacity : nat := 15.
Definition fits (n : nat) : bool := (n <=? kSmallByteStringCapacity)%nat.
(* writing to the inline array, which holds kSmallByteStringCapacity bytes *)
Definition write_small (arena : option nat) (s : list Z) : M rep :=
  if (length s <=? kSmallByteStringCapacity)%nat then ret (Small arena s) else undefined.
(* byte_string.cc:925-943 SetSmall *)
Definition SetSmall (arena : option nat) (s : list Z) : M rep := dcheck (fits (length s)) ;;; write_small arena s.
(* byte_string.cc:945-963, 973-990 SetMedium; the arena and the count keep a copy *)
Definition SetMedium (arena : option nat) (s : list Z) : M rep :=
  dcheck (negb (fits (length s))) ;;;
  match arena with
  | Some a => b <- arena_block a s ;; ret (Medium b 0 (length s) (OArena a))
  | None => b <- new_block s (Counted 1) ;; ret (Medium b 0 (length s) (ORef b))
  end.
(* byte_string.cc:965-971 SetExternalMedium *)
Definition SetExternalMedium (s : list Z) : M rep :=
  dcheck (negb (fits (length s))) ;;; b <- new_block s Elsewhere ;; ret (Medium b 0 (length s) ONone).
(* byte_string.cc:1014-1024 SetLarge: from an lvalue and from an rvalue *)
Definition SetLarge (c : cord) : M rep := dcheck (negb (fits (cord_size c))) ;;; c' <- copy_cord c ;; ret (Large c').
Definition SetLargeMove (c : cord) : M rep := dcheck (negb (fits (cord_size c))) ;;; ret (Large c).

(* byte_string.cc:102-130, from string_view and std::string *)
Definition FromView (arena : option nat) (s : list Z) : M rep :=
  if fits (length s) then SetSmall arena s else SetMedium arena s.
(* byte_string.cc:132-142 from a Cord *)
Definition FromCord (arena : option nat) (c : cord) : M rep :=
  if fits (cord_size c) then s <- read_cord c ;; SetSmall arena s
  else match arena with
       | Some _ => s <- read_cord c ;; SetMedium arena s
       | None => SetLarge c
       end.
(* byte_string.cc:173-184 FromExternal *)
Definition FromExternal (s : list Z) : M rep := if fits (length s) then SetSmall None s else SetExternalMedium s.

(* byte_string.cc:622-640 *)
Definition GetMediumArena (o : owner) : option nat := match o with OArena a => Some a | _ => None end.
(* 186-195 *)
Definition GetArena (r : rep) : option nat :=
  match r with Small a _ => a | Medium _ _ _ o => GetMediumArena o | Large _ => None end.
Definition ref_owner (o : owner) : M unit := match o with ORef b => strong_ref b | _ => ret tt end.
Definition unref_owner (o : owner) : M unit := match o with ORef b => strong_unref b | _ => ret tt end.
(* 197-217 empty, size *)
Definition size (r : rep) : nat := match r with Small _ s => length s | Medium _ _ n _ => n | Large c => cord_size c end.
(* 484-498 ToString; also what Visit gives to the comparison and search functions *)
Definition ToString (r : rep) : M (list Z) :=
  match r with Small _ s => ret s | Medium b o n _ => view b o n | Large c => read_cord c end.

(* 144-166 Borrowed: the bytes [pos, pos+len) of a string, given by its owner *)
Definition Borrowed (y : rep) (pos len : nat) : M rep :=
  match y with
  | Medium b off _ o =>
      let arena := GetMediumArena o in
      if fits len || match arena with Some _ => true | None => false end
      then s <- view b (off + pos) len ;; FromView arena s
      else match o with
           | ORef c => strong_ref c ;;; dcheck (negb (fits len)) ;;; ret (Medium b (off + pos) len (ORef c))
           | _ => s <- view b (off + pos) len ;; c <- new_block s (Counted 1) ;;
                  dcheck (negb (fits len)) ;;; ret (Medium c 0 len (ORef c))
           end
  | _ => s <- ToString y ;; FromView (GetArena y) (slice pos len s)
  end.

Definition arena_eqb (a b : option nat) : bool :=
  match a, b with Some x, Some y => (x =? y)%nat | None, None => true | _, _ => false end.
(* 642-667 Construct, copying; alloc is the optional allocator *)
Definition ConstructCopy (other : rep) (alloc : option (option nat)) : M rep :=
  match other with
  | Small a s => ret (Small (match alloc with Some a' => a' | None => a end) s)
  | Medium b off n o =>
      match alloc with
      | Some a' => if arena_eqb a' (GetMediumArena o)
                   then ref_owner o ;;; ret (Medium b off n o)
                   else s <- view b off n ;; SetMedium a' s
      | None => ref_owner o ;;; ret (Medium b off n o)
      end
  | Large c =>
      match alloc with
      | Some (Some a') => s <- read_cord c ;; SetMedium (Some a') s
      | _ => SetLarge c
      end
  end.
(* 669-696 Construct, moving: the new string, and what is left in the other one *)
Definition ConstructMove (other : rep) (alloc : option (option nat)) : M (rep * rep) :=
  match other with
  | Small a s => ret (Small (match alloc with Some a' => a' | None => a end) s, other)
  | Medium b off n o =>
      match alloc with
      | Some a' => if arena_eqb a' (GetMediumArena o)
                   then ret (Medium b off n o, Medium b off n ONone)
                   else s <- view b off n ;; r <- SetMedium a' s ;; ret (r, other)
      | None => ret (Medium b off n o, Medium b off n ONone)
      end
  | Large c =>
      match alloc with
      | Some (Some a') => s <- read_cord c ;; r <- SetMedium (Some a') s ;; ret (r, other)
      | _ => r <- SetLargeMove c ;; ret (r, Large [])
      end
  end.
(* byte_string.h:443-460, byte_string.cc:911-923 DestroyMedium, DestroyLarge, Destroy *)
Definition Destroy (r : rep) : M unit :=
  match r with Small _ _ => ret tt | Medium _ _ _ o => unref_owner o | Large c => drop_cord c end.
(* 698-747 CopyFrom *)
Definition CopyFrom (this other : rep) : M rep :=
  match other with
  | Small _ _ => Destroy this ;;; ret other
  | Medium b off n o =>
      match this with
      | Small _ _ => ref_owner o ;;; ret other
      | Medium _ _ _ _ => ref_owner o ;;; Destroy this ;;; ret other
      | Large _ => Destroy this ;;; ref_owner o ;;; ret other
      end
  | Large c =>
      match this with
      | Small _ _ => SetLarge c
      | Medium _ _ _ _ => Destroy this ;;; SetLarge c
      | Large old => c' <- copy_cord c ;; drop_cord old ;;; ret (Large c')
      end
  end.
(* 749-797 MoveFrom *)
Definition MoveFrom (this other : rep) : M (rep * rep) :=
  match other with
  | Small _ _ => Destroy this ;;; ret (other, other)
  | Medium b off n o => Destroy this ;;; ret (other, Medium b off n ONone)
  | Large c =>
      match this with
      | Small _ _ => r <- SetLargeMove c ;; ret (r, Large [])
      | Medium _ _ _ _ => Destroy this ;;; r <- SetLargeMove c ;; ret (r, Large [])
      | Large old => drop_cord old ;;; ret (Large c, Large [])
      end
  end.
(* 842-909 Swap; the results are this and other *)
Definition Swap (this other : rep) : M (rep * rep) :=
  match this, other with
  | Large c, Small _ _ | Large c, Medium _ _ _ _ => r <- SetLargeMove c ;; ret (other, r)
  | Small _ _, Large c | Medium _ _ _ _, Large c => r <- SetLargeMove c ;; ret (r, this)
  | _, _ => ret (other, this)
  end.
(* 377-400 Substring *)
Definition Substring (y : rep) (pos npos : nat) : M rep :=
  dcheck (npos <=? size y)%nat ;;; dcheck (pos <=? npos)%nat ;;;
  if negb ((npos <=? size y)%nat && (pos <=? npos)%nat) then undefined
  else match y with
  | Small a s => ret (Small a (slice pos (npos - pos) s))
  | Medium b off _ o => ref_owner o ;;; ret (Medium b (off + pos) (npos - pos) o)
  | Large c => c' <- Subcord pos (npos - pos) c ;; r <- FromCord None c' ;; drop_cord c' ;;; ret r
       end.
(* 402-465 RemovePrefix and RemoveSuffix; the last steps are the same *)
Definition shrink_medium (b off n : nat) (o : owner) : M rep :=
  if fits n then s <- view b off n ;; r <- SetSmall (GetMediumArena o) s ;; unref_owner o ;;; ret r
  else ret (Medium b off n o).
Definition shrink_large (c : cord) (pos len : nat) : M rep :=
  c' <- Subcord pos len c ;; drop_cord c ;;;
  if fits len then s <- read_cord c' ;; r <- SetSmall None s ;; drop_cord c' ;;; ret r else ret (Large c').
Definition RemovePrefix (r : rep) (n : nat) : M rep :=
  dcheck (n <=? size r)%nat ;;;
  if (n =? 0)%nat then ret r
  else if negb (n <=? size r)%nat then undefined
  else match r with
       | Small a s => ret (Small a (skipn n s))
       | Medium b off k o => shrink_medium b (off + n) (k - n) o
       | Large c => shrink_large c n (cord_size c - n)
       end.
Definition RemoveSuffix (r : rep) (n : nat) : M rep :=
  dcheck (n <=? size r)%nat ;;;
  if (n =? 0)%nat then ret r
  else if negb (n <=? size r)%nat then undefined
  else match r with
       | Small a s => ret (Small a (firstn (length s - n) s))
       | Medium b off k o => shrink_medium b off (k - n) o
       | Large c => shrink_large c 0 (cord_size c - n)
       end.
(* 532-546 ToCord const&; 563-604 CopyToCord and AppendToCord take the same steps *)
Definition ToCord (r : rep) : M cord :=
  match r with
  | Small _ s => ret [Copied s]
  | Medium b off n (ORef c) => strong_ref c ;;; ret [Shared b off n]
  | Medium b off n _ => s <- view b off n ;; ret [Copied s]
  | Large c => copy_cord c
  end.
(* 548-561 ToCord &&: the Cord, and what is left in the string *)
Definition ToCordMove (r : rep) : M (cord * rep) :=
  match r with
  | Small _ s => ret ([Copied s], r)
  | Medium b off n (ORef c) => ret ([Shared b off n], Small None [])
  | Medium b off n _ => s <- view b off n ;; ret ([Copied s], r)
  | Large c => c' <- copy_cord c ;; ret (c', r)
  end.
Definition is_large (r : rep) : bool := match r with Large _ => true | _ => false end.
(* 58-100 Concat *)
Definition Concat (lhs rhs : rep) (arena : nat) : M rep :=
  if (size lhs =? 0)%nat then ConstructCopy rhs None
  else if (size rhs =? 0)%nat then ConstructCopy lhs None
  else if is_large lhs || is_large rhs then
    c1 <- ToCord lhs ;; c2 <- ToCord rhs ;; r <- FromCord None (c1 ++ c2) ;; drop_cord (c1 ++ c2) ;;; ret r
  else
    s <- ToString lhs ;; t <- ToString rhs ;;
    if fits (size lhs + size rhs) then write_small (Some arena) (s ++ t)
    else b <- arena_block arena (s ++ t) ;; ret (Medium b 0 (size lhs + size rhs) (OArena arena)).
(* 799-824 Clone; the arena is not null *)
Definition Clone (r : rep) (arena : nat) : M rep :=
  match r with
  | Small _ s => FromView (Some arena) s
  | Medium b off n o =>
      if arena_eqb (Some arena) (GetMediumArena o) then ConstructCopy r None
      else s <- view b off n ;; FromView (Some arena) s
  | Large c => FromCord (Some arena) c
  end.

(* ---- programs that use strings: variables hold strings or Cords ---- *)
Inductive obj := Str (r : rep) | Crd (c : cord).
Definition vars := list (option obj).
Inductive op :=
| NewView (x : nat) (arena : option nat) (s : list Z)
| NewExternal (x : nat) (s : list Z)
| NewCord (x : nat) (s : list (list Z))                        (* a Cord of the caller's *)
| NewFromCord (x : nat) (arena : option nat) (y : nat)
| NewBorrowed (x y pos len : nat)
| NewCopy (x : nat) (alloc : option (option nat)) (y : nat)
| NewMove (x : nat) (alloc : option (option nat)) (y : nat)
| Assign (x y : nat)
| MoveAssign (x y : nat)
| SwapVars (x y : nat)
| NewSubstring (x y pos npos : nat)
| DropPrefix (x n : nat)
| DropSuffix (x n : nat)
| NewToCord (x y : nat)
| NewToCordMove (x y : nat)
| AppendToCord (x y : nat)
| NewConcat (x y z arena : nat)
| NewClone (x y arena : nat)
| Read (x : nat)
| Delete (x : nat)
| DeleteArena (a : nat).

Definition get (vs : vars) (x : nat) : option obj := match nth_error vs x with Some o => o | None => None end.
Definition state := (heap * vars)%type.
(* a string is constructed in a variable that holds nothing *)
Definition fresh (vs : vars) (x : nat) (m : M obj) : M (vars * list (list Z)) :=
  match nth_error vs x with
  | Some None => o <- m ;; ret (set_nth x (Some o) vs, [])
  | _ => undefined
  end.
Definition str {A} (vs : vars) (y : nat) (f : rep -> M A) : M A :=
  match get vs y with Some (Str r) => f r | _ => undefined end.
Definition crd {A} (vs : vars) (y : nat) (f : cord -> M A) : M A :=
  match get vs y with Some (Crd c) => f c | _ => undefined end.
(* The variables after the operation, and what it outputs. *)
Definition exec (o : op) (vs : vars) : M (vars * list (list Z)) :=
  match o with
  | NewView x a s => fresh vs x (r <- FromView a s ;; ret (Str r))
  | NewExternal x s => fresh vs x (r <- FromExternal s ;; ret (Str r))
  | NewCord x l => fresh vs x (ret (Crd (map Copied l)))
  | NewFromCord x a y => fresh vs x (crd vs y (fun c => r <- FromCord a c ;; ret (Str r)))
  | NewBorrowed x y pos len => fresh vs x (str vs y (fun r => r' <- Borrowed r pos len ;; ret (Str r')))
  | NewCopy x a y => fresh vs x (str vs y (fun r => r' <- ConstructCopy r a ;; ret (Str r')))
  | NewMove x a y =>
      match nth_error vs x with
      | Some None => str vs y (fun r => p <- ConstructMove r a ;;
                       ret (set_nth x (Some (Str (fst p))) (set_nth y (Some (Str (snd p))) vs), []))
      | _ => undefined
      end
  (* byte_string.h:253-266 operator= *)
  | Assign x y =>
      str vs x (fun t => str vs y (fun r =>
        if (x =? y)%nat then ret (vs, []) else t' <- CopyFrom t r ;; ret (set_nth x (Some (Str t')) vs, [])))
  | MoveAssign x y =>
      str vs x (fun t => str vs y (fun r =>
        if (x =? y)%nat then ret (vs, [])
        else p <- MoveFrom t r ;; ret (set_nth x (Some (Str (fst p))) (set_nth y (Some (Str (snd p))) vs), [])))
  (* 364-368 swap *)
  | SwapVars x y =>
      str vs x (fun t => str vs y (fun r =>
        if (x =? y)%nat then ret (vs, [])
        else p <- Swap t r ;; ret (set_nth x (Some (Str (fst p))) (set_nth y (Some (Str (snd p))) vs), [])))
  | NewSubstring x y pos npos => fresh vs x (str vs y (fun r => r' <- Substring r pos npos ;; ret (Str r')))
  | DropPrefix x n => str vs x (fun r => r' <- RemovePrefix r n ;; ret (set_nth x (Some (Str r')) vs, []))
  | DropSuffix x n => str vs x (fun r => r' <- RemoveSuffix r n ;; ret (set_nth x (Some (Str r')) vs, []))
  | NewToCord x y => fresh vs x (str vs y (fun r => c <- ToCord r ;; ret (Crd c)))
  | NewToCordMove x y =>
      match nth_error vs x with
      | Some None => str vs y (fun r => p <- ToCordMove r ;;
                       ret (set_nth x (Some (Crd (fst p))) (set_nth y (Some (Str (snd p))) vs), []))
      | _ => undefined
      end
  | AppendToCord x y => crd vs x (fun c => str vs y (fun r => c' <- ToCord r ;; ret (set_nth x (Some (Crd (c ++ c'))) vs, [])))
  | NewConcat x y z a => fresh vs x (str vs y (fun l => str vs z (fun r => r' <- Concat l r a ;; ret (Str r'))))
  | NewClone x y a => fresh vs x (str vs y (fun r => r' <- Clone r a ;; ret (Str r')))
  | Read x =>
      match get vs x with
      | Some (Str r) => s <- ToString r ;; ret (vs, [s])
      | Some (Crd c) => s <- read_cord c ;; ret (vs, [s])
      | None => undefined
      end
  | Delete x =>
      match get vs x with
      | Some (Str r) => Destroy r ;;; ret (set_nth x None vs, [])
      | Some (Crd c) => drop_cord c ;;; ret (set_nth x None vs, [])
      | None => undefined
      end
  | DeleteArena a => fun h => Done (mkHeap (blocks h) (a :: dead h)) (vs, [])
  end.
Fixpoint run (ops : list op) (vs : vars) : M (vars * list (list Z)) :=
  match ops with
  | [] => ret (vs, [])
  | o :: r => p <- exec o vs ;; q <- run r (fst p) ;; ret (fst q, snd p ++ snd q)
  end.
End ByteString.
Definition no_memory : heap := mkHeap [] [].
