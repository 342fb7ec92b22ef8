(* Specification vocabulary for the type inference context: when bindings are
   acyclic, and histories of calls made to an inference context. *)
From Coq Require Import String List Bool Relations.
From Verif Require Import M_Infer.
Import ListNotations.

(* The type variable [n] occurs in [t]. *)
Inductive mentions (n : string) : ty -> Prop :=
| mentions_here : mentions n (TParam n)
| mentions_inside t u : In u (params t) -> mentions n u -> mentions n t.

(* In these bindings, [n] stands for a type in which [m] occurs. *)
Definition refers (b : bindings) (n m : string) : Prop :=
  exists t, bd_find b n = Some (Some t) /\ mentions m t.

(* No variable stands, directly or through others, for a type that contains
   the variable itself. *)
Definition acyclic (b : bindings) : Prop :=
  forall n, ~ clos_trans string (refers b) n n.

(* What can be done with one assignability context (a helper object that
   collects substitutions): check, apply them, forget them; new type
   variables may be made in between. *)
Inductive action :=
| ACheck (from to : ty)
| AUpdate
| AReset
| AInstantiate (t : ty).

(* What can be done with an inference context.  A session is the lifetime of
   one assignability context; sessions do not overlap with each other or with
   direct checks. *)
Inductive op :=
| OInstantiate (t : ty)
| OCheck (from to : ty)
| OSession (acts : list action)
| OResolve (name : string) (ovls : list overload_decl) (args : list ty)
    (receiver : bool)
| OListLiteral (elems : list ty)
| OMapLiteral (keys vals : list ty)
| OFinalize (t : ty).

Definition run_action (fuel : nat) (c : context) (p : smap) (a : action)
  : option (context * smap) :=
  match a with
  | ACheck f t =>
      match ctx_is_assignable fuel c p f t with
      | None => None
      | Some (_, p') => Some (c, p')
      end
  | AUpdate => Some (ctx_update c p)
  | AReset => Some (c, [])
  | AInstantiate t => let '(_, c', _) := instantiate c [] t in Some (c', p)
  end.

Fixpoint run_session (fuel : nat) (c : context) (p : smap) (l : list action)
  : option (context * smap) :=
  match l with
  | [] => Some (c, p)
  | a :: r =>
      match run_action fuel c p a with
      | None => None
      | Some (c', p') => run_session fuel c' p' r
      end
  end.

Definition run_op (fuel : nat) (c : context) (o : op) : option context :=
  match o with
  | OInstantiate t => let '(_, c', _) := instantiate c [] t in Some c'
  | OCheck f t => option_map snd (is_assignable fuel c f t)
  | OSession l => option_map fst (run_session fuel c [] l)
  | OResolve name ovls args rcv =>
      option_map snd (resolve_overload fuel c name ovls args rcv)
  | OListLiteral l => option_map snd (list_literal_type fuel c l)
  | OMapLiteral ks vs => option_map snd (map_literal_type fuel c ks vs)
  | OFinalize t => option_map (fun _ => c) (finalize_type fuel c t)
  end.

Fixpoint run (fuel : nat) (c : context) (l : list op) : option context :=
  match l with
  | [] => Some c
  | o :: r =>
      match run_op fuel c o with
      | None => None
      | Some c' => run fuel c' r
      end
  end.

(* --- what an accepted check means -------------------------------------- *)

(* A type without type variables. *)
Definition ground (t : ty) : Prop := forall n, ~ mentions n t.

(* The types that stand for several others. *)
Inductive wildcard : ty -> Prop :=
| wild_dyn : wildcard TDyn
| wild_any : wildcard TAny
| wild_error : wildcard TError.

(* The types that historically accept null. *)
Inductive nullable : ty -> Prop :=
| nullable_struct n : nullable (TStruct n)
| nullable_duration : nullable TDuration
| nullable_timestamp : nullable TTimestamp
| nullable_any : nullable TAny
| nullable_opaque n ps : nullable (TOpaque n ps).

(* [from] and [to] are the same type, up to dyn/any/error, boxing, null,
   enum against int, and the parameters of type(...), at any depth.  [lg]:
   historical null assignment is on. *)
Inductive conforms (lg : bool) : ty -> ty -> Prop :=
| conf_from_wild t u : wildcard t -> conforms lg t u
| conf_to_wild t u : wildcard u -> conforms lg t u
| conf_box p : conforms lg (TPrim p) (TWrapper p)
| conf_unbox p : conforms lg (TWrapper p) (TPrim p)
| conf_null_box p : conforms lg TNull (TWrapper p)
| conf_null_to u : lg = true -> nullable u -> conforms lg TNull u
| conf_null_from t : lg = true -> nullable t -> conforms lg t TNull
| conf_enum_int n : conforms lg (TEnum n) (TPrim PInt)
| conf_int_enum n : conforms lg (TPrim PInt) (TEnum n)
| conf_enum_box n : conforms lg (TEnum n) (TWrapper PInt)
| conf_unbox_enum n : conforms lg (TWrapper PInt) (TEnum n)
| conf_type ps qs : conforms lg (TType ps) (TType qs)
| conf_atom t : params t = [] -> conforms lg t t
| conf_list x y : conforms lg x y -> conforms lg (TList x) (TList y)
| conf_map x y v w :
    conforms lg x y -> conforms lg v w -> conforms lg (TMap x v) (TMap y w)
| conf_opaque n ps qs :
    Forall2 (conforms lg) ps qs -> conforms lg (TOpaque n ps) (TOpaque n qs)
| conf_function ps qs :
    Forall2 (conforms lg) ps qs -> conforms lg (TFunction ps) (TFunction qs).

(* Types built from type variables, primitives, duration, timestamp, unknown
   and structs with list, map and abstract type constructors only: none of
   the special cases of [conforms] applies to them. *)
Fixpoint plain (t : ty) : Prop :=
  match t with
  | TPrim _ | TDuration | TTimestamp | TUnknown | TStruct _ | TParam _ => True
  | TList e => plain e
  | TMap k v => plain k /\ plain v
  | TOpaque _ ps =>
      (fix all (l : list ty) : Prop :=
         match l with [] => True | x :: r => plain x /\ all r end) ps
  | _ => False
  end.

(* Replacing the type variables of a type. *)
Fixpoint tsub (s : string -> ty) (t : ty) : ty :=
  match t with
  | TParam n => s n
  | TList e => TList (tsub s e)
  | TMap k v => TMap (tsub s k) (tsub s v)
  | TOpaque n ps => TOpaque n (map (tsub s) ps)
  | TType ps => TType (map (tsub s) ps)
  | TFunction ps => TFunction (map (tsub s) ps)
  | _ => t
  end.

(* A choice of types for the variables that respects the bindings. *)
Definition respects (s : string -> ty) (b : bindings) : Prop :=
  forall n t, bd_find b n = Some (Some t) -> s n = tsub s t.

(* All type variables of the type were made by this context. *)
Definition registered (c : context) (t : ty) : Prop :=
  forall n, mentions n t -> bd_find (cx_bindings c) n <> None.

(* A context in which only plain types have been inferred. *)
Definition plain_context (c : context) : Prop :=
  forall n t, bd_find (cx_bindings c) n = Some (Some t) ->
              plain t /\ registered c t.
