(* Which calls a macro is for. *)
From Coq Require Import String List Bool NArith.
From Verif Require Import Base M_Namespace.
From Verif Require Import M_Macros.
Import ListNotations.

(* the calls a macro is for: the function, receiver style, and the number of arguments,
   None for any number *)
Definition shape (m : Macro) : string * bool * option N :=
  (function m, is_receiver_style m, if is_variadic m then None else Some (argument_count m)).
(* macros made by the functions of class Macro *)
Definition made (m : Macro) : Prop := LexisIsIdentifier (function m) = true.

(* of the macros in [l], the one for a call: one with just that number of arguments, else
   one with any number *)
Definition chosen (l : list Macro) (name : string) (n : N) (receiver : bool) (m : Macro) : Prop :=
  In m l /\ (shape m = (name, receiver, Some n)
             \/ (shape m = (name, receiver, None) /\ ~ exists m', In m' l /\ shape m' = (name, receiver, Some n))).

(* the macros a builder is asked for *)
Definition included (b : Builder) (lib : Library) : list Macro :=
  match find (fun s => String.eqb (fst s) (library_id lib) && negb (String.eqb (library_id lib) "")) (subsets b) with
  | Some (_, p) => filter p (library_macros lib)
  | None => library_macros lib
  end.
Definition wanted (AllMacros optionals : list Macro) (b : Builder) : list Macro :=
  flat_map (included b) (libraries b)
  ++ (if negb (disable_standard_macros b) && negb (contains_library b "stdlib") then AllMacros else [])
  ++ (if enable_optional_syntax b && negb (contains_library b "optional") then optionals else [])
  ++ individual b.

(* a history of calls of RegisterMacros: a call is accepted, and all its macros are added,
   just if no two macros, registered or new, are for the same calls *)
Inductive accepted : list Macro -> list (list Macro) -> list bool -> list Macro -> Prop :=
| accepted_end l : accepted l [] [] l
| accepted_yes l ms calls oks l' : NoDup (map shape (l ++ ms)) -> accepted (l ++ ms) calls oks l' -> accepted l (ms :: calls) (true :: oks) l'
| accepted_no l ms calls oks l' : ~ NoDup (map shape (l ++ ms)) -> accepted l calls oks l' -> accepted l (ms :: calls) (false :: oks) l'.

(* what one does with a builder before building *)
Inductive op := OpMacro (m : Macro) | OpLibrary (l : Library) | OpSubset (s : Subset).
Definition perform (b : Builder) (o : op) : Builder :=
  match o with
  | OpMacro m => fst (AddMacroTo b m)
  | OpLibrary l => fst (AddLibrary b l)
  | OpSubset s => fst (AddLibrarySubset b s)
  end.

(* calls of RegisterMacros one after another, and what they return *)
Fixpoint register_all (r : Registry) (calls : list (list Macro)) : Registry * list (Base.out unit) :=
  match calls with
  | [] => (r, [])
  | ms :: calls' =>
      let '(r', s) := RegisterMacros r ms in
      let '(r'', ss) := register_all r' calls' in (r'', s :: ss)
  end.
Definition is_ok {A} (o : Base.out A) : bool := match o with Val _ => true | _ => false end.

