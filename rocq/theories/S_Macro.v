(* What the comprehension macros mean. *)
From Coq Require Import ZArith List Bool String Ascii Permutation.
From Verif Require Import Base M_Overflow M_Number M_Attr M_Value M_Logic M_Expr M_Machine M_Registry
  M_Macro S_Eval.
Import ListNotations.
Open Scope list_scope.
Open Scope Z_scope.

(* The pairs a range is iterated over: indices and elements of a list, keys and
   values of a map; and whether it is a map. *)
Definition iteration (range : value) : option (bool * list (value * value)) :=
  match range with
  | VList l => Some (false, list_items 0 l)
  | VMap m => Some (true, map_items m)
  | _ => None
  end.
(* The iteration variables on one pair: one variable is the element of a list
   or the key of a map, two variables are the pair. *)
Definition in_scope (x x2 : string) (is_map : bool) (kv : value * value) (rho : env) : env :=
  if String.eqb x2 "" then bind_local x (Val (if is_map then fst kv else snd kv, None)) rho
  else bind_local x (Val (fst kv, None)) (bind_local x2 (Val (snd kv, None)) rho).

(* e evaluates to v *)
Definition yields (C : config) (R : registry) (e : expr) (rho : env) (v : value) : Prop :=
  exists t, meaning C R e rho = Val (v, t).
(* the values of e on each pair *)
Definition each_yields (C : config) (R : registry) (e : expr) (x x2 : string) (is_map : bool)
    (items : list (value * value)) (rho : env) (vs : list value) : Prop :=
  Forall2 (fun kv v => yields C R e (in_scope x x2 is_map kv rho) v) items vs.

(* name x occurs free in e *)
Fixpoint free (x : string) (e : expr) : bool :=
  match e with
  | EConst _ => false
  | EIdent y => String.eqb y x
  | ESelect a _ _ => free x a
  | ECall _ t args =>
      match t with Some a => free x a | None => false end
      || (fix go l := match l with [] => false | a :: l' => free x a || go l' end) args
  | EList l => (fix go l := match l with [] => false | (_, a) :: l' => free x a || go l' end) l
  | EMap l =>
      (fix go l := match l with
                   | [] => false
                   | (_, (k, v)) :: l' => free x k || free x v || go l'
                   end) l
  | EComp i i2 y range init cond step res =>
      free x range || free x init
      || negb (String.eqb i x || negb (String.eqb i2 "") && String.eqb i2 x || String.eqb y x)
         && (free x cond || free x step)
      || negb (String.eqb y x) && free x res
  end.

(* the error a value that is no boolean causes in the operator of that name *)
Definition as_error (name : string) (v : value) : value :=
  match v with VError s => VError s | _ => VError (no_matching_overload name) end.
Definition no_bool (v : value) : bool := match v with VBool _ => false | _ => true end.
(* `exists`: true if the predicate is true somewhere, whatever it is elsewhere;
   otherwise the first error; otherwise false *)
Definition exists_result (ps : list value) : value :=
  if existsb is_true ps then VBool true
  else match find no_bool ps with Some v => as_error "_||_" v | None => VBool false end.
(* `all`, dually *)
Definition all_result (ps : list value) : value :=
  if existsb (fun v => match v with VBool false => true | _ => false end) ps then VBool false
  else match find no_bool ps with Some v => as_error "_&&_" v | None => VBool true end.
(* `exists_one`: an error if the predicate is one anywhere (the last one);
   otherwise whether it is true exactly once *)
Definition exists_one_result (cond_name : string) (ps : list value) : value :=
  match find no_bool (rev ps) with
  | Some v => as_error cond_name v
  | None => VBool (Nat.eqb (List.length (filter is_true ps)) 1)
  end.
(* `map`: the images in order, or the first error *)
Definition map_result (fs : list value) : value :=
  match find is_error fs with Some e => e | None => VList fs end.
(* `map` with a predicate, and `filter` when the images are the elements: the
   images, in order, where the predicate is true; the last error of the
   predicate, or else the first error of an image *)
Definition kept {A} (ps : list value) (fs : list A) : list A :=
  map snd (filter (fun q => is_true (fst q)) (combine ps fs)).
Definition map_filter_result (cond_name : string) (ps fs : list value) : value :=
  match find no_bool (rev ps) with
  | Some v => as_error cond_name v
  | None => map_result (kept ps fs)
  end.
(* how a non-boolean predicate is named in the no-matching-overload error *)
Definition condition_name (C : config) : string :=
  if o_short_circuiting (cf_opts C) then "<jump_condition>" else "_?_:_".

(* Booleans are evaluated by the built-in steps, the default. *)
Definition builtin_logic (C : config) : Prop := o_fast_builtins (cf_opts C) = true.
(* `+` is the standard one on ints and lists, possibly with more overloads. *)
Definition standard_plus (R : registry) : Prop :=
  (exists history, R = static_overloads (attempts history [])) /\ In add_int R /\ In concat_list R.

(* The accumulator variable of the expansions: the name users cannot write, or
   the old one. *)
Definition reserved (accu : string) : Prop := accu = "@result"%string \/ accu = "__result__"%string.
(* what a `filter` yields: exactly the elements where the predicate is true, in order *)
Definition filter_result (cond_name : string) (ps elements : list value) : value :=
  match find no_bool (rev ps) with
  | Some v => as_error cond_name v
  | None => VList (kept ps elements)
  end.
Definition elements (is_map : bool) (items : list (value * value)) : list value :=
  map (fun kv => if is_map then fst kv else snd kv) items.
Definition plain (v : value) : Prop := is_error v = false /\ is_unknown v = false.
(* Evaluation without unknown tracking, booleans by the built-in steps. *)
Definition plain_evaluation (C : config) : Prop :=
  o_unknowns (cf_opts C) = false /\ builtin_logic C.
(* range evaluates to a list or map with these items *)
Definition ranges_over (C : config) (R : registry) (range : expr) (rho : env) (is_map : bool)
    (items : list (value * value)) : Prop :=
  exists rv, yields C R range rho rv /\ iteration rv = Some (is_map, items).
Definition no_unknowns (vs : list value) : Prop := Forall (fun v => is_unknown v = false) vs.

(* ---- macros that build maps ---- *)
(* `cel.@mapInsert` is the comprehensions library's, possibly with more
   overloads; reorder is the iteration order a built map happens to have. *)
Definition standard_insert (R : registry) (reorder : entries -> entries) : Prop :=
  (exists history, R = static_overloads (attempts history [])) /\
  In (map_insert reorder) R /\ In (map_insert_map reorder) R /\
  forall m, Permutation (reorder m) m.
(* Collecting entries, part by part: the first part that is an error, or that
   repeats a key, is the result. *)
Fixpoint collect (m : entries) (parts : list (status + entries)) : entries + status :=
  match parts with
  | [] => inl m
  | inl s :: _ => inr s
  | inr new :: parts' =>
      if existsb (fun k => existsb (fun k' => key_eqb k k') (map fst m)) (map fst new)
      then inr duplicate_key
      else collect (m ++ new) parts'
  end.
(* v is the map with exactly these entries, or the error *)
Definition is_collected (parts : list (status + entries)) (v : value) : Prop :=
  match collect [] parts with
  | inl m => exists m', v = VMap m' /\ Permutation m' m
  | inr s => v = VError s
  end.
(* the part a key (the first variable) and an image contribute *)
Definition entry_part (k f : value) (part : status + entries) : Prop :=
  match f with
  | VError s => part = inl s
  | _ => is_unknown f = false /\ exists key, key_of_value k = Some key /\ part = inr [(key, f)]
  end.
(* the part a map of new entries contributes *)
Definition map_part (f : value) (part : status + entries) : Prop :=
  match f with
  | VError s => part = inl s
  | VMap m => NoDup (map fst m) /\ Forall plain (map snd m) /\ part = inr m
  | _ => False
  end.

(* the parts contributed by the first variable and an image, at each item; or
   by a map of new entries *)
Definition each_entry (C : config) (R : registry) (f : expr) (x x2 : string) (is_map : bool)
    (items : list (value * value)) (rho : env) (parts : list (status + entries)) : Prop :=
  Forall2 (fun kv part => exists fv, yields C R f (in_scope x x2 is_map kv rho) fv /\
                                     entry_part (fst kv) fv part) items parts.
Definition each_map (C : config) (R : registry) (f : expr) (x x2 : string) (is_map : bool)
    (items : list (value * value)) (rho : env) (parts : list (status + entries)) : Prop :=
  Forall2 (fun kv part => exists fv, yields C R f (in_scope x x2 is_map kv rho) fv /\
                                     map_part fv part) items parts.
(* v is the map collected where the predicate is true, or an error *)
Definition is_collected_where (cond_name : string) (ps : list value) (parts : list (status + entries))
    (v : value) : Prop :=
  match find no_bool (rev ps) with
  | Some q => v = as_error cond_name q
  | None => is_collected (kept ps parts) v
  end.
(* built maps hold what was put in them *)
Definition faithful_maps (C : config) : Prop := forall m, Permutation (cf_reorder C m) m.

(* The optional library, possibly with more overloads. *)
Definition standard_optional (R : registry) : Prop :=
  (exists history, R = static_overloads (attempts history [])) /\
  In optional_of R /\ In optional_none R /\ In optional_value R /\ In optional_has_value R.
