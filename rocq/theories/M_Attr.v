(* Model of attributes, attribute patterns and unknown sets:
   base/attribute.h, base/attribute.cc, base/attribute_set.h,
   eval/eval/attribute_trail.{h,cc} and eval/eval/attribute_utility.cc.

   Strings are lists of bytes.  Unknown function results
   (base/function_result_set.h) are not modelled, so an unknown set is its
   attribute set. *)
From Coq Require Import ZArith List Bool.
From Verif Require Import Base.
Import ListNotations.
Open Scope Z_scope.

(* std::string / absl::string_view operator== and operator< on bytes *)
Fixpoint bytes_eqb (a b : list Z) : bool :=
  match a, b with
  | [], [] => true
  | x :: a', y :: b' => (x =? y) && bytes_eqb a' b'
  | _, _ => false
  end.
Fixpoint bytes_ltb (a b : list Z) : bool :=
  match a, b with
  | [], [] => false
  | [], _ :: _ => true
  | _ :: _, [] => false
  | x :: a', y :: b' => if x <? y then true else if y <? x then false else bytes_ltb a' b'
  end.

(* base/attribute.h:37-121 AttributeQualifier: a variant.  QInvalid is the
   Kind alternative; the only way to make one is the default constructor, so
   its payload is always Kind{} and is not modelled. *)
Inductive qualifier :=
| QInvalid
| QInt (i : Z)
| QUint (u : Z)
| QString (s : list Z)
| QBool (b : bool).

(* base/attribute.cc:311-317 AttributeQualifier::IsMatch, and operator== *)
Definition qual_eqb (a b : qualifier) : bool :=
  match a, b with
  | QInt x, QInt y => x =? y
  | QUint x, QUint y => x =? y
  | QString x, QString y => bytes_eqb x y
  | QBool x, QBool y => Bool.eqb x y
  | _, _ => false
  end.

(* base/attribute.cc:133-205, 217-242: operator<, ordering bool, int, uint,
   string, invalid, and each against itself *)
Definition qual_ltb (a b : qualifier) : bool :=
  match a, b with
  | QInvalid, _ => false
  | QInt x, QInt y => x <? y
  | QInt _, QInvalid | QInt _, QUint _ | QInt _, QString _ => true
  | QInt _, QBool _ => false
  | QUint x, QUint y => x <? y
  | QUint _, QInvalid | QUint _, QString _ => true
  | QUint _, QInt _ | QUint _, QBool _ => false
  | QString x, QString y => bytes_ltb x y
  | QString _, QInvalid => true
  | QString _, _ => false
  | QBool x, QBool y => negb x && y
  | QBool _, _ => true
  end.

(* base/attribute.h:175-213 Attribute *)
Record attribute := mkAttr { a_var : list Z; a_path : list qualifier }.

Fixpoint path_eqb (a b : list qualifier) : bool :=
  match a, b with
  | [], [] => true
  | x :: a', y :: b' => qual_eqb x y && path_eqb a' b'
  | _, _ => false
  end.
(* base/attribute.cc:244-263 Attribute::operator== *)
Definition attr_eqb (a b : attribute) : bool :=
  bytes_eqb (a_var a) (a_var b) && path_eqb (a_path a) (a_path b).

(* base/attribute.cc:265-295 Attribute::operator<.  The shortcut on equal
   representation pointers only applies to copies of one attribute; it returns
   false, which is also what the loop returns for an attribute and itself. *)
Fixpoint attr_ltb_loop (va vb : list Z) (a b : list qualifier) : bool :=
  match a, b with
  | x :: a', y :: b' =>
      if qual_ltb x y then true
      else if negb (qual_eqb x y) then false
      else attr_ltb_loop va vb a' b'
  | [], [] => bytes_ltb va vb
  | [], _ :: _ => true
  | _ :: _, [] => false
  end.
Definition attr_ltb (a b : attribute) : bool :=
  attr_ltb_loop (a_var a) (a_var b) (a_path a) (a_path b).

(* base/attribute.h:126-172 AttributeQualifierPattern: None is the wildcard *)
Definition qpattern := option qualifier.
(* base/attribute.h:162-165 *)
Definition qpattern_match (p : qpattern) (q : qualifier) : bool :=
  match p with None => true | Some v => qual_eqb v q end.

(* base/attribute.h:221-267 AttributePattern *)
Record pattern := mkPattern { p_var : list Z; p_path : list qpattern }.
Inductive match_type := MNone | MPartial | MFull.

(* base/attribute.h:258-262 the comparison loop over max_index qualifiers *)
Fixpoint pattern_loop (n : nat) (ps : list qpattern) (qs : list qualifier) : bool :=
  match n with
  | O => true
  | S n' =>
      match ps, qs with
      | p :: ps', q :: qs' => if negb (qpattern_match p q) then false else pattern_loop n' ps' qs'
      | _, _ => true (* not reached: n is at most both lengths *)
      end
  end.
(* base/attribute.h:245-264 AttributePattern::IsMatch *)
Definition IsMatch (p : pattern) (a : attribute) : match_type :=
  if negb (bytes_eqb (a_var a) (p_var p)) then MNone
  else
    let '(max_index, result) :=
      if (length (a_path a) <? length (p_path p))%nat
      then (length (a_path a), MPartial) else (length (p_path p), MFull) in
    if pattern_loop max_index (p_path p) (a_path a) then result else MNone.

(* attribute_utility.cc:49-62 MatchAgainstPatterns *)
Fixpoint MatchAgainstPatterns_loop (result : match_type) (ps : list pattern)
    (a : attribute) : match_type :=
  match ps with
  | [] => result
  | p :: ps' =>
      match IsMatch p a with
      | MFull => MFull
      | MPartial => MatchAgainstPatterns_loop MPartial ps' a
      | MNone => MatchAgainstPatterns_loop result ps' a
      end
  end.
Definition MatchAgainstPatterns (ps : list pattern) (a : attribute) : match_type :=
  MatchAgainstPatterns_loop MNone ps a.

(* attribute_trail.h:31-69; None is the empty trail *)
Definition trail := option attribute.
(* attribute_trail.cc:15-28 AttributeTrail::Step *)
Definition trail_step (t : trail) (q : qualifier) : trail :=
  match t with
  | None => None
  | Some a => Some (mkAttr (a_var a) (a_path a ++ [q]))
  end.

(* attribute_utility.cc:88-100 AttributeUtility::CheckForUnknown *)
Definition CheckForUnknown (pats : list pattern) (t : trail) (use_partial : bool) : bool :=
  match t with
  | None => false
  | Some a =>
      match MatchAgainstPatterns pats a with
      | MFull => true
      | MPartial => use_partial
      | MNone => false
      end
  end.
(* attribute_utility.cc:74-85 CheckForMissingAttribute *)
Definition CheckForMissing (pats : list pattern) (t : trail) : bool :=
  match t with
  | None => false
  | Some a => match MatchAgainstPatterns pats a with MFull => true | _ => false end
  end.

(* base/attribute_set.h:36-105 AttributeSet: an absl::btree_set ordered by
   operator<, modelled by the sorted list of its elements.  insert() keeps the
   set unchanged if it holds an element that is neither less nor greater. *)
Definition attr_set := list attribute.
Fixpoint set_insert (a : attribute) (s : attr_set) : attr_set :=
  match s with
  | [] => [a]
  | x :: s' => if attr_ltb a x then a :: s else if attr_ltb x a then x :: set_insert a s' else s
  end.
(* attribute_set.h:52-56, 95-100: adding the elements one by one *)
Definition set_add_all (s t : attr_set) : attr_set :=
  fold_left (fun s a => set_insert a s) t s.
(* attribute_set.h:58-63, 83-86 merge constructor and Merge *)
Definition set_merge (s t : attr_set) : attr_set := set_add_all s t.
Definition set_of_list (l : list attribute) : attr_set := set_add_all [] l.
