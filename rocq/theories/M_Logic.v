(* Model of eval/eval/attribute_utility.cc on values (unknown sets, trails) and
   of the logical steps of eval/eval/logic_step.cc.

   Unknown function results are not modelled, so an unknown value is its
   attribute set. *)
From Coq Require Import ZArith List Bool String.
From Verif Require Import Base M_Attr M_Value.
Import ListNotations.
Local Open Scope string_scope.
Open Scope list_scope.

(* ---- attribute utility ---- *)

(* attribute_utility.cc:106-130 MergeUnknowns.  UnknownSet::Add
   (base/internal/unknown_set.h:100-106) adds the attributes one by one. *)
Fixpoint MergeUnknowns_loop (result : option attr_set) (args : list value) : option attr_set :=
  match args with
  | [] => result
  | VUnknown s :: args' =>
      let r := match result with None => [] | Some r => r end in
      MergeUnknowns_loop (Some (set_add_all r s)) args'
  | _ :: args' => MergeUnknowns_loop result args'
  end.
Definition MergeUnknowns (args : list value) : option attr_set := MergeUnknowns_loop None args.

(* attribute_utility.cc:132-145 MergeUnknownValues *)
Definition MergeUnknownValues (left right : attr_set) : attr_set :=
  set_add_all (set_add_all [] left) right.

(* attribute_utility.cc:152-163 CheckForUnknowns; the attribute of an empty
   trail is never used *)
Fixpoint CheckForUnknowns_loop (pats : list pattern) (s : attr_set) (trails : list trail)
    (use_partial : bool) : attr_set :=
  match trails with
  | [] => s
  | t :: ts =>
      let s' := if CheckForUnknown pats t use_partial
                then match t with Some a => set_insert a s | None => s end else s in
      CheckForUnknowns_loop pats s' ts use_partial
  end.
Definition CheckForUnknowns pats trails use_partial : attr_set :=
  CheckForUnknowns_loop pats [] trails use_partial.

(* attribute_utility.cc:171-200 IdentifyAndMergeUnknowns *)
Definition IdentifyAndMergeUnknowns (pats : list pattern) (args : list value)
    (trails : list trail) (use_partial : bool) : option attr_set :=
  let new_set := CheckForUnknowns pats trails use_partial in
  let arg_unknowns := MergeUnknowns args in
  match new_set with
  | [] => arg_unknowns
  | _ =>
      match arg_unknowns with
      | Some s => Some (set_add_all new_set s)
      | None => Some new_set
      end
  end.

(* attribute_utility.h:61-108, attribute_utility.cc:222-264 Accumulator *)
Record accumulator := mkAcc { acc_set : attr_set; acc_present : bool }.
Definition acc_new : accumulator := mkAcc [] false.
Definition acc_MaybeAdd (a : accumulator) (v : value) : accumulator :=
  match v with
  | VUnknown s => mkAcc (set_add_all (acc_set a) s) true
  | _ => a
  end.
Definition acc_MaybeAddTrail (pats : list pattern) (a : accumulator) (v : value) (t : trail)
    : accumulator :=
  match v with
  | VUnknown s => mkAcc (set_add_all (acc_set a) s) true
  | _ =>
      if CheckForUnknown pats t true
      then match t with
           | Some at_ => mkAcc (set_insert at_ (acc_set a)) (acc_present a)
           | None => a
           end
      else a
  end.
Definition acc_IsEmpty (a : accumulator) : bool :=
  negb (acc_present a) && match acc_set a with [] => true | _ => false end.
Definition acc_Build (a : accumulator) : value := VUnknown (acc_set a).

(* ---- logic_step.cc ---- *)

Inductive op_type := OpAnd | OpOr.
Definition op_name (op : op_type) : string :=
  match op with OpAnd => "_&&_" | OpOr => "_||_" end.
(* logic_step.cc:188 *)
Definition shortcircuit (op : op_type) : bool :=
  match op with OpAnd => false | OpOr => true end.

(* logic_step.cc:196-251 LogicalOpStep::Calculate on its two arguments; unk is
   frame->enable_unknowns() *)
Definition Calculate (unk : bool) (op : op_type) (a b : value) : value :=
  let sc := shortcircuit op in
  let rest :=
    match a, b with
    | VBool x, VBool y =>
        VBool (match op with OpAnd => x && y | OpOr => x || y end)
    | _, _ =>
        match (if unk then MergeUnknowns [a; b] else None) with
        | Some s => VUnknown s
        | None =>
            if is_error a then a
            else if is_error b then b
            else VError (no_matching_overload (op_name op))
        end
    end in
  let second :=
    match b with
    | VBool y => if Bool.eqb y sc then VBool y else rest
    | _ => rest
    end in
  match a with
  | VBool x => if Bool.eqb x sc then VBool x else second
  | _ => second
  end.

(* logic_step.cc:40-81 ReturnLogicResult: the value *)
Definition ReturnLogicResult (unk : bool) (op : op_type) (a b : value) : value :=
  match (if unk then
           match a, b with
           | VUnknown s, VUnknown t => Some (VUnknown (MergeUnknownValues s t))
           | VUnknown _, _ => Some a
           | _, VUnknown _ => Some b
           | _, _ => None
           end
         else None) with
  | Some v => v
  | None =>
      if is_error a then a
      else if is_error b then b
      else match a, b with
           | VBool _, VBool _ => a
           | _, _ => VError (no_matching_overload (op_name op))
           end
  end.
(* logic_step.cc:102-136 ExhaustiveDirectLogicStep and 155-185 DirectLogicStep:
   the value, from the operand values.  [decides] is the short-circuit test. *)
Definition decides (op : op_type) (v : value) : bool :=
  match v with
  | VBool x => match op with OpOr => x | OpAnd => negb x end
  | _ => false
  end.
Definition DirectLogic (unk : bool) (op : op_type) (a b : value) : value :=
  if decides op a then a
  else if decides op b then b
  else ReturnLogicResult unk op a b.

(* logic_step.cc:283-311 and 333-365: `!`, with the trail of the operand *)
Definition NotStep (unk : bool) (pats : list pattern) (v : value) (t : trail) : value :=
  match (if unk && CheckForUnknown pats t true then t else None) with
  | Some a => VUnknown [a]
  | None =>
      match v with
      | VBool b => VBool (negb b)
      | VUnknown _ | VError _ => v
      | _ => VError (no_matching_overload "!_")
      end
  end.

(* logic_step.cc:381-402 and 413-435: @not_strictly_false.  The error names
   `!`, as in the code. *)
Definition NotStrictlyFalseStep (v : value) : value :=
  match v with
  | VBool _ => v
  | VUnknown _ | VError _ => VBool true
  | _ => VError (no_matching_overload "!_")
  end.
(* runtime/standard/logical_functions.cc:34-46 NotStrictlyFalseImpl, the
   registered function *)
Definition NotStrictlyFalseImpl (v : value) : value :=
  match v with
  | VBool _ => v
  | VUnknown _ | VError _ => VBool true
  | _ => VError (no_matching_overload "@not_strictly_false")
  end.
