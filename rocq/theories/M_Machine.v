(* Model of the iterative evaluator:
     eval/eval/evaluator_core.{h,cc}, eval/eval/comprehension_step.cc,
     eval/eval/comprehension_slots.h, eval/eval/iterator_stack.h,
     eval/eval/jump_step.cc, eval/eval/lazy_init_step.cc,
     eval/eval/ident_step.cc.

   Faults.  A condition the code reports as an internal error about the
   evaluator itself (stack underflow, jump out of range, wrong final stack
   size, loop variable read while unset) or leaves to a debug check (missing iterator or subexpression, slot
   out of range, wrong stack size at a subexpression's end) is the distinct
   outcome RFault, so that it can be proved absent.

   Simplification.  With unknown processing on, ComprehensionNextStep picks key
   or element by the kind of the range left on the stack; the model uses the
   kind of range the iterator was made from, which is that same value.

   Ghost state.  The log of invoked implementations, the count of loop iterations
   begun and the list of bind initialisers evaluated are recorded in every mode; the code has neither. *)
From Coq Require Import ZArith List Bool String.
From Verif Require Import Base M_Overflow M_Number M_Attr M_Value M_Logic M_Expr M_Plan.
Import ListNotations.
Local Open Scope string_scope.
Open Scope list_scope.
Open Scope Z_scope.

(* ---- state shared by all evaluators ---- *)

(* comprehension_slots.h: a slot is unset or holds a value and its attribute *)
Definition slots := nat -> option vt.
Definition slot_set (n : nat) (x : option vt) (f : slots) : slots :=
  fun m => if Nat.eqb m n then x else f m.
Definition no_slots : slots := fun _ => None.

(* evaluator_core.h ExecutionFrameBase: slots and iteration count; ghost: the
   invocation log (latest first), the number of loop iterations begun and the bind
   initialisers evaluated (latest first) *)
Record est := mkEst {
  e_slots : slots;
  e_iterations : Z;
  e_log : list invocation;
  e_loops : nat;
  e_inits : list nat
}.
Definition est_init : est := mkEst no_slots 0 [] 0 [].
Definition set_slot (n : nat) (x : vt) (s : est) : est :=
  mkEst (slot_set n (Some x) (e_slots s)) (e_iterations s) (e_log s) (e_loops s) (e_inits s).
Definition clear_slot (n : nat) (s : est) : est :=
  mkEst (slot_set n None (e_slots s)) (e_iterations s) (e_log s) (e_loops s) (e_inits s).
Definition add_log (l : list invocation) (s : est) : est :=
  mkEst (e_slots s) (e_iterations s) (l ++ e_log s) (e_loops s) (e_inits s).
(* ghost: one more iteration begun *)
Definition count_loop (s : est) : est :=
  mkEst (e_slots s) (e_iterations s) (e_log s) (S (e_loops s)) (e_inits s).
(* ghost: the initialiser of bind i is evaluated *)
Definition count_init (i : nat) (s : est) : est :=
  mkEst (e_slots s) (e_iterations s) (e_log s) (e_loops s) (i :: e_inits s).

(* The outcome of a computation in that state. *)
Inductive res (A : Type) :=
| RVal (a : A) (s : est)
| RErr (e : status) (s : est)
| RFault (why : string)
| RUB.
Arguments RVal {A}. Arguments RErr {A}. Arguments RFault {A}. Arguments RUB {A}.
Definition rbind {A B} (r : res A) (k : A -> est -> res B) : res B :=
  match r with
  | RVal a s => k a s
  | RErr e s => RErr e s
  | RFault w => RFault w
  | RUB => RUB
  end.
Definition rlift {A} (o : out A) (s : est) : res A :=
  match o with Val a => RVal a s | Err e => RErr e s | UB => RUB end.

(* ident_step.cc:86-94 LookupSlot *)
Definition read_slot (name : string) (n : nat) (s : est) : res vt :=
  match e_slots s n with
  | Some x => RVal x s
  | None => RFault (append "Comprehension variable accessed out of scope: " name)
  end.

(* evaluator_core.h:272-282 IncrementIterations *)
Definition budget_exceeded : status := mkStatus kInternal "Iteration budget exceeded".
Definition IncrementIterations (C : config) (s : est) : res unit :=
  let max := o_max_iterations (cf_opts C) in
  if max =? 0 then RVal tt s
  else
    let n := e_iterations s + 1 in
    let s' := mkEst (e_slots s) n (e_log s) (e_loops s) (e_inits s) in
    if max <=? n then RErr budget_exceeded s' else RVal tt s'.

(* One step on evaluated operands, logging the implementation it invokes. *)
Definition do_op (C : config) (op : sop) (args : list vt) (s : est) : res vt :=
  rlift (apply_op C op args) (add_log (op_invokes C op args) s).

(* ---- comprehension steps on values ---- *)

(* The pairs (key, value) a range's iterator yields to Next2
   (common/values/list_value.cc, map_value.cc): indices and elements of a list,
   keys and values of a map.  The index is a size_t made an int64 IntValue. *)
Definition index_value (i : Z) : value := VInt ((i + 2 ^ 63) mod 2 ^ 64 - 2 ^ 63).
Fixpoint list_items (i : Z) (l : list value) : list (value * value) :=
  match l with
  | [] => []
  | v :: l' => (index_value i, v) :: list_items (i + 1) l'
  end.
Definition map_items (m : entries) : list (value * value) :=
  map (fun p => (value_of_key (fst p), snd p)) m.

(* comprehension_step.cc:442-483 ComprehensionInitStep: inl r when the
   comprehension ends with r *)
Definition comp_init (C : config) (range : vt) : vt + (bool * list (value * value)) :=
  match fst range with
  | VError _ | VUnknown _ => inl range
  | VMap m =>
      match unknown_partial C (snd range) with
      | Some u => inl (u, None)
      | None => inr (true, map_items m)
      end
  | VList l => inr (false, list_items 0 l)
  | _ => inl (VError (no_matching_overload "<iter_range>"), None)
  end.

(* comprehension_step.cc:485-542 ComprehensionNextStep::Evaluate1: what the
   iteration variable is set to; t is the range's trail *)
Definition iter_one (C : config) (is_map : bool) (t : trail) (kv : value * value) : vt :=
  let x := if is_map then fst kv else snd kv in
  if unk C then
    let t' := trail_step t (qualifier_of (fst kv)) in
    match unknown_exact C t' with
    | Some u => (u, t')
    | None => (x, t')
    end
  else (x, None).
(* comprehension_step.cc:544-590 Evaluate2 *)
Definition iter_two (C : config) (t : trail) (kv : value * value) : vt * vt :=
  if unk C then
    let t' := trail_step t (qualifier_of (fst kv)) in
    ((fst kv, t'), match unknown_exact C t' with Some u => (u, t') | None => (snd kv, t') end)
  else ((fst kv, None), (snd kv, None)).
(* both; a one-variable comprehension has it = it2 *)
Definition set_iter (C : config) (it it2 : nat) (is_map : bool) (t : trail)
    (kv : value * value) (s : est) : est :=
  if Nat.eqb it it2 then set_slot it (iter_one C is_map t kv) s
  else let (x, y) := iter_two C t kv in set_slot it2 y (set_slot it x s).
Definition clear_iter (it it2 : nat) (s : est) : est :=
  if Nat.eqb it it2 then clear_slot it s else clear_slot it2 (clear_slot it s).

(* comprehension_step.cc:592-663 ComprehensionCondStep: inl r when the
   comprehension ends with r *)
Definition loop_condition (c : vt) : vt + bool :=
  match fst c with
  | VBool b => inr b
  | VError _ | VUnknown _ => inl c
  | _ => inl (VError (no_matching_overload "<loop_condition>"), None)
  end.

(* ---- the machine ---- *)

Record iterator := mkIter { i_map : bool; i_rest : list (value * value) }.
(* evaluator_core.h:430-435 SubFrame; fr_path 0 is the main path, S i is
   subexpression i *)
Record frame := mkFrame { fr_pc : nat; fr_slot : nat; fr_path : nat; fr_size : nat }.

Record mstate := mkM {
  m_pc : nat;
  m_path : nat;
  m_stack : list vt;
  m_iters : list iterator;
  m_calls : list frame;
  m_est : est
}.
Definition path_of (P : program) (n : nat) : option (list step) :=
  match n with
  | O => Some (p_main P)
  | S i => nth_error (p_subs P) i
  end.

(* What one turn of the evaluation loop gives. *)
Inductive turn :=
| TNext (m : mstate)
| TDone (stack : list vt) (iters : list iterator) (s : est)
| TErr (e : status) (s : est)
| TFault (why : string)
| TUB.

Definition with_stack (m : mstate) (st : list vt) : mstate :=
  mkM (m_pc m) (m_path m) st (m_iters m) (m_calls m) (m_est m).
Definition with_est (m : mstate) (s : est) : mstate :=
  mkM (m_pc m) (m_path m) (m_stack m) (m_iters m) (m_calls m) s.
Definition with_iters (m : mstate) (l : list iterator) : mstate :=
  mkM (m_pc m) (m_path m) (m_stack m) l (m_calls m) (m_est m).
Definition push (m : mstate) (x : vt) : mstate := with_stack m (x :: m_stack m).

(* evaluator_core.h:354-366 JumpTo; size is the length of the current path *)
Definition JumpTo (size : nat) (m : mstate) (off : Z) : turn :=
  let p := Z.of_nat (m_pc m) + off in
  if (p <? 0) || (Z.of_nat size <? p) then TFault "Jump address out of range"
  else TNext (mkM (Z.to_nat p) (m_path m) (m_stack m) (m_iters m) (m_calls m) (m_est m)).

(* slot indices are checked against the number of slots
   (comprehension_slots.h ABSL_DCHECK_LT) *)
Definition slot_ok (P : program) (n : nat) : bool := Nat.ltb n (p_slots P).

Definition lift_turn {A} (r : res A) (k : A -> est -> turn) : turn :=
  match r with
  | RVal a s => k a s
  | RErr e s => TErr e s
  | RFault w => TFault w
  | RUB => TUB
  end.

(* One step; the program counter has already been advanced past it. *)
Definition exec (C : config) (P : program) (size : nat) (i : step) (m : mstate) : turn :=
  let stack := m_stack m in
  let s := m_est m in
  match i with
  | SConst v => TNext (push m (v, None))
  | SIdent name => lift_turn (rlift (LookupIdent C name) s) (fun x _ => TNext (push m x))
  | SSlot name n =>
      if slot_ok P n then lift_turn (read_slot name n s) (fun x _ => TNext (push m x))
      else TFault "slot out of range"
  | SLazyInit n idx =>
      if slot_ok P n then
        match e_slots s n with
        | Some x => TNext (push m x)
        | None =>
            match nth_error (p_subs P) idx with
            | None => TFault "subexpression out of range"
            | Some _ =>
                TNext (mkM 0 (S idx) stack (m_iters m)
                         (mkFrame (m_pc m) n (m_path m) (S (List.length stack)) :: m_calls m)
                         (count_init idx s))
            end
        end
      else TFault "slot out of range"
  | SClearSlot n =>
      if slot_ok P n then TNext (with_est m (clear_slot n s)) else TFault "slot out of range"
  | SApp op n =>
      if Nat.ltb (List.length stack) n then TFault "Value stack underflow"
      else lift_turn (do_op C op (rev (firstn n stack)) s)
             (fun x s' => TNext (with_est (with_stack m (x :: skipn n stack)) s'))
  | SLogic op =>
      match stack with
      | b :: a :: rest =>
          TNext (with_stack m ((Calculate (unk C) op (fst a) (fst b), None) :: rest))
      | _ => TFault "Value stack underflow"
      end
  | STernary =>
      match stack with
      | b :: a :: c :: rest => TNext (with_stack m (TernaryStep C c a b :: rest))
      | _ => TFault "Value stack underflow"
      end
  | SOptOr k =>
      match stack with
      | b :: a :: rest => TNext (with_stack m (EvalOptionalOr k a b :: rest))
      | _ => TFault "Value stack underflow"
      end
  | SJump off => JumpTo size m off
  | SCondJump cond leave off =>
      match stack with
      | x :: rest =>
          let m' := if leave then m else with_stack m rest in
          match fst x with
          | VBool b => if Bool.eqb cond b then JumpTo size m' off else TNext m'
          | _ => TNext m'
          end
      | [] => TFault "Value stack underflow"
      end
  | SBoolCheckJump off =>
      match stack with
      | x :: rest =>
          match BoolCheck x with
          | None => TNext m
          | Some r => JumpTo size (with_stack m (r :: rest)) off
          end
      | [] => TFault "Value stack underflow"
      end
  | SOptJump k off =>
      match stack with
      | x :: rest =>
          match OptionalJump k x with
          | None => TNext m
          | Some r => JumpTo size (with_stack m (r :: rest)) off
          end
      | [] => TFault "Value stack underflow"
      end
  | SCompInit err =>
      match stack with
      | x :: rest =>
          match comp_init C x with
          | inl r => JumpTo size (with_stack m (r :: rest)) err
          | inr (b, items) => TNext (with_iters m (mkIter b items :: m_iters m))
          end
      | [] => TFault "Value stack underflow"
      end
  | SCompNext it it2 ac off =>
      if slot_ok P it && slot_ok P it2 && slot_ok P ac then
        match stack with
        | accu :: range :: rest =>
            let s1 := set_slot ac accu s in
            match m_iters m with
            | [] => TFault "no iterator"
            | mkIter b [] :: _ =>
                JumpTo size (with_est (with_stack m (range :: rest)) (clear_iter it it2 s1)) off
            | mkIter b (kv :: items) :: iters =>
                lift_turn (IncrementIterations C s1)
                  (fun _ s2 =>
                     TNext (with_iters (with_est (with_stack m (range :: rest))
                              (set_iter C it it2 b (snd range) kv (count_loop s2)))
                              (mkIter b items :: iters)))
            end
        | _ => TFault "Value stack underflow"
        end
      else TFault "slot out of range"
  | SCompCond it it2 ac sc off err =>
      if slot_ok P it && slot_ok P it2 && slot_ok P ac then
        match stack with
        | c :: range :: rest =>
            match loop_condition c with
            | inr b =>
                let m' := with_stack m (range :: rest) in
                if negb b && sc then JumpTo size m' off else TNext m'
            | inl r =>
                match m_iters m with
                | [] => TFault "no iterator"
                | _ :: iters =>
                    JumpTo size
                      (with_iters (with_est (with_stack m (r :: rest))
                         (clear_slot ac (clear_iter it it2 s))) iters) err
                end
            end
        | _ => TFault "Value stack underflow"
        end
      else TFault "slot out of range"
  | SCompFinish ac =>
      if slot_ok P ac then
        match stack with
        | x :: _ :: rest =>
            match m_iters m with
            | [] => TFault "no iterator"
            | _ :: iters =>
                TNext (with_iters (with_est (with_stack m (x :: rest)) (clear_slot ac s)) iters)
            end
        | _ => TFault "Value stack underflow"
        end
      else TFault "slot out of range"
  end.

(* evaluator_core.cc:43-69 ExecutionFrame::Next and one turn of the loop of
   ExecutionFrame::Evaluate (116-122) *)
Definition turn_of (C : config) (P : program) (m : mstate) : turn :=
  match path_of P (m_path m) with
  | None => TFault "subexpression out of range"
  | Some path =>
      let size := List.length path in
      match nth_error path (m_pc m) with
      | Some i =>
          exec C P size i
            (mkM (S (m_pc m)) (m_path m) (m_stack m) (m_iters m) (m_calls m) (m_est m))
      | None =>
          if Nat.eqb (m_pc m) size then
            match m_calls m with
            | f :: calls =>
                match m_stack m with
                | x :: _ =>
                    if Nat.eqb (List.length (m_stack m)) (fr_size f) && slot_ok P (fr_slot f)
                    then TNext (mkM (fr_pc f) (fr_path f) (m_stack m) (m_iters m) calls
                                  (set_slot (fr_slot f) x (m_est m)))
                    else TFault "unexpected stack size"
                | [] => TFault "unexpected stack size"
                end
            | [] => TDone (m_stack m) (m_iters m) (m_est m)
            end
          else TFault "Attempting to step beyond the end of execution path."
      end
  end.

(* The loop, for at most n turns; None when n turns were not enough. *)
Fixpoint run (C : config) (P : program) (n : nat) (m : mstate) : option turn :=
  match n with
  | O => None
  | S n' =>
      match turn_of C P m with
      | TNext m' => run C P n' m'
      | t => Some t
      end
  end.

(* evaluator_core.cc:37-41 Reset and EvaluateWithCallback (175-186): stacks and
   slots are empty at the start *)
Definition m_init : mstate := mkM 0 0 [] [] [] est_init.

(* evaluator_core.cc:110-160 ExecutionFrame::Evaluate, after the loop *)
Definition finish (t : turn) : res value :=
  match t with
  | TDone [x] _ s => RVal (fst x) s
  | TDone _ _ _ => RFault "Stack error during evaluation"
  | TErr e s => RErr e s
  | TFault w => RFault w
  | TUB => RUB
  | TNext _ => RFault "not finished"
  end.
Definition evaluates (C : config) (P : program) (r : res value) : Prop :=
  exists n t, run C P n m_init = Some t /\ finish t = r.
