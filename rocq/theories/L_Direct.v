(* The recursive evaluator computes, without unknown tracking, what it would
   with fresh result variables (C22). *)
From Coq Require Import ZArith List Bool String Lia.
From Verif Require Import Base M_Overflow M_Number M_Attr M_Value M_Logic M_Expr M_Plan M_Machine M_Direct
  S_Direct S_Eval L_Seval.
Import ListNotations.
Local Open Scope string_scope.
Open Scope list_scope.
Open Scope Z_scope.

(* ---- the semantics without aliasing ---- *)

(* one element of a list literal: the literal's outcome, or the list so far *)
Definition list_one (opt : bool) (v : value) (l : list value) : out (value + list value) :=
  if is_error v then Val (inl v)
  else if opt then
    match v with
    | VOptional None => Val (inr l)
    | VOptional (Some (VError e)) => Val (inl (VError e))
    | VOptional (Some w) => obind (ListAdd l w) (fun l' => Val (inr l'))
    | _ => Val (inl (VError optional_conversion_error))
    end
  else obind (ListAdd l v) (fun l' => Val (inr l')).
Definition key_one (k : value) : out (option value) :=
  if is_error k then Val (Some k)
  else match CheckMapKey k with
       | Err e => Val (Some (VError e))
       | UB => UB
       | Val _ => Val None
       end.
Definition entry_one (opt : bool) (k v : value) (m : entries) : out (value + entries) :=
  if is_error v then Val (inl v)
  else if opt then
    match v with
    | VOptional None => Val (inr m)
    | VOptional (Some (VError e)) => Val (inl (VError e))
    | VOptional (Some w) => obind (MapPut m k w) (fun m' => Val (inr m'))
    | _ => Val (inl (VError optional_conversion_error))
    end
  else obind (MapPut m k v) (fun m' => Val (inr m')).
Definition hd_opt (opts : list bool) : bool := match opts with o :: _ => o | [] => false end.
Definition tl_opt (opts : list bool) : list bool := match opts with [] => [] | _ :: o => o end.

(* the operations on evaluated operands *)
Definition direct_op (C : config) (op : sop) (args : list vt) : out vt :=
  match op, args with
  | OSelect f t, [a] => DirectSelect C f t a
  | OIndex, [a; b] => DirectLookup C a b None
  | ONot, [a] => Val (NotStep (unk C) (cf_pats C) (fst a) (snd a), snd a)
  | ONotStrictlyFalse, [a] => Val (NotStrictlyFalseStep (fst a), snd a)
  | OEqual n, [a; b] => obind (EqualityStep C n a b) (fun r => Val (fst r, None))
  | OIn, [a; b] => obind (InStep C a b) (fun r => Val (fst r, None))
  | OCall _ _ _, _ => obind (apply_op C op args) (fun r => Val (fst r, None))
  | _, _ => UB
  end.
Definition direct_arity (op : sop) (n : nat) : bool :=
  match op with
  | OSelect _ _ | ONot | ONotStrictlyFalse => Nat.eqb n 1
  | OIndex | OEqual _ | OIn => Nat.eqb n 2
  | OCall _ _ _ | OList _ | OMap _ => true
  end.
Definition do_direct (C : config) (op : sop) (args : list vt) (s : est) : res vt :=
  rlift (direct_op C op args) (add_log (op_invokes C op args) s).

Section Literals.
  Variables (C : config) (f : rcore -> comp).
  Fixpoint d_list (els : list rcore) (opts : list bool) (l : list value) (s : est) : res vt :=
    match els with
    | [] => RVal (VList l, None) s
    | e :: els' =>
        rbind (f e s) (fun x s1 =>
        rbind (rlift (list_one (hd_opt opts) (fst x) l) s1) (fun o s2 =>
        match o with
        | inl v => RVal (v, None) s2
        | inr l' => d_list els' (tl_opt opts) l' s2
        end))
    end.
  Fixpoint d_map (els : list rcore) (opts : list bool) (m : entries) (s : est) : res vt :=
    match els with
    | ke :: ve :: els' =>
        rbind (f ke s) (fun k s1 =>
        rbind (rlift (key_one (fst k)) s1) (fun o s2 =>
        match o with
        | Some v => RVal (v, None) s2
        | None =>
            rbind (f ve s2) (fun v s3 =>
            rbind (rlift (entry_one (hd_opt opts) (fst k) (fst v) m) s3) (fun o s4 =>
            match o with
            | inl v => RVal (v, None) s4
            | inr m' => d_map els' (tl_opt opts) m' s4
            end))
        end))
    | _ => RVal (VMap (cf_reorder C m), None) s
    end.
End Literals.

Section DLoop.
  Variables (C : config) (it it2 ac : nat) (is_map : bool) (t : trail) (fc fs : comp).
  Fixpoint dloop (items : list (value * value)) (s : est) : res (option value) :=
    match items with
    | [] => RVal None s
    | kv :: items' =>
        rbind (IncrementIterations C s) (fun _ s1 =>
        rbind (fc (set_iter C it it2 is_map t kv (count_loop s1))) (fun c s2 =>
        match loop_condition c with
        | inl r => RVal (Some (fst r)) s2
        | inr b =>
            if negb b && sc C then RVal None s2
            else rbind (fs s2) (fun a s3 => dloop items' (set_slot ac a s3))
        end))
    end.
End DLoop.

Fixpoint dsev (C : config) (r : rcore) (lz : nat -> comp) (s : est) {struct r} : res vt :=
  match r with
  | RConst v => RVal (v, None) s
  | RVar name => rlift (LookupIdent C name) s
  | RSlot name n => read_slot name n s
  | RLazy n idx =>
      match e_slots s n with
      | Some x => RVal x s
      | None => rbind (lz idx (count_init idx s)) (fun x s1 => RVal x (set_slot n x s1))
      end
  | RLogic op a b =>
      rbind (dsev C a lz s) (fun x s1 =>
      if sc C && decides op (fst x) then RVal x s1
      else rbind (dsev C b lz s1) (fun y s2 => RVal (DirectLogic (unk C) op (fst x) (fst y), None) s2))
  | RCond c a b =>
      rbind (dsev C c lz s) (fun x s1 =>
      if sc C then
        match ternary_stop None x with
        | Some r => RVal r s1
        | None => if is_true (fst x) then dsev C a lz s1 else dsev C b lz s1
        end
      else
        rbind (dsev C a lz s1) (fun y s2 =>
        rbind (dsev C b lz s2) (fun z s3 =>
        RVal (match ternary_stop None x with Some r => r | None => if is_true (fst x) then y else z end) s3)))
  | ROr k a b =>
      rbind (dsev C a lz s) (fun x s1 =>
      match (if sc C then direct_or_first k x else None) with
      | Some r => RVal r s1
      | None =>
          rbind (dsev C b lz s1) (fun y s2 =>
          RVal (if sc C then direct_or_second k y else EvalOptionalOr k x y) s2)
      end)
  | RApp (OList opts) args => d_list (fun x => dsev C x lz) args opts [] s
  | RApp (OMap opts) args => d_map C (fun x => dsev C x lz) args opts [] s
  | RApp op args =>
      if direct_arity op (List.length args)
      then rbind (seval_list (fun x => dsev C x lz) args s) (fun vs s1 => do_direct C op vs s1)
      else RUB
  | RComp it it2 ac range init cond step res =>
      rbind (dsev C range lz s) (fun rv s1 =>
      match comp_init C rv with
      | inl r => RVal (fst r, None) s1
      | inr (b, items) =>
          rbind (dsev C init lz s1) (fun iv s2 =>
          rbind (dloop C it it2 ac b (snd rv) (dsev C cond lz) (dsev C step lz) items
                   (open_iter it it2 (set_slot ac iv s2))) (fun o s3 =>
          rbind (match o with
                 | Some v => RVal (v, None) (clear_iter it it2 s3)
                 | None => dsev C res lz (clear_iter it it2 s3)
                 end) (fun x s4 => RVal x (clear_slot ac s4))))
      end)
  | RBind n idx init res =>
      rbind (dsev C res (set_lz idx (dsev C init lz) lz) s)
        (fun x s1 => RVal x (clear_slot n s1))
  end.
