(* Model of the recursive evaluator (max_recursion_depth <> 0):
     eval/eval/direct_expression_step.{h,cc} and the Direct* steps of
     eval/eval/*_step.cc, eval/compiler/flat_expr_builder.cc
     (SetRecursiveStep and the recursive makers).

   Every step is called with two references, Value& result and
   AttributeTrail& trail.  A comprehension evaluates its loop step into the
   accumulator slot in place, so the references can alias a slot that the step
   reads: the model keeps the slot each reference aliases.

   Simplifications: as in M_Expr and M_Plan.  What a moved-from value holds is
   unspecified: it is given by a function mv over which every theorem
   quantifies. *)
From Coq Require Import ZArith List Bool String.
From Verif Require Import Base M_Overflow M_Number M_Attr M_Value M_Logic M_Expr M_Plan M_Machine.
Import ListNotations.
Local Open Scope string_scope.
Open Scope list_scope.
Open Scope Z_scope.

(* ---- references ---- *)

(* The slots that Value& result and AttributeTrail& trail alias, if any. *)
Record ref := mkRef { r_val : option nat; r_att : option nat }.
Definition temps : ref := mkRef None None.

(* writing through a reference; comprehension_slots.h:40-85 mutable_value,
   mutable_attribute *)
Definition put_value (o : option nat) (v : value) (s : est) : est :=
  match o with
  | Some n => match e_slots s n with Some x => set_slot n (v, snd x) s | None => s end
  | None => s
  end.
Definition put_trail (o : option nat) (t : trail) (s : est) : est :=
  match o with
  | Some n => match e_slots s n with Some x => set_slot n (fst x, t) s | None => s end
  | None => s
  end.
(* the step ends with value and trail x in the references *)
Definition ret (rf : ref) (x : vt) (s : est) : res vt :=
  RVal x (put_trail (r_att rf) (snd x) (put_value (r_val rf) (fst x) s)).
Definition slot_trail (n : nat) (s : est) : trail :=
  match e_slots s n with Some x => snd x | None => None end.

(* A step: how much deeper calls may nest (None: no limit), the references, the
   trail the reference holds on entry. *)
Definition dstep := option nat -> ref -> trail -> est -> res vt.
Definition too_deep {A} : res A := RFault "recursion depth exceeded".
Definition deeper (room : option nat) : option (option nat) :=
  match room with
  | None => Some None
  | Some O => None
  | Some (S n) => Some (Some n)
  end.

(* ---- steps on evaluated operands ---- *)

(* logic_step.cc:40-81 ReturnLogicResult and 102-136, 155-185: value and trail,
   from the left operand x, the right operand y and what the shared trail
   reference holds after the right operand *)
Definition logic_result (C : config) (op : op_type) (x y : value) (ty : trail) : vt :=
  if decides op x then (x, ty)
  else if decides op y then (y, None)
  else
    let r := ReturnLogicResult (unk C) op x y in
    if unk C && is_unknown x && is_unknown y then (r, None)
    else if unk C && is_unknown x then (r, ty)
    else if unk C && is_unknown y then (r, None)
    else if is_error x then (r, ty)
    else if is_error y then (r, None)
    else match x, y with
         | VBool _, VBool _ => (r, ty)
         | _, _ => (r, None)
         end.

(* select_step.cc:321-385 DirectSelectStep::Evaluate after its operand, with
   409-475, without messages *)
Definition DirectSelect (C : config) (field : string) (test_only : bool) (a : vt) : out vt :=
  let (v, t) := a in
  match v with
  | VUnknown _ | VError _ => Val a
  | _ =>
      let f := bytes_of_string field in
      let rt := if unk C then trail_step t (QString f) else t in
      match unknown_exact C rt with
      | Some u => Val (u, rt)
      | None =>
          let optional_arg :=
            match v with VOptional o => if o_optional_types (cf_opts C) then Some o else None
                       | _ => None end in
          match optional_arg, v with
          | None, VMap m =>
              if test_only then Val (MapHas m (VString f), rt) else Val (MapGet m (VString f), rt)
          | Some None, _ => if test_only then Val (VBool false, rt) else Val (v, rt)
          | Some (Some w), _ =>
              if test_only then
                match w with
                | VMap m => Val (MapHas m (VString f), rt)
                | _ => Val (VError invalid_select, rt)
                end
              else
                match w with
                | VMap m => Val (VOptional (MapFind m (VString f)), rt)
                | _ => Err invalid_select
                end
          | None, _ => Val (VError invalid_select, rt)
          end
      end
  end.

(* container_access_step.cc:222-273 PerformLookup writing into a trail that
   holds t *)
Definition DirectLookup (C : config) (container key : vt) (t : trail) : out vt :=
  let acc := acc_MaybeAdd (acc_MaybeAdd acc_new (fst container)) (fst key) in
  if unk C && negb (acc_IsEmpty acc) then Val (acc_Build acc, t)
  else
    let t' := if unk C then trail_step (snd container) (qualifier_of (fst key)) else t in
    match unknown_exact C t' with
    | Some u => Val (u, t')
    | None =>
        obind (PerformLookup (o_heterogeneous (cf_opts C)) (o_optional_types (cf_opts C))
                 (fst container) (fst key)) (fun r => Val (r, t'))
    end.

(* ---- literals ---- *)

(* create_list_step.cc:158-168: both checks are made *)
Definition list_unknown (C : config) (acc : accumulator) (x : vt) : accumulator :=
  if unk C then
    let a := acc_MaybeAdd acc (fst x) in
    if CheckForUnknown (cf_pats C) (snd x) true then
      match snd x with Some at_ => mkAcc (set_insert at_ (acc_set a)) (acc_present a) | None => a end
    else a
  else acc.
(* create_map_step.cc:161-167, 179-185 *)
Definition map_unknown (C : config) (acc : accumulator) (x : vt) : accumulator :=
  if unk C then acc_MaybeAddTrail (cf_pats C) acc (fst x) (snd x) else acc.

(* The operand evaluator of a literal or call. *)
Definition operand := rcore -> ref -> trail -> est -> res vt.

(* create_list_step.cc:143-219 CreateListDirectStep::Evaluate; tmp is tmp_attr,
   which all elements share *)
Section DirectList.
  Variables (C : config) (mv : value -> value) (f : operand) (rf : ref) (t : trail).
  Fixpoint direct_list (els : list rcore) (opts : list bool) (tmp : trail) (acc : accumulator)
      (l : list value) (s : est) {struct els} : res vt :=
    match els with
    | [] => ret rf (if acc_IsEmpty acc then VList l else acc_Build acc, t) s
    | e :: els' =>
        let opts' := match opts with [] => [] | _ :: o => o end in
        rbind (f e (mkRef (r_val rf) None) tmp s) (fun x s1 =>
        if is_error (fst x) then RVal (fst x, t) s1
        else
          let acc' := list_unknown C acc x in
          if negb (acc_IsEmpty acc') then direct_list els' opts' (snd x) acc' l s1
          else if match opts with o :: _ => o | [] => false end then
            match fst x with
            | VOptional None => direct_list els' opts' (snd x) acc' l s1
            | VOptional (Some (VError e)) => ret rf (VError e, t) s1
            | VOptional (Some v) =>
                rbind (rlift (ListAdd l v) s1) (fun l' s2 => direct_list els' opts' (snd x) acc' l' s2)
            | _ => ret rf (VError optional_conversion_error, t) s1
            end
          else
            rbind (rlift (ListAdd l (fst x)) s1) (fun l' s2 =>
            direct_list els' opts' (snd x) acc' l' (put_value (r_val rf) (mv (fst x)) s2)))
    end.
End DirectList.

(* create_map_step.cc:151-226 DirectCreateMapStep::Evaluate; an odd operand
   count does not arise *)
Section DirectMap.
  Variables (C : config) (f : operand) (rf : ref) (t : trail).
  Fixpoint direct_map (els : list rcore) (opts : list bool) (acc : accumulator)
      (m : entries) (s : est) {struct els} : res vt :=
    match els with
    | ke :: ve :: els' =>
        let opts' := match opts with [] => [] | _ :: o => o end in
        rbind (f ke temps None s) (fun k s1 =>
        if is_error (fst k) then ret rf (fst k, t) s1
        else
          let acc1 := map_unknown C acc k in
          match CheckMapKey (fst k) with
          | Err e => ret rf (VError e, t) s1
          | UB => RUB
          | Val _ =>
              rbind (f ve temps (snd k) s1) (fun v s2 =>
              if is_error (fst v) then ret rf (fst v, t) s2
              else
                let acc2 := map_unknown C acc1 v in
                if negb (acc_IsEmpty acc2) then direct_map els' opts' acc2 m s2
                else if match opts with o :: _ => o | [] => false end then
                  match fst v with
                  | VOptional None => direct_map els' opts' acc2 m s2
                  | VOptional (Some (VError e)) => ret rf (VError e, t) s2
                  | VOptional (Some w) =>
                      rbind (rlift (MapPut m (fst k) w) s2) (fun m' s3 => direct_map els' opts' acc2 m' s3)
                  | _ => ret rf (VError optional_conversion_error, t) s2
                  end
                else
                  rbind (rlift (MapPut m (fst k) (fst v)) s2) (fun m' s3 => direct_map els' opts' acc2 m' s3))
          end)
    | _ => ret rf (if acc_IsEmpty acc then VMap (cf_reorder C m) else acc_Build acc, t) s
    end.
End DirectMap.

(* function_step.cc:426-436: every argument into its own temporaries *)
Section Args.
  Variable f : operand.
  Fixpoint direct_args (els : list rcore) (s : est) {struct els} : res (list vt) :=
    match els with
    | [] => RVal [] s
    | e :: els' =>
        rbind (f e temps None s) (fun x s1 =>
        rbind (direct_args els' s1) (fun xs s2 => RVal (x :: xs) s2))
    end.
End Args.

(* The steps with a fixed operand list:
     select_step.cc:321-385, container_access_step.cc:326-345,
     logic_step.cc:296-323, 381-402, equality_steps.cc:88-100, 227-241,
     function_step.cc:421-463. *)
Definition direct_app (C : config) (mv : value -> value) (f : operand) (op : sop)
    (args : list rcore) (rf : ref) (t : trail) (s : est) : res vt :=
  match op, args with
  | OSelect field test_only, [a] =>
      rbind (f a rf t s) (fun x s1 =>
      rbind (rlift (DirectSelect C field test_only x) s1) (fun r s2 => ret rf r s2))
  | OIndex, [a; b] =>
      rbind (f a temps None s) (fun x s1 =>
      rbind (f b temps None s1) (fun y s2 =>
      rbind (rlift (DirectLookup C x y t) s2) (fun r s3 => ret rf r s3)))
  | ONot, [a] =>
      rbind (f a rf t s) (fun x s1 =>
      ret rf (NotStep (unk C) (cf_pats C) (fst x) (snd x), snd x) s1)
  | ONotStrictlyFalse, [a] =>
      rbind (f a rf t s) (fun x s1 => ret rf (NotStrictlyFalseStep (fst x), snd x) s1)
  | OEqual n, [a; b] =>
      rbind (f a (mkRef (r_val rf) None) None s) (fun x s1 =>
      rbind (f b temps None s1) (fun y s2 =>
      rbind (rlift (EqualityStep C n x y) s2) (fun r s3 => ret rf (fst r, t) s3)))
  | OIn, [a; b] =>
      rbind (f a (mkRef (r_val rf) None) None s) (fun x s1 =>
      rbind (f b temps None s1) (fun y s2 =>
      rbind (rlift (InStep C x y) s2) (fun r s3 => ret rf (fst r, t) s3)))
  | OCall _ _ _, _ =>
      rbind (direct_args f args s) (fun xs s1 =>
      rbind (do_op C op xs s1) (fun r s2 => ret rf (fst r, t) s2))
  | OList opts, _ => direct_list C mv f rf t args opts None acc_new [] s
  | OMap opts, _ => direct_map C f rf t args opts acc_new [] s
  | _, _ => RUB
  end.

(* optional_or_step.cc:237-275 DirectOptionalOrStep::Evaluate after its
   optional operand: Some r when the step ends with r *)
Definition direct_or_first (or_value : bool) (x : vt) : option vt :=
  match fst x with
  | VUnknown _ | VError _ => Some x
  | VOptional (Some v) => Some (if or_value then (v, snd x) else x)
  | VOptional None => None
  | _ => Some (VError (no_matching_overload (optional_or_name or_value)), snd x)
  end.
Definition direct_or_second (or_value : bool) (y : vt) : vt :=
  match fst y with
  | VUnknown _ | VError _ | VOptional _ => y
  | _ => if or_value then y else (VError (no_matching_overload (optional_or_name or_value)), snd y)
  end.

(* ternary_step.cc:55-64, 100-109: Some r when the condition x ends the step
   with r; t is the trail on entry *)
Definition ternary_stop (t : trail) (x : vt) : option vt :=
  match fst x with
  | VError _ | VUnknown _ => Some x
  | VBool _ => None
  | _ => Some (VError (no_matching_overload "_?_:_"), t)
  end.

(* ---- comprehensions ---- *)

(* comprehension_step.cc:208-277 Evaluate1Unknown, 279-324 Evaluate1Known and
   the loop of Evaluate2 (326-440); ct is condition_attr.  Some v: the
   comprehension ends with v (should_skip_result). *)
Section DirectLoop.
  Variables (C : config) (it it2 ac : nat) (is_map : bool) (rt : trail).
  Variables (fc fs : ref -> trail -> est -> res vt).
  Fixpoint direct_loop (items : list (value * value)) (ct : trail) (s : est) {struct items}
      : res (option value) :=
    match items with
    | [] => RVal None s
    | kv :: items' =>
        rbind (IncrementIterations C s) (fun _ s1 =>
        rbind (fc temps ct (set_iter C it it2 is_map rt kv (count_loop s1))) (fun c s2 =>
        match loop_condition c with
        | inl r => RVal (Some (fst r)) s2
        | inr b =>
            if negb b && sc C then RVal None s2
            else rbind (fs (mkRef (Some ac) (Some ac)) (slot_trail ac s2) s2) (fun _ s3 =>
                 direct_loop items' (snd c) s3)
        end))
    end.
End DirectLoop.
(* comprehension_step.cc:182-185, 377-385: ComprehensionSlot::Set() *)
Definition open_iter (it it2 : nat) (s : est) : est :=
  if Nat.eqb it it2 then set_slot it (VNull, None) s
  else set_slot it2 (VNull, None) (set_slot it (VNull, None) s).

(* ---- the evaluator ---- *)

Definition set_dlz (i : nat) (f : dstep) (lz : nat -> dstep) : nat -> dstep :=
  fun j => if Nat.eqb j i then f else lz j.

(* DirectExpressionStep::Evaluate for each kind of step.  lz are the extracted
   subexpressions. *)
Fixpoint deval (C : config) (mv : value -> value) (r : rcore) (lz : nat -> dstep)
    (room : option nat) (rf : ref) (t : trail) (s : est) {struct r} : res vt :=
  match deeper room with
  | None => too_deep
  | Some room' =>
      let sub := fun x => deval C mv x lz room' in
      match r with
      | RConst v => ret rf (v, t) s                        (* compiler_constant_step.cc:25-29 *)
      | RVar name =>                                       (* ident_step.cc:114-127 *)
          rbind (rlift (LookupIdent C name) s) (fun x s1 =>
          ret rf (fst x, if unk C then snd x else t) s1)
      | RSlot name n =>                                    (* ident_step.cc:129-150 *)
          rbind (read_slot name n s) (fun x s1 =>
          ret rf (fst x, if unk C then snd x else t) s1)
      | RLazy n idx =>                                     (* lazy_init_step.cc:69-80 *)
          match e_slots s n with
          | Some x => ret rf x s
          | None => rbind (lz idx room' rf t (count_init idx s)) (fun x s1 => RVal x (set_slot n x s1))
          end
      | RLogic op a b =>                                   (* logic_step.cc:102-185 *)
          rbind (sub a rf t s) (fun x s1 =>
          if sc C && decides op (fst x) then RVal x s1
          else rbind (sub b (mkRef None (r_att rf)) (snd x) s1) (fun y s2 =>
               ret rf (logic_result C op (fst x) (fst y) (snd y)) s2))
      | RCond c a b =>                                     (* ternary_step.cc:30-120 *)
          rbind (sub c temps None s) (fun x s1 =>
          if sc C then
            match ternary_stop t x with
            | Some r => ret rf r s1
            | None => if is_true (fst x) then sub a rf t s1 else sub b rf t s1
            end
          else
            rbind (sub a temps None s1) (fun y s2 =>
            rbind (sub b temps None s2) (fun z s3 =>
            ret rf (match ternary_stop t x with
                    | Some r => r
                    | None => if is_true (fst x) then y else z
                    end) s3)))
      | ROr k a b =>                                       (* optional_or_step.cc:201-275 *)
          rbind (sub a rf t s) (fun x s1 =>
          if sc C then
            match direct_or_first k x with
            | Some r => ret rf r s1
            | None => rbind (sub b rf (snd x) s1) (fun y s2 => ret rf (direct_or_second k y) s2)
            end
          else
            rbind (sub b temps None s1) (fun y s2 => ret rf (EvalOptionalOr k x y) s2))
      | RApp op args => direct_app C mv sub op args rf t s
      | RComp it it2 ac range init cond step res =>        (* comprehension_step.cc:139-440 *)
          rbind (sub range temps None s) (fun rv s1 =>
          match comp_init C rv with
          | inl r => ret rf (fst r, t) s1
          | inr (b, items) =>
              rbind (sub init temps None s1) (fun iv s2 =>
              rbind (direct_loop C it it2 ac b (snd rv) (sub cond) (sub step) items None
                       (open_iter it it2 (set_slot ac iv s2))) (fun o s3 =>
              rbind (match o with
                     | Some v => ret rf (v, t) (clear_iter it it2 s3)
                     | None => sub res rf t (clear_iter it it2 s3)
                     end) (fun x s4 => RVal x (clear_slot ac s4))))
          end)
      | RBind n idx init res =>                            (* lazy_init_step.cc:84-105 *)
          let own := fun room2 => deval C mv init lz room2 in
          rbind (deval C mv res (set_dlz idx own lz) room' rf t s) (fun x s1 =>
          RVal x (clear_slot n s1))
      end
  end.

(* ---- planning ---- *)

(* The depth the builder records for each step: flat_expr_builder.cc:1078-1265,
   1716-1731 and RecursiveDependencyDepth
   (flat_expr_builder_extensions.cc:101-118); ld is the depth of each extracted
   subexpression. *)
Definition depth_list (f : rcore -> nat) :=
  fix go (l : list rcore) : nat := match l with [] => O | x :: l' => Nat.max (f x) (go l') end.
Fixpoint rdepth (ld : nat -> nat) (r : rcore) {struct r} : nat :=
  match r with
  | RConst _ | RVar _ | RSlot _ _ => 1%nat
  | RLazy _ idx => S (ld idx)
  | RLogic _ a b | ROr _ a b => S (Nat.max (rdepth ld a) (rdepth ld b))
  | RCond c a b => S (Nat.max (Nat.max (rdepth ld c) (rdepth ld a)) (rdepth ld b))
  | RApp _ args => S (depth_list (rdepth ld) args)
  | RComp _ _ _ r i c s b =>
      S (Nat.max (rdepth ld r) (Nat.max (rdepth ld i) (Nat.max (rdepth ld c)
           (Nat.max (rdepth ld s) (rdepth ld b)))))
  | RBind _ idx init res =>
      S (rdepth (fun j => if Nat.eqb j idx then rdepth ld init else ld j) res)
  end.
(* SetRecursiveStep refuses a step deeper than the limit: every step is within
   it *)
Definition fits_list (f : rcore -> bool) :=
  fix go (l : list rcore) : bool := match l with [] => true | x :: l' => f x && go l' end.
Fixpoint fits (max : nat) (ld : nat -> nat) (r : rcore) {struct r} : bool :=
  Nat.leb (rdepth ld r) max &&
  match r with
  | RConst _ | RVar _ | RSlot _ _ | RLazy _ _ => true
  | RLogic _ a b | ROr _ a b => fits max ld a && fits max ld b
  | RCond c a b => fits max ld c && fits max ld a && fits max ld b
  | RApp _ args => fits_list (fits max ld) args
  | RComp _ _ _ r i c s b =>
      fits max ld r && fits max ld i && fits max ld c && fits max ld s && fits max ld b
  | RBind _ idx init res =>
      fits max ld init &&
      fits max (fun j => if Nat.eqb j idx then rdepth ld init else ld j) res
  end.
(* flat_expr_builder.cc:1716-1731; max_recursion_depth -1 is no limit (None) *)
Definition depth_error : status := mkStatus kInvalidArgument "Maximum recursion depth exceeded".
Definition recursive_plan (o : options) (R : registry) (limit : option nat) (e : expr) : out rcore :=
  obind (elaborate o R e) (fun k =>
  let r := resolved k in
  match limit with
  | None => Val r
  | Some n => if fits n (fun _ => O) r then Val r else Err depth_error
  end).

(* direct_expression_step.cc:28-45 WrappedDirectStep: the program's only step,
   on a fresh value and trail *)
Definition no_dlazy : nat -> dstep := fun _ _ _ _ _ => RUB.
Definition direct_run (C : config) (mv : value -> value) (limit : option nat) (r : rcore) : res value :=
  match deval C mv r no_dlazy limit temps None est_init with
  | RVal x s => RVal (fst x) s
  | RErr e s => RErr e s
  | RFault w => RFault w
  | RUB => RUB
  end.
