(* Model of the math extension: extensions/math_ext.cc and
   extensions/math_ext_macros.cc.  Not modelled: ceil, floor, round, trunc,
   sqrt, isInf, isNaN and isFinite, which are calls of the C library. *)
From Coq Require Import ZArith String List Bool.
From Verif Require Import Base M_Overflow M_Number M_Attr M_Value M_Registry M_Expr M_Macro.
Import ListNotations.
Local Open Scope string_scope.
Open Scope list_scope.
Open Scope Z_scope.
Local Open Scope out_scope.

(* math_ext.cc:52-60 NumberToValue *)
Definition NumberToValue (n : number) : value :=
  match n with NInt i => VInt i | NUint u => VUint u | NDouble d => VDouble d end.
(* math_ext.cc:62-75 ValueToNumber *)
Definition ValueToNumber (fn : string) (v : value) : out number :=
  match v with
  | VInt i => Val (NInt i)
  | VUint u => Val (NUint u)
  | VDouble d => Val (NDouble d)
  | _ => Err (mkStatus kInvalidArgument (fn ++ " arguments must be numeric"))
  end.
(* math_ext.cc:77-82 MinNumber and 128-133 MaxNumber *)
Definition MinNumber (v1 v2 : number) : number := if num_lt v2 v1 then v2 else v1.
Definition MaxNumber (v1 v2 : number) : number := if num_gt v2 v1 then v2 else v1.

(* math_ext.cc:98-126 MinList and 144-172 MaxList, which differ
   only in the name and in the choice between two numbers *)
Fixpoint pick_loop (fn : string) (pick : number -> number -> number) (cur : number) (l : list value) : value :=
  match l with
  | [] => NumberToValue cur
  | v :: l' =>
      match ValueToNumber fn v with
      | Val n => pick_loop fn pick (pick cur n) l'
      | Err s => VError s
      | UB => VError (mkStatus kInternal "unreachable")
      end
  end.
Definition pick_list (fn : string) (pick : number -> number -> number) (l : list value) : value :=
  match l with
  | [] => VError (mkStatus kInvalidArgument (fn ++ " argument must not be empty"))
  | v :: l' =>
      match ValueToNumber fn v with
      | Val n => pick_loop fn pick n l'
      | Err s => VError s
      | UB => VError (mkStatus kInternal "unreachable")
      end
  end.
Definition kMathMin : string := "math.@min".
Definition kMathMax : string := "math.@max".
Definition MinList : list value -> value := pick_list kMathMin MinNumber.
Definition MaxList : list value -> value := pick_list kMathMax MaxNumber.

(* math_ext.cc:84-96, 135-142 and 314-369: the overloads of math.@min and
   math.@max: one number, two numbers of any kinds, one list.  The order of
   registration is not kept; no two overloads match the same arguments. *)
Definition pick_overload (fn : string) (pick : number -> number -> number) (args : list value) : out value :=
  match args with
  | [VList l] => Val (pick_list fn pick l)
  | [v] => n <- ValueToNumber fn v ;; Val (NumberToValue n)
  | [v; w] => a <- ValueToNumber fn v ;; b <- ValueToNumber fn w ;; Val (NumberToValue (pick a b))
  | _ => UB
  end.
Definition num_kinds : list kind := [kIntT; kUintT; kDoubleT].
Definition pick_overloads (fn : string) (pick : number -> number -> number) : list overload :=
  map (fun k => mkOverload fn false [Some k] true (pick_overload fn pick)) num_kinds ++
  flat_map (fun k => map (fun k' => mkOverload fn false [Some k; Some k'] true (pick_overload fn pick)) num_kinds) num_kinds ++
  [mkOverload fn false [Some kListT] true (pick_overload fn pick)].
Definition min_overloads : list overload := pick_overloads kMathMin MinNumber.
Definition max_overloads : list overload := pick_overloads kMathMax MaxNumber.

(* math_ext.cc:220-229 AbsDouble (std::fabs clears the sign), AbsInt, AbsUint *)
Definition AbsDouble (v : double) : double :=
  match v with
  | S754_zero _ => S754_zero false
  | S754_infinity _ => S754_infinity false
  | S754_finite _ m e => S754_finite false m e
  | S754_nan => S754_nan
  end.
Definition AbsInt (v : Z) : out value :=
  if v =? int64_min then Val (VError (mkStatus kInvalidArgument "integer overflow"))
  else if v <? 0 then n <- c_int64 (- v) ;; Val (VInt n) else Val (VInt v).
Definition AbsUint (v : Z) : value := VUint v.
(* math_ext.cc:231-243 SignDouble, SignInt, SignUint *)
Definition done : double := double_of_Z 1.
Definition SignDouble (v : double) : double :=
  if d_isnan v then v
  else if d_eq v dzero then dzero
  else if d_signbit v then dneg done else done.
Definition SignInt (v : Z) : value := VInt (if v <? 0 then -1 else if 0 <? v then 1 else 0).
Definition SignUint (v : Z) : value := VUint (if v =? 0 then 0 else 1).

(* The bit pattern of an int64_t and the int64_t with a bit pattern
   (absl::bit_cast, and the built-in operators on int64_t). *)
Definition pattern (v : Z) : Z := c_uint64 v.
Definition from_pattern (p : Z) : Z := if p <=? int64_max then p else p - 2 ^ 64.
(* math_ext.cc:245-259 BitAndInt ... BitNotUint: on the 64-bit patterns *)
Definition BitAndInt (l r : Z) : value := VInt (from_pattern (Z.land (pattern l) (pattern r))).
Definition BitAndUint (l r : Z) : value := VUint (Z.land l r).
Definition BitOrInt (l r : Z) : value := VInt (from_pattern (Z.lor (pattern l) (pattern r))).
Definition BitOrUint (l r : Z) : value := VUint (Z.lor l r).
Definition BitXorInt (l r : Z) : value := VInt (from_pattern (Z.lxor (pattern l) (pattern r))).
Definition BitXorUint (l r : Z) : value := VUint (Z.lxor l r).
Definition BitNotInt (v : Z) : value := VInt (from_pattern (Z.lxor (pattern v) uint64_max)).
Definition BitNotUint (v : Z) : value := VUint (Z.lxor v uint64_max).

(* uint64_t << n and >> n: undefined when n is negative or at least 64 *)
Definition c_shl (v n : Z) : out Z := if (0 <=? n) && (n <=? 63) then Val (c_uint64 (v * 2 ^ n)) else UB.
Definition c_shr (v n : Z) : out Z := if (0 <=? n) && (n <=? 63) then Val (v / 2 ^ n) else UB.
(* math_ext.cc:261-310 the shifts; the count in the message is left out *)
Definition negative_shift (fn : string) : value :=
  VError (mkStatus kInvalidArgument (fn ++ "() invalid negative shift: ")).
Definition BitShiftLeftInt (l r : Z) : out value :=
  if r <? 0 then Val (negative_shift "math.bitShiftLeft")
  else if 63 <? r then Val (VInt 0)
  else p <- c_shl (pattern l) r ;; Val (VInt (from_pattern p)).
Definition BitShiftLeftUint (l r : Z) : out value :=
  if r <? 0 then Val (negative_shift "math.bitShiftLeft")
  else if 63 <? r then Val (VUint 0)
  else p <- c_shl l r ;; Val (VUint p).
Definition BitShiftRightInt (l r : Z) : out value :=
  if r <? 0 then Val (negative_shift "math.bitShiftRight")
  else if 63 <? r then Val (VInt 0)
  else p <- c_shr (pattern l) r ;; Val (VInt (from_pattern p)).
Definition BitShiftRightUint (l r : Z) : out value :=
  if r <? 0 then Val (negative_shift "math.bitShiftRight")
  else if 63 <? r then Val (VUint 0)
  else p <- c_shr l r ;; Val (VUint p).

(* ---- math_ext_macros.cc ---- *)
(* math_ext_macros.cc:43-46 IsTargetNamespace *)
Definition IsTargetNamespace (target : expr) : bool :=
  match target with EIdent n => String.eqb n "math" | _ => false end.
(* math_ext_macros.cc:48-62 IsValidArgType; struct expressions are not modelled *)
Definition IsValidArgType (arg : expr) : bool :=
  match arg with
  | EConst (VInt _) | EConst (VUint _) | EConst (VDouble _) => true
  | EConst _ => false
  | EList _ | EMap _ => false
  | _ => true
  end.
(* math_ext_macros.cc:78-92 IsListLiteralWithValidArgs *)
Definition IsListLiteralWithValidArgs (arg : expr) : bool :=
  match arg with
  | EList [] => false
  | EList elems => forallb (fun p => IsValidArgType (snd p)) elems
  | _ => false
  end.
(* math_ext_macros.cc:64-76 and 97-188 math.least and math.greatest, which differ in
   the names: no macro (None), the expansion, or a reported error *)
Definition ExpandPick (name fn : string) (target : expr) (args : list expr) : option expansion :=
  if IsTargetNamespace target then
    Some match args with
    | [] => inr (name ++ " requires at least one argument.")%string
    | [a] =>
        if negb (IsListLiteralWithValidArgs a) && negb (IsValidArgType a)
        then inr (name ++ " invalid single argument value.")%string
        else inl (NewCall fn [a])
    | [a; b] =>
        if forallb IsValidArgType args then inl (NewCall fn args)
        else inr (name ++ " simple literal arguments must be numeric")%string
    | _ =>
        if forallb IsValidArgType args then inl (NewCall fn [NewList args])
        else inr (name ++ " simple literal arguments must be numeric")%string
    end
  else None.
Definition ExpandLeast : expr -> list expr -> option expansion := ExpandPick "math.least()" kMathMin.
Definition ExpandGreatest : expr -> list expr -> option expansion := ExpandPick "math.greatest()" kMathMax.
