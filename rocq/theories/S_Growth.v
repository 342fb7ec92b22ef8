(* How large values are, and when a loop step can only add to them. *)
From Coq Require Import ZArith String List Bool Arith.
From Verif Require Import Base M_Overflow M_Number M_Attr M_Value M_Expr M_Machine S_Eval S_Macro.
Import ListNotations.
Open Scope list_scope.
Local Open Scope nat_scope.

(* The size of a value: one for the value itself, one for each character or
   byte, and the sizes of what it contains. *)
Definition key_size (k : mkey) : nat :=
  match k with KString s => S (List.length s) | _ => 1 end.
Fixpoint size (v : value) : nat :=
  match v with
  | VString s | VBytes s => S (List.length s)
  | VList l => S ((fix go l := match l with [] => 0 | a :: l' => size a + go l' end) l)
  | VMap m => S ((fix go m := match m with [] => 0 | (k, a) :: m' => key_size k + size a + go m' end) m)
  | VOptional (Some a) => S (size a)
  | _ => 1
  end.
Definition total (vs : list value) : nat := list_sum (map size vs).

(* no result of the registered functions of that name is larger than f of the
   arguments *)
Definition at_most (R : registry) (fn : string) (f : list value -> nat) : Prop :=
  forall o args w, In o R -> ov_name o = fn -> ov_impl o args = Val w -> size w <= f args.
Definition small (R : registry) (fn : string) : Prop := exists b, at_most R fn (fun _ => b).
(* `+` makes nothing larger than its operands together, and `dyn` nothing
   larger than its operand *)
Definition concatenating (R : registry) : Prop := at_most R "_+_" total /\ at_most R "dyn" total.

(* Expressions that use x only where the size of the value can be told from
   the sizes of its parts: not in a key, not in an argument of a function that
   may return anything, and in a comprehension only in the result. *)
Inductive plain_use (R : registry) (x : string) : expr -> Prop :=
| use_none e : free x e = false -> plain_use R x e
| use_var : plain_use R x (EIdent x)
| use_select a f t : plain_use R x a -> plain_use R x (ESelect a f t)
| use_cond c a b : plain_use R x a -> plain_use R x b ->
    plain_use R x (ECall "_?_:_" None [c; a; b])
| use_add args : Forall (plain_use R x) args -> plain_use R x (ECall "_+_" None args)
| use_index a k : plain_use R x a -> plain_use R x (ECall "_[_]" None [a; k])
| use_dyn a : plain_use R x a -> plain_use R x (ECall "dyn" None [a])
| use_list l : Forall (fun p => plain_use R x (snd p)) l -> plain_use R x (EList l)
| use_map l : Forall (fun p => free x (fst (snd p)) = false /\ plain_use R x (snd (snd p))) l ->
    plain_use R x (EMap l)
| use_logic fn a b args : fn = "_&&_"%string \/ fn = "_||_"%string ->
    plain_use R x (ECall fn None (a :: b :: args))
| use_small fn t args : ~ In fn ["_&&_"; "_||_"; "_?_:_"; "_[_]"; "or"; "orValue"]%string ->
    small R fn -> plain_use R x (ECall fn t args)
| use_result i i2 y range init cond step res :
    free x (EComp i i2 y range init cond step (EConst VNull)) = false -> plain_use R x res ->
    plain_use R x (EComp i i2 y range init cond step res).

(* the number of free occurrences of a name *)
Fixpoint occurrences (x : string) (e : expr) : nat :=
  match e with
  | EConst _ => 0
  | EIdent y => if String.eqb y x then 1 else 0
  | ESelect a _ _ => occurrences x a
  | ECall _ t args =>
      match t with Some a => occurrences x a | None => 0 end
      + (fix go l := match l with [] => 0 | a :: l' => occurrences x a + go l' end) args
  | EList l => (fix go l := match l with [] => 0 | (_, a) :: l' => occurrences x a + go l' end) l
  | EMap l =>
      (fix go l := match l with
                   | [] => 0
                   | (_, (k, v)) :: l' => occurrences x k + occurrences x v + go l'
                   end) l
  | EComp i i2 y range init cond step res =>
      occurrences x range + occurrences x init
      + (if String.eqb i x || String.eqb i2 x || String.eqb y x then 0
         else occurrences x cond + occurrences x step)
      + (if String.eqb y x then 0 else occurrences x res)
  end.

(* the immediate parts of an expression *)
Inductive part : expr -> expr -> Prop :=
| part_select a f t : part a (ESelect a f t)
| part_target fn a args : part a (ECall fn (Some a) args)
| part_arg fn t args a : In a args -> part a (ECall fn t args)
| part_elem l o a : In (o, a) l -> part a (EList l)
| part_key l o k v : In (o, (k, v)) l -> part k (EMap l)
| part_value l o k v : In (o, (k, v)) l -> part v (EMap l)
| part_range i i2 y r n c s b : part r (EComp i i2 y r n c s b)
| part_init i i2 y r n c s b : part n (EComp i i2 y r n c s b)
| part_cond i i2 y r n c s b : part c (EComp i i2 y r n c s b)
| part_step i i2 y r n c s b : part s (EComp i i2 y r n c s b)
| part_result i i2 y r n c s b : part b (EComp i i2 y r n c s b).
(* e itself and everything in it *)
Inductive within : expr -> expr -> Prop :=
| within_self e : within e e
| within_part a b e : within a b -> part b e -> within a e.
(* some comprehension in e has x as its second iteration variable *)
Definition second_variable (x : string) (e : expr) : Prop :=
  exists i y r n c s b, within (EComp i x y r n c s b) e.

(* [copies x e n]: one way of building the value of e may put n copies of x
   into it.  A conditional takes one branch; `+`, lists and maps put their
   operands together; a nested comprehension starts with its range and initial
   value, goes through its step, or ends with its result. *)
Inductive copies (x : string) : expr -> nat -> Prop :=
| copies_none e : copies x e 0
| copies_var : copies x (EIdent x) 1
| copies_select a f n : copies x a n -> copies x (ESelect a f false) n
| copies_then t c a b n : copies x a n -> copies x (ECall "_?_:_" t [c; a; b]) n
| copies_else t c a b n : copies x b n -> copies x (ECall "_?_:_" t [c; a; b]) n
| copies_add t args ns : Forall2 (copies x) args ns -> copies x (ECall "_+_" t args) (list_sum ns)
| copies_index t a k n : copies x a n -> copies x (ECall "_[_]" t [a; k]) n
| copies_dyn t a n : copies x a n -> copies x (ECall "dyn" t [a]) n
| copies_list l ns : Forall2 (fun p => copies x (snd p)) l ns -> copies x (EList l) (list_sum ns)
| copies_map l ns : Forall2 (fun p => copies x (snd (snd p))) l ns -> copies x (EMap l) (list_sum ns)
| copies_start i i2 y range init cond step res m n : copies x range m -> copies x init n ->
    copies x (EComp i i2 y range init cond step res) (m + n)
| copies_step i i2 y range init cond step res n : i <> x -> y <> x -> copies x step n ->
    copies x (EComp i i2 y range init cond step res) n
| copies_result i i2 y range init cond step res n : y <> x -> copies x res n ->
    copies x (EComp i i2 y range init cond step res) n.
