(* What the validators of checked expressions look for. *)
From Coq Require Import ZArith String List Bool.
From Verif Require Import Base M_Overflow M_Number M_Value M_Ast S_Ast M_AstProto.
From Verif Require Import M_Civil M_Convert.
Import ListNotations.
Open Scope list_scope.
Open Scope Z_scope.

(* [x] occurs in [e], below the expressions [above], the nearest first *)
Inductive inside (e : Expr) : list Expr -> Expr -> Prop :=
| inside_here : inside e [] e
| inside_part above y x : inside e above y -> In x (children y) -> inside e (y :: above) x.

(* A comprehension that may iterate: its range is not the literal []. *)
Definition loops (e : Expr) : bool :=
  match e with
  | Comprehension _ _ _ _ (Some (ListE _ [])) _ _ _ _ => false
  | Comprehension _ _ _ _ _ _ _ _ _ => true
  | _ => false
  end.
Definition nesting (l : list Expr) : Z := Z.of_nat (length (filter loops l)).

(* The value of a literal, and whether a conversion makes an error of it. *)
Definition value_of (c : constant) : option value :=
  match c with
  | CUnspecified => None
  | CNull => Some VNull | CBool b => Some (VBool b) | CInt i => Some (VInt i) | CUint u => Some (VUint u)
  | CDouble d => Some (VDouble d) | CBytes s => Some (VBytes s) | CString s => Some (VString s)
  | CDuration d => Some (VDuration d) | CTimestamp t => Some (VTimestamp t)
  end.
Definition conversion_fails fd ad (o : conv_options) (f : conversion) (c : constant) : Prop :=
  exists v s, value_of c = Some v /\ convert fd ad o f v = Some (Val (VError s)).
(* A call of [f] whose only part is the literal [c] with that id. *)
Definition literal_call (e : Expr) (f : string) (id : Z) (c : constant) : Prop :=
  exists above i target args, inside e above (Call i f target args) /\ children (Call i f target args) = [Const id c].

(* The pattern of a call of a function among [config]: the literal at the place given
   first for the function, counting the receiver. *)
Definition pattern_of (config : list (string * Z)) (e : Expr) (id : Z) (s : list Z) : Prop :=
  exists above i f target args before k after, inside e above (Call i f target args) /\
    config = before ++ (f, k) :: after /\ ~ In f (map fst before) /\
    0 <= k /\ nth_error (children (Call i f target args)) (Z.to_nat k) = Some (Const id (CString s)).

(** ** Types *)
(* The type of an expression: the one on record, or dyn. *)
Definition has_type (types : list (Z * TypeSpec)) (id : Z) (t : TypeSpec) : Prop :=
  In (id, t) types \/ (forall t', ~ In (id, t') types) /\ t = SDyn.
(* The type of an element of a literal; that of an optional one is inside. *)
Definition element_type (types : list (Z * TypeSpec)) (id : Z) (optional : bool) (t : TypeSpec) : Prop :=
  (exists rest, optional = true /\ has_type types id (SAbstract "optional_type" (t :: rest))) \/
  has_type types id t /\ (optional = false \/ forall ps, t <> SAbstract "optional_type" ps).
(* Wrappers count as what they wrap, in lists, maps and abstract types too. *)
Fixpoint plain (t : TypeSpec) : TypeSpec :=
  match t with
  | SWrapper p => SPrimitive p
  | SList e => SList (option_map plain e)
  | SMap k v => SMap (option_map plain k) (option_map plain v)
  | SAbstract n l => SAbstract n (map plain l)
  | t => t
  end.
(* No error in the type or in the parts of lists, maps and abstract types. *)
Fixpoint flawless (t : TypeSpec) : bool :=
  let part (o : option TypeSpec) := match o with Some t => flawless t | None => true end in
  match t with
  | SError => false
  | SList e => part e
  | SMap k v => part k && part v
  | SAbstract _ l => forallb flawless l
  | _ => true
  end.
Definition alike (a b : TypeSpec) : Prop := type_eq (plain a) (plain b) = true.

(* All elements of a list literal are alike; all keys and all values of a map literal. *)
Definition id_of (o : option Expr) : Z := expr_id (or_empty o).
Definition even_list types (elements : list (option Expr * bool)) : Prop :=
  forall a oa b ob s t, In (a, oa) elements -> In (b, ob) elements ->
    element_type types (id_of a) oa s -> element_type types (id_of b) ob t -> alike s t.
Definition even_map types (entries : list (Z * option Expr * option Expr * bool)) : Prop :=
  forall i k v o i' k' v' o', In (i, k, v, o) entries -> In (i', k', v', o') entries ->
    (forall s t, has_type types (id_of k) s -> has_type types (id_of k') t -> alike s t) /\
    (forall s t, element_type types (id_of v) o s -> element_type types (id_of v') o' t -> alike s t).
Definition in_call_of (exempt : list string) (above : list Expr) : Prop :=
  exists i f target args, In (Call i f target args) above /\ In f exempt.
