(* Model of the validators of checked expressions (validator/validator.cc,
   ast_depth_validator.cc, comprehension_nesting_validator.cc,
   homogeneous_literal_validator.cc, timestamp_literal_validator.cc, regex_validator.cc),
   on the navigable
   tree of M_Ast.

   Simplifications.  An issue is the id of the expression and what is wrong with it;
   its text and the location of the id are left out.  absl::ParseTime and
   absl::ParseDuration are those of M_Civil.  The way up through the parents of a node
   has fuel, the number of nodes; running out of it is undefined and never happens. *)
From Coq Require Import ZArith String List Bool.
From Verif Require Import Base M_Overflow M_Number M_Ast M_AstProto.
From Verif Require Import M_Civil M_Convert.
Import ListNotations.
Open Scope list_scope.
Open Scope Z_scope.
Local Open Scope out_scope.

Inductive complaint :=
| DepthExceeds (height : nat)                       (* ast_depth_validator.cc:25-26 *)
| NestingExceeds (count : Z)                        (* comprehension_nesting_validator.cc:60-63 *)
| ExpectedType (expected actual : TypeSpec)         (* homogeneous_literal_validator.cc:61-66 *)
| InvalidLiteral | InvalidLiteralRange              (* timestamp_literal_validator.cc:60, 74-76, 105, 113-115 *)
| OtherComplaint (message : string).
Record issue := mkIssue { i_error : bool; i_at : option Z; i_complaint : complaint }.
(* validator.h:34-62: what a validation reads *)
Record context := mkContext { c_ast : metadata; c_types : list (Z * TypeSpec) }.
(* validator.h:67-90: whether it is valid, and what it reports *)
Definition Validation := context -> out (bool * list issue).

(* common/ast.cc:34-47 *)
Fixpoint GetType (id : Z) (m : list (Z * TypeSpec)) : option TypeSpec :=
  match m with [] => None | (id', t) :: m' => if id =? id' then Some t else GetType id m' end.
Definition GetTypeOrDyn (c : context) (id : Z) : TypeSpec := match GetType id (c_types c) with Some t => t | None => SDyn end.

(* the loop over context.navigable_ast().Root().DescendantsPostorder(); [stop]: it ends
   at the first report *)
Fixpoint scan (md : metadata) (stop : bool) (check : node -> out (option issue)) (l : list nat) : out (list issue) :=
  match l with
  | [] => Val []
  | i :: l' =>
      n <- at_index (m_nodes md) i ;;
      r <- check n ;;
      match r with
      | None => scan md stop check l'
      | Some x => if stop then Val [x] else rest <- scan md stop check l' ;; Val (x :: rest)
      end
  end.
Definition over_nodes (stop : bool) (check : context -> node -> out (option issue)) : Validation := fun c =>
  root <- Root (c_ast c) ;;
  l <- DescendantsPostorder (c_ast c) root ;;
  found <- scan (c_ast c) stop (check c) l ;;
  Val (match found with [] => true | _ => false end, found).

(** ** ast_depth_validator.cc:21-32 *)
Definition AstDepthValidator (max_depth : Z) : Validation := fun c =>
  root <- Root (c_ast c) ;;
  let height := n_height root in
  if max_depth <? Z.of_nat height then Val (false, [mkIssue true None (DepthExceeds height)]) else Val (true, []).

(** ** comprehension_nesting_validator.cc *)
(* :27-32 *)
Definition IsEmptyRangeComprehension (e : Expr) : bool :=
  match e with Comprehension _ _ _ _ (Some (ListE _ [])) _ _ _ _ => true | _ => false end.
(* :48-56 *)
Definition counted (n : node) : bool :=
  match n_node_kind n with kComprehension => negb (IsEmptyRangeComprehension (n_expr n)) | _ => false end.
Fixpoint count_up (fuel : nat) (md : metadata) (current : option nat) : out Z :=
  match current, fuel with
  | None, _ => Val 0
  | Some _, O => UB
  | Some i, S fuel' =>
      n <- at_index (m_nodes md) i ;;
      rest <- count_up fuel' md (n_parent n) ;;
      Val ((if counted n then 1 else 0) + rest)
  end.
(* :38-70 *)
Definition nesting_check (limit : Z) (c : context) (n : node) : out (option issue) :=
  if negb (match n_node_kind n with kComprehension => true | _ => false end) then Val None
  else if IsEmptyRangeComprehension (n_expr n) then Val None
  else
    count <- count_up (length (m_nodes (c_ast c))) (c_ast c) (Some (n_index n)) ;;
    if limit <? count then Val (Some (mkIssue true (Some (expr_id (n_expr n))) (NestingExceeds count))) else Val None.
Definition ComprehensionNestingLimitValidator (limit : Z) : Validation := over_nodes true (nesting_check limit).

(** ** timestamp_literal_validator.cc *)
(* :58-78, :101-118: what is wrong with a literal *)
Definition timestamp_literal (constant : constant) : option complaint :=
  match constant with
  | CString s =>
      match ParseTime s with
      | None => Some InvalidLiteral
      | Some ts => match ValidateTimestamp ts with Val _ => None | _ => Some InvalidLiteralRange end
      end
  | CInt i => match ValidateTimestamp (FromUnixSeconds i) with Val _ => None | _ => Some InvalidLiteralRange end
  | _ => None
  end.
Definition duration_literal (constant : constant) : option complaint :=
  match constant with
  | CString s =>
      match ParseDuration s with
      | None => Some InvalidLiteral
      | Some d => match ValidateDuration d with Val _ => None | _ => Some InvalidLiteralRange end
      end
  | _ => None
  end.
(* :33-57, :86-100 *)
Definition literal_check (function : string) (wrong : constant -> option complaint) (c : context) (n : node) : out (option issue) :=
  match n_expr n with
  | Call _ f _ _ =>
      if negb (String.eqb f function) then Val None
      else
        match n_children n with
        | [i] =>
            child <- at_index (m_nodes (c_ast c)) i ;;
            match n_expr child with
            | Const id k =>
                match wrong k with
                | Some m => Val (Some (mkIssue true (Some id) m))
                | None => Val None
                end
            | _ => Val None
            end
        | _ => Val None
        end
  | _ => Val None
  end.
Definition TimestampLiteralValidator : Validation := over_nodes false (literal_check "timestamp" timestamp_literal).
Definition DurationLiteralValidator : Validation := over_nodes false (literal_check "duration" duration_literal).

(** ** regex_validator.cc *)
(* regex_validator.h: the functions and where their pattern is, the receiver first *)
Record RegexPatternValidatorConfig := mkPattern { function_name : string; pattern_arg_index : Z }.
Section Regex.
  (* re2::RE2::ok of a pattern with the options of internal/re2_options.h *)
  Variable RE2_ok : list Z -> bool.
  (* :36-50; an index is compared with a size as an unsigned number *)
  Definition element_at (l : list Expr) (index : Z) : option Expr := if index <? 0 then None else nth_error l (Z.to_nat index).
  Definition pattern_expr (target : option Expr) (args : list Expr) (arg_index : Z) : option Expr :=
    match target with
    | Some t => if arg_index =? 0 then Some t else element_at args (arg_index - 1)
    | None => element_at args arg_index
    end.
  (* :33-69 *)
  Definition CheckPattern (target : option Expr) (args : list Expr) (arg_index : Z) : option issue :=
    match pattern_expr target args arg_index with
    | Some (Const id (CString s)) => if negb (RE2_ok s) then Some (mkIssue true (Some id) InvalidLiteral) else None
    | _ => None
    end.
  (* :83-92 *)
  Fixpoint check_configs (config : list RegexPatternValidatorConfig) (f : string) (target : option Expr) (args : list Expr) : option issue :=
    match config with
    | [] => None
    | k :: config' => if String.eqb f (function_name k) then CheckPattern target args (pattern_arg_index k) else check_configs config' f target args
    end.
  Definition regex_check (config : list RegexPatternValidatorConfig) (c : context) (n : node) : out (option issue) :=
    match n_expr n with
    | Call _ f target args => Val (check_configs config f target args)
    | _ => Val None
    end.
  (* :74-99 *)
  Definition RegexPatternValidator (config : list RegexPatternValidatorConfig) : Validation := over_nodes false (regex_check config).
End Regex.

(** ** homogeneous_literal_validator.cc *)
(* :31-47 *)
Fixpoint exempt_up (fuel : nat) (md : metadata) (exempt_functions : list string) (parent : option nat) : out bool :=
  match parent, fuel with
  | None, _ => Val false
  | Some _, O => UB
  | Some i, S fuel' =>
      n <- at_index (m_nodes md) i ;;
      if match n_expr n with Call _ f _ _ => existsb (String.eqb f) exempt_functions | _ => false end then Val true
      else exempt_up fuel' md exempt_functions (n_parent n)
  end.
Definition InExemptFunction (md : metadata) (n : node) (exempt_functions : list string) : out bool :=
  exempt_up (length (m_nodes md)) md exempt_functions (n_parent n).
(* :49-55; no parameter is undefined *)
Definition unwrap_optional (optional : bool) (t : TypeSpec) : out TypeSpec :=
  match t with
  | SAbstract name ps =>
      if optional && String.eqb name "optional_type" then match ps with p :: _ => Val p | [] => UB end else Val t
  | _ => Val t
  end.
(* :68-110 *)
Fixpoint TypeEquiv (a b : TypeSpec) {struct a} : bool :=
  let member (x y : option TypeSpec) :=
    match x with
    | Some t => TypeEquiv t (read_type y)
    | None => match read_type y with SUnset | SError => true | _ => false end
    end in
  if type_eq a b then true
  else
    match a, b with
    | SError, _ | _, SError => true
    | SWrapper p, SPrimitive q | SPrimitive p, SWrapper q => Primitive_beq p q
    | SList x, SList y => member x y
    | SMap k v, SMap k' v' => member k k' && member v v'
    | SAbstract n l, SAbstract n' l' =>
        if String.eqb n n' && Nat.eqb (length l) (length l') then
          (fix all (l l' : list TypeSpec) : bool :=
             match l, l' with x :: l, y :: l' => if TypeEquiv x y then all l l' else false | _, _ => true end) l l'
        else false
    | _, _ => false
    end.
(* :125-149 *)
Fixpoint check_elements (c : context) (expected : option TypeSpec) (l : list (option Expr * bool)) : out (option issue) :=
  match l with
  | [] => Val None
  | (e, optional) :: l' =>
      let id := expr_id (read e) in
      t <- unwrap_optional optional (GetTypeOrDyn c id) ;;
      match expected with
      | None => check_elements c (Some t) l'
      | Some x => if TypeEquiv x t then check_elements c expected l' else Val (Some (mkIssue true (Some id) (ExpectedType x t)))
      end
  end.
(* :155-190 *)
Fixpoint check_entries (c : context) (expected : option (TypeSpec * TypeSpec)) (l : list (Z * option Expr * option Expr * bool)) : out (option issue) :=
  match l with
  | [] => Val None
  | (_, key, value, optional) :: l' =>
      let key_id := expr_id (read key) in
      let val_id := expr_id (read value) in
      let k := GetTypeOrDyn c key_id in
      v <- unwrap_optional optional (GetTypeOrDyn c val_id) ;;
      match expected with
      | None => check_entries c (Some (k, v)) l'
      | Some (x, y) =>
          if negb (TypeEquiv x k) then Val (Some (mkIssue true (Some key_id) (ExpectedType x k)))
          else if negb (TypeEquiv y v) then Val (Some (mkIssue true (Some val_id) (ExpectedType y v)))
          else check_entries c expected l'
      end
  end.
(* :114-196 *)
Definition homogeneous_check (exempt_functions : list string) (c : context) (n : node) : out (option issue) :=
  match n_expr n with
  | ListE _ elements =>
      exempt <- InExemptFunction (c_ast c) n exempt_functions ;;
      if exempt : bool then Val None else check_elements c None elements
  | MapE _ entries =>
      exempt <- InExemptFunction (c_ast c) n exempt_functions ;;
      if exempt : bool then Val None else check_entries c None entries
  | _ => Val None
  end.
Definition HomogeneousLiteralValidator (exempt_functions : list string) : Validation :=
  over_nodes false (homogeneous_check exempt_functions).

(** ** validator.cc *)
(* :35-45 *)
Fixpoint run_all (vs : list Validation) (c : context) : out (bool * list issue) :=
  match vs with
  | [] => Val (true, [])
  | v :: vs' =>
      r <- v c ;;
      rest <- run_all vs' c ;;
      Val (fst r && fst rest, snd r ++ snd rest)
  end.
Definition Validate (vs : list Validation) (c : context) : out (bool * list issue) := run_all vs c.
(* checker/validation_result.h:39-90: the checked expression, if any, and the issues;
   IsValid is whether there is one *)
Record ValidationResult (A : Type) := mkResult { r_ast : option A; r_issues : list issue }.
Arguments mkResult {A}. Arguments r_ast {A}. Arguments r_issues {A}.
(* validator.cc:47-60 *)
Definition UpdateValidationResult (vs : list Validation) (r : ValidationResult context) : out (ValidationResult context) :=
  match r_ast r with
  | None => Val r
  | Some c =>
      v <- Validate vs c ;;
      Val (mkResult (if fst v then Some c else None) (r_issues r ++ snd v))
  end.
