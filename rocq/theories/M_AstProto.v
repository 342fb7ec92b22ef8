(* Model of the conversion of abstract syntax trees to and from protobuf messages
   (common/ast/expr_proto.cc, common/ast/constant_proto.cc,
   common/ast/source_info_proto.cc, common/ast_proto.cc,
   internal/proto_time_encoding.cc), and of the equality of expressions and types
   (common/expr.h, common/ast/metadata.h).

   Messages are trees.  The explicit stack of frames in expr_proto.cc is replaced
   by recursion: a frame fills a message or expression of its own, which nothing
   else touches, and all errors are invalid-argument errors, of which the first
   one met is reported; which message it has is not modelled.  Field values are
   those that the C++ accessors give; wire formats, unknown fields and the UTF-8
   checks of serialisation are not modelled. *)
From Coq Require Import ZArith String List Bool.
From Coq Require Import Floats.SpecFloat.
From Verif Require Import Base M_Overflow M_Number M_Ast.
Import ListNotations.
Open Scope list_scope.
Open Scope Z_scope.
Local Open Scope out_scope.

Definition bad {A} : out A := Err (mkStatus kInvalidArgument "").
Definition mapM {A B} (f : A -> out B) : list A -> out (list B) :=
  fix go l := match l with
              | [] => Val []
              | x :: l' => y <- f x ;; ys <- go l' ;; Val (y :: ys)
              end.
Definition optM {A B} (f : A -> out B) (o : option A) : out (option B) :=
  match o with Some x => y <- f x ;; Val (Some y) | None => Val None end.

(** ** Messages *)

(* google.protobuf.Duration, google.protobuf.Timestamp: seconds and nanos *)
Inductive ConstantPb :=
| PbNotSet | PbNull | PbBool (b : bool) | PbInt (n : Z) | PbUint (n : Z) | PbDouble (d : double)
| PbBytes (s : list Z) | PbString (s : list Z) | PbDuration (seconds nanos : Z) | PbTimestamp (seconds nanos : Z).

(* cel/expr/syntax.proto: Expr, with its oneof expr_kind; CreateStruct.Entry with
   its oneof key_kind *)
Inductive ExprPb := mkPb (id : Z) (kind : KindPb)
with KindPb :=
| KNotSet
| KConst (c : ConstantPb)
| KIdent (name : string)
| KSelect (operand : option ExprPb) (field : string) (test_only : bool)
| KCall (target : option ExprPb) (function : string) (args : list ExprPb)
| KList (elements : list ExprPb) (optional_indices : list Z)
| KStruct (message_name : string) (entries : list (Z * KeyPb * option ExprPb * bool))
| KComprehension (iter_var iter_var2 : string) (iter_range : option ExprPb) (accu_var : string)
    (accu_init loop_condition loop_step result : option ExprPb)
with KeyPb := KeyNotSet | FieldKey (name : string) | MapKey (key : ExprPb).

(** ** internal/proto_time_encoding.cc *)

(* proto_time_encoding.cc:56-58: absl::Seconds and absl::Nanoseconds of an int32 *)
Definition DecodeDuration (seconds nanos : Z) : duration := absl_add_dur (absl_duration (seconds * nanos_per_sec)) (DFin nanos).
(* proto_time_encoding.cc:60-63 *)
Definition DecodeTime (seconds nanos : Z) : time := absl_add_time (absl_time (seconds * nanos_per_sec)) (DFin nanos).
(* proto_time_encoding.cc:44-54, 65-75 *)
Definition EncodeDuration (d : duration) : out (Z * Z) :=
  match d with
  | DInf _ => bad
  | DFin ns =>
      if (ns <? MinDurationNs) || (MaxDurationNs <? ns) then bad
      else Val (Z.quot ns nanos_per_sec, Z.rem ns nanos_per_sec)
  end.
(* proto_time_encoding.cc:32-42, 86-92; ToUnixSeconds rounds down *)
Definition EncodeTime (t : time) : out (Z * Z) :=
  match t with
  | TInf _ => bad
  | TFin ns =>
      if (ns <? MinTimestampNs) || (MaxTimestampNs <? ns) then bad
      else let s := ns / nanos_per_sec in Val (s, ns - s * nanos_per_sec)
  end.

(** ** common/ast/constant_proto.cc *)

(* constant_proto.cc:35-79 *)
Definition ConstantToProto (c : constant) : out ConstantPb :=
  match c with
  | CUnspecified => Val PbNotSet
  | CNull => Val PbNull
  | CBool b => Val (PbBool b)
  | CInt n => Val (PbInt n)
  | CUint n => Val (PbUint n)
  | CDouble d => Val (PbDouble d)
  | CBytes s => Val (PbBytes s)
  | CString s => Val (PbString s)
  | CDuration d => p <- EncodeDuration d ;; Val (PbDuration (fst p) (snd p))
  | CTimestamp t => p <- EncodeTime t ;; Val (PbTimestamp (fst p) (snd p))
  end.
(* constant_proto.cc:81-121; the default case is for values of the enum of cases
   that do not exist *)
Definition ConstantFromProto (p : ConstantPb) : constant :=
  match p with
  | PbNotSet => CUnspecified
  | PbNull => CNull
  | PbBool b => CBool b
  | PbInt n => CInt n
  | PbUint n => CUint n
  | PbDouble d => CDouble d
  | PbString s => CString s
  | PbBytes s => CBytes s
  | PbDuration s n => CDuration (DecodeDuration s n)
  | PbTimestamp s n => CTimestamp (DecodeTime s n)
  end.

(** ** common/ast/expr_proto.cc *)

(* expr_proto.cc:159-168: the positions of the optional elements *)
Fixpoint optional_positions (i : Z) (elements : list (option Expr * bool)) : list Z :=
  match elements with
  | [] => []
  | (_, optional) :: rest => (if optional then [i] else []) ++ optional_positions (i + 1) rest
  end.
(* expr_proto.cc:52-252.  An element that is not set becomes an empty message. *)
Fixpoint ExprToProto (e : Expr) : out ExprPb :=
  match e with
  | Unspecified id => Val (mkPb id KNotSet)
  | Const id c => p <- ConstantToProto c ;; Val (mkPb id (KConst p))
  | Ident id name => Val (mkPb id (KIdent name))
  | Select id operand field test_only =>
      o <- optM ExprToProto operand ;; Val (mkPb id (KSelect o field test_only))
  | Call id function target args =>
      t <- optM ExprToProto target ;; a <- mapM ExprToProto args ;; Val (mkPb id (KCall t function a))
  | ListE id elements =>
      es <- mapM (fun x : option Expr * bool =>
                    match x with
                    | (Some e, _) => ExprToProto e
                    | (None, _) => Val (mkPb 0 KNotSet)
                    end) elements ;;
      Val (mkPb id (KList es (optional_positions 0 elements)))
  | StructE id name fields =>
      es <- mapM (fun f : Z * string * option Expr * bool =>
                    let '(fid, fname, value, optional) := f in
                    v <- optM ExprToProto value ;; Val (fid, FieldKey fname, v, optional)) fields ;;
      Val (mkPb id (KStruct name es))
  | MapE id entries =>
      es <- mapM (fun x : Z * option Expr * option Expr * bool =>
                    let '(eid, key, value, optional) := x in
                    k <- optM ExprToProto key ;;
                    v <- optM ExprToProto value ;;
                    Val (eid, match k with Some k => MapKey k | None => KeyNotSet end, v, optional)) entries ;;
      Val (mkPb id (KStruct "" es))
  | Comprehension id iter_var iter_var2 accu_var iter_range accu_init loop_condition loop_step result =>
      r <- optM ExprToProto iter_range ;; i <- optM ExprToProto accu_init ;; c <- optM ExprToProto loop_condition ;;
      s <- optM ExprToProto loop_step ;; f <- optM ExprToProto result ;;
      Val (mkPb id (KComprehension iter_var iter_var2 r accu_var i c s f))
  end.

(* expr_proto.cc:377-385: an element is optional when its position is listed *)
Fixpoint mark_optional (i : Z) (indices : list Z) (es : list Expr) : list (option Expr * bool) :=
  match es with
  | [] => []
  | e :: rest => (Some e, existsb (Z.eqb i) indices) :: mark_optional (i + 1) indices rest
  end.
(* expr_proto.cc:278-483; the default cases are for cases of the enums that do not
   exist *)
Fixpoint ExprFromProto (p : ExprPb) : out Expr :=
  match p with
  | mkPb id kind =>
    match kind with
    | KNotSet => Val (Unspecified id)
    | KConst c => Val (Const id (ConstantFromProto c))
    | KIdent name => Val (Ident id name)
    | KSelect operand field test_only =>
        o <- optM ExprFromProto operand ;; Val (Select id o field test_only)
    | KCall target function args =>
        t <- optM ExprFromProto target ;; a <- mapM ExprFromProto args ;; Val (Call id function t a)
    | KList elements optional_indices =>
        es <- mapM ExprFromProto elements ;; Val (ListE id (mark_optional 0 optional_indices es))
    | KStruct message_name entries =>
        if String.eqb message_name "" then
          es <- mapM (fun x : Z * KeyPb * option ExprPb * bool =>
                        let '(eid, key, value, optional) := x in
                        k <- match key with
                             | KeyNotSet => Val None
                             | MapKey k => e <- ExprFromProto k ;; Val (Some e)
                             | FieldKey _ => bad
                             end ;;
                        v <- optM ExprFromProto value ;;
                        Val (eid, k, v, optional)) entries ;;
          Val (MapE id es)
        else
          es <- mapM (fun x : Z * KeyPb * option ExprPb * bool =>
                        let '(eid, key, value, optional) := x in
                        name <- match key with
                                | KeyNotSet => Val ""%string
                                | FieldKey name => Val name
                                | MapKey _ => bad
                                end ;;
                        v <- optM ExprFromProto value ;;
                        Val (eid, name, v, optional)) entries ;;
          Val (StructE id message_name es)
    | KComprehension iter_var iter_var2 iter_range accu_var accu_init loop_condition loop_step result =>
        r <- optM ExprFromProto iter_range ;; i <- optM ExprFromProto accu_init ;; c <- optM ExprFromProto loop_condition ;;
        s <- optM ExprFromProto loop_step ;; f <- optM ExprFromProto result ;;
        Val (Comprehension id iter_var iter_var2 accu_var r i c s f)
    end
  end.

(** ** Types: common/ast/metadata.h, common/ast_proto.cc *)

(* metadata.h:279-320; the unspecified ones are values of the enums *)
Inductive Primitive := PrimitiveUnspecified | PrBool | PrInt64 | PrUint64 | PrDouble | PrString | PrBytes.
Inductive WellKnown := WellKnownUnspecified | WkAny | WkTimestamp | WkDuration.
(* metadata.h:546-560; a unique_ptr is an option *)
Inductive TypeSpec :=
| SUnset | SDyn | SNull
| SPrimitive (p : Primitive) | SWrapper (p : Primitive) | SWellKnown (w : WellKnown)
| SList (elem_type : option TypeSpec)
| SMap (key_type value_type : option TypeSpec)
| SFunction (result_type : option TypeSpec) (arg_types : list TypeSpec)
| SMessage (name : string) | SParam (name : string)
| SType (type : option TypeSpec)
| SError
| SAbstract (name : string) (parameter_types : list TypeSpec).
(* cel/expr/checked.proto: Type; an enum field may hold a number without a name *)
Inductive Enum (A : Type) := Named (x : A) | Number (n : Z).
Arguments Named {A}. Arguments Number {A}.
Inductive TypePb :=
| TNotSet | TDyn | TNull | TPrimitive (p : Enum Primitive) | TWrapper (p : Enum Primitive) | TWellKnown (w : Enum WellKnown)
| TList (elem_type : TypePb)                       (* reading an absent submessage gives an empty one *)
| TMap (key_type value_type : TypePb)
| TFunction (result_type : TypePb) (arg_types : list TypePb)
| TMessage (name : string) | TParam (name : string) | TType (type : TypePb) | TError
| TAbstract (name : string) (parameter_types : list TypePb).

(* metadata.cc:35-38, 176-222: the readers of members *)
Definition read_type (o : option TypeSpec) : TypeSpec := match o with Some t => t | None => SUnset end.
(* ast_proto.cc:328-460; an enum has no values without a name here *)
Fixpoint TypeToProto (t : TypeSpec) : TypePb :=
  let opt (o : option TypeSpec) := match o with Some t => TypeToProto t | None => TNotSet end in
  match t with
  | SUnset => TNotSet
  | SDyn => TDyn
  | SNull => TNull
  | SPrimitive p => TPrimitive (Named p)
  | SWrapper p => TWrapper (Named p)
  | SWellKnown w => TWellKnown (Named w)
  | SList e => TList (opt e)
  | SMap k v => TMap (opt k) (opt v)
  | SFunction r args => TFunction (opt r) (map TypeToProto args)
  | SMessage n => TMessage n
  | SParam n => TParam n
  | SType o => TType (opt o)
  | SError => TError
  | SAbstract n ps => TAbstract n (map TypeToProto ps)
  end.
(* ast_proto.cc:113-153 *)
Definition enum_native {A} (e : Enum A) : out A := match e with Named x => Val x | Number _ => bad end.
(* ast_proto.cc:155-292; what is moved keeps its unset members *)
Fixpoint TypeFromProto (p : TypePb) : out TypeSpec :=
  match p with
  | TNotSet => Val SUnset
  | TDyn => Val SDyn
  | TNull => Val SNull
  | TPrimitive p => x <- enum_native p ;; Val (SPrimitive x)
  | TWrapper p => x <- enum_native p ;; Val (SWrapper x)
  | TWellKnown w => x <- enum_native w ;; Val (SWellKnown x)
  | TList e => t <- TypeFromProto e ;; Val (SList (Some t))
  | TMap k v => k <- TypeFromProto k ;; v <- TypeFromProto v ;; Val (SMap (Some k) (Some v))
  | TFunction r args => a <- mapM TypeFromProto args ;; r <- TypeFromProto r ;; Val (SFunction (Some r) a)
  | TMessage n => Val (SMessage n)
  | TParam n => Val (SParam n)
  | TType TNotSet => Val (SType None)
  | TType p => t <- TypeFromProto p ;; Val (SType (Some t))
  | TError => Val SError
  | TAbstract n ps => l <- mapM TypeFromProto ps ;; Val (SAbstract n l)
  end.

Scheme Equality for Primitive.
Scheme Equality for WellKnown.
Definition all2 {A} (f : A -> A -> bool) : list A -> list A -> bool :=
  fix go l l' := match l, l' with
                 | [], [] => true
                 | x :: l, y :: l' => f x y && go l l'
                 | _, _ => false
                 end.
(* metadata.h:729-741 operator==, and those of the members: metadata.cc:183-214,
   metadata.h:472-541, 914-916.  A member that is not set is compared as the
   default type, which is equal to the unset type alone.  A type of no type
   equals only another such one. *)
Fixpoint type_eq (a b : TypeSpec) {struct a} : bool :=
  let eq (x y : option TypeSpec) :=
    match x with
    | Some t => type_eq t (read_type y)
    | None => match read_type y with SUnset => true | _ => false end
    end in
  match a, b with
  | SUnset, SUnset | SDyn, SDyn | SNull, SNull | SError, SError => true
  | SPrimitive p, SPrimitive q | SWrapper p, SWrapper q => Primitive_beq p q
  | SWellKnown p, SWellKnown q => WellKnown_beq p q
  | SList x, SList y => eq x y
  | SMap k v, SMap k' v' => eq k k' && eq v v'
  | SFunction r l, SFunction r' l' => eq r r' && all2 type_eq l l'
  | SMessage x, SMessage y | SParam x, SParam y => String.eqb x y
  | SType None, SType None => true
  | SType (Some x), SType (Some y) => type_eq x y
  | SAbstract x l, SAbstract y l' => String.eqb x y && all2 type_eq l l'
  | _, _ => false
  end.
(* metadata.cc:130-144, 224-240, metadata.h:823-860: a copy of a member that is not set is set *)
Fixpoint copy_type (t : TypeSpec) : TypeSpec :=
  let fresh (o : option TypeSpec) := Some (match o with Some t => copy_type t | None => SUnset end) in
  match t with
  | SList e => SList (fresh e)
  | SMap k v => SMap (fresh k) (fresh v)
  | SFunction r args => SFunction (fresh r) (map copy_type args)
  | SType o => SType (fresh o)
  | SAbstract n ps => SAbstract n (map copy_type ps)
  | t => t
  end.

(** ** The equality of expressions: common/expr.h *)

(* constant.h:446-448: the equality of the alternatives *)
Definition duration_eq (a b : duration) : bool :=
  match a, b with DFin x, DFin y => x =? y | DInf x, DInf y => Bool.eqb x y | _, _ => false end.
Definition time_eq (a b : time) : bool :=
  match a, b with TFin x, TFin y => x =? y | TInf x, TInf y => Bool.eqb x y | _, _ => false end.
Definition constant_eq (a b : constant) : bool :=
  match a, b with
  | CUnspecified, CUnspecified | CNull, CNull => true
  | CBool x, CBool y => Bool.eqb x y
  | CInt x, CInt y | CUint x, CUint y => x =? y
  | CDouble x, CDouble y => SFeqb x y
  | CBytes x, CBytes y | CString x, CString y => all2 Z.eqb x y
  | CDuration x, CDuration y => duration_eq x y
  | CTimestamp x, CTimestamp y => time_eq x y
  | _, _ => false
  end.
(* expr.h:160-162, 250-253, 858-866, 1128-1135, 1322-1346; a child that is not set is
   compared as the default expression, which is equal to the unspecified one of id
   0 alone *)
Fixpoint expr_eq (a b : Expr) {struct a} : bool :=
  let eq (x y : option Expr) :=
    match x with
    | Some e => expr_eq e (read y)
    | None => match read y with Unspecified i => 0 =? i | _ => false end
    end in
  (expr_id a =? expr_id b) &&
  match a, b with
  | Unspecified _, Unspecified _ => true
  | Const _ c, Const _ d => constant_eq c d
  | Ident _ x, Ident _ y => String.eqb x y
  | Select _ o f t, Select _ o' f' t' => eq o o' && String.eqb f f' && Bool.eqb t t'
  | Call _ f t l, Call _ f' t' l' => String.eqb f f' && eq t t' && all2 expr_eq l l'
  | ListE _ l, ListE _ l' =>
      all2 (fun x y : option Expr * bool => let '(e, o) := x in let '(e', o') := y in eq e e' && Bool.eqb o o') l l'
  | StructE _ m l, StructE _ m' l' =>
      String.eqb m m' &&
      all2 (fun x y : Z * string * option Expr * bool =>
              let '(i, f, v, o) := x in let '(i', f', v', o') := y in
              (i =? i') && String.eqb f f' && eq v v' && Bool.eqb o o') l l'
  | MapE _ l, MapE _ l' =>
      all2 (fun x y : Z * option Expr * option Expr * bool =>
              let '(i, k, v, o) := x in let '(i', k', v', o') := y in
              (i =? i') && eq k k' && eq v v' && Bool.eqb o o') l l'
  | Comprehension _ v _ a r i c s f, Comprehension _ v' _ a' r' i' c' s' f' =>
      String.eqb v v' && eq r r' && String.eqb a a' && eq i i' && eq c c' && eq s s' && eq f f'
  | _, _ => false
  end.

(** ** Whole syntax trees: common/ast.h, common/ast_proto.cc *)

(* metadata.h:39-153 *)
Inductive Component := CompUnspecified | CompParser | CompTypeChecker | CompRuntime.
Record ExtensionSpec := mkExtension { x_id : string; x_version : option (Z * Z); x_components : list Component }.
(* metadata.h:156-274; maps are lists of entries, no key twice, in the order in
   which they iterate *)
Record SourceInfo := mkSource {
  s_syntax_version : string; s_location : string; s_line_offsets : list Z;
  s_positions : list (Z * Z); s_macro_calls : list (Z * Expr); s_extensions : list ExtensionSpec
}.
(* metadata.h:751-817 *)
Record Reference := mkReference { r_name : string; r_overload_id : list string; r_value : option constant }.
(* ast.h:43-170 *)
Record Ast := mkAst {
  root_expr : Expr; source_info : SourceInfo; reference_map : list (Z * Reference); type_map : list (Z * TypeSpec);
  expr_version : string; is_checked : bool
}.
(* cel/expr/syntax.proto, checked.proto *)
Record ExtensionPb := mkExtensionPb { xp_id : string; xp_major : Z; xp_minor : Z; xp_components : list (Enum Component) }.
Record SourceInfoPb := mkSourcePb {
  sp_syntax_version : string; sp_location : string; sp_line_offsets : list Z;
  sp_positions : list (Z * Z); sp_macro_calls : list (Z * ExprPb); sp_extensions : list ExtensionPb
}.
Record ReferencePb := mkReferencePb { rp_name : string; rp_overload_id : list string; rp_value : option ConstantPb }.
Record ParsedExprPb := mkParsed { pp_expr : ExprPb; pp_source_info : SourceInfoPb }.
Record CheckedExprPb := mkChecked {
  cp_reference_map : list (Z * ReferencePb); cp_type_map : list (Z * TypePb); cp_source_info : SourceInfoPb;
  cp_expr_version : string; cp_expr : ExprPb
}.

Definition entriesM {A B} (f : A -> out B) (l : list (Z * A)) : out (list (Z * B)) :=
  mapM (fun x => y <- f (snd x) ;; Val (fst x, y)) l.
(* source_info_proto.cc:39-88 *)
Definition SourceInfoToProto (s : SourceInfo) : out SourceInfoPb :=
  m <- entriesM ExprToProto (s_macro_calls s) ;;
  Val (mkSourcePb (s_syntax_version s) (s_location s) (s_line_offsets s) (s_positions s) m
         (map (fun x => let '(major, minor) := match x_version x with Some v => v | None => (0, 0) end in
                        mkExtensionPb (x_id x) major minor (map Named (x_components x))) (s_extensions s))).
(* ast_proto.cc:64-108 *)
Definition SourceInfoFromProto (p : SourceInfoPb) : out SourceInfo :=
  m <- entriesM ExprFromProto (sp_macro_calls p) ;;
  Val (mkSource (sp_syntax_version p) (sp_location p) (sp_line_offsets p) (sp_positions p) m
         (map (fun x => mkExtension (xp_id x) (Some (xp_major x, xp_minor x))
                          (map (fun c => match c with Named c => c | Number _ => CompUnspecified end) (xp_components x)))
            (sp_extensions p))).
(* ast_proto.cc:294-324 *)
Definition ReferenceFromProto (p : ReferencePb) : out Reference :=
  Val (mkReference (rp_name p) (rp_overload_id p)
         (match rp_value p with Some c => Some (ConstantFromProto c) | None => None end)).
Definition ReferenceToProto (r : Reference) : out ReferencePb :=
  v <- optM ConstantToProto (r_value r) ;; Val (mkReferencePb (r_name r) (r_overload_id r) v).
(* ast_proto.cc:464-491; the destination is a new message *)
Definition CreateAstFromParsedExpr (p : ParsedExprPb) : out Ast :=
  e <- ExprFromProto (pp_expr p) ;; s <- SourceInfoFromProto (pp_source_info p) ;;
  Val (mkAst e s [] [] "" false).
Definition AstToParsedExpr (a : Ast) : out ParsedExprPb :=
  e <- ExprToProto (root_expr a) ;; s <- SourceInfoToProto (source_info a) ;; Val (mkParsed e s).
(* ast_proto.cc:493-519 *)
Definition CreateAstFromCheckedExpr (p : CheckedExprPb) : out Ast :=
  e <- ExprFromProto (cp_expr p) ;; s <- SourceInfoFromProto (cp_source_info p) ;;
  r <- entriesM ReferenceFromProto (cp_reference_map p) ;;
  t <- entriesM TypeFromProto (cp_type_map p) ;;
  Val (mkAst e s r t (cp_expr_version p) true).
(* ast_proto.cc:521-545; the destination is a new message *)
Definition AstToCheckedExpr (a : Ast) : out CheckedExprPb :=
  if negb (is_checked a) then bad else
  e <- ExprToProto (root_expr a) ;; s <- SourceInfoToProto (source_info a) ;;
  r <- entriesM ReferenceToProto (reference_map a) ;;
  t <- entriesM (fun t => Val (TypeToProto t)) (type_map a) ;;
  Val (mkChecked r t s (expr_version a) e).
