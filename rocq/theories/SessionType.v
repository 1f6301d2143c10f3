(** Model of the type check of sessions: the expressions of sessions
    (rflx/expression.py:258-2290), rflx/statement.py, rflx/declaration.py and the checks
    of rflx/model/session.py:287-502 which concern types.

    Python sets the attribute type_ of variables, calls, conversions and message
    aggregates by substituted (typify_variable), which builds all other expressions again
    from the leaves upwards, and check_type then may change type_; here the types before
    and after the check are functions of what typify_variable sets ([tenv]).

    Simplifications: identifiers are in lower case (ID equality ignores case), except for
    the names of fields, which are compared as strings.  Names are not negative (the
    parser negates numbers only, specification/parser.py:572-580), Val and Indexed are used by the code
    generator only, ValueRange only in type definitions.  The text of errors is
    abbreviated and informational entries are dropped.  Exceptions (a failed assertion or
    NotImplementedError) count as errors.  The prefix of the argument of a conversion is
    checked twice by Python, which may give more errors for a prefix that is not [direct]
    (see SessionSound.v); here it is checked once. *)
From Coq Require Import String List ZArith Bool Arith.
From Verif Require Ident.
From Verif Require Import Base Expr Typing ExprType.
Import ListNotations.
Local Open Scope string_scope.
Local Open Scope list_scope.

(** attributes, expression.py:1109-1183 *)
Inductive sattr := SInt (a : attr) | SValidChecksum | SValid | SPresent | SHead | SOpaque.

(** expressions, expression.py:194-2290; [SAgg] is Aggregate and String (whose elements
    are numbers), [SIn] with [false] NotIn, [SQuant] with [true] ForAllOf and ForAllIn and
    with [false] ForSomeIn *)
Inductive sx :=
| SBool (b : bool)
| SNum (v : Z)
| SVar (x : string)
| SNot (e : sx)
| SAss (o : assop) (ts : list sx)
| SBin (o : binop) (l r : sx)
| SRel (o : relop) (l r : sx)
| SIn (positive : bool) (l r : sx)
| SAttr (a : sattr) (e : sx)
| SSel (e : sx) (selector : string)
| SCall (f : string) (args : list sx)
| SAgg (es : list sx)
| SQuant (all : bool) (x : string) (iterable predicate : sx)
| SConv (t : string) (e : sx)
| SCompr (x : string) (array selector condition : sx)
| SMsg (t : string) (fields : list (string * sx))
| SBind (e : sx) (data : list (string * sx)).

(** ** types of expressions *)

(** what typify_variable sets: the type of variables, the type and argument types of
    calls and conversions, the type of message aggregates *)
Record tenv := mkEnv {
  g_var : string -> ty;
  g_call : string -> ty * list ty;
  g_conv : string -> ty * list ty;
  g_msg : string -> ty
}.
(** below a negation nothing is substituted (Not has no method substituted of its own) *)
Definition untyped : tenv :=
  mkEnv (fun _ => TUndefined) (fun _ => (TUndefined, [])) (fun _ => (TUndefined, [])) (fun _ => TUndefined).
(** typify_variable of quantified expressions 1760-1766 and comprehensions 2020-2026 *)
Definition bound (g : tenv) (x : string) (t : ty) : tenv :=
  mkEnv (fun y => if String.eqb y x then t else g_var g y) (g_call g) (g_conv g) (g_msg g).
Definition assoc {A} (k : string) (l : list (string * A)) : option A :=
  match find (fun p => String.eqb (fst p) k) l with Some p => Some (snd p) | None => None end.
(** typify_variable of bindings 2229-2235: an undefined type is replaced by Any *)
Definition bound_all (g : tenv) (l : list (string * ty)) : tenv :=
  mkEnv (fun y => match assoc y l with Some TUndefined => TAny | Some t => t | None => g_var g y end)
        (g_call g) (g_conv g) (g_msg g).

(** type_ after construction: see ExprType.new_type; Name 968-979 and Attribute
    1062-1069, Selected 1258-1269, Call 1324-1337, Aggregate 1430-1432, Relation
    1509-1510, QuantifiedExpression 1741-1751, Conversion 1910-1921, Comprehension
    2000-2012, MessageAggregate 2090-2099, Binding 2209-2217 *)
Fixpoint new_type (g : tenv) (e : sx) : ty :=
  match e with
  | SBool _ | SNot _ | SRel _ _ _ | SIn _ _ _ | SQuant _ _ _ _ => BOOLEAN
  | SNum v => TUniversal (known v v)
  | SVar x => g_var g x
  | SAss (OAdd | OMul) ts =>
    match common_type (map (new_type g) ts) with TUndefined => TUndefinedInteger | t => t end
  | SAss _ _ => BOOLEAN
  | SBin _ l r => common_type [new_type g l; new_type g r]
  | SAttr _ _ | SSel _ _ => TUndefined
  | SCall f _ => fst (g_call g f)
  | SAgg es => TAggregate (common_type (map (new_type g) es))
  | SConv t _ => fst (g_conv g t)
  | SCompr _ _ s _ => TAggregate (new_type g s)
  | SMsg t _ => g_msg g t
  | SBind e _ => new_type g e
  end.

(** the element type of an iterable, 1761-1765 and 2021-2025; Head 1171-1175 *)
Definition element (t : ty) : ty := match t with TAggregate e | TArray _ e => e | _ => TAny end.

(** type_ after _check_type_subexpr: MathBinExpr 846-853, Size, Length, First, Last
    1109-1130, ValidChecksum 1134-1136, Valid 1147-1149, Present 1153-1154, Head
    1168-1176, Opaque 1179-1182, Selected 1272-1294, Comprehension 2028-2040, Binding
    2222-2243; others do not change it.  Selected looks at the type which the prefix has
    before it is checked. *)
Fixpoint type_of (g : tenv) (e : sx) : ty :=
  match e with
  | SBin _ l r => common_type [type_of g l; type_of g r]
  | SAttr (SInt _) _ => TUniversal no_bounds
  | SAttr (SValidChecksum | SValid | SPresent) _ => BOOLEAN
  | SAttr SHead p => element (type_of g p)
  | SAttr SOpaque _ => OPAQUE
  | SSel p f =>
    match new_type g p with
    | TMessage _ _ types _ => match assoc f types with Some t => t | None => TAny end
    | _ => TAny
    end
  | SCompr x a s _ => TAggregate (type_of (bound g x (element (type_of g a))) s)
  | SBind e data => type_of (bound_all g (map (fun p => match p with (k, d) => (k, type_of g d) end) data)) e
  | _ => new_type g e
  end.

(** the checks of a message aggregate on the sequence of its fields 2118-2155, [errs]
    gives the errors of a value of a field of the given type *)
Definition fields_check (errs : string -> sx -> ty -> list string) (types : list (string * ty)) :
  nat -> list (list string) -> list (string * sx) -> list string * list (list string) :=
  fix go (i : nat) (combinations : list (list string)) (fs : list (string * sx)) {struct fs} :=
  match fs with
  | [] => ([], combinations)
  | (f, x) :: r =>
    match assoc f types with
    | None => let '(es, cs) := go (S i) combinations r in ("invalid field" :: es, cs)
    | Some t =>
      let rest := filter (fun c => match nth_error c i with Some f' => String.eqb f' f | None => false end) combinations in
      match rest with
      | [] => (errs f x t ++ ["invalid position for field"], [])
      | _ => let '(es, cs) := go (S i) rest r in (errs f x t ++ es, cs)
      end
    end
  end.

(** _check_type_subexpr: see ExprType.subexpr_errors; Attributes 1109-1182, Selected
    1272-1294, Call 1342-1369, Aggregate 1437-1441, In 1702-1705, NotIn 1723-1726,
    QuantifiedExpression 1759-1772, Conversion 1926-1954, Comprehension 2019-2042,
    MessageAggregate 2109-2174, Binding 2222-2245; the type of an operand is checked after
    its own operands (check_type 140-144, check_type_instance 146-152).  The value of an
    opaque field is not checked if its type fits to a refinement of the field 2129-2136. *)
Fixpoint subexpr_errors (g : tenv) (e : sx) : list string :=
  match e with
  | SBool _ | SNum _ | SVar _ => []
  | SNot x => subexpr_errors untyped x ++ expect (type_of untyped x) BOOLEAN
  | SAss (OAdd | OMul) ts =>
    flat_map (fun t => subexpr_errors g t ++ check_type_instance (type_of g t) [CAnyInteger]) ts
  | SAss _ ts => flat_map (fun t => subexpr_errors g t ++ expect (type_of g t) BOOLEAN) ts
  | SBin _ l r =>
    subexpr_errors g l ++ check_type_instance (type_of g l) [CAnyInteger]
    ++ subexpr_errors g r ++ check_type_instance (type_of g r) [CAnyInteger]
  | SRel (OEq | ONe) l r =>
    subexpr_errors g l ++ check_type_instance (type_of g l) [CAny]
    ++ subexpr_errors g r ++ expect (type_of g r) (type_of g l)
  | SRel _ l r =>
    subexpr_errors g l ++ check_type_instance (type_of g l) [CAnyInteger]
    ++ subexpr_errors g r ++ check_type_instance (type_of g r) [CAnyInteger]
  | SIn _ l r =>
    subexpr_errors g l ++ check_type_instance (type_of g l) [CAny]
    ++ subexpr_errors g r ++ expect (type_of g r) (TAggregate (type_of g l))
  | SAttr (SInt _ | SValidChecksum) p => subexpr_errors g p ++ check_type_instance (type_of g p) [CAny]
  | SAttr SValid p => subexpr_errors g p ++ check_type_instance (type_of g p) [CArray; CMessage]
  | SAttr SPresent p =>
    match p with
    | SSel q _ => subexpr_errors g q ++ check_type_instance (type_of g q) [CMessage]
    | _ => ["invalid prefix for attribute Present"]
    end
  | SAttr SHead p => subexpr_errors g p ++ check_type_instance (type_of g p) [CComposite]
  | SAttr SOpaque p => subexpr_errors g p ++ check_type_instance (type_of g p) [CMessage]
  | SSel p f =>
    match new_type g p with
    | TMessage _ _ types _ => match assoc f types with Some _ => [] | None => ["invalid field"] end
    | _ => []
    end ++ subexpr_errors g p ++ check_type_instance (type_of g p) [CMessage]
  | SCall f args =>
    (fix go (args : list sx) (types : list ty) : list string :=
       match args with
       | [] => []
       | a :: r => subexpr_errors g a ++ expect (type_of g a) (hd TAny types) ++ go r (tl types)
       end) args (snd (g_call g f))
    ++ match fst (g_call g f) with
       | TUndefined => []
       | _ => (if (List.length args <? List.length (snd (g_call g f)))%nat then ["missing function arguments"] else [])
              ++ (if (List.length (snd (g_call g f)) <? List.length args)%nat then ["too many function arguments"] else [])
       end
  | SAgg es => flat_map (fun t => subexpr_errors g t ++ check_type_instance (type_of g t) [CAny]) es
  | SQuant _ x i p =>
    subexpr_errors g i ++ check_type_instance (type_of g i) [CComposite]
    ++ subexpr_errors (bound g x (element (type_of g i))) p ++ expect (type_of (bound g x (element (type_of g i))) p) BOOLEAN
  | SConv t a =>
    subexpr_errors g a ++ expect (type_of g a) OPAQUE
    ++ match a with
       | SSel p _ =>
         match snd (g_conv g t) with
         | [] => ["invalid conversion"]
         | ts => match check_type (type_of g p) (Several ts) with Ok es => es | Err w => [w] end
         end
       | _ => ["invalid argument for conversion, expected message field"]
       end
  | SCompr x a s c =>
    subexpr_errors g a ++ check_type_instance (type_of g a) [CComposite]
    ++ subexpr_errors (bound g x (element (type_of g a))) s ++ check_type_instance (type_of (bound g x (element (type_of g a))) s) [CAny]
    ++ subexpr_errors (bound g x (element (type_of g a))) c ++ expect (type_of (bound g x (element (type_of g a))) c) BOOLEAN
  | SMsg t fs =>
    match g_msg g t with
    | TMessage _ combinations types refinements =>
      let '(es, cs) :=
        fields_check (fun f x t =>
          if ty_eqb t OPAQUE && existsb (fun r => String.eqb (fst r) f && is_compatible (new_type g x) (snd r)) refinements
          then [] else subexpr_errors g x ++ expect (type_of g x) t) types 0 combinations fs in
      es ++ match cs with
            | [] => []
            | _ => if forallb (fun c => List.length fs <? List.length c)%nat cs then ["missing fields"] else []
            end
    | _ => flat_map (fun p => match p with (_, d) => subexpr_errors g d ++ check_type_instance (type_of g d) [CAny] end) fs
    end
  | SBind e data =>
    flat_map (fun p => match p with (_, d) => subexpr_errors g d ++ check_type_instance (type_of g d) [CAny] end) data
    ++ (let g' := bound_all g (map (fun p => match p with (k, d) => (k, type_of g d) end) data) in
        subexpr_errors g' e ++ check_type_instance (type_of g' e) [CAny])
  end.

(** Expr.check_type, 140-144, and check_type_instance, 146-152 *)
Definition check_expr (g : tenv) (e : sx) (expected : ty) : list string :=
  subexpr_errors g e ++ expect (type_of g e) expected.
Definition check_instance (g : tenv) (e : sx) (expected : list tclass) : list string :=
  subexpr_errors g e ++ check_type_instance (type_of g e) expected.

(** ** statements, statement.py *)

Inductive stmt :=
| Assignment (x : string) (e : sx)
| Append (x : string) (e : sx)
| Extend (x : string) (e : sx)
| Reset (x : string)
| Read (x : string) (e : sx)
| Write (x : string) (e : sx).
Definition stmt_id (s : stmt) : string :=
  match s with Assignment x _ | Append x _ | Extend x _ | Reset x | Read x _ | Write x _ => x end.

(** check_type: Assignment 36-42, Append 75-98, Extend 102-109, Reset 116-124,
    ChannelAttributeStatement 134-146 with Read 154-155 and Write 159-160; [t] is the type
    of the variable or channel *)
Definition stmt_errors (t : ty) (g : tenv) (s : stmt) : list string :=
  match s with
  | Assignment _ e => check_type_instance t [CAny] ++ check_expr g e t
  | Append _ e =>
    check_type_instance t [CArray]
    ++ match t with
       | TArray _ el =>
         check_expr g e el
         ++ match el, e with
            | TMessage _ _ _ _, SVar _ => ["appending independently created message not supported"]
            | _, _ => []
            end
       | _ => []
       end
  | Extend _ e => check_type_instance t [CArray] ++ check_expr g e t
  | Reset _ => check_type_instance t [CArray; CMessage]
  | Read _ e => expect t (TChannel true false) ++ check_instance g e [CMessage]
  | Write _ e => expect t (TChannel false true) ++ check_instance g e [CMessage]
  end.

(** ** types of the model *)

(** the types a session is checked with: an enumeration with the name of its type and its
    literals, a message with type_ (message.py:190-198), a refinement (message.py:1551-1575)
    with the identifiers and types of PDU and SDU, or another type with type_
    (model/type_.py:44-575) *)
Inductive mkind :=
| KEnum (type_name : string) (literals : list string)
| KMessage (type_name : string) (combinations : list (list string)) (types : list (string * ty))
| KRefinement (pdu : string) (field : string) (sdu : string) (pdu_type sdu_type : ty)
| KOther (t : ty).
Record mtype := mkType { mt_package : string; mt_name : string; mt_kind : mkind }.
Definition mt_id (m : mtype) : string := (mt_package m ++ "::" ++ mt_name m)%string.
(** type_: Enumeration type_.py:426-428, Message message.py:190-198, Refinement (Type)
    type_.py:44-46 *)
Definition mt_type (m : mtype) : ty :=
  match mt_kind m with
  | KEnum n _ => TEnumeration n
  | KMessage n c ts => TMessage n c ts []
  | KRefinement _ _ _ _ _ => TUndefined
  | KOther t => t
  end.
Definition find_type (types : list mtype) (id : string) : option mtype := find (fun m => String.eqb (mt_id m) id) types.
(** refined_type, message.py:200-208, with the refinements of the types whose PDU is [pdu]
    (session.py:352-359, 476-482) *)
Definition refinements (types : list mtype) (pdu : string) : list (string * ty) :=
  flat_map (fun m => match mt_kind m with
                     | KRefinement p f _ _ sdu => if String.eqb p pdu then [(f, sdu)] else []
                     | _ => []
                     end) types.
Definition refined_type (types : list mtype) (m : mtype) (pdu : string) : ty :=
  match mt_kind m with KMessage n c ts => TMessage n c ts (refinements types pdu) | _ => mt_type m end.

(** const.py and type_.py:580-599; in lower case *)
Definition builtins : string := "__builtins__".
Definition internal : string := "__internal__".
(** qualified_type_identifier, type_.py:614-624 *)
Definition qualified (package id : string) : string :=
  if String.eqb id "boolean" || String.eqb id "__builtins__::boolean" then "__builtins__::boolean"
  else if String.eqb id "opaque" || String.eqb id "__internal__::opaque" then "__internal__::opaque"
  else match index 0 "::" id with Some _ => id | None => (package ++ "::" ++ id)%string end.
(** qualified_type_literals, type_.py:641-644 *)
Definition type_literals (types : list mtype) : list (string * ty) :=
  map (fun m => (if String.eqb (mt_package m) builtins then mt_name m else mt_id m, mt_type m)) types.
(** qualified_enum_literals, type_.py:627-638 *)
Definition enum_literals (types : list mtype) (package : string) : list (string * ty) :=
  flat_map (fun m => match mt_kind m with
    | KEnum _ ls =>
      flat_map (fun l =>
        (if String.eqb (mt_package m) builtins || String.eqb (mt_package m) package then [(l, mt_type m)] else [])
        ++ (if String.eqb (mt_package m) builtins then [] else [((mt_package m ++ "::" ++ l)%string, mt_type m)])) ls
    | _ => []
    end) types.
(** _literals, session.py:157-160; later entries of a dict replace earlier ones *)
Definition literals (types : list mtype) (package : string) : list (string * ty) :=
  rev (enum_literals types package) ++ rev (type_literals types).

(** ** declarations, declaration.py *)

(** VariableDeclaration 76-110, RenamingDeclaration 113-168 (its expression is a Selected),
    FunctionDeclaration 191-222, ChannelDeclaration 225-258, TypeDeclaration 261-276 (of a
    private type, specification/parser.py:508-516) *)
Inductive sdecl :=
| DVar (id type_id : string) (init : option sx)
| DRenaming (id type_id : string) (prefix : sx) (selector : string)
| DFunction (id : string) (args : list string) (return_type : string)
| DChannel (id : string) (readable writable : bool)
| DType (id : string) (private : string).
Definition d_id (d : sdecl) : string :=
  match d with DVar x _ _ | DRenaming x _ _ _ | DFunction x _ _ | DChannel x _ _ | DType x _ => x end.

(** what is known of a visible declaration: type_, which raises NotImplementedError for a
    type declaration ([None], 275-276), and the argument types of a function *)
Record info := mkInfo { i_type : option ty; i_args : option (list ty) }.
Definition visible := list (string * info).

(** __typify_variable, session.py:435-484 *)
Definition typify (types : list mtype) (lits : list (string * ty)) (vis : visible) : tenv :=
  mkEnv
    (fun x => match assoc x lits with
              | Some t => t
              | None => match assoc x vis with Some (mkInfo (Some t) _) => t | _ => TUndefined end
              end)
    (fun f => if String.eqb f "data_available" then (BOOLEAN, [TChannel true false])
              else match assoc f vis with Some (mkInfo (Some t) (Some args)) => (t, args) | _ => (TUndefined, []) end)
    (fun t => match find_type types t with
              | Some m => (mt_type m,
                           flat_map (fun r => match mt_kind r with
                                              | KRefinement _ _ sdu pt _ => if String.eqb sdu t then [pt] else []
                                              | _ => []
                                              end) types)
              | None => (TUndefined, [])
              end)
    (fun t => match find_type types t with Some m => match mt_kind m with KMessage _ _ _ => refined_type types m t | _ => TUndefined end
                                         | None => TUndefined end).
(** the exceptions of __typify_variable: type_ of a type declaration 446, 451, the
    assertions 453 and 475; nothing is substituted below a negation *)
Fixpoint typify_errors (types : list mtype) (vis : visible) (e : sx) : list string :=
  let go := typify_errors types vis in
  match e with
  | SBool _ | SNum _ | SNot _ => []
  | SVar x => match assoc x vis with Some (mkInfo None _) => ["NotImplementedError"] | _ => [] end
  | SAss _ ts | SAgg ts => flat_map go ts
  | SBin _ l r | SRel _ l r | SIn _ l r | SQuant _ _ l r => go l ++ go r
  | SAttr _ p | SSel p _ | SConv _ p => go p
  | SCall f args =>
    match assoc f vis with
    | Some (mkInfo None _) => ["NotImplementedError"]
    | Some (mkInfo (Some _) None) => ["AssertionError"]
    | _ => []
    end ++ flat_map go args
  | SCompr _ a s c => go a ++ go s ++ go c
  | SMsg t fs =>
    match find_type types t with
    | Some m => match mt_kind m with KMessage _ _ _ => [] | _ => ["AssertionError"] end
    | None => []
    end ++ flat_map (fun p => match p with (_, d) => go d end) fs
  | SBind e data => go e ++ flat_map (fun p => match p with (_, d) => go d end) data
  end.

(** check_type: VariableDeclaration 96-105, RenamingDeclaration 131-164, FunctionDeclaration
    210-214; [t] is the declared type.  The expression of a renaming is checked after its
    prefix. *)
Definition decl_errors (types : list mtype) (lits : list (string * ty)) (vis : visible) (t : ty) (d : sdecl) : list string :=
  let g := typify types lits vis in
  match d with
  | DVar _ _ (Some e) => typify_errors types vis e ++ check_expr g e t
  | DRenaming _ _ p f =>
    typify_errors types vis p
    ++ match check_instance g p [CMessage] with
       | [] =>
         match type_of g p with
         | TMessage _ _ fields rs =>
           (if existsb (fun r => String.eqb (Ident.lower (fst r)) (Ident.lower f) && is_compatible (snd r) t) rs then []
            else ["invalid renaming"])
           ++ match assoc f fields with Some ft => expect ft OPAQUE | None => ["invalid field"] end
         | _ => ["AssertionError"]
         end
       | es => es
       end
  | _ => []
  end.

Definition has {A} (k : string) (l : list (string * A)) : bool := match assoc k l with Some _ => true | None => false end.
(** __validate_declarations, session.py:287-379, without the references to declarations
    (SessionCheck.v): errors, types and visible declarations *)
Definition declare (package : string) (lits : list (string * ty)) (types : list mtype) (vis : visible) (d : sdecl)
  : list string * list mtype * info :=
  let typed type_id : list string * ty :=
    match find_type types (qualified package type_id) with
    | Some m =>
      let t := refined_type types m type_id in (decl_errors types lits vis t d, t)
    | None => (["undefined type"], TAny)
    end in
  match d with
  | DType x p =>
    ((if match find_type types (qualified package x) with Some _ => true | None => false end then ["type shadows type"] else []),
     types ++ [mkType package x (KOther (TPrivate p))],
     mkInfo None None)
  | DVar _ t _ | DRenaming _ t _ _ => let '(es, ty) := typed t in (es, types, mkInfo (Some ty) None)
  | DFunction _ args ret =>
    let '(es, ty) := typed ret in
    (es ++ flat_map (fun a => match find_type types (qualified package a) with Some _ => [] | None => ["undefined type"] end) args,
     types,
     mkInfo (Some ty) (Some (map (fun a => match find_type types (qualified package a) with Some m => mt_type m | None => TAny end) args)))
  | DChannel _ r w => ([], types, mkInfo (Some (TChannel r w)) None)
  end.
Fixpoint declarations (package : string) (lits : list (string * ty)) (types : list mtype) (vis : visible) (ds : list sdecl)
  : list string * list mtype * visible :=
  match ds with
  | [] => ([], types, vis)
  | d :: r =>
    let e0 := (if String.eqb (d_id d) "data_available" then ["declaration shadows built-in function"] else [])
              ++ (if has (d_id d) vis then ["local variable shadows previous declaration"] else []) in
    let '(e1, types', i) := declare package lits types vis d in
    let '(e2, types'', vis') := declarations package lits types' ((d_id d, i) :: vis) r in
    (e0 ++ e1 ++ e2, types'', vis')
  end.

(** ** sessions *)

(** Transition 20-43, State 46-115, AbstractSession 118-165 *)
Record sstate := mkState {
  st_id : string;
  st_transitions : list (string * sx);
  st_exception : option string;
  st_actions : list stmt;
  st_declarations : list sdecl
}.
Record session := mkSession {
  se_package : string;
  se_initial : string;
  se_final : string;
  se_types : list mtype;
  se_parameters : list sdecl;
  se_declarations : list sdecl;
  se_states : list sstate
}.

(** {d.identifier: d for d in declarations} 72, 136-137 and the update of a dict 144-147 *)
Fixpoint put (d : sdecl) (l : list sdecl) : list sdecl :=
  match l with
  | [] => [d]
  | e :: t => if String.eqb (d_id e) (d_id d) then d :: t else e :: put d t
  end.
Definition dict (init l : list sdecl) : list sdecl := fold_left (fun acc d => put d acc) l init.
Definition globals (s : session) : list sdecl := dict (dict [] (se_parameters s)) (dict [] (se_declarations s)).

(** __validate_actions 381-399 *)
Definition action_errors (types : list mtype) (lits : list (string * ty)) (vis : visible) (a : stmt) : list string :=
  match match assoc (stmt_id a) vis with Some i => i_type i | None => Some TUndefined end with
  | None => ["NotImplementedError"]
  | Some t =>
    match a with
    | Reset _ => []
    | Assignment _ e | Append _ e | Extend _ e | Read _ e | Write _ e => typify_errors types vis e
    end ++ stmt_errors t (typify types lits vis) a
  end.
(** has_exceptions 102-115 *)
Definition has_exceptions (st : sstate) : bool :=
  existsb (fun a => match a with
                    | Append _ _ | Extend _ _ => true
                    | Assignment _ (SSel _ _ | SAttr SHead _ | SCompr _ _ _ _ | SMsg _ _) => true
                    | _ => false
                    end) (st_actions st).
(** __validate_transitions 401-421 *)
Definition transition_errors (types : list mtype) (lits : list (string * ty)) (vis : visible) (st : sstate) : list string :=
  flat_map (fun t => typify_errors types vis (snd t) ++ check_expr (typify types lits vis) (snd t) BOOLEAN) (st_transitions st)
  ++ match st_exception st with
     | None => if has_exceptions st then ["missing exception transition"] else []
     | Some _ => if has_exceptions st then [] else ["unnecessary exception transition"]
     end.
(** the body of the loop over the states in __validate 494-500 *)
Definition state_errors (package : string) (lits : list (string * ty)) (types : list mtype) (vis : visible) (st : sstate) : list string :=
  let '(es, types', vis') := declarations package lits types vis (dict [] (st_declarations st)) in
  es ++ flat_map (action_errors types' lits vis') (st_actions st) ++ transition_errors types' lits vis' st.
(** __validate_state_existence 214-239 *)
Definition existence_errors (s : session) : list string :=
  let ids := map st_id (se_states s) in
  let exists_ x := existsb (String.eqb x) ids in
  (if exists_ (se_initial s) then [] else ["initial state does not exist"])
  ++ (if exists_ (se_final s) then [] else ["final state does not exist"])
  ++ flat_map (fun st => flat_map (fun t => if exists_ (fst t) then [] else ["transition to non-existent state"])
                                  (st_transitions st)) (se_states s).
(** __validate 489-502: the errors on types and the existence of states; the other errors
    are the subject of SessionCheck.v *)
Definition session_errors (s : session) : list string :=
  let lits := literals (se_types s) (se_package s) in
  let '(es, types, vis) := declarations (se_package s) lits (se_types s) [] (globals s) in
  existence_errors s ++ es ++ flat_map (state_errors (se_package s) lits types vis) (se_states s).
