(** Model of the evaluation of the declarations of the specifications into a model:
    the functions create_... of rflx/specification/parser.py:264-1142, the method
    __evaluate_specification 1342-1388 and create_model 1320-1334.

    The parse tree is given by [decl] below; expressions are the results of
    create_math_expression and create_bool_expression.  How a message is built and
    verified (parser.py:775-791, 1020-1026) and how a session is created (230-236)
    are parameters: they get the types found for the fields, the base message and
    all types, respectively.  Source locations are dropped and texts of errors
    abbreviated; the errors of severity INFO that explain an error are left out.
    The names of declarations are not reserved words: __convert_unit 1214 has called
    create_id for them in check_naming 1178-1179. *)
From Coq Require Import String List ZArith Bool.
From Verif Require Import Base Expr Ident TypeSpec.
From Verif Require ModelCheck.
Import ListNotations.
Local Open Scope string_scope.
Local Open Scope list_scope.
Local Open Scope Z_scope.

(** the ways a call can end: it returns, it raises RecordFluxError with the
    collected errors, it raises another exception *)
Inductive outcome (A : Type) : Type :=
| Done (a : A)
| Raised (errors : list string)
| Crash (why : string).
Arguments Done {A} a.
Arguments Raised {A} errors.
Arguments Crash {A} why.
Definition and_then {A B} (o : outcome A) (k : A -> outcome B) : outcome B :=
  match o with Done a => k a | Raised es => Raised es | Crash w => Crash w end.

(** ** Types *)

(** the types of model/type_.py and model/message.py.  [TPartial] is a scalar whose
    constructor has returned early (type_.py:100, 194, 213, 368): its _size, [None]
    for expr.UNDEFINED, and the literals if it is an enumeration.  A message is known
    by its fields with their types and by whether its structure is empty. *)
Inductive ty :=
| TScalar (s : scalar)
| TPartial (id : ident) (size : option expr) (literals : option (list (ident * Z)))
| TArray (id : ident) (element : ty)
| TOpaque
| TMessage (id : ident) (structure : bool) (types : list (ident * ty))
| TRefinement (id : ident) (pdu : ty) (field : ident) (sdu : ty) (condition : expr).

(** const.py:3-4 *)
Definition internal : ident := ["__INTERNAL__"].
(** the identifier of a type, type_.py:29; Opaque 539-541 *)
Definition ty_id (t : ty) : ident :=
  match t with
  | TScalar s => type_id s
  | TPartial i _ _ | TArray i _ | TMessage i _ _ | TRefinement i _ _ _ _ => i
  | TOpaque => internal ++ ["Opaque"]
  end.
(** isinstance (t, model.Message) *)
Definition is_message (t : ty) : bool := match t with TMessage _ _ _ => true | _ => false end.
(** t.literals of an Enumeration, type_.py:347-358 *)
Definition ty_literals (t : ty) : option (list (ident * Z)) :=
  match t with
  | TScalar (Enum _ l _ _) => Some l
  | TPartial _ _ l => l
  | _ => None
  end.

(** BOOLEAN, BUILTIN_TYPES, INTERNAL_TYPES: type_.py:578-598, and Parser.__init__,
    parser.py:1193-1196 *)
Definition boolean : ty :=
  TScalar (Enum (builtins ++ ["Boolean"]) [(["False"], 0); (["True"], 1)] 1 false).
Definition initial_types : list ty := [boolean; TOpaque].

(** is_internal_type, type_.py:602-605 *)
Definition is_internal_type (i : ident) : bool := id_eq i (internal ++ ["Opaque"]) || id_eq i ["Opaque"].
(** is_builtin_type, type_.py:608-611 *)
Definition is_builtin_type (i : ident) : bool := id_eq i (builtins ++ ["Boolean"]) || id_eq i ["Boolean"].
(** qualified_type_identifier, type_.py:614-624; the product of identifiers is the
    concatenation of their parts (theorem C35_join) *)
Definition qualified_type_identifier (i package : ident) : ident :=
  if is_builtin_type i then builtins ++ [last i ""]
  else if is_internal_type i then internal ++ [last i ""]
  else if Nat.eqb (List.length i) 1 then package ++ i
  else i.

(** ** Declarations *)

(** the nodes of the parse tree, parser.py:1362-1387; [B] are the components and
    aspects of a message except for the names and types of its fields, [S] are
    sessions.  The value of an aspect may be missing (1041-1042). *)
Inductive definition (B : Type) :=
| DModular (modulus : expr)
| DRange (first last : expr) (aspect : string) (size : expr)
| DEnumeration (literals : list (ident * Z)) (aspects : list (string * option expr))
| DArray (element : ident)
| DMessage (fields : list (ident * ident)) (body : B)
| DNull
| DDerived (base : ident).
Arguments DModular {B}. Arguments DRange {B}. Arguments DEnumeration {B}. Arguments DArray {B}.
Arguments DMessage {B}. Arguments DNull {B}. Arguments DDerived {B}.
Inductive decl (B S : Type) :=
| DType (name : string) (d : definition B)
| DRefinement (pdu field sdu : ident) (condition : option expr)
| DSession (s : S).
Arguments DType {B S}. Arguments DRefinement {B S}. Arguments DSession {B S}.

(** a specification: the identifier of its package and its declarations *)
Definition spec (B S : Type) : Type := (string * list (decl B S))%type.

(** the attributes __types and __sessions of the parser, parser.py:1193-1197 *)
Record state := mkState { types : list ty; sessions : list ident }.

Section Parser.
  Context {B S : Type}.
  (** fuel of the simplifier *)
  Variable n : nat.
  (** UnprovenMessage (identifier, structure, field_types, aspects).merged ().proven ()
      with the errors of create_message_structure, parser.py:770-791: the recorded
      errors, whether the structure is empty and the types of the fields *)
  Variable build : ident -> B -> list (ident * ty) -> outcome (list string * (bool * list (ident * ty))).
  (** UnprovenDerivedMessage (identifier, base).merged ().proven (), 1019-1026 *)
  Variable derive : ident -> bool * list (ident * ty) -> outcome (list string * (bool * list (ident * ty))).
  (** create_session, 230-236, with the package: the recorded errors and the identifier *)
  Variable create_session : S -> ident -> list ty -> outcome (list string * ident).

  (** Scalar.size, type_.py:56-60; [None] for a type that is not a scalar *)
  Definition scalar_size (t : ty) : option (outcome Z) :=
    match t with
    | TScalar s => Some (Done (type_size s))
    | TPartial _ size _ =>
      Some (match size with
            | None => Crash "AssertionError"
            | Some e => match simp n e with
                        | Ok (ENum v) => Done v
                        | Ok _ => Crash "AssertionError"
                        | Err w => Crash w
                        end
            end)
    | _ => None
    end.

  (** the object a scalar constructor leaves behind: see TypeSpec.v *)
  Definition scalar_type (r : res (list string * option scalar)) (partial : ty) : outcome (list string * ty) :=
    match r with
    | Ok (es, Some s) => Done (es, TScalar s)
    | Ok (es, None) => Done (es, partial)
    | Err w => Crash w
    end.

  (** create_modular, parser.py:711-723; _size is UNDEFINED, type_.py:89 *)
  Definition create_modular (id : ident) (modulus : expr) : outcome (list string * ty) :=
    scalar_type (ModularInteger n id modulus) (TPartial id None None).

  (** create_range, parser.py:726-749; _size is set before the checks, type_.py:173 *)
  Definition create_range (id : ident) (first last : expr) (aspect : string) (size : expr)
    : outcome (list string * ty) :=
    if negb (String.eqb aspect "Size") then Raised ["invalid aspect for range type"]
    else scalar_type (RangeInteger n id first last size) (TPartial id (Some size) None).

  (** create_aspects, parser.py:1039-1070: errors, size, always_valid *)
  Fixpoint create_aspects (l : list (string * option expr)) (es : list string) (size : option expr)
      (always_valid : bool) : outcome (list string * option expr * bool) :=
    match l with
    | [] => Done (es, size, always_valid)
    | (a, v) :: t =>
      if String.eqb a "Size" then
        match v with
        | Some e => create_aspects t es (Some e) always_valid
        | None => Crash "AttributeError"
        end
      else if String.eqb a "Always_Valid" then
        match v with
        | None => create_aspects t es size true
        | Some e =>
          if expr_eqb e (EVar "true") then create_aspects t es size true
          else if expr_eqb e (EVar "false") then create_aspects t es size false
          else create_aspects t (es ++ ["invalid Always_Valid expression"]) size always_valid
        end
      else create_aspects t es size always_valid
    end.
  (** create_enumeration, parser.py:1028-1092; the literals are set before the early
      return, type_.py:347-369 *)
  Definition create_enumeration (id : ident) (literals : list (ident * Z)) (aspects : list (string * option expr))
    : outcome (list string * ty) :=
    and_then (create_aspects aspects [] None false) (fun '(es, size, always_valid) =>
    match es, size with
    | [], Some e =>
      scalar_type (Enumeration n id literals e always_valid)
                  (TPartial id (Some e) (Some (build_literals literals)))
    | _, Some _ => Raised es
    | _, None => Raised (es ++ ["no size set"])
    end).

  (** next (t for t in types if identifier == t.identifier), parser.py:277 *)
  Definition find_type (ts : list ty) (i : ident) : option ty := find (fun t => id_eq i (ty_id t)) ts.

  (** Array.__init__, type_.py:477-513 *)
  Definition Array (id : ident) (element : ty) : outcome (list string * ty) :=
    let e1 := match element with
              | TScalar _ | TPartial _ _ _ | TMessage _ true _ => []
              | _ => ["invalid element type of array"]
              end in
    match scalar_size element with
    | None => Done (type_errors id ++ e1, TArray id element)
    | Some o =>
      and_then o (fun v =>
      Done (type_errors id ++ e1 ++ when (negb (v mod 8 =? 0)) "unsupported element type size of array",
            TArray id element))
    end.
  (** create_array, parser.py:264-286 *)
  Definition create_array (id : ident) (element : ident) (ts : list ty) : outcome (list string * ty) :=
    match find_type ts (qualified_type_identifier element (package id)) with
    | Some t => Array id t
    | None => Raised ["undefined element type"]
    end.

  (** dict assignment with the equality of Field, i.e. of its identifier *)
  Fixpoint field_set (d : list (ident * ty)) (f : ident) (t : ty) : list (ident * ty) :=
    match d with
    | [] => [(f, t)]
    | (g, u) :: r => if id_eq f g then (g, t) :: r else (g, u) :: field_set r f t
    end.
  (** create_message_types, parser.py:794-811 *)
  Definition create_message_types (id : ident) (fields : list (ident * ident)) (ts : list ty)
    : list (ident * ty) :=
    fold_left (fun d fr =>
                 match find_type ts (qualified_type_identifier (snd fr) (package id)) with
                 | Some t => field_set d (fst fr) t
                 | None => d
                 end) fields [].
  (** the message object made by a builder *)
  Definition message_type (id : ident) (o : outcome (list string * (bool * list (ident * ty))))
    : outcome (list string * ty) :=
    and_then o (fun '(es, (structure, fs)) => Done (es, TMessage id structure fs)).
  (** create_message, parser.py:763-791 *)
  Definition create_message (id : ident) (fields : list (ident * ident)) (body : B) (ts : list ty)
    : outcome (list string * ty) :=
    message_type id (build id body (create_message_types id fields ts)).
  (** create_null_message, parser.py:752-760 *)
  Definition create_null_message (id : ident) : outcome (list string * ty) :=
    Done (type_errors id, TMessage id false []).
  (** create_derived_message, parser.py:980-1026 *)
  Definition create_derived_message (id : ident) (base : ident) (ts : list ty) : outcome (list string * ty) :=
    let base_types := filter (fun t => id_eq (ty_id t) (qualified_type_identifier base (package id))) ts in
    match base_types with
    | [] => Raised ["undefined base message"]
    | _ =>
      match filter is_message base_types with
      | TMessage _ structure fs :: _ => message_type id (derive id (structure, fs))
      | _ => Raised ["illegal derivation"]
      end
    end.

  (** the table "handlers", parser.py:1343-1351 *)
  Definition create_type (id : ident) (d : definition B) (ts : list ty) : outcome (list string * ty) :=
    match d with
    | DModular m => create_modular id m
    | DRange f l a s => create_range id f l a s
    | DEnumeration l a => create_enumeration id l a
    | DArray e => create_array id e ts
    | DMessage fs b => create_message id fs b ts
    | DNull => create_null_message id
    | DDerived b => create_derived_message id b ts
    end.

  (** messages[identifier] of the dict 1110: the last message of that identifier *)
  Definition find_message (ts : list ty) (i : ident) : option ty :=
    find (fun t => is_message t && id_eq i (ty_id t)) (rev ts).
  (** the fields of a message and their types; of an accepted message every field
      has a type (message.py:484-511) *)
  Definition message_types (t : ty) : list (ident * ty) :=
    match t with TMessage _ _ fs => fs | _ => [] end.
  (** qualified_enum_literals, type_.py:627-638: the keys of the result *)
  Definition qualified_enum_literals (ts : list ty) (pkg : ident) : list ident :=
    flat_map (fun t =>
      match ty_literals t with
      | None => []
      | Some l =>
        flat_map (fun kv =>
          (if id_eq (package (ty_id t)) builtins || id_eq (package (ty_id t)) pkg then [fst kv] else [])
          ++ (if id_eq (package (ty_id t)) builtins then [] else [package (ty_id t) ++ fst kv])) l
      end) ts.
  (** flat_name, common.py:67-68, for the text of an identifier *)
  Definition flat_id (i : ident) : string := String.concat "_" i.
  (** Refinement.__init__, message.py:1553-1618; variables are in lower case, see
      Expr.v.  The errors of Type.__init__ are overwritten in 1578. *)
  Definition refinement_id (pkg pdu field sdu : ident) : ident :=
    pkg ++ [("__REFINEMENT__" ++ flat_id sdu ++ "__" ++ flat_id pdu ++ "__" ++ id_str field ++ "__")%string].
  Definition Refinement (pkg : ident) (pdu : ty) (field : ident) (sdu : ty) (condition : expr)
    : list string * ty :=
    let e1 := when (negb (Nat.eqb (List.length pkg) 1)) "unexpected format of package name" in
    let e2 := match find (fun ft => id_eq (fst ft) field) (message_types pdu) with
              | Some (_, TOpaque) => []
              | Some _ => ["invalid type of field in refinement"]
              | None => ["invalid field in refinement"]
              end in
    let known := map (fun ft => var (fst ft)) (message_types pdu)
                 ++ map var (qualified_enum_literals (map snd (message_types pdu)) pkg) in
    let e3 := flat_map (fun v => when (negb (existsb (String.eqb (fst v)) known))
                                      "unknown field or literal in refinement condition")
                       (variables condition) in
    (e1 ++ e2 ++ e3, TRefinement (refinement_id pkg (ty_id pdu) field (ty_id sdu)) pdu field sdu condition).
  (** create_refinement, parser.py:1107-1142 *)
  Definition create_refinement (pkg : ident) (pdu field sdu : ident) (condition : option expr) (ts : list ty)
    : outcome (list string * ty) :=
    match find_message ts (qualified_type_identifier pdu pkg) with
    | None => Raised ["undefined type in refinement"]
    | Some p =>
      match find_message ts (qualified_type_identifier sdu pkg) with
      | None => Raised ["undefined type in refinement"]
      | Some s =>
        Done (Refinement pkg p field s (match condition with Some c => c | None => ETrue end))
      end
    end.

  (** ** The loops *)

  (** __evaluate_specification, parser.py:1362-1388: the state left behind and how the
      method ends.  [es] are the errors collected so far; an exception of a type
      or refinement is caught, one of a session is not. *)
  Fixpoint evaluate_loop (pkg : ident) (ds : list (decl B S)) (st : state) (es : list string)
    : state * outcome unit :=
    match ds with
    | [] => (st, match es with [] => Done tt | _ => Raised es end)
    | DType name d :: r =>
      match create_type (qualified_type_identifier [name] pkg) d (types st) with
      | Done (es', t) => evaluate_loop pkg r (mkState (types st ++ [t]) (sessions st)) (es ++ es')
      | Raised es' => evaluate_loop pkg r st (es ++ es')
      | Crash w => (st, Crash w)
      end
    | DRefinement pdu field sdu c :: r =>
      match create_refinement pkg pdu field sdu c (types st) with
      | Done (es', t) => evaluate_loop pkg r (mkState (types st ++ [t]) (sessions st)) (es ++ es')
      | Raised es' => evaluate_loop pkg r st (es ++ es')
      | Crash w => (st, Crash w)
      end
    | DSession s :: r =>
      match create_session s pkg (types st) with
      | Done (es', i) => evaluate_loop pkg r (mkState (types st) (sessions st ++ [i])) (es ++ es')
      | Raised es' => (st, Raised es')
      | Crash w => (st, Crash w)
      end
    end.
  Definition evaluate_specification (sp : spec B S) (st : state) : state * outcome unit :=
    evaluate_loop [fst sp] (snd sp) st [].

  (** the loop of create_model, parser.py:1322-1326: the state and the errors *)
  Fixpoint evaluate_all (l : list (spec B S)) (st : state) (es : list string) : outcome (state * list string) :=
    match l with
    | [] => Done (st, es)
    | sp :: r =>
      match evaluate_specification sp st with
      | (st', Done _) => evaluate_all r st' es
      | (st', Raised es') => evaluate_all r st' (es ++ es')
      | (_, Crash w) => Crash w
      end
    end.

  (** the types and sessions as seen by Model.__validate, see ModelCheck.v; the
      identifiers have two parts (identifiers of declarations are unqualified) *)
  Definition ident2_of (i : ident) : ModelCheck.ident2 :=
    (lower (id_str (removelast i)), lower (last i "")).
  Definition checked_model (st : state) : ModelCheck.model :=
    ModelCheck.mkModel
      (map (fun t => ModelCheck.mkType (ident2_of (ty_id t))
                       (option_map (map (fun kv => var (fst kv))) (ty_literals t))) (types st))
      (map ident2_of (sessions st)).

  (** create_model, parser.py:1320-1334, on the state of the parser; model.Model
      (types, sessions) is the checks of ModelCheck.v *)
  Definition create_model (l : list (spec B S)) (st : state) : outcome state :=
    and_then (evaluate_all l st []) (fun '(st', es) =>
    match es ++ ModelCheck.model_errors (checked_model st') with
    | [] => Done st'
    | es' => Raised es'
    end).
  (** a new parser, parser.py:1190-1198 *)
  Definition initial_state : state := mkState initial_types [].
End Parser.
