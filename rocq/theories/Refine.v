(** Model of refinements: the checks of Refinement (rflx/model/message.py:1551-1610) and the
    generated functions Contains and Switch (rflx/generator/generator.py:2303-2379,
    2674-2860, 3061-3112).

    The calls in the generated expression are written as variables whose name starts with a
    colon ([call_name]); [decode] reads them back.  The generated Ada is evaluated with
    [GenCode.aeval], a call whose precondition fails or a selection of an absent component
    is an error.

    Simplifications: identifiers are in lower case; overloaded enumeration literals are
    resolved by the dictionary of the model, not by Ada's rules; To_Actual is the identity on
    numbers (see C48 for the conversion); the refined message is never called "ctx". *)
From Coq Require Import String List ZArith Bool.
From Verif Require Import Base Expr ExprEval MsgGraph AdaTypes AdaBuffer GenCode.
Import ListNotations.
Local Open Scope string_scope.
Local Open Scope list_scope.
Local Open Scope Z_scope.
Local Open Scope res_scope.

(** ** The model *)

(** the type of a field, as far as refinements look at it: model/type_.py:55-300 *)
Inductive rtype :=
| RNumber (size : Z) (valid : Z -> bool)
| REnum (package : string) (literals : list (string * Z)) (size : Z) (always_valid : bool)
| ROpaque
| RComposite.

(** Message.fields and Message.types *)
Record pdu := mkPdu { p_fields : list field; p_types : list (field * rtype) }.

(** BUILTINS_PACKAGE, rflx/const.py:3 *)
Definition BUILTINS : string := "__builtins__".

(** qualified_enum_literals, model/type_.py:625-637 *)
Definition qualified_enum_literals (types : list rtype) (package : string) : list (string * Z) :=
  flat_map (fun t =>
    match t with
    | REnum p ls _ _ =>
      flat_map (fun kv =>
        (if String.eqb p BUILTINS || String.eqb p package then [kv] else []) ++
        (if String.eqb p BUILTINS then [] else [((p ++ "." ++ fst kv)%string, snd kv)])) ls
    | _ => []
    end) types.
(** access to the dictionary: the last assignment counts *)
Definition dict_get {A} (d : list (string * A)) (k : string) : option A :=
  match find (fun kv => String.eqb (fst kv) k) (rev d) with Some kv => Some (snd kv) | None => None end.

(** the messages of Refinement.__init__, message.py:1579-1620 *)
Inductive rerror :=
| EPackage                 (* unexpected format of package name *)
| EFieldType (f : field)   (* invalid type of field in refinement *)
| EField (f : field)       (* invalid field in refinement *)
| EUnknown (id : string).  (* unknown field or literal in refinement condition *)

(** str (package) *)
Definition dotted (package : list string) : string := String.concat "." package.

(** Refinement.__init__, message.py:1552-1620 *)
Definition refinement_errors (package : list string) (p : pdu) (f : field) (condition : expr) : list rerror :=
  (if Nat.eqb (List.length package) 1 then [] else [EPackage]) ++
  (match find (fun ft => String.eqb (fst ft) f) (p_types p) with
   | Some (_, ROpaque) => []
   | Some _ => [EFieldType f]
   | None => [EField f]
   end) ++
  flat_map (fun v =>
    let literals := qualified_enum_literals (map snd (p_types p)) (dotted package) in
    if negb (memf (fst v) (p_fields p)) && negb (memf (fst v) (map fst literals)) then [EUnknown (fst v)] else [])
    (variables condition).

(** ** The generator *)

(** "item in expression": Expr 124-125, BinExpr 326-327 (membership in the pair of operands,
    not below them), AssExpr 389-390 *)
Fixpoint expr_in (item e : expr) : bool :=
  expr_eqb item e ||
  match e with
  | EAss _ ts => existsb (expr_in item) ts
  | EBin _ l r | ERel _ l r => expr_eqb item l || expr_eqb item r
  | _ => false
  end.

(** condition_fields, generator.py:2370-2374 *)
Definition condition_fields (p : pdu) (condition : expr) : list (field * rtype) :=
  filter (fun ft => expr_in (EVar (fst ft)) condition) (p_types p).

(** the calls in the generated expression *)
Inductive call :=
| CHas_Buffer                  (* PDU.Has_Buffer (Ctx) *)
| CPresent (f : field)         (* PDU.Present (Ctx, PDU.F_<f>) *)
| CStructural_Valid (f : field)
| CValid (f : field)
| CGet (f : field)             (* PDU.Get_<f> (Ctx) *)
| CKnown (f : field)           (* PDU.Get_<f> (Ctx).Known *)
| CEnum (f : field).           (* PDU.Get_<f> (Ctx).Enum *)
Definition call_name (c : call) : string :=
  match c with
  | CHas_Buffer => ":has_buffer:"
  | CPresent f => ":present:" ++ f
  | CStructural_Valid f => ":structural_valid:" ++ f
  | CValid f => ":valid:" ++ f
  | CGet f => ":get:" ++ f
  | CKnown f => ":known:" ++ f
  | CEnum f => ":enum:" ++ f
  end%string.
Definition ECall (c : call) : expr := EVar (call_name c).
(** the rest of a string after its first [n] characters *)
Fixpoint drop (n : nat) (s : string) : string :=
  match n, s with S k, String _ t => drop k t | _, _ => s end.
Definition decode (s : string) : option call :=
  if String.prefix ":has_buffer:" s then Some CHas_Buffer
  else if String.prefix ":present:" s then Some (CPresent (drop 9 s))
  else if String.prefix ":structural_valid:" s then Some (CStructural_Valid (drop 18 s))
  else if String.prefix ":valid:" s then Some (CValid (drop 7 s))
  else if String.prefix ":get:" s then Some (CGet (drop 5 s))
  else if String.prefix ":known:" s then Some (CKnown (drop 7 s))
  else if String.prefix ":enum:" s then Some (CEnum (drop 6 s))
  else None.

(** isinstance (t, Enumeration) and t.always_valid *)
Definition always_valid (t : rtype) : bool := match t with REnum _ _ _ a => a | _ => false end.

(** the mapping in __create_contains_function, generator.py:2689-2697 *)
Definition contains_mapping (cfs : list (field * rtype)) (n : name) : option expr :=
  match n with
  | NVar id =>
    match dict_get cfs id with
    | Some t => Some (ECall (if always_valid t then CEnum id else CGet id))
    | None => None
    end
  | NAttr _ _ => None
  end.
(** the guards of always valid enumerations, generator.py:2680-2687 *)
Definition known_guards (cfs : list (field * rtype)) (condition : expr) : expr :=
  fold_left (fun c ft => if always_valid (snd ft) then EAss OAndThen [ECall (CKnown (fst ft)); c] else c) cfs condition.
Definition contains_condition (n : nat) (p : pdu) (condition : expr) : res expr :=
  let cfs := condition_fields p condition in
  let* c := substituted (neg (simplify expr_eqb n)) (contains_mapping cfs) (known_guards cfs condition) in
  simplify expr_eqb n c.
(** refinement_conditions, generator.py:3061-3112 *)
Definition refinement_conditions (f : field) (cfs : list (field * rtype)) (null_sdu : bool) : list expr :=
  [ECall CHas_Buffer] ++
  (if null_sdu then [ECall (CStructural_Valid f); ENot (ECall (CPresent f))] else [ECall (CPresent f)]) ++
  map (fun ft => ECall (CValid (fst ft))) cfs.
(** the expression of Contains, generator.py:2674-2717 *)
Definition contains_function (n : nat) (p : pdu) (f : field) (null_sdu : bool) (condition : expr) : res expr :=
  let* c := contains_condition n p condition in
  simplify expr_eqb n (EAss OAndThen (refinement_conditions f (condition_fields p condition) null_sdu ++ [c])).

(** ** The generated code *)

(** the generated types: Valid of a scalar, generator.py:2900-2912 *)
Definition gen_type (t : rtype) : ftype :=
  match t with
  | RNumber size vd => FScalar size vd
  | REnum _ ls size a => FScalar size (fun v => a || existsb (fun kv => snd kv =? v) ls)
  | ROpaque | RComposite => FComposite
  end.
Definition gen_types (p : pdu) (f : field) : ftype :=
  match dict_get (p_types p) f with Some t => gen_type t | None => FComposite end.

(** Get_<f>, parser.py:633-680, with its precondition; the result of an always valid
    enumeration is a record with discriminant Known, generator.py:2600-2660,2998-3025 *)
Definition get_checked (x : context) (f : field) : res Z :=
  check valid_field x f msg "precondition"; get_field x f.
Definition known (p : pdu) (f : field) (v : Z) : bool :=
  match dict_get (p_types p) f with
  | Some (REnum _ ls _ _) => existsb (fun kv => snd kv =? v) ls
  | _ => false
  end.
Definition call_result (p : pdu) (x : context) (c : call) : res val :=
  match c with
  | CHas_Buffer => Ok (VBool (has_buffer x))
  | CPresent f => Ok (VBool (present x f))
  | CStructural_Valid f => Ok (VBool (structural_valid (x_cursors x f)))
  | CValid f => Ok (VBool (valid_field x f))
  | CGet f =>
    match gen_types p f with
    | FScalar _ _ => let* v := get_checked x f in Ok (VInt v)
    | FComposite => Err "no function"
    end
  | CKnown f => let* v := get_checked x f in Ok (VBool (known p f v))
  | CEnum f => let* v := get_checked x f in check known p f v msg "discriminant check"; Ok (VInt v)
  end.
(** names in Contains: calls and, with the use clauses of generator.py:2319-2326, the
    enumeration literals; any other name is not declared there *)
Definition contains_look (package : string) (p : pdu) (x : context) (n : name) : res val :=
  match n with
  | NVar id =>
    match decode id with
    | Some c => call_result p x c
    | None =>
      match dict_get (qualified_enum_literals (map snd (p_types p)) package) id with
      | Some z => Ok (VInt z)
      | None => Err "undefined"
      end
    end
  | NAttr _ _ => Err "undefined"
  end.
(** a call of Contains; [e] is its expression *)
Definition contains (package : string) (p : pdu) (e : expr) (x : context) : res bool :=
  let* v := aeval in_U64 (contains_look package p x) e in as_bool v.

(** Take_Buffer, generator.py:878-905 *)
Definition take_buffer (x : context) : res (context * buffer) :=
  match x_buffer x with
  | Some b => Ok (set_buffer x None, b)
  | None => Err "precondition"
  end.
(** Switch_To_<f>, generator.py:2719-2860: the precondition (conjunction, evaluated before the
    call of Contains) and the body; the result is the context of the outer and of the inner
    message *)
Definition switch_pre (package : string) (p : pdu) (f : field) (cfs : list (field * rtype)) (e : expr) (x : context) : res bool :=
  let* v := aeval in_U64 (contains_look package p x) (EAss OAnd (refinement_conditions f cfs false)) in
  let* a := as_bool v in
  let* b := contains package p e x in
  Ok (a && b).
Section Switch.
  Context (s : list link) (fields : list field) (types : field -> ftype) (constants : name -> option Z) (sdu_fields : list field).
  Definition switch (x : context) (f : field) : res (context * context) :=
    let* a := field_first s fields types constants x f in
    let* l := field_last s fields types constants x f in
    let* r := take_buffer x in
    let '(x', b) := r in
    check initialize_pre b a l msg "precondition";
    Ok (x', initialize sdu_fields b a l).
End Switch.
