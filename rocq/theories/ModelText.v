(** Model of the text of a model: Model.__str__ (rflx/model/model.py), the methods __str__ of
    types (rflx/model/type_.py), links, messages and refinements (rflx/model/message.py), and
    the functions of rflx/common.py they use.

    Simplifications: expressions and their text are those of ExprPrint.v.  A field is its
    spelled identifier, fields are compared in lower case (identifier.py:35-40).  An ID is the
    list of its parts (Ident.v); type names, which are single parts, are used as text.  Types
    that a specification cannot declare (Private) are left out. *)
From Coq Require Import String Ascii List Bool Arith.
From Verif Require Import Base Ident Expr ExprPrint MsgGraph.
Import ListNotations.
Local Open Scope string_scope.
Local Open Scope list_scope.

(** "\n" as a text *)
Definition nl : string := String newline "".

(** indent, common.py:59-60; [start]: at the start of a line.  A line is not empty if it has a
    first character. *)
Fixpoint indent_from (start : bool) (s : string) (n : nat) : string :=
  match s with
  | "" => ""
  | String c r =>
    if Ascii.eqb c newline then String c (indent_from true r n)
    else if start then (spaces n ++ String c (indent_from false r n))%string
    else String c (indent_from false r n)
  end.
Definition indent (s : string) (n : nat) : string := indent_from true s n.

(** ID.name, identifier.py:95-96; Type.name, type_.py:36-38 *)
Definition name (i : ident) : string := last i "".
(** flat_name (str (i)), common.py:67-68, for an ID whose parts have no dots *)
Definition flat (i : ident) : string := String.concat "_" i.

(** The types of a model.  The types of a message are those of its fields in the order of
    AbstractMessage.fields (message.py:124-128), the links have the order of
    AbstractMessage.structure, the checksums are AbstractMessage.checksums (243-245). *)
Inductive decl :=
| Modular (i : ident) (modulus : expr)
| Range (i : ident) (first last size : expr)
| Enumeration (i : ident) (literals : list (string * expr)) (size : expr) (always_valid : bool)
| Array (i : ident) (element : ident)
| Opaque
| Message (i : ident) (types : list (string * ident)) (structure : list link) (checksums : list (string * list expr))
| Refinement (package pdu : ident) (field : string) (sdu : ident) (condition : expr).

(** const.py:3-4 and Opaque.__init__, type_.py:543 *)
Definition BUILTINS_PACKAGE : ident := ["__BUILTINS__"].
Definition INTERNAL_PACKAGE : ident := ["__INTERNAL__"].
(** Type.identifier; Refinement.__init__, message.py:1564-1569 *)
Definition identifier_of (d : decl) : ident :=
  match d with
  | Modular i _ | Range i _ _ _ | Enumeration i _ _ _ | Array i _ | Message i _ _ _ => i
  | Opaque => INTERNAL_PACKAGE ++ ["Opaque"]
  | Refinement package pdu field sdu _ =>
    package ++ [("__REFINEMENT__" ++ flat sdu ++ "__" ++ flat pdu ++ "__" ++ field ++ "__")%string]
  end.

(** is_builtin_type, type_.py:608-611 with BUILTIN_TYPES 596-598 *)
Definition is_builtin_type (i : ident) : bool :=
  id_eq i (BUILTINS_PACKAGE ++ ["Boolean"]) || id_eq i ["Boolean"].
(** is_internal_type, type_.py:602-605 with INTERNAL_TYPES 580-582 *)
Definition is_internal_type (i : ident) : bool :=
  id_eq i (INTERNAL_PACKAGE ++ ["Opaque"]) || id_eq i ["Opaque"].
(** qualified_type_identifier, type_.py:614-624 *)
Definition qualified_type_identifier (i package : ident) : ident :=
  if is_builtin_type i then BUILTINS_PACKAGE ++ [name i]
  else if is_internal_type i then INTERNAL_PACKAGE ++ [name i]
  else if (List.length i =? 1)%nat && negb (match package with [] => true | _ => false end) then package ++ i
  else i.

(** condition != expr.TRUE, message.py:59, 164, 1622: BooleanTrue is equal to itself only
    (expression.py:89-92) *)
Definition is_true (e : expr) : bool := match e with ETrue => true | _ => false end.
(** Field.__eq__ by the identifier, message.py:20-28 *)
Definition same_field (a b : string) : bool := String.eqb (lower a) (lower b).

(** the aspects of a link, message.py:62-66; UNDEFINED is None *)
Definition aspects (l : link) : list string :=
  match lsize l with Some e => [("Size => " ++ str e)%string] | None => [] end
  ++ match lfirst l with Some e => [("First => " ++ str e)%string] | None => [] end.
(** Link.__str__, message.py:58-69 *)
Definition link_str (l : link) : string :=
  let condition_ :=
    indent_next (if is_true (condition l) then "" else (nl ++ "if " ++ indent_next (str (condition l)) 3)%string) 3 in
  let with_clause :=
    indent_next (match aspects l with [] => "" | a => (nl ++ "with " ++ String.concat ", " a)%string end) 3 in
  let target_name := if same_field (target l) FINAL then "null" else target l in
  ("then " ++ target_name ++ with_clause ++ condition_)%string.

(** AbstractMessage.outgoing, message.py:251-252 *)
Definition outgoing_of (structure : list link) (f : string) : list link :=
  filter (fun l => same_field (source l) f) structure.
(** the condition in message.py:164-170; [next] is field_list[i + 1] unless there is none *)
Definition plain (outgoing : list link) (next : option string) : bool :=
  match outgoing with
  | [l] =>
    is_true (condition l)
    && match lsize l with None => true | _ => false end
    && match lfirst l with None => true | _ => false end
    && match next with None => true | Some n => same_field n (target l) end
  | _ => false
  end.
(** the loop over the fields, message.py:160-175; [l] is the rest of field_list, where the type
    of INITIAL is not used *)
Fixpoint fields_str (structure : list link) (l : list (string * ident)) (fields : string) : string :=
  match l with
  | [] => fields
  | (f, t) :: rest =>
    let initial := same_field f INITIAL in
    let outgoing := outgoing_of structure f in
    let fields :=
      if initial then fields
      else ((if String.eqb fields "" then "" else fields ++ nl) ++ f ++ " : " ++ name t)%string in
    let fields :=
      if plain outgoing (match rest with (n, _) :: _ => Some n | [] => None end) then fields
      else ((if initial then fields ++ "null" else fields) ++ nl
            ++ indent (String.concat nl (map link_str outgoing)) 3)%string in
    fields_str structure rest (if String.eqb fields "" then fields else (fields ++ ";")%string)
  end.
(** AbstractMessage.__str__, message.py:154-177 *)
Definition message_str (i : ident) (types : list (string * ident)) (structure : list link) : string :=
  match structure, types with
  | [], _ | _, [] => ("type " ++ name i ++ " is null message")%string
  | _, _ =>
    ("type " ++ name i ++ " is" ++ nl ++ "   message" ++ nl
     ++ indent (fields_str structure (("Initial", []) :: types) "") 6 ++ nl ++ "   end message")%string
  end.

(** __str__: ModularInteger type_.py:125-126, RangeInteger 256-260, Enumeration 421-424,
    Array 518-519, Opaque 547-548, Refinement message.py:1621-1623 *)
Definition decl_str (d : decl) : string :=
  match d with
  | Modular i modulus => ("type " ++ name i ++ " is mod " ++ str modulus)%string
  | Range i first last size =>
    ("type " ++ name i ++ " is range " ++ str first ++ " .. " ++ str last ++ " with Size => " ++ str size)%string
  | Enumeration i literals size always_valid =>
    ("type " ++ name i ++ " is ("
     ++ String.concat ", " (map (fun p => fst p ++ " => " ++ str (snd p))%string literals)
     ++ ") with Size => " ++ str size ++ (if always_valid then ", Always_Valid => True" else ""))%string
  | Array i element => ("type " ++ name i ++ " is array of " ++ name element)%string
  | Opaque => ""
  | Message i types structure _ => message_str i types structure
  | Refinement _ pdu field sdu condition_ =>
    ("for " ++ name pdu ++ " use (" ++ field ++ " => " ++ name sdu ++ ")"
     ++ (if is_true condition_ then "" else nl ++ "   if " ++ str condition_))%string
  end.

(** Model.__str__, model.py:23-28 *)
Definition shown (d : decl) : bool :=
  negb (is_builtin_type [name (identifier_of d)]) && negb (is_internal_type [name (identifier_of d)]).
Definition model_str (types : list decl) : string :=
  String.concat (nl ++ nl) (map (fun d => decl_str d ++ ";")%string (filter shown types)).
