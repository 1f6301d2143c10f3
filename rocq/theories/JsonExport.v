(** Model of the export of a model as JSON: Base.serialize and its overridings, json.dump
    with indent = 3 as used in cli.py, and export in cli.py.

    Objects are given by the name of their class and their attributes, as Base.serialize
    sees only these; so expressions of any kind are covered.  Simplification: a character
    of a string is one of the first 256 code points. *)
From Coq Require Import String List ZArith Bool Ascii.
From Coq Require DecimalString.
From Verif Require Import Base.
Import ListNotations.
Local Open Scope string_scope.
Local Open Scope list_scope.
Local Open Scope res_scope.

(** what json.dump gets *)
Inductive json :=
| JInt (z : Z)
| JBool (b : bool)
| JStr (s : string)
| JList (l : list json)
| JObj (l : list (string * json)).

(** Python objects: PObj has the name of its class and __dict__ in its order; an ID has its
    parts, identifier.py:12-32; of a dictionary only the values are kept *)
Inductive py :=
| PNone
| PInt (z : Z)
| PBool (b : bool)
| PStr (s : string)
| PList (l : list py)
| PDict (l : list py)
| PId (parts : list string)
| PObj (cls : string) (attrs : list (string * py)).

(** list comprehensions, the first error counts *)
Definition map_all {A B} (f : A -> res B) : list A -> res (list B) :=
  fix go l := match l with [] => Ok [] | x :: r => let* y := f x in let* r' := go r in Ok (y :: r') end.
(** k not in (...), common.py:38 *)
Definition kept (k : string) : bool := negb (existsb (String.eqb k) ["location"; "error"; "type_"; "_str"; "immutable"]).
(** value, common.py:26-31; bool is a subclass of int *)
Definition value (serialize : py -> res json) (data : py) : res json :=
  match data with
  | PList l => let* js := map_all serialize l in Ok (JList js)
  | PInt z => Ok (JInt z)
  | PBool b => Ok (JBool b)
  | PStr s => Ok (JStr s)
  | _ => serialize data
  end.
(** the comprehension over __dict__, common.py:35-39 *)
Definition attributes (serialize : py -> res json) : list (string * py) -> res (list (string * json)) :=
  fix go l :=
  match l with
  | [] => Ok []
  | (k, v) :: r =>
    if kept k then let* j := value serialize v in let* r' := go r in Ok ((k, j) :: r')
    else go r
  end.
(** Base.serialize, common.py:24-40; ID.serialize, identifier.py:106-108; other values do not
    have the attribute *)
Fixpoint serialize (o : py) : res json :=
  match o with
  | PObj cls attrs => let* d := attributes serialize attrs in Ok (JObj [("kind", JStr cls); ("data", JObj d)])
  | PId parts => Ok (JList (map JStr parts))
  | _ => Err "AttributeError"
  end.

(** ** the objects of a model *)

(** Number.__init__, expression.py:625-630, with the attributes of Expr 81-87 *)
Definition number (n : Z * Z) : py :=
  PObj "Number" [("type_", PNone); ("location", PNone); ("value", PInt (fst n)); ("base", PInt (snd n)); ("_str", PNone)].
(** Field.__init__, message.py:20-22 *)
Definition field (f : string) : py := PObj "Field" [("identifier", PId [f])].
(** Link, message.py:49-56, a dataclass *)
Record xlink := mkXLink { xl_source : string; xl_target : string; xl_condition : py; xl_size : py; xl_first : py }.
Definition link_object (l : xlink) : py :=
  PObj "Link" [("source", field (xl_source l)); ("target", field (xl_target l)); ("condition", xl_condition l);
    ("size", xl_size l); ("first", xl_first l); ("location", PNone)].

(** The types of a model.  first, last and size of scalar types are the numbers to which
    their expressions are simplified, with their base.  Of types that are referred to the
    identifier is given. *)
Inductive xtype :=
| XModular (i : list string) (modulus : py)
| XRange (i : list string) (first last size : Z * Z)
| XEnum (i : list string) (literals : list (string * (Z * Z))) (size : Z * Z) (always_valid : bool)
| XArray (i element : list string)
| XOpaque
| XPrivate (i : list string)
| XMessage (i : list string) (structure : list xlink) (types : list (string * list string)) (checksums : list (string * list py))
| XRefinement (i package pdu : list string) (f : string) (sdu : list string) (condition : py).

Definition ident (i : list string) : json := JList (map JStr i).
Definition object (kind : string) (data : list (string * json)) : json := JObj [("kind", JStr kind); ("data", JObj data)].
(** serialize of ModularInteger type_.py:153-161, RangeInteger 306-316, Enumeration 457-467,
    Array 529-537, Opaque 558-560, Private (Base.serialize), AbstractMessage
    message.py:179-188, Refinement message.py:1635-1647 *)
Definition type_json (t : xtype) : res json :=
  match t with
  | XModular i m => let* j := serialize m in Ok (object "ModularInteger" [("identifier", ident i); ("modulus", j)])
  | XRange i f l s =>
    let* f' := serialize (number f) in let* l' := serialize (number l) in let* s' := serialize (number s) in
    Ok (object "RangeInteger" [("identifier", ident i); ("first", f'); ("last", l'); ("size", s')])
  | XEnum i lits s av =>
    let* ls := map_all (fun p => let* v := serialize (number (snd p)) in Ok (fst p, v)) lits in
    let* s' := serialize (number s) in
    Ok (object "Enumeration" [("identifier", ident i); ("literals", JObj ls); ("size", s'); ("always_valid", JBool av)])
  | XArray i e => Ok (object "Array" [("identifier", ident i); ("element_type", ident e)])
  | XOpaque => Ok (object "Opaque" [])
  | XPrivate i => serialize (PObj "Private" [("error", PNone); ("identifier", PId i); ("location", PNone)])
  | XMessage i structure types _ =>
    let* ls := map_all (fun l => serialize (link_object l)) structure in
    Ok (object "Message" [("identifier", ident i); ("structure", JList ls); ("types", JObj (map (fun p => (fst p, ident (snd p))) types))])
  | XRefinement i package pdu f sdu c =>
    let* f' := serialize (field f) in let* c' := serialize c in
    Ok (object "Refinement" [("identifier", ident i); ("package", ident package); ("pdu", ident pdu); ("field", f'); ("sdu", ident sdu); ("condition", c')])
  end.

(** Session, session.py:132-150: the attributes up to the declarations *)
Record xsession := mkXSession { xs_identifier : list string; xs_initial : list string; xs_final : list string;
  xs_states : list py; xs_declarations : list py; xs_rest : list (string * py) }.
Definition session_object (s : xsession) : py :=
  PObj "Session" ([("identifier", PId (xs_identifier s)); ("initial", PId (xs_initial s)); ("final", PId (xs_final s));
    ("states", PList (xs_states s)); ("declarations", PDict (xs_declarations s))] ++ xs_rest s).
(** Model.__init__, model.py:12-18, has the private attributes __types and __sessions *)
Record xmodel := mkXModel { xm_types : list xtype; xm_sessions : list xsession }.
Definition model_json (m : xmodel) : res json :=
  let* ts := map_all type_json (xm_types m) in
  let* ss := map_all (fun s => serialize (session_object s)) (xm_sessions m) in
  Ok (object "Model" [("_Model__types", JList ts); ("_Model__sessions", JList ss)]).

(** ** json.dump *)

Definition hex_digit (n : nat) : ascii := ascii_of_nat (if Nat.ltb n 10 then 48 + n else 87 + n).
(** the escapes of the json module with ensure_ascii *)
Definition escape (c : ascii) : string :=
  let n := nat_of_ascii c in
  if Nat.eqb n 34 then String (ascii_of_nat 92) (String (ascii_of_nat 34) "")
  else if Nat.eqb n 92 then String (ascii_of_nat 92) (String (ascii_of_nat 92) "")
  else if Nat.eqb n 10 then String (ascii_of_nat 92) "n"
  else if Nat.eqb n 13 then String (ascii_of_nat 92) "r"
  else if Nat.eqb n 9 then String (ascii_of_nat 92) "t"
  else if Nat.eqb n 12 then String (ascii_of_nat 92) "f"
  else if Nat.eqb n 8 then String (ascii_of_nat 92) "b"
  else if Nat.leb 32 n && Nat.ltb n 127 then String c ""
  else (String (ascii_of_nat 92) "u00" ++ String (hex_digit (n / 16)) (String (hex_digit (n mod 16)) ""))%string.
Definition quote : string := String (ascii_of_nat 34) "".
Fixpoint escaped (s : string) : string := match s with "" => "" | String c r => (escape c ++ escaped r)%string end.
Definition string_text (s : string) : string := (quote ++ escaped s ++ quote)%string.
Definition int_text (z : Z) : string := DecimalString.NilZero.string_of_int (Z.to_int z).
Fixpoint blanks (n : nat) : string := match n with O => "" | S m => String " " (blanks m) end.
(** a new line with an indentation of 3 for each level *)
Definition new_line (n : nat) : string := String (ascii_of_nat 10) (blanks (3 * n)).
Definition items (f : json -> string) (n : nat) : list json -> string :=
  fix go l := match l with [] => "" | x :: r => ("," ++ new_line n ++ f x ++ go r)%string end.
Definition members (f : json -> string) (n : nat) : list (string * json) -> string :=
  fix go l := match l with [] => "" | (k, x) :: r => ("," ++ new_line n ++ string_text k ++ ": " ++ f x ++ go r)%string end.
(** json.dump (indent = 3), cli.py:182 *)
Fixpoint dump (n : nat) (j : json) : string :=
  match j with
  | JInt z => int_text z
  | JBool true => "true"
  | JBool false => "false"
  | JStr s => string_text s
  | JList [] => "[]"
  | JList (x :: r) => ("[" ++ new_line (S n) ++ dump (S n) x ++ items (dump (S n)) (S n) r ++ new_line n ++ "]")%string
  | JObj [] => "{}"
  | JObj ((k, x) :: r) =>
    ("{" ++ new_line (S n) ++ string_text k ++ ": " ++ dump (S n) x ++ members (dump (S n)) (S n) r ++ new_line n ++ "}")%string
  end.

(** ** the command *)

(** the files with their contents *)
Definition files : Type := string -> option string.
Definition write (fs : files) (p c : string) : files := fun q => if String.eqb q p then Some c else fs q.
(** export, cli.py:179-182: [parse] is the function of cli.py.  An error in a specification is
    Err ("RecordFluxError"); opening the output for writing empties it. *)
Definition export (parse : files -> list string -> res xmodel) (fs : files) (inputs : list string) (output : string) : files * res unit :=
  match parse fs inputs with
  | Err e => (fs, Err e)
  | Ok m =>
    let fs1 := write fs output "" in
    match model_json m with
    | Err e => (fs1, Err e)
    | Ok j => (write fs1 output (dump 0 j), Ok tt)
    end
  end.
