(** Model of derived messages: derived_message_structure and the constructors of
    UnprovenDerivedMessage and DerivedMessage of rflx/model/message.py, for a derivation
    as the parser creates it (specification/parser.py:1005-1026), that is, without
    structure and types of its own.

    Simplifications: as in Verify.v (no checksums, no fields of message types, which are
    merged before); sorted (structure) (message.py:118) leaves the links in the order of
    the base. *)
From Coq Require Import String List ZArith Bool.
From Verif Require Import Base Expr Ident TypeSpec MsgGraph Solver Verify.
Import ListNotations.
Local Open Scope string_scope.
Local Open Scope list_scope.
Local Open Scope res_scope.

(** base_enum_literals, message.py:1653-1658 *)
Definition base_enum_literals (base : vmessage) : list ident :=
  flat_map (fun kv =>
    match snd kv with
    | MScalar (Enum id lits _ _) => if id_eq (package id) (v_package base) then map fst lits else []
    | _ => []
    end) (v_types base).

(** the same kind of name for another identifier: Variable.substituted 993-999 (of
    Name), Attribute.substituted 1081-1088 of rflx/expression.py, where the prefix of an
    attribute is substituted *)
Definition with_id (n : name) (x : string) : name :=
  match n with NVar _ => NVar x | NAttr a _ => NAttr a x end.
Definition id_of (n : name) : string := match n with NVar x | NAttr _ x => x end.

(** mapping, message.py:1659-1661; the keys of the dict are found regardless of case *)
Definition qualification (base : vmessage) (n : name) : option expr :=
  match find (fun e => String.eqb (var e) (id_of n)) (base_enum_literals base) with
  | Some e => Some (EName (with_id n (var (v_package base ++ e))) false)
  | None => None
  end.

(** derived_message_structure, message.py:1650-1668; [n] is the fuel of the simplifier,
    which unary minus may need *)
Definition derived_link (n : nat) (base : vmessage) (l : link) : res link :=
  let* c := substituted (neg (simplify expr_eqb n)) (qualification base) (condition l) in
  Ok (mkLink (source l) (target l) c (lsize l) (lfirst l)).
Definition derived_message_structure (n : nat) (base : vmessage) : res (list link) :=
  mapr (derived_link n base) (v_structure base).

(** the derived message in package [pkg]: structure and types, message.py:1492-1502,
    1292-1302 *)
Definition derived (n : nat) (base : vmessage) (pkg : ident) : res vmessage :=
  let* s := derived_message_structure n base in
  Ok (mkVMessage s (v_types base) pkg).

(** UnprovenDerivedMessage.__init__ 1481-1518 followed by proven 1539-1548: the errors.
    [base_errors] are those of the base, [is_derived] tells whether the base is itself a
    derived message; the errors of the base are the initial ones (1501) and are added
    again (1503) *)
Definition DerivedMessage (solve : list expr -> answer) (n : nat) (base : vmessage) (base_errors : list string)
  (is_derived : bool) (pkg : ident) : res (list string) :=
  let* m := derived n base pkg in
  let* r := construct n (graph m) in
  let errors := base_errors ++ fst r ++ base_errors ++ (if is_derived then ["illegal derivation"] else []) in
  match errors with
  | _ :: _ => Ok errors
  | [] => Message solve n m
  end.
