(** Model of the checks of rflx/model/model.py:45-163 (Model.__validate).

    Identifiers are a package and a name in lower case (ID equality ignores case,
    types and sessions have two parts: type_.py:18-27, session.py:149-155). *)
From Coq Require Import String List Bool.
Import ListNotations.
Local Open Scope string_scope.
Local Open Scope list_scope.

Definition ident2 := (string * string)%type.
Definition ident2_eqb (a b : ident2) : bool := String.eqb (fst a) (fst b) && String.eqb (snd a) (snd b).

(** a type; [literals] is None unless it is an Enumeration (type_.py:231-337) *)
Record mtype := mkType { ty_id : ident2; ty_literals : option (list string) }.
(** only the names of sessions matter *)
Record model := mkModel { m_types : list mtype; m_sessions : list ident2 }.

Definition package (t : mtype) : string := fst (ty_id t).
(** const.py:3 *)
Definition BUILTINS_PACKAGE := "__builtins__".
(** is_builtin_type, type_.py:608-611, for identifiers of two parts; BUILTIN_TYPES 596-598 *)
Definition is_builtin (i : ident2) : bool := ident2_eqb i (BUILTINS_PACKAGE, "boolean").

Definition when (b : bool) (e : string) : list string := if b then [e] else [].

(** __check_duplicates 51-94 *)
Fixpoint type_duplicates (seen : list ident2) (l : list mtype) : list string :=
  match l with
  | [] => []
  | t :: r => when (existsb (ident2_eqb (ty_id t)) seen) "name conflict for type" ++ type_duplicates (ty_id t :: seen) r
  end.
Fixpoint session_duplicates (types sessions : list ident2) (l : list ident2) : list string :=
  match l with
  | [] => []
  | s :: r =>
    when (existsb (ident2_eqb s) types || existsb (ident2_eqb s) sessions) "name conflict for session"
    ++ session_duplicates types (s :: sessions) r
  end.
Definition check_duplicates (m : model) : list string :=
  type_duplicates [] (m_types m) ++ session_duplicates (map ty_id (m_types m)) [] (m_sessions m).

(** __check_conflicts 96-163: the pairs of 99-112, in the order of the comprehension
    (the order of the errors is immaterial) *)
Definition comparable (a b : mtype) : bool :=
  String.eqb (package a) (package b) || String.eqb (package a) BUILTINS_PACKAGE || String.eqb (package b) BUILTINS_PACKAGE.
Definition common (a b : list string) : list string := filter (fun x => existsb (String.eqb x) b) a.
Definition literal_conflict (a b : mtype) : list string :=
  match ty_literals a, ty_literals b with
  | Some la, Some lb =>
    if comparable a b then match common lb la with [] => [] | _ => ["conflicting literals"] end else []
  | _, _ => []
  end.
Fixpoint literal_conflicts (l : list mtype) : list string :=
  match l with
  | [] => []
  | a :: r => flat_map (literal_conflict a) r ++ literal_conflicts r
  end.
(** the qualified literals 137-142 *)
Definition all_literals (l : list mtype) : list ident2 :=
  flat_map (fun t => match ty_literals t with Some ls => map (pair (package t)) ls | None => [] end) l.
(** 143-161 *)
Definition name_conflicts (l : list mtype) : list string :=
  flat_map (fun lit => flat_map (fun t =>
    when ((String.eqb (fst lit) (package t) || is_builtin (ty_id t)) && String.eqb (snd lit) (snd (ty_id t)))
      "literal conflicts with type declaration") l) (all_literals l).
Definition check_conflicts (m : model) : list string := literal_conflicts (m_types m) ++ name_conflicts (m_types m).

(** __validate 46-49 *)
Definition model_errors (m : model) : list string := check_duplicates m ++ check_conflicts m.
