(** Model of the loading of specification files from directories,
    rflx/specification/parser.py:79-101, 1145-1306 (C30 treats the case of one directory in
    which the files have the names of their packages).

    The syntax tree of a specification is reduced to what loading looks at: the names of the
    package, of the packages in the with clauses and of the declared types.  Locations are left
    out of the messages.  The names are identifiers of the grammar: they are not empty and
    contain no separator, so ID does not reject them (identifier.py:24-33). *)
From Coq Require Import String Ascii List Bool Arith.
From Verif Require Import Base Ident SpecExpr SpecSort.
From Verif Require Expr.
Import ListNotations.
Local Open Scope string_scope.
Local Open Scope list_scope.
Local Open Scope nat_scope.

(** pathlib.Path as the list of its parts; "." is no part *)
Definition path := list string.
(** PackageNode.f_identifier, f_end_identifier, the f_item of the f_context_clause, the names of
    the TypeDecl in f_declarations *)
Record spec := mkSpec { s_package : string; s_end : string; s_withs : list string; s_types : list string }.
(** AnalysisContext ().get_from_file (...), 1270: unit.diagnostics (there is at least one) or unit.root *)
Inductive content := Broken (d : string) (ds : list string) | Parsed (s : spec).
Definition files := list (path * content).
(** Path.__eq__ *)
Definition path_eq (a b : path) : bool := if list_eq_dec string_dec a b then true else false.
(** the file system of get_from_file 1270; a file that does not exist has a diagnostic *)
Fixpoint content_of (fs : files) (p : path) : content :=
  match fs with
  | [] => Broken "Cannot read file" []
  | (q, c) :: r => if path_eq q p then c else content_of r p
  end.
(** filename.parent / n, 1237 *)
Definition beside (f : path) (n : string) : path := removelast f ++ [n].
(** Path.name, 1169 *)
Definition file_name_of (f : path) : string := last f "".
(** f"{x.lower()}.rflx", 1168, 1215, 1237 *)
Definition rflx (x : string) : string := (lower x ++ ".rflx")%string.

(** the messages of RecordFluxError entries *)
Inductive message :=
| Diagnostic (d : string)                           (* 92 *)
| IllegalPrefix (x : string)                        (* 1149 *)
| InconsistentEnd (x : string)                      (* 1156 *)
| PreviousIdentifier (x : string)                   (* 1162 *)
| WrongFileName (x : string)                        (* 1172 *)
| Redefinition (x : string)                         (* 1181 *)
| DependencyCycle (x : string)                      (* 1220 *)
| WhenIncluding (x : string)                        (* 1228 *)
| DuplicateSpecification (f : path)                 (* 1247 *)
| PreviousSpecification (f : path)                  (* 1253 *)
| ReservedWord (x : string).                        (* 243 *)

(** SpecificationNode, 1188-1192 *)
Definition node : Type := path * spec * list string.
(** Parser.__specifications, 1198, an OrderedDict *)
Definition specs := list (string * node).
Fixpoint get (d : specs) (k : string) : option node :=
  match d with [] => None | (k', v) :: r => if String.eqb k' k then Some v else get r k end.
(** assignment to an OrderedDict: an existing key keeps its place, 1261 *)
Fixpoint set (d : specs) (k : string) (v : node) : specs :=
  match d with
  | [] => [(k, v)]
  | (k', w) :: r => if String.eqb k' k then (k', v) :: r else (k', w) :: set r k v
  end.
(** keys of a dict *)
Definition names (d : specs) : list string := map fst d.

(** the course of a function that returns errors or raises one RecordFluxError, with what it
    leaves in __specifications; [Fuel] is the end of the fuel *)
Inductive run (A : Type) :=
| Done (errors : list message) (a : A)
| Raised (error : message) (left : specs)
| Fuel.
Arguments Done {A}. Arguments Raised {A}. Arguments Fuel {A}.

(** create_id, 239-248: whether it raises *)
Definition is_reserved (x : string) : bool := existsb (String.eqb (lower x)) reserved_words.
(** the loop over the declarations, 1178-1185; [inr] is an exception.  is_builtin_type,
    type_.py:608-611, for one part *)
Fixpoint check_types (ts : list string) : list message + message :=
  match ts with
  | [] => inl []
  | t :: r =>
    if is_reserved t then inr (ReservedWord t)
    else match check_types r with
         | inl l => inl ((if String.eqb (lower t) "boolean" then [Redefinition t] else []) ++ l)
         | inr e => inr e
         end
  end.
(** check_naming, 1145-1185 (the files are not STDIN, 1167) *)
Definition check_naming (s : spec) (f : path) : list message + message :=
  match check_types (s_types s) with
  | inr e => inr e
  | inl l =>
    inl ((if String.prefix "RFLX" (s_package s) then [IllegalPrefix (s_package s)] else [])
         ++ (if String.eqb (s_package s) (s_end s) then []
             else [InconsistentEnd (s_end s); PreviousIdentifier (s_package s)])
         ++ (if String.eqb (file_name_of f) (rflx (s_package s)) then [] else [WrongFileName (s_package s)])
         ++ l)
  end.

Section Load.
  Context (fs : files).

  (** the loop over the context clause in __convert_unit, 1216-1240; [rec] is
      __parse_specfile.  IDs are compared without regard to case, identifier.py:35-40 *)
  Fixpoint load_items (rec : path -> list string -> specs -> run specs) (f : path) (transitions items : list string)
      (errors : list message) (withed : list string) (sp : specs) : run (list string * specs) :=
    match items with
    | [] => Done errors (withed, sp)
    | item :: rest =>
      if is_reserved item then Raised (ReservedWord item) sp
      else if existsb (fun t => String.eqb (lower t) (lower item)) transitions then
        load_items rec f transitions rest
          (errors ++ DependencyCycle (hd "" transitions) :: map WhenIncluding (tl transitions ++ [item])) withed sp
      else if existsb (String.eqb (rflx item)) (names sp) then
        load_items rec f transitions rest errors (withed ++ [rflx item]) sp
      else match rec (beside f (rflx item)) (transitions ++ [item]) sp with
           | Done e sp' => load_items rec f transitions rest (errors ++ e) (withed ++ [rflx item]) sp'
           | Raised e sp' => Raised e sp'
           | Fuel => Fuel
           end
    end.
  (** duplicate specifications, 1242-1260 *)
  Definition check_duplicate (s : spec) (f : path) (sp : specs) : list message :=
    match get sp (rflx (s_package s)) with
    | Some (g, _, _) => if path_eq f g then [] else [DuplicateSpecification f; PreviousSpecification g]
    | None => []
    end.
  (** __parse_specfile, 1265-1273, and __convert_unit, 1206-1263; the fuel bounds the nesting *)
  Fixpoint load_file (n : nat) (f : path) (transitions : list string) (sp : specs) : run specs :=
    match n with
    | O => Fuel
    | S k =>
      match content_of fs f with
      | Broken d ds => Done (map Diagnostic (d :: ds)) sp
      | Parsed s =>
        match check_naming s f with
        | inr e => Raised e sp
        | inl errors =>
          match load_items (load_file k) f transitions (s_withs s) errors [] sp with
          | Done errors (withed, sp') =>
            Done (errors ++ check_duplicate s f sp') (set sp' (rflx (s_package s)) (f, s, withed))
          | Raised e sp' => Raised e sp'
          | Fuel => Fuel
          end
        end
      end
    end.
  (** the loop of Parser.parse, 1301-1304 *)
  Fixpoint load_files (n : nat) (l : list path) (errors : list message) (sp : specs) : run specs :=
    match l with
    | [] => Done errors sp
    | f :: r =>
      match load_file n f [] sp with
      | Done e sp' => load_files n r (errors ++ e) sp'
      | Raised e sp' => Raised e sp'
      | Fuel => Fuel
      end
    end.
End Load.

(** what __sort_specs_topologically, 1275-1298, looks at: the keys and the withed files *)
Definition withs_of (sp : specs) : dict := map (fun e => (fst e, snd (snd e))) sp.
(** __sort_specs_topologically, 1298: the specifications in the order of [sort_specs] (SpecSort.v) *)
Definition sorted (sp : specs) (m : nat) : res specs :=
  bind (sort_specs (withs_of sp) m) (fun order =>
    Ok (flat_map (fun k => match get sp k with Some v => [(k, v)] | None => [] end) order)).
(** Parser.parse, 1300-1306: the specifications it leaves and, if it raises, the entries of the
    error *)
Definition parse (fs : files) (n m : nat) (l : list path) : res (list message * specs) :=
  match load_files fs n l [] [] with
  | Done errors sp => bind (sorted sp m) (fun sp' => Ok (errors, sp'))
  | Raised e sp => Ok ([e], sp)
  | Fuel => Err Expr.out_of_fuel
  end.
