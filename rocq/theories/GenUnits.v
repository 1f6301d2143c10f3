(** Model of the units that the SPARK code generator writes (generator/generator.py, class
    Generator): which library units are created, their context clauses, their generic formal
    parts and instantiations, and the files.  The declarations inside the units are left out
    (C37 to C39 and C48 to C50), likewise use clauses, pragmas and aspects, which name no unit
    that is not in a with clause.  Identifiers of the Ada model are lists of parts as in
    Ident.v (ada.py:15-38 changes the separator only). *)
From Coq Require Import String Ascii List Bool Arith.
From Verif Require Import Base Ident.
Import ListNotations.
Local Open Scope string_scope.
Local Open Scope list_scope.
Local Open Scope nat_scope.
Local Open Scope res_scope.

(** const.py:3-4 *)
Definition BUILTINS : ident := ["__BUILTINS__"].
Definition INTERNAL : ident := ["__INTERNAL__"].
(** generator/const.py:4-12 *)
Definition REFINEMENT_PACKAGE : string := "Contains".
Definition ARITHMETIC : ident := ["RFLX_Arithmetic"].
Definition BUILTIN_TYPES_CONVERSIONS : ident := ["RFLX_Builtin_Types"; "Conversions"].
Definition BUILTIN_TYPES : ident := ["RFLX_Builtin_Types"].
Definition GENERIC_TYPES : ident := ["RFLX_Generic_Types"].
Definition MESSAGE_SEQUENCE : ident := ["RFLX_Message_Sequence"].
Definition SCALAR_SEQUENCE : ident := ["RFLX_Scalar_Sequence"].
Definition TYPES : ident := ["RFLX_Types"].

(** *** the types of the model as far as they matter *)

(** the type of a field: isinstance Scalar, Array (with isinstance (element_type, Message)), or
    another type, which is Opaque *)
Inductive ftype := FScalar (i : ident) | FArray (i : ident) (of_message : bool) | FOpaque (i : ident).
(** Type.identifier, type_.py:29 *)
Definition f_id (t : ftype) : ident := match t with FScalar i | FArray i _ | FOpaque i => i end.
(** a Message, or a DerivedMessage with the identifier of its base (message.py:1280-1303);
    [m_types] are the values of the attribute types, there is one for each field (C22) *)
Record message := mkMsg { m_id : ident; m_base : option ident; m_types : list ftype }.
(** Model.types, model.py:30-32; the variables of a refinement are the identifiers in
    condition.variables () *)
Inductive gtype :=
| GScalar (i : ident)
| GArray (i : ident) (of_message : bool) (element : ident)
| GOpaque
| GMessage (m : message)
| GRefinement (p : ident) (pdu sdu : message) (variables : list ident).

(** ID.parent, identifier.py:98-99; Type.package, type_.py:40-42 *)
Definition parent (i : ident) : ident := removelast i.
(** Type.package; the identifier of a refinement is package * "__REFINEMENT__...",
    message.py:1564-1569 *)
Definition package_of (t : gtype) : ident :=
  match t with
  | GScalar i | GArray i _ _ => parent i
  | GOpaque => INTERNAL
  | GMessage m => parent (m_id m)
  | GRefinement p _ _ _ => p
  end.
(** ID.name, identifier.py:95-96 *)
Definition name_of (i : ident) : string := last i "".
(** generic_name, generator.py:3011-3012 *)
Definition generic_name (i : ident) : ident := removelast i ++ [("Generic_" ++ last i "")%string].
(** flat_name (str (i)), common.py:67-68, for parts without dots and colons (identifier.py:30-32) *)
Definition flat_name (i : ident) : string := String.concat "_" i.
(** file_name (str (i)), common.py:71-72, for parts without dots and colons *)
Definition file_name (i : ident) : string := String.concat "-" (map lower i).

(** *** the units of the Ada model *)

(** FormalPackageDeclaration, ada.py:938-951 *)
Record formal := mkFormal { f_identifier : string; f_generic : ident; f_associations : list string }.
(** PackageUnit, ada.py:1644-1680, with the identifier and the formal parameters of its
    declaration and the with clauses of its context; InstantiationUnit, ada.py:1683-1703, with
    GenericPackageInstantiation, 1000-1012 *)
Inductive unit :=
| Package (i : ident) (withs : list ident) (formals : option (list formal))
| Instance (i : ident) (withs : list ident) (generic : ident) (associations : list ident).
(** declaration.identifier, ada.py:1678-1680 and 1701-1703 *)
Definition unit_id (u : unit) : ident := match u with Package i _ _ | Instance i _ _ _ => i end.
(** the names in the with clauses of the context items, ada.py:1648, 1685 *)
Definition unit_withs (u : unit) : list ident := match u with Package _ w _ | Instance _ w _ _ => w end.

(** Base.__eq__, common.py:7-18, for FormalPackageDeclaration *)
Definition formal_eq (a b : formal) : bool :=
  String.eqb (lower (f_identifier a)) (lower (f_identifier b)) && id_eq (f_generic a) (f_generic b)
  && (if list_eq_dec string_dec (f_associations a) (f_associations b) then true else false).
(** the elements that are equal neither to [seen] nor to an earlier element: the loop of unique,
    common.py:78-83 *)
Fixpoint dedup {A} (eq : A -> A -> bool) (seen l : list A) : list A :=
  match l with
  | [] => []
  | x :: r => if existsb (eq x) seen then dedup eq seen r else x :: dedup eq (seen ++ [x]) r
  end.
(** generic_formal_part, ada.py:1720-1725: the parameters that are written *)
Definition formal_part (l : list formal) : list formal := dedup formal_eq [] l.

(** Generator._units, generator.py:149: a dict, equal keys are equal IDs *)
Definition units := list (ident * unit).
Fixpoint lookup (k : ident) (d : units) : option unit :=
  match d with [] => None | (k', u) :: r => if id_eq k k' then Some u else lookup k r end.
Fixpoint put (k : ident) (u : unit) (d : units) : units :=
  match d with
  | [] => [(k, u)]
  | (k', u') :: r => if id_eq k k' then (k', u) :: r else (k', u') :: put k u r
  end.

Section Generator.
  (** Generator.__prefix, generator.py:144: no parts for the empty prefix *)
  Context (prefix : ident).

  (** self.__prefix * i: ID.__rmul__, identifier.py:72-77 *)
  Definition pre (i : ident) : ident := prefix ++ i.

  (** __create_unit, generator.py:236-261 *)
  Definition create_unit (k : ident) (withs : list ident) (formals : option (list formal)) (d : units) : units :=
    put k (Package (pre k) withs formals) d.

  (** generator.py:293-295, 2312-2314 *)
  Definition types_formal : formal := mkFormal "Types" (pre GENERIC_TYPES) [].
  (** the context items and the parameter of the type of a field, generator.py:298-324 *)
  Definition field_withs (m : message) (t : ftype) : list ident :=
    if id_eq (parent (f_id t)) BUILTINS || id_eq (parent (f_id t)) INTERNAL then []
    else match t with
         | FScalar i => if id_eq (parent i) (parent (m_id m)) then [] else [pre (parent i)]
         | FArray _ of_message => [pre (if of_message then MESSAGE_SEQUENCE else SCALAR_SEQUENCE)]
         | FOpaque _ => []
         end.
  (** the formal parameters, generator.py:306-324 *)
  Definition field_formals (t : ftype) : list formal :=
    if id_eq (parent (f_id t)) BUILTINS || id_eq (parent (f_id t)) INTERNAL then []
    else match t with
         | FArray i of_message =>
           [mkFormal (name_of i ++ "_Sequence") (pre (if of_message then MESSAGE_SEQUENCE else SCALAR_SEQUENCE))
              ["Types"; "others => <>"]]
         | _ => []
         end.
  (** __create_generic_message_unit, generator.py:278-324 *)
  Definition create_generic_message_unit (m : message) (d : units) : units :=
    create_unit (generic_name (m_id m))
      ((if existsb (fun t => id_eq (parent (f_id t)) BUILTINS) (m_types m)
        then [pre BUILTIN_TYPES; pre BUILTIN_TYPES_CONVERSIONS] else [])
       ++ [pre GENERIC_TYPES] ++ flat_map (field_withs m) (m_types m))
      (Some (types_formal :: flat_map field_formals (m_types m))) d.

  (** generator.py:2278-2282: the generic package of a message *)
  Definition generic_of (m : message) : ident :=
    match m_base m with Some b => generic_name (pre b) | None => generic_name (pre (m_id m)) end.
  (** the dict arrays, generator.py:2290-2294 *)
  Definition array_ids (m : message) : list ident :=
    dedup id_eq [] (flat_map (fun t => match t with FArray i _ => [pre i] | _ => [] end) (m_types m)).
  (** __create_message_unit, generator.py:2277-2302 *)
  Definition create_message_unit (m : message) (d : units) : units :=
    put (m_id m)
      (Instance (pre (m_id m)) ([generic_of m; pre TYPES] ++ array_ids m) (generic_of m) ([pre TYPES] ++ array_ids m)) d.
  (** __create_message and __create_derived_message, generator.py:225-234, 212-215 *)
  Definition create_message (m : message) (d : units) : units :=
    match m_base m, m_types m with
    | Some _, _ => create_message_unit m d
    | None, [] => d
    | None, _ => create_message_unit m (create_generic_message_unit m d)
    end.

  (** the parameter for a pdu or sdu, generator.py:2358-2388 *)
  Definition message_formal (m : message) : formal :=
    mkFormal (flat_name (m_id m)) (generic_of m) ["Types"; "others => <>"].
  (** the context items of a refinement, generator.py:2321-2328, 2337-2356, 2371-2373 *)
  Definition refinement_withs (p : ident) (pdu sdu : message) (variables : list ident) : list ident :=
    flat_map (fun v => if (List.length v =? 2) && negb (id_eq (parent v) p) then [pre (parent v)] else []) variables
    ++ (if id_eq (parent (m_id pdu)) p then []
        else [pre (parent (match m_base pdu with Some b => b | None => m_id pdu end))])
    ++ [generic_of pdu]
    ++ match m_types sdu with [] => [] | _ => [generic_of sdu] end.
  (** the messages that become parameters: the sdu unless it is null, generator.py:2330, 2371 *)
  Definition parameters (pdu sdu : message) : list message :=
    pdu :: match m_types sdu with [] => [] | _ => [sdu] end.

  (** __create_generic_refinement_unit, generator.py:2304-2392 *)
  Definition create_generic_refinement_unit (p : ident) (pdu sdu : message) (variables : list ident) (d : units) : res units :=
    let unit_name := generic_name (p ++ [REFINEMENT_PACKAGE]) in
    let d := match lookup unit_name d with
             | Some _ => d
             | None => create_unit unit_name [pre GENERIC_TYPES] (Some [types_formal]) d
             end in
    match lookup unit_name d with
    | Some (Package i withs (Some formals)) =>
      Ok (put unit_name (Package i (withs ++ refinement_withs p pdu sdu variables)
                           (Some (formals ++ map message_formal (parameters pdu sdu)))) d)
    | Some (Package _ _ None) => Err "AssertionError: missing formal parameters"
    | _ => Err "AssertionError: unexpected unit type"
    end.

  (** the identifiers that are not yet among the associations, generator.py:2415-2424 *)
  Definition add_new (associations l : list ident) : list ident :=
    fold_left (fun a i => if existsb (id_eq i) a then a else a ++ [i]) l associations.
  (** __create_refinement_unit, generator.py:2394-2424 *)
  Definition create_refinement_unit (p : ident) (pdu sdu : message) (d : units) : res units :=
    let unit_name := p ++ [REFINEMENT_PACKAGE] in
    let generic_unit_name := generic_name (pre (p ++ [REFINEMENT_PACKAGE])) in
    let d := match lookup unit_name d with
             | Some _ => d
             | None => put unit_name (Instance (pre unit_name) [pre TYPES; generic_unit_name] generic_unit_name [pre TYPES]) d
             end in
    match lookup unit_name d with
    | Some (Instance i withs generic associations) =>
      let associations' := add_new associations (map (fun m => pre (m_id m)) (parameters pdu sdu)) in
      Ok (put unit_name (Instance i (withs ++ skipn (List.length associations) associations') generic associations') d)
    | _ => Err "AssertionError: unexpected unit type"
    end.

  (** __create_array_unit, generator.py:2449-2503; the package of the element type has one part
      (type_.py:21-27) *)
  Definition array_unit (i : ident) (of_message : bool) (element : ident) : unit :=
    if of_message then
      Instance (pre i) [pre MESSAGE_SEQUENCE; pre element; pre TYPES] (pre MESSAGE_SEQUENCE)
        (pre TYPES :: map (fun s => pre element ++ [s])
           ["Context"; "Initialize"; "Take_Buffer"; "Has_Buffer"; "Message_Last"; "Initialized"; "Structural_Valid_Message"])
    else
      (* the base type is named by common.base_type_name unless the element type is modular; it
         is left out *)
      Instance (pre i) [pre SCALAR_SEQUENCE; pre (parent element); pre TYPES] (pre SCALAR_SEQUENCE)
        ([pre TYPES; pre element] ++ map (fun s => pre (parent element) ++ [s]) ["Valid"; "To_Actual"; "To_Base"]).

  (** the body of the loop in __generate, generator.py:193-223; the declarations of scalar types
      (__create_type, 2426-2443) are added to the unit of the package *)
  Definition generate_type (t : gtype) (d : units) : res units :=
    if id_eq (package_of t) BUILTINS || id_eq (package_of t) INTERNAL then Ok d
    else
      let d := match lookup (package_of t) d with
               | Some _ => d
               | None => create_unit (package_of t) [] None d
               end in
      match t with
      | GScalar _ => match lookup (package_of t) d with
                     | Some (Package _ _ _) => Ok d
                     | _ => Err "TypeError: unsupported operand type(s) for +="
                     end
      | GArray i of_message element => Ok (put (pre i) (array_unit i of_message element) d)
      | GOpaque => Err "AssertionError: unexpected type"
      | GMessage m => Ok (create_message m d)
      | GRefinement p pdu sdu variables =>
        let* d := create_generic_refinement_unit p pdu sdu variables d in create_refinement_unit p pdu sdu d
      end.
  (** __generate, generator.py:192-223 *)
  Fixpoint generate (ts : list gtype) (d : units) : res units :=
    match ts with [] => Ok d | t :: r => let* d := generate_type t d in generate r d end.

  (** *** files *)

  (** write_units, generator.py:183-190: a body is written for a PackageUnit only, and only if it
      has declarations; here one is written for each PackageUnit *)
  Definition unit_files (u : unit) : list string :=
    (file_name (unit_id u) ++ ".ads")%string ::
    match u with Package i _ _ => [(file_name i ++ ".adb")%string] | Instance _ _ _ _ => [] end.
  (** the library units with the with clauses of rflx/templates (rflx_generic_types.ads:3,
      rflx_message_sequence.ads:2, rflx_scalar_sequence.ads:2, rflx_types.ads:3-4); rflx_types
      is an instance (line 6) *)
  Definition library : list unit :=
    [Package (pre ARITHMETIC) [] None;
     Package (pre BUILTIN_TYPES_CONVERSIONS) [] None;
     Package (pre BUILTIN_TYPES) [] None;
     Package (pre GENERIC_TYPES) [pre ARITHMETIC] (Some []);
     Package (pre MESSAGE_SEQUENCE) [pre GENERIC_TYPES] (Some [types_formal]);
     Package (pre SCALAR_SEQUENCE) [pre GENERIC_TYPES] (Some [types_formal]);
     Instance (pre TYPES) [pre GENERIC_TYPES; pre BUILTIN_TYPES] (pre GENERIC_TYPES)
       (map (fun s => BUILTIN_TYPES ++ [s]) ["Index"; "Byte"; "Bytes"; "Bytes_Ptr"; "Length"; "Bit_Length"])].
  (** write_library_files, generator.py:156-175, with LIBRARY_FILES, const.py:14-33 *)
  Definition library_files : list string :=
    map (fun i => file_name (pre i) ++ ".ads")%string
      [ARITHMETIC; BUILTIN_TYPES_CONVERSIONS; BUILTIN_TYPES; GENERIC_TYPES; MESSAGE_SEQUENCE; SCALAR_SEQUENCE; TYPES]
    ++ map (fun i => file_name (pre i) ++ ".adb")%string
      [ARITHMETIC; GENERIC_TYPES; MESSAGE_SEQUENCE; SCALAR_SEQUENCE].
  (** write_top_level_package, generator.py:177-181 *)
  Definition top_level_files : list string :=
    match prefix with [] => [] | _ => [(file_name prefix ++ ".ads")%string] end.
  (** DEFAULT_PREFIX, cli.py:19 *)
  Definition default_prefix : bool := if list_eq_dec string_dec prefix ["RFLX"] then true else false.
  (** the files that cli.generate writes, cli.py:113-120, without --no-library; the package of the
      prefix is only written for the default prefix *)
  Definition written (d : units) : list string :=
    flat_map (fun e => unit_files (snd e)) d ++ library_files ++ (if default_prefix then top_level_files else []).
End Generator.
