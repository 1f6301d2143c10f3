(** Model of the message values of rflx/pyrflx/typevalue.py (MessageValue, 500-1252)
    with verification (skip_verification = False) and without checksums.

    Fields are taken by their name in lower case (see MsgGraph.v).  The attributes
    "first" and "_expected_size" only ever hold numbers or nothing (UNDEFINED or
    None): they are [option Z].  Field.last (1225-1252) is first + size - 1 if both
    are numbers.  A method that raises after having changed the object returns the
    changed object together with the error. *)
From Coq Require Import String List ZArith Bool.
From Verif Require Import Base Expr Ident TypeSpec Bitstring PyValue MsgGraph.
Import ListNotations.
Local Open Scope string_scope.
Local Open Scope list_scope.
Local Open Scope Z_scope.
Local Open Scope res_scope.

(** the type of a field as seen by TypeValue.construct, 115-128; "imported" is
    computed in MessageValue.__init__, 521-524 (for the elements of an array in
    ArrayValue.parse, 471) *)
Inductive ftype :=
| FScalar (t : scalar) (imported : bool)
| FOpaque
| FScalars (t : scalar) (imported : bool)
| FMessages (element : string).

(** the message type: name, links, sorted fields and types *)
Record mtype := mkMtype {
  m_name : string;
  m_links : list link;
  m_fields : list field;
  m_types : field -> ftype
}.

(** RefinementValue, 1255-1261; [r_sdu] names the inner message *)
Record refinement := mkRef {
  r_pdu : string;
  r_field : field;
  r_sdu : string;
  r_condition : expr
}.

(** TypeValue objects of fields: ScalarValue, OpaqueValue with _expected_size,
    _refinement_message, _nested_message and _value, ArrayValue with _expected_size
    and _value.  The elements of an array of messages are kept as their bits. *)
Inductive tval :=
| VScalar (v : option sval)
| VOpaque (expected : option Z) (ref : option string) (nested : option (string * bits)) (v : option (list Z))
| VScalars (expected : option Z) (v : option (list (scalar * sval)))
| VMessages (expected : option Z) (v : option (list bits)).

(** MessageValue.Field, 1169-1252 *)
Record fstate := mkField { tv : tval; first : option Z }.

(** the attributes of MessageValue: _fields, _simplified_mapping, accessible_fields *)
Record mvalue := mkValue {
  fields : field -> fstate;
  mapping : name -> option expr;
  accessible : list field
}.

(** the values accepted by set, 766-771 *)
Inductive pyval :=
| PBits (b : bits)
| PBytes (l : list Z)
| PInt (z : Z)
| PStr (s : string)
| PScalars (l : list (scalar * sval))
| PMessages (l : list (string * bool * bits)).  (** type, valid_message, bitstring *)

Definition upd {A} (f : field -> A) (x : field) (v : A) : field -> A :=
  fun y => if String.eqb y x then v else f y.
Definition set_tv (st : mvalue) (f : field) (v : tval) : mvalue :=
  mkValue (upd (fields st) f (mkField v (first (fields st f)))) (mapping st) (accessible st).
Definition set_first (st : mvalue) (f : field) (p : option Z) : mvalue :=
  mkValue (upd (fields st) f (mkField (tv (fields st f)) p)) (mapping st) (accessible st).

(** TypeValue.construct, 115-128, and the constructors: arrays start as [] *)
Definition construct_tval (t : ftype) : tval :=
  match t with
  | FScalar _ _ => VScalar None
  | FOpaque => VOpaque None None None None
  | FScalars _ _ => VScalars None (Some [])
  | FMessages _ => VMessages None (Some [])
  end.

(** initialized, 72-73 *)
Definition initialized (v : tval) : bool :=
  match v with
  | VScalar (Some _) | VOpaque _ _ _ (Some _) | VScalars _ (Some _) | VMessages _ (Some _) => true
  | _ => false
  end.
(** clear, 79-80 *)
Definition clear (v : tval) : tval :=
  match v with
  | VScalar _ => VScalar None
  | VOpaque e r n _ => VOpaque e r n None
  | VScalars e _ => VScalars e None
  | VMessages e _ => VMessages e None
  end.
Definition is_opaque (v : tval) : bool := match v with VOpaque _ _ _ _ => true | _ => false end.
(** set_expected_size, 300-301 *)
Definition set_expected (v : tval) (z : Z) : tval :=
  match v with
  | VScalar v => VScalar v
  | VOpaque _ r n v => VOpaque (Some z) r n v
  | VScalars _ v => VScalars (Some z) v
  | VMessages _ v => VMessages (Some z) v
  end.
(** bitstring: IntegerValue 190-193, EnumValue 283-286, OpaqueValue 386-394,
    ArrayValue 491-495; a scalar of another class than its type does not occur *)
Definition tv_bits (t : ftype) (v : tval) : res bits :=
  match t, v with
  | FScalar t _, VScalar (Some s) => scalar_bitstring false t s
  | _, VOpaque _ _ _ v => opaque_bitstring v
  | _, VScalars _ (Some l) => array_bitstring l
  | _, VMessages _ (Some l) => Ok (join l)
  | _, _ => Err "not initialized"
  end.
(** size: ScalarValue 143-145, OpaqueValue 369-373, ArrayValue 483-487.  The elements
    of an array have bitstrings: assign computes them (316) before storing. *)
Definition tv_size (t : ftype) (v : tval) : option Z :=
  match t, v with
  | FScalar t _, _ => Some (type_size t)
  | _, VOpaque e _ _ None => e
  | _, VOpaque _ _ _ (Some l) => Some (Z.of_nat (List.length l) * 8)
  | _, VScalars e (None | Some []) => e
  | _, VScalars _ (Some l) =>
    match array_bitstring l with Ok b => Some (Z.of_nat (List.length b)) | Err _ => None end
  | _, VMessages e (None | Some []) => e
  | _, VMessages _ (Some l) => Some (Z.of_nat (List.length (join l)))
  | _, VScalar _ => None
  end.

Section Message.
  (** fuel of the simplifier and of the loops *)
  Variable n : nat.
  Variable mt : mtype.
  (** _refinements, 512 *)
  Variable refs : list refinement.
  (** parsing of a value by a new message value: the bits of the result, an error if it
      raises or "assert nested_msg.valid_message" (360, 460) fails.  [true] for
      _refinement_message.clone (), 349-360; [false] for TypeValue.construct
      (element_type), 446-460, which has no refinements. *)
  Variable inner : bool -> string -> bits -> res bits.

  Definition typ (f : field) : ftype := if String.eqb f INITIAL then FOpaque else m_types mt f.
  Definition incoming_ : field -> list link := incoming (m_links mt).
  Definition outgoing_ : field -> list link := outgoing (m_links mt).

  (** Field.last 1225-1252, Field.set 1237-1244 *)
  Definition size_of (st : mvalue) (f : field) : option Z := tv_size (typ f) (tv (fields st f)).
  Definition last (st : mvalue) (f : field) : option Z :=
    match first (fields st f), size_of st f with
    | Some p, Some z => Some (p + z - 1)
    | _, _ => None
    end.
  Definition is_set (st : mvalue) (f : field) : bool :=
    initialized (tv (fields st f))
    && match size_of st f with Some _ => true | None => false end
    && match first (fields st f) with Some _ => true | None => false end.

  (** __type_literals, 543-555: the literals of all enumeration fields; later ones
      override earlier ones *)
  Definition type_literals : list (ident * Z) :=
    flat_map (fun f => match m_types mt f with
                       | FScalar (Enum id lits _ _) imported => enum_literals id lits imported
                       | _ => []
                       end) (m_fields mt).
  Definition literal (x : string) : option Z :=
    match find (fun kv => String.eqb x (var (fst kv))) (rev type_literals) with
    | Some kv => Some (snd kv)
    | None => None
    end.
  (** subst, 1137-1144 *)
  Definition subst (m : name -> option expr) : name -> option expr := fun x =>
    match m x with
    | Some e => Some e
    | None => match x with
              | NVar v => match literal v with Some z => Some (ENum z) | None => None end
              | _ => None
              end
    end.
  (** __simplified, 1133-1146 *)
  Definition simplified (m : name -> option expr) (e : expr) : res expr :=
    match e with
    | ETrue | EFalse => Ok e
    | _ =>
      let* e1 := substituted (neg (simpv n)) (subst m) e in
      let* e2 := substituted (neg (simpv n)) (subst m) e1 in
      simpv n e2
    end.
  (** self.__simplified (e) == TRUE *)
  Definition holds (m : name -> option expr) (e : expr) : res bool :=
    let* r := simplified m e in Ok (expr_eqb r ETrue).
  (** self.__simplified (e), if it is a Number *)
  Definition number (m : name -> option expr) (e : expr) : res (option Z) :=
    let* r := simplified m e in Ok (match r with ENum z => Some z | _ => None end).

  (** _next_field, 607-619; the loop 616-619 *)
  Fixpoint first_holding (m : name -> option expr) (ls : list link) : res field :=
    match ls with
    | [] => Ok ""
    | l :: t =>
      let* b := holds m (condition l) in
      if b then Ok (target l) else first_holding m t
    end.
  Definition next_field (m : name -> option expr) (f : field) : res field :=
    if String.eqb f FINAL then Ok ""
    else if String.eqb f INITIAL
    then Ok (match outgoing_ INITIAL with l :: _ => target l | [] => FINAL end)
    else first_holding m (outgoing_ f).

  (** _prev_field, 621-637 *)
  Definition prev_field (st : mvalue) (f : field) : res field :=
    if String.eqb f INITIAL then Ok ""
    else
      let* ps := mapr (fun l => let* b := holds (mapping st) (condition l) in
                                Ok (if b then [source l] else [])) (incoming_ f) in
      match concat ps with
      | [g] => Ok g
      | l => Ok (match find (fun g => memf g (accessible st)) l with Some g => g | None => "" end)
      end.

  (** _get_size, 639-652 *)
  Fixpoint link_size (st : mvalue) (ls : list link) : res (option Z) :=
    match ls with
    | [] => Ok None
    | l :: t =>
      match is_set st (source l), lsize l with
      | true, Some e =>
        let* b := holds (mapping st) (condition l) in
        if b then number (mapping st) e else link_size st t
      | _, _ => link_size st t
      end
    end.
  Definition get_size (st : mvalue) (f : field) : res (option Z) :=
    match typ f with
    | FScalar t _ => Ok (Some (type_size t))
    | _ => link_size st (incoming_ f)
    end.

  (** _get_first, 654-673 *)
  Fixpoint link_first (st : mvalue) (ls : list link) (otherwise : res (option Z)) : res (option Z) :=
    match ls with
    | [] => otherwise
    | l :: t =>
      match lfirst l with
      | Some e =>
        let* b := holds (mapping st) (condition l) in
        if b then number (mapping st) e else link_first st t otherwise
      | None => link_first st t otherwise
      end
    end.
  Definition get_first (st : mvalue) (f : field) : res (option Z) :=
    link_first st (incoming_ f)
      (let* p := prev_field st f in
       if String.eqb p "" then Ok None
       else Ok (match first (fields st p), size_of st p with
                | Some x, Some z => Some (x + z)
                | _, _ => None
                end)).

  (** _is_valid_opaque_field, 1055-1073 *)
  Fixpoint valid_opaque (st : mvalue) (ls : list link) : res bool :=
    match ls with
    | [] => Ok false
    | l :: t =>
      match lsize l with
      | Some e =>
        if is_set st (source l) then
          let* b := holds (mapping st) (condition l) in
          if b then
            Ok (forallb (fun v => (memf (fst v) (INITIAL :: m_fields mt) && is_set st (fst v))
                                  || String.eqb (fst v) "message") (variables e))
          else valid_opaque st t
        else valid_opaque st t
      | None => valid_opaque st t
      end
    end.

  (** field_condition of the message type, message.py:282-287 *)
  Definition condition_of (f : field) : res expr := field_condition (m_links mt) n n f.

  (** the loop of _preset_fields, 849-879: the object and the list "fields"; an
      exception in the middle *)
  Fixpoint preset_loop (k : nat) (st : mvalue) (nxt : field) (acc : list field)
    : mvalue * res (list field) :=
    if String.eqb nxt "" || String.eqb nxt FINAL then (st, Ok acc)
    else
      match k with
      | O => (st, Err out_of_fuel)
      | S k' =>
        match get_first st nxt, get_size st nxt with
        | Ok None, Ok _ => (st, Ok acc)
        | Ok (Some p), Ok size =>
          let appended :=
            let* c := condition_of nxt in
            let* b := holds (mapping st) c in
            if b then
              if is_opaque (tv (fields st nxt)) then valid_opaque st (incoming_ nxt)
              else Ok (match size with Some _ => true | None => false end)
            else Ok false in
          match appended with
          | Err w => (st, Err w)
          | Ok b =>
            let acc' := if b then acc ++ [nxt] else acc in
            match size with
            | None => (st, Ok acc')
            | Some z =>
              let st1 := set_first st nxt (Some p) in
              let st2 := if is_opaque (tv (fields st1 nxt))
                         then set_tv st1 nxt (set_expected (tv (fields st1 nxt)) z) else st1 in
              if is_set st2 nxt && is_opaque (tv (fields st2 nxt)) then
                (set_tv (set_first st2 nxt None) nxt (clear (tv (fields st2 nxt))), Ok acc')
              else
                match next_field (mapping st2) nxt with
                | Err w => (st2, Err w)
                | Ok nxt' => preset_loop k' st2 nxt' acc'
                end
            end
          end
        | Err w, _ => (st, Err w)
        | _, Err w => (st, Err w)
        end
      end.
  (** accessible[: accessible.index (f) + 1], None if ValueError, 880-885 *)
  Fixpoint up_to (f : field) (l : list field) : option (list field) :=
    match l with
    | [] => None
    | x :: t => if String.eqb x f then Some [x]
                else match up_to f t with Some r => Some (x :: r) | None => None end
    end.
  Definition set_accessible (st : mvalue) (l : list field) : mvalue :=
    mkValue (fields st) (mapping st) l.
  (** _preset_fields, 849-885 *)
  Definition preset_fields (st : mvalue) (f : field) : mvalue * res unit :=
    match next_field (mapping st) f with
    | Err w => (st, Err w)
    | Ok nxt =>
      match preset_loop n st nxt [] with
      | (st', Err w) => (st', Err w)
      | (st', Ok l) =>
        (set_accessible st' (match up_to f (accessible st') with Some p => p ++ l | None => l end), Ok tt)
      end
    end.

  (** __init__, 501-574, for a new or cloned (579-598) object: the initial field is
      set to no bytes at position 0, then the first fields are preset *)
  Definition initial_mapping : name -> option expr := fun m =>
    match m with
    | NAttr (ASize | ALast | AFirst) x =>
      if String.eqb x INITIAL then Some (ENum 0)
      else match m with
           | NAttr AFirst _ => if String.eqb x "message" then Some (ENum 0) else None
           | _ => None
           end
    | _ => None
    end.
  Definition blank : mvalue :=
    mkValue (fun f => if String.eqb f INITIAL then mkField (VOpaque None None None (Some [])) (Some 0)
                      else mkField (construct_tval (m_types mt f)) None)
            initial_mapping [].
  Definition new : res mvalue :=
    match preset_fields blank INITIAL with (st, Ok _) => Ok st | (_, Err w) => Err w end.

  (** ScalarValue.expr: IntegerValue 180-183, EnumValue 275-278 *)
  Definition sval_expr (v : sval) : expr :=
    match v with SInt z => ENum z | SEnum s _ => EVar (lower s) end.
  Definition num_expr (o : option Z) : option expr :=
    match o with Some z => Some (ENum z) | None => None end.

  (** __update_simplified_mapping without argument, 1107-1131: the entries for the
      fields, 1119-1128 *)
  Definition field_mapping (st : mvalue) : name -> option expr := fun m =>
    let f := match m with NVar x | NAttr _ x => x end in
    if memf f (INITIAL :: m_fields mt) then
      match m with
      | NVar _ => match tv (fields st f) with
                  | VScalar (Some v) => if is_set st f then Some (sval_expr v) else None
                  | _ => None
                  end
      | NAttr ASize _ => match typ f with
                         | FScalar t _ => Some (ENum (type_size t))
                         | _ => if is_set st f then num_expr (size_of st f) else None
                         end
      | NAttr AFirst _ => num_expr (first (fields st f))
      | NAttr ALast _ => num_expr (last st f)
      | NAttr ALength _ => None
      end
    else match m with
         | NAttr AFirst _ => if String.eqb f "message" then Some (ENum 0) else None
         | _ => None
         end.
  (** the loop 1130-1140: the last bit of the message if there may be no further field *)
  Fixpoint message_last (k : nat) (st : mvalue) (m : name -> option expr) (nxt : field) : res (option Z) :=
    if String.eqb nxt "" then Ok None
    else
      match k with
      | O => Err out_of_fuel
      | S k' =>
        let* nxt' := next_field m nxt in
        if String.eqb nxt FINAL then Err "KeyError"
        else
          match last st nxt with
          | None => Ok None
          | Some z =>
            if String.eqb nxt' FINAL then Ok None
            else if negb (String.eqb nxt' "") then message_last k' st m nxt'
            else if existsb (fun l => String.eqb (target l) FINAL) (outgoing_ nxt) then Ok (Some z)
            else Ok None
          end
      end.
  Definition update_mapping (st : mvalue) : res mvalue :=
    let m := field_mapping st in
    let* nxt := next_field m INITIAL in
    let* z := message_last n st m nxt in
    Ok (mkValue (fields st)
          (match z with
           | None => m
           | Some z => fun x =>
             match x with
             | NAttr ALast y => if String.eqb y "message" then Some (ENum z) else m x
             | NAttr ASize y => if String.eqb y "message" then Some (ENum (z + 1)) else m x
             | _ => m x
             end
           end) (accessible st)).

  (** set_refinement of set, 772-781: the last matching refinement wins; an existing one
      is kept if none matches *)
  Fixpoint find_refinement (st : mvalue) (f : field) (rs : list refinement) (r : option string)
    : res (option string) :=
    match rs with
    | [] => Ok r
    | x :: t =>
      if String.eqb (r_pdu x) (m_name mt) && String.eqb (r_field x) f then
        let* b := holds (mapping st) (r_condition x) in
        find_refinement st f t (if b then Some (r_sdu x) else r)
      else find_refinement st f t r
    end.

  (** the loop of ArrayValue.parse for arrays of messages, 444-461: elements are
      appended to the old value; an empty nested message is read forever *)
  Fixpoint parse_messages (k : nat) (e : string) (b : bits) (acc : list bits) : res (list bits) :=
    match b with
    | [] => Ok acc
    | _ =>
      match k with
      | O => Err out_of_fuel
      | S k' => let* x := inner false e b in
                parse_messages k' e (skipn (List.length x) b) (acc ++ [x])
      end
    end.

  (** typeval.parse (Bitstring), 808-809: IntegerValue 175-178, EnumValue 250-268,
      OpaqueValue 345-364, ArrayValue 438-481 *)
  Definition tv_parse (t : ftype) (v : tval) (b : bits) : res tval :=
    match t, v with
    | FScalar t imported, _ => let* s := scalar_parse n t imported b true in Ok (VScalar (Some s))
    | _, VOpaque e r nested _ =>
      let* _ := check_size e (Z.of_nat (List.length b)) in
      match r with
      | None => Ok (VOpaque e r nested (Some (to_bytes b)))
      | Some sdu =>
        let* x := inner true sdu b in
        check Nat.eqb (Nat.modulo (List.length x) 8) 0 msg "AssertionError";
        Ok (VOpaque e r (Some (sdu, x)) (Some (to_bytes x)))
      end
    | FScalars t imported, VScalars e _ =>
      let* l := array_parse n e t imported b true in Ok (VScalars e (Some (map (fun s => (t, s)) l)))
    | FMessages el, VMessages e (Some old) =>
      let* _ := check_size e (Z.of_nat (List.length b)) in
      let* l := parse_messages (List.length b) el b old in Ok (VMessages e (Some l))
    | FMessages el, VMessages e None =>
      let* _ := check_size e (Z.of_nat (List.length b)) in
      match b with [] => Ok (VMessages e None) | _ => Err "AttributeError" end
    | _, _ => Err "TypeError"
    end.

  (** isinstance (value, accepted_type) and typeval.assign (value), 810-816:
      IntegerValue 161-173, EnumValue 219-248, OpaqueValue 342-364, ArrayValue 408-436 *)
  Definition tv_assign (t : ftype) (v : tval) (x : pyval) : res tval :=
    match t, v, x with
    | FScalar (Enum id lits size av) imported, _, PStr s =>
      let* r := enum_assign n id lits size av imported s true in Ok (VScalar (Some (SEnum (fst r) (snd r))))
    | FScalar (Enum _ _ _ _) _, _, _ => Err "cannot assign different types"
    | FScalar t _, _, PInt z => let* r := int_assign n t z true in Ok (VScalar (Some (SInt r)))
    | FOpaque, VOpaque e r nested _, PBytes l =>
      let* _ := check_size e (Z.of_nat (List.length l) * 8) in
      match r with
      | None => Ok (VOpaque e r nested (Some l))
      | Some sdu =>
        let* b := from_bytes l in
        let* x := inner true sdu b in
        check Nat.eqb (Nat.modulo (List.length x) 8) 0 msg "AssertionError";
        Ok (VOpaque e r (Some (sdu, x)) (Some (to_bytes x)))
      end
    | FScalars t _, VScalars e _, PScalars l =>
      let* l' := array_assign e t l true in Ok (VScalars e (Some l'))
    | FMessages el, VMessages e _, PMessages l =>
      let* _ := check_size e (Z.of_nat (List.length (join (map snd l)))) in
      if forallb (fun m => String.eqb (fst (fst m)) el && snd (fst m)) l
      then Ok (VMessages e (Some (map snd l))) else Err "cannot assign"
    | _, _, _ => Err "cannot assign different types"
    end.
  Definition tv_set (t : ftype) (v : tval) (x : pyval) : res tval :=
    match x with PBits b => tv_parse t v b | _ => tv_assign t v x end.

  (** all outgoing conditions are FALSE, check_outgoing_condition_satisfied 783-787 *)
  Fixpoint all_false (m : name -> option expr) (ls : list link) : res bool :=
    match ls with
    | [] => Ok true
    | l :: t => let* r := simplified m (condition l) in
                if expr_eqb r EFalse then all_false m t else Ok false
    end.

  Definition set_ref (v : tval) (r : option string) : tval :=
    match v with VOpaque e _ nested x => VOpaque e r nested x | _ => v end.
  Definition get_ref (v : tval) : option string :=
    match v with VOpaque _ r _ _ => r | _ => None end.

  (** set, 766-847, with checksum_calculation *)
  Definition set (st : mvalue) (f : field) (x : pyval) : mvalue * res unit :=
    if negb (memf f (accessible st)) then (st, Err "cannot access field")
    else
      match get_first st f, get_size st f with
      | Err w, _ => (st, Err w)
      | _, Err w => (st, Err w)
      | Ok None, _ => (st, Err "AssertionError")
      | Ok (Some p), Ok size =>
        let st1 := set_first st f (Some p) in
        let st2 := match size with
                   | Some z => set_tv st1 f (set_expected (tv (fields st1 f)) z)
                   | None => st1
                   end in
        match find_refinement st2 f (if is_opaque (tv (fields st2 f)) then refs else [])
                              (get_ref (tv (fields st2 f))) with
        | Err w => (st2, Err w)
        | Ok r =>
          let st3 := set_tv st2 f (set_ref (tv (fields st2 f)) r) in
          match tv_set (typ f) (tv (fields st3 f)) x with
          | Err w => (st3, Err w)
          | Ok v =>
            let st4 := set_tv st3 f v in
            match update_mapping st4 with
            | Err w => (st4, Err w)
            | Ok st5 =>
              match all_false (mapping st5) (outgoing_ f) with
              | Err w => (st5, Err w)
              | Ok true => (set_tv st5 f (clear v), Err "none of the field conditions have been met")
              | Ok false => preset_fields st5 f
              end
            end
          end
        end
      end.
  Definition try_set (st : mvalue) (f : field) (x : pyval) : res mvalue :=
    match set st f x with (st', Ok _) => Ok st' | (_, Err w) => Err w end.

  (** get_current_pos_in_bitstr, 691-704 *)
  Definition current_pos (st : mvalue) (f : field) (last_pos pos : Z) : res Z :=
    let* p := prev_field st f in
    if String.eqb p "" then Err "KeyError"
    else Ok (match first (fields st p), first (fields st f) with
             | Some x, Some y => if x =? y then last_pos else pos
             | _, _ => pos
             end).

  (** the loop of parse, 727-747.  A negative size never succeeds: the values of
      composite types are checked against it (303-324). *)
  Fixpoint parse_loop (k : nat) (st : mvalue) (b : bits) (f : field) (last_pos pos : Z) : res mvalue :=
    if String.eqb f FINAL then Ok st
    else if String.eqb f "" then Err "KeyError"
    else
      match k with
      | O => Err out_of_fuel
      | S k' =>
        let* size := get_size st f in
        match size, is_opaque (tv (fields st f)) with
        | None, true =>
          let* p := current_pos st f last_pos pos in
          let* q := get_first st f in
          match q with
          | None => Err "AssertionError"
          | Some q =>
            let* st' := try_set (set_first st f (Some q)) f (PBits (skipn (Z.to_nat p) b)) in
            let* f' := next_field (mapping st') f in
            parse_loop k' st' b f' p p
          end
        | None, false => Err "AssertionError"
        | Some z, _ =>
          let* p := current_pos st f last_pos pos in
          if z <? 0 then Err "invalid data size"
          else
            let* s := slice b (Z.to_nat p) (Some (Z.to_nat (p + z))) in
            let* st' := try_set st f (PBits s) in
            let* f' := next_field (mapping st') f in
            parse_loop k' st' b f' p (p + z)
        end
      end.
  (** parse, 684-747; bytes go through Bitstring.from_bytes *)
  Definition parse (st : mvalue) (b : bits) : res mvalue :=
    let* f := next_field (mapping st) INITIAL in parse_loop n st b f 0 0.

  (** bitstring, 1017-1031 *)
  Fixpoint bits_loop (k : nat) (st : mvalue) (f : field) (acc : bits) : res bits :=
    if String.eqb f "" || String.eqb f FINAL then Ok acc
    else
      match k with
      | O => Err out_of_fuel
      | S k' =>
        match is_set st f, first (fields st f) with
        | true, Some p =>
          if p <=? Z.of_nat (List.length acc) then
            let* b := tv_bits (typ f) (tv (fields st f)) in
            let* f' := next_field (mapping st) f in
            bits_loop k' st f' (firstn (Z.to_nat p) acc ++ b)
          else Ok acc
        | _, _ => Ok acc
        end
      end.
  Definition bitstring (st : mvalue) : res bits :=
    let* f := next_field (mapping st) INITIAL in bits_loop n st f [].

  (** any (self.__simplified (o.condition) == TRUE ...), 1083-1085 *)
  Fixpoint any_holds (m : name -> option expr) (ls : list link) : res bool :=
    match ls with
    | [] => Ok false
    | l :: t => let* b := holds m (condition l) in if b then Ok true else any_holds m t
    end.
  (** valid_fields, 1076-1088 *)
  Definition valid_field (st : mvalue) (f : field) : res bool :=
    if is_set st f then
      let* c := condition_of f in
      let* b := holds (mapping st) c in
      if b then any_holds (mapping st) (outgoing_ f) else Ok false
    else Ok false.
  Definition valid_fields (st : mvalue) : res (list field) :=
    let* l := mapr (fun f => let* b := valid_field st f in Ok (if b then [f] else [])) (accessible st) in
    Ok (concat l).
  (** required_fields, 1090-1094 *)
  Definition required_fields (st : mvalue) : res (list field) :=
    let* l := valid_fields st in Ok (filter (fun f => negb (memf f l)) (accessible st)).
  (** valid_message, 1096-1105, without checksums *)
  Definition valid_message (st : mvalue) : res bool :=
    let* l := valid_fields st in
    match rev l with
    | [] => Ok false
    | f :: _ => let* g := next_field (mapping st) f in Ok (String.eqb g FINAL)
    end.
  (** bytestring, 1045-1049, with _unchecked_bytestring, 1037-1043 *)
  Definition bytestring (st : mvalue) : res (list Z) :=
    let* v := valid_message st in
    if v then
      let* b := bitstring st in
      check Nat.eqb (Nat.modulo (List.length b) 8) 0 msg "AssertionError"; Ok (to_bytes b)
    else Err "cannot create bytestring of invalid message".
End Message.

(** Packages of PyRFLX, pyrflx.py:16-38 and package.py: message types and refinements by
    name.  [parse_message] parses a new object with all its nested ones; [depth] bounds
    the nesting. *)
Fixpoint parse_message (n : nat) (types : string -> option mtype) (refs : list refinement) (depth : nat)
    (refined : bool) (m : string) (b : bits) : res bits :=
  match depth with
  | O => Err out_of_fuel
  | S d =>
    match types m with
    | None => Err "KeyError"
    | Some mt =>
      let inner := parse_message n types refs d in
      let rs := if refined then filter (fun r => String.eqb (r_pdu r) m) refs else [] in
      let* st := new n mt in
      let* st := parse n mt rs inner st b in
      let* v := valid_message n mt st in
      check v msg "AssertionError"; bitstring n mt st
    end
  end.
