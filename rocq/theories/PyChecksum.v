(** Model of the checksums of message values, rflx/pyrflx/typevalue.py:532-538, 766-847,
    887-1006, 1096-1131 and 1148-1163, on top of PyMessage.v (with verification).

    F'Valid_Checksum is a variable with a special name, as in ChecksumDef.v.  The definitions
    of the checksums have the forms that Message.__verify_checksums accepts (message.py:767-863,
    ChecksumDef.v).  update_checksums (963-968), meant for objects without verification, is
    not modelled. *)
From Coq Require Import String List ZArith Bool.
From Verif Require Import Base Expr Ident TypeSpec Bitstring PyValue MsgGraph ChecksumDef PyMessage.
Import ListNotations.
Local Open Scope string_scope.
Local Open Scope list_scope.
Local Open Scope Z_scope.
Local Open Scope res_scope.

(** the arguments of a checksum function, 985-1005: a number, the two ends of a range or the
    value of a field that is not a number *)
Inductive argument :=
| AInt (z : Z)
| ARange (lower upper : Z)
| ABytes (l : list Z)
| AScalars (l : list (scalar * sval))
| AMessages (l : list bits).
(** checksum.function: the bytes of the message and the arguments by the text of the
    parameters, 1006 *)
Definition cfunction := list Z -> list (parameter * argument) -> pyval.

(** MessageValue.Checksum, 1148-1163; the evaluated expressions are set by
    _is_checksum_settable before each use *)
Record checksum := mkChecksum {
  c_field : field;
  c_params : list parameter;
  c_function : option cfunction;
  c_calculated : bool
}.
(** the attributes of MessageValue with _checksums *)
Record cvalue := mkC { base : mvalue; sums : list checksum }.

(** the values that typeval.value gives for a parameter, 997-1002 *)
Definition argument_value (v : tval) : res argument :=
  match v with
  | VOpaque _ _ _ (Some l) => Ok (ABytes l)
  | VScalars _ (Some l) => Ok (AScalars l)
  | VMessages _ (Some l) => Ok (AMessages l)
  | VScalar (Some (SInt z)) => Ok (AInt z)
  | _ => Err "AssertionError"
  end.
(** the value that get gives for a checksum field, 1008-1014: None for nested messages and
    arrays, which are equal to no result of a function *)
Definition got (v : tval) : res (option pyval) :=
  match v with
  | VScalar (Some (SInt z)) => Ok (Some (PInt z))
  | VScalar (Some (SEnum s _)) => Ok (Some (PStr s))
  | VOpaque _ _ (Some _) _ => Ok None
  | VOpaque _ _ None (Some l) => Ok (Some (PBytes l))
  | VScalars _ (Some _) | VMessages _ (Some _) => Ok None
  | _ => Err "not initialized"
  end.
Fixpoint zlist_eqb (a b : list Z) : bool :=
  match a, b with
  | [], [] => true
  | x :: s, y :: t => (x =? y) && zlist_eqb s t
  | _, _ => false
  end.
(** the comparison of 1101 *)
Definition same_value (x : pyval) (y : option pyval) : bool :=
  match x, y with
  | PInt a, Some (PInt b) => a =? b
  | PStr a, Some (PStr b) => String.eqb a b
  | PBytes a, Some (PBytes b) => zlist_eqb a b
  | _, _ => false
  end.

Section Checksums.
  (** as in PyMessage.v *)
  Variable n : nat.
  Variable mt : mtype.
  Variable refs : list refinement.
  Variable inner : bool -> string -> bits -> res bits.

  Section Names.
    (** the names in _checksums *)
    Variable names : list field.

    (** the last line of __update_simplified_mapping, 1131 *)
    Definition update_mapping_c (st : mvalue) : res mvalue :=
      let* st' := update_mapping n mt st in
      Ok (mkValue (fields st')
            (fun x => match x with
                      | NVar v => match checksum_name v with
                                  | Some f => if memf f names then Some ETrue else mapping st' x
                                  | None => mapping st' x
                                  end
                      | _ => mapping st' x
                      end) (accessible st')).

    (** set, 766-840, up to the check of the outgoing conditions *)
    Definition set_core (st : mvalue) (f : field) (x : pyval) : mvalue * res unit :=
      if negb (memf f (accessible st)) then (st, Err "cannot access field")
      else
        match get_first n mt st f, get_size n mt st f with
        | Err w, _ => (st, Err w)
        | _, Err w => (st, Err w)
        | Ok None, _ => (st, Err "AssertionError")
        | Ok (Some p), Ok size =>
          let st1 := set_first st f (Some p) in
          let st2 := match size with
                     | Some z => set_tv st1 f (set_expected (tv (fields st1 f)) z)
                     | None => st1
                     end in
          match find_refinement n mt st2 f (if is_opaque (tv (fields st2 f)) then refs else [])
                                (get_ref (tv (fields st2 f))) with
          | Err w => (st2, Err w)
          | Ok r =>
            let st3 := set_tv st2 f (set_ref (tv (fields st2 f)) r) in
            match tv_set n inner (typ mt f) (tv (fields st3 f)) x with
            | Err w => (st3, Err w)
            | Ok v =>
              let st4 := set_tv st3 f v in
              match update_mapping_c st4 with
              | Err w => (st4, Err w)
              | Ok st5 =>
                match all_false n mt (mapping st5) (outgoing_ mt f) with
                | Err w => (st5, Err w)
                | Ok true => (set_tv st5 f (clear v), Err "none of the field conditions have been met")
                | Ok false => (st5, Ok tt)
                end
              end
            end
          end
        end.

    (** the prefix of an end of a range, 911-924 *)
    Definition prefix_of (e : expr) : res string :=
      match e with
      | EName (NAttr (AFirst | ALast) x) _ => Ok x
      | EBin OSub (EName (NAttr (AFirst | ALast) x) _) _ => Ok x
      | EAss OAdd [EName (NAttr (AFirst | ALast) x) _; ENum _] => Ok x
      | _ => Err "AssertionError"
      end.
    (** the first bit of the message is that of its first field, 903-907 *)
    Definition lower_field (m : name -> option expr) (e : expr) : res string :=
      match e with
      | EName (NAttr AFirst x) false =>
        if String.eqb x "message" then
          let* f := next_field n mt m INITIAL in
          if memf f (m_fields mt) then Ok f else Err "KeyError"
        else Ok x
      | _ => prefix_of e
      end.
    (** the loop 931-938: the fields after [f] up to [up] are set or checksums *)
    Fixpoint path_set (k : nat) (st : mvalue) (f up : field) : res bool :=
      if String.eqb f up then Ok true
      else
        match k with
        | O => Err out_of_fuel
        | S k' =>
          let* g := next_field n mt (mapping st) f in
          if String.eqb g FINAL || memf g names then path_set k' st g up
          else if String.eqb g "" || negb (is_set mt st g) then Ok false
          else path_set k' st g up
        end.
    (** valid_path, 902-940 *)
    Definition valid_path (st : mvalue) (lower upper : expr) : res bool :=
      let* f := lower_field (mapping st) lower in
      let* u := prefix_of upper in
      path_set n st f (if String.eqb u "message" then FINAL else u).

    (** evaluated_expression, 943 *)
    Definition evaluate (st : mvalue) (p : parameter) : res parameter :=
      match p with
      | Plain e => let* e' := simplified n mt (mapping st) e in Ok (Plain e')
      | ValueRange l u =>
        let* l' := simplified n mt (mapping st) l in
        let* u' := simplified n mt (mapping st) u in Ok (ValueRange l' u')
      end.
    (** the tests of 944-960 *)
    Definition available (st : mvalue) (p e : parameter) : res bool :=
      match p, e with
      | ValueRange l u, ValueRange l' u' => if is_num l' && is_num u' then valid_path st l u else Ok false
      | Plain _, Plain (EName (NVar x | NAttr _ x) _) =>
        if memf x (INITIAL :: m_fields mt) then Ok (is_set mt st x) else Err "KeyError"
      | _, _ => Ok true
      end.
    (** _is_checksum_settable, 900-961: the parameters with their evaluated expressions *)
    Fixpoint settable (st : mvalue) (ps : list parameter) : res (option (list (parameter * parameter))) :=
      match ps with
      | [] => Ok (Some [])
      | p :: t =>
        let* e := evaluate st p in
        let* b := available st p e in
        if b then let* r := settable st t in
                  Ok (match r with Some l => Some ((p, e) :: l) | None => None end)
        else Ok None
      end.

    (** one argument of the function, 985-1005 *)
    Definition argument_of (st : mvalue) (pe : parameter * parameter) : res (parameter * argument) :=
      match snd pe with
      | ValueRange (ENum a) (ENum b) => Ok (fst pe, ARange a b)
      | ValueRange _ _ => Err "AssertionError"
      | Plain (EName (NVar x) _) =>
        check memf x (m_fields mt) && is_set mt st x msg "AssertionError";
        let* a := argument_value (tv (fields st x)) in Ok (fst pe, a)
      | Plain (ENum z) => Ok (fst pe, AInt z)
      | Plain _ => Err "AssertionError"
      end.
    (** _unchecked_bytestring, 1037-1043 *)
    Definition unchecked_bytestring (st : mvalue) : res (list Z) :=
      let* b := bitstring n mt st in
      check Nat.eqb (Nat.modulo (List.length b) 8) 0 msg "AssertionError"; Ok (to_bytes b).
    (** _calculate_checksum, 976-1006 *)
    Definition calculate (st : mvalue) (c : checksum) (l : list (parameter * parameter)) : res pyval :=
      match c_function c with
      | None => Err "no callable checksum function provided"
      | Some fn =>
        let* args := mapr (argument_of st) l in
        let* b := unchecked_bytestring st in
        Ok (fn b args)
      end.

    (** typeval.assign (0), 971; other types than integers raise *)
    Definition assign_zero (f : field) : res tval :=
      match typ mt f with
      | FScalar (Enum _ _ _ _) _ => Err "PyRFLXError"
      | FScalar t _ => let* r := int_assign n t 0 true in Ok (VScalar (Some (SInt r)))
      | _ => Err "TypeError"
      end.
    (** _set_checksum, 970-974 *)
    Definition set_checksum (st : mvalue) (c : checksum) (l : list (parameter * parameter)) : mvalue * checksum * res unit :=
      match assign_zero (c_field c) with
      | Err w => (st, c, Err w)
      | Ok v =>
        let st1 := set_tv st (c_field c) v in
        let c' := mkChecksum (c_field c) (c_params c) (c_function c) true in
        match calculate st1 c' l with
        | Err w => (st1, c', Err w)
        | Ok x => let (st2, r) := set_core st1 (c_field c) x in (st2, c', r)
        end
      end.
    (** the loop over the checksums, 843-847 *)
    Fixpoint checksum_loop (st : mvalue) (todo : list checksum) : mvalue * list checksum * res unit :=
      match todo with
      | [] => (st, [], Ok tt)
      | c :: t =>
        let next st' c' := let '(st2, t', r) := checksum_loop st' t in (st2, c' :: t', r) in
        if negb (is_set mt st (c_field c)) || c_calculated c then
          match settable st (c_params c) with
          | Err w => (st, c :: t, Err w)
          | Ok None => next st c
          | Ok (Some l) =>
            match set_checksum st c l with
            | (st', c', Err w) => (st', c' :: t, Err w)
            | (st', c', Ok _) => next st' c'
            end
          end
        else next st c
      end.
  End Names.

  Definition names_of (c : cvalue) : list field := map c_field (sums c).

  (** __init__, 501-574, and clone, 575-598: the checksums of a clone are the objects of the
      original, [prototype] *)
  Definition new_c (prototype : list checksum) : res cvalue :=
    let* st := new n mt in Ok (mkC st prototype).
  (** the checksums of a new object, 532-538 *)
  Definition new_checksums (defs : list (field * list parameter)) : list checksum :=
    map (fun d => mkChecksum (fst d) (snd d) None false) defs.

  (** set, 766-847 *)
  Definition set_c (c : cvalue) (f : field) (x : pyval) : cvalue * res unit :=
    match set_core (names_of c) (base c) f x with
    | (st, Err w) => (mkC st (sums c), Err w)
    | (st, Ok _) =>
      match preset_fields n mt st f with
      | (st', Err w) => (mkC st' (sums c), Err w)
      | (st', Ok _) => let '(st2, cs, r) := checksum_loop (names_of c) st' (sums c) in (mkC st2 cs, r)
      end
    end.
  Definition try_set_c (c : cvalue) (f : field) (x : pyval) : res cvalue :=
    match set_c c f x with (c', Ok _) => Ok c' | (_, Err w) => Err w end.

  (** parse, 684-747, as in PyMessage.v with this set *)
  Fixpoint parse_loop_c (k : nat) (c : cvalue) (b : bits) (f : field) (last_pos pos : Z) : res cvalue :=
    if String.eqb f FINAL then Ok c
    else if String.eqb f "" then Err "KeyError"
    else
      match k with
      | O => Err out_of_fuel
      | S k' =>
        let* size := get_size n mt (base c) f in
        match size, is_opaque (tv (fields (base c) f)) with
        | None, true =>
          let* p := current_pos n mt (base c) f last_pos pos in
          let* q := get_first n mt (base c) f in
          match q with
          | None => Err "AssertionError"
          | Some q =>
            let* c' := try_set_c (mkC (set_first (base c) f (Some q)) (sums c)) f (PBits (skipn (Z.to_nat p) b)) in
            let* f' := next_field n mt (mapping (base c')) f in
            parse_loop_c k' c' b f' p p
          end
        | None, false => Err "AssertionError"
        | Some z, _ =>
          let* p := current_pos n mt (base c) f last_pos pos in
          if z <? 0 then Err "invalid data size"
          else
            let* s := slice b (Z.to_nat p) (Some (Z.to_nat (p + z))) in
            let* c' := try_set_c c f (PBits s) in
            let* f' := next_field n mt (mapping (base c')) f in
            parse_loop_c k' c' b f' p (p + z)
        end
      end.
  Definition parse_c (c : cvalue) (b : bits) : res cvalue :=
    let* f := next_field n mt (mapping (base c)) INITIAL in parse_loop_c n c b f 0 0.

  (** get of a checksum field, 1008-1014 *)
  Definition get_c (st : mvalue) (f : field) : res (option pyval) :=
    let* l := valid_fields n mt st in
    check memf f l msg "field not valid"; got (tv (fields st f)).
  (** the conjunct of valid_message for checksums, 1099-1104 *)
  Fixpoint checksums_valid (names : list field) (st : mvalue) (cs : list checksum) : res bool :=
    match cs with
    | [] => Ok true
    | c :: t =>
      let* s := settable names st (c_params c) in
      match s with
      | None => Ok false
      | Some l =>
        let* x := calculate st c l in
        let* y := get_c st (c_field c) in
        if same_value x y then checksums_valid names st t else Ok false
      end
    end.
  (** valid_message, 1096-1105 *)
  Definition valid_message_c (c : cvalue) : res bool :=
    let* v := valid_message n mt (base c) in
    if v then checksums_valid (names_of c) (base c) (sums c) else Ok false.
  (** bytestring, 1045-1049 *)
  Definition bytestring_c (c : cvalue) : res (list Z) :=
    let* v := valid_message_c c in
    if v then unchecked_bytestring (base c) else Err "cannot create bytestring of invalid message".

  (** set_checksum_function, 887-898: the loop over _checksums for one entry *)
  Fixpoint set_function (f : field) (fn : cfunction) (cs : list checksum) : list checksum * res unit :=
    match cs with
    | [] => ([], Ok tt)
    | c :: t =>
      if String.eqb (c_field c) f then
        let '(t', r) := set_function f fn t in (mkChecksum (c_field c) (c_params c) (Some fn) (c_calculated c) :: t', r)
      else (c :: t, Err "field has not been defined as a checksum field")
    end.
  Fixpoint set_checksum_function (c : cvalue) (fns : list (field * cfunction)) : cvalue * res unit :=
    match fns with
    | [] => (c, Ok tt)
    | (f, fn) :: t =>
      if negb (memf f (m_fields mt)) then (c, Err "field is not defined")
      else
        match set_function f fn (sums c) with
        | (cs, Err w) => (mkC (base c) cs, Err w)
        | (cs, Ok _) => set_checksum_function (mkC (base c) cs) t
        end
    end.
End Checksums.
