(** Model of the message values of rflx/pyrflx/typevalue.py (MessageValue, 500-1252) that
    skip verification (skip_verification = True), without checksums.

    Refinements are not looked up by _set_unchecked (749-764) and values are not parsed
    (685, 795), so that opaque values have neither.  Values of another class than the
    accepted one, which _set_unchecked takes without a check, are left out: they give
    "TypeError" here. *)
From Coq Require Import String List ZArith Bool.
From Verif Require Import Base Expr Ident TypeSpec Bitstring PyValue MsgGraph PyMessage.
Import ListNotations.
Local Open Scope string_scope.
Local Open Scope list_scope.
Local Open Scope Z_scope.
Local Open Scope res_scope.

(** The attributes of an object that skips verification: those of [mvalue], Field.prev and
    Field.next (1187-1188, 1208-1209), _last_field (565) *)
Record svalue := mkSkip {
  s_value : mvalue;
  s_prev : field -> field;
  s_next : field -> field;
  s_last : field
}.

Section Skip.
  (** fuel of the simplifier and of the loops *)
  Variable n : nat.
  Variable mt : mtype.

  (** __init__, 505-572, and clone, 574-592, with skip_verification: nothing is preset *)
  Definition skip_new : svalue := mkSkip (blank mt) (fun _ => "") (fun _ => "") INITIAL.

  (** _next_field, 607-619 *)
  Definition skip_next (sv : svalue) (f : field) : res field :=
    if String.eqb f FINAL then Ok ""
    else if negb (String.eqb (s_next sv f) "") then Ok (s_next sv f)
    else next_field n mt (mapping (s_value sv)) f.
  (** _prev_field, 621-625 *)
  Definition skip_prev (sv : svalue) (f : field) : field :=
    if String.eqb f INITIAL then "" else s_prev sv f.

  (** _get_size, 639-652: the condition of the link is not looked at *)
  Fixpoint skip_link_size (sv : svalue) (ls : list link) : res (option Z) :=
    match ls with
    | [] => Ok None
    | l :: t =>
      match is_set mt (s_value sv) (source l), lsize l with
      | true, Some e => number n mt (mapping (s_value sv)) e
      | _, _ => skip_link_size sv t
      end
    end.
  Definition skip_size (sv : svalue) (f : field) : res (option Z) :=
    match typ mt f with
    | FScalar t _ => Ok (Some (type_size t))
    | _ => skip_link_size sv (incoming_ mt f)
    end.

  (** _get_first, 654-673: the condition of the link is not looked at; Number + Number of
      expression.py:659-662 *)
  Fixpoint skip_link_first (sv : svalue) (ls : list link) (otherwise : res (option Z)) : res (option Z) :=
    match ls with
    | [] => otherwise
    | l :: t =>
      match lfirst l with
      | Some e => number n mt (mapping (s_value sv)) e
      | None => skip_link_first sv t otherwise
      end
    end.
  Definition skip_first (sv : svalue) (f : field) : res (option Z) :=
    skip_link_first sv (incoming_ mt f)
      (let p := skip_prev sv f in
       if String.eqb p "" then Ok None
       else match first (fields (s_value sv) p), size_of mt (s_value sv) p with
            | Some x, Some z => Ok (Some (x + z))
            | _, _ => Err "AssertionError"
            end).

  (** typeval.assign (value, False), 762: IntegerValue 161-173, EnumValue 219-248,
      OpaqueValue 339-360, ArrayValue 407-435 *)
  Definition skip_assign (t : ftype) (v : tval) (x : pyval) : res tval :=
    match t, v, x with
    | FScalar (Enum id lits size av) imported, _, PStr s =>
      let* r := enum_assign n id lits size av imported s false in Ok (VScalar (Some (SEnum (fst r) (snd r))))
    | FScalar (Enum _ _ _ _) _, _, _ => Err "TypeError"
    | FScalar t _, _, PInt z => let* r := int_assign n t z false in Ok (VScalar (Some (SInt r)))
    | FOpaque, VOpaque e r nested _, PBytes l => Ok (VOpaque e r nested (Some l))
    | FScalars t _, VScalars e _, PScalars l =>
      let* l' := array_assign e t l false in Ok (VScalars e (Some l'))
    | FMessages el, VMessages e _, PMessages l =>
      if forallb (fun m => String.eqb (fst (fst m)) el && snd (fst m)) l
      then Ok (VMessages e (Some (map snd l))) else Err "cannot assign"
    | _, _, _ => Err "TypeError"
    end.

  (** __update_simplified_mapping (field), 1107-1117 *)
  Definition skip_mapping (st : mvalue) (f : field) : res (name -> option expr) :=
    match first (fields st f), size_of mt st f with
    | Some p, Some z =>
      Ok (fun x =>
        match x with
        | NVar y =>
          match String.eqb y f, tv (fields st f) with
          | true, VScalar (Some v) => Some (sval_expr v)
          | _, _ => mapping st x
          end
        | NAttr ASize y =>
          if String.eqb y "message" then Some (ENum (p + z))
          else if String.eqb y f then Some (ENum z) else mapping st x
        | NAttr AFirst y => if String.eqb y f then Some (ENum p) else mapping st x
        | NAttr ALast y =>
          if String.eqb y "message" then Some (ENum (p + z - 1))
          else if String.eqb y f then Some (ENum (p + z - 1)) else mapping st x
        | NAttr ALength _ => mapping st x
        end)
    | _, _ => Err "AssertionError"
    end.

  (** _set_unchecked, 749-764, called by set, 794-797 *)
  Definition skip_set (sv : svalue) (f : field) (x : pyval) : res svalue :=
    let sv1 := mkSkip (s_value sv) (upd (s_prev sv) f (s_last sv)) (upd (s_next sv) (s_last sv) f) f in
    let* p := skip_first sv1 f in
    let* size := skip_size sv1 f in
    match p with
    | None => Err "AssertionError"
    | Some p =>
      let st1 := set_first (s_value sv1) f (Some p) in
      let st2 := match size with
                 | Some z => set_tv st1 f (set_expected (tv (fields st1 f)) z)
                 | None => st1
                 end in
      let* v := skip_assign (typ mt f) (tv (fields st2 f)) x in
      let st3 := set_tv st2 f v in
      let* m := skip_mapping st3 f in
      Ok (mkSkip (mkValue (fields st3) m (accessible st3 ++ [f])) (s_prev sv1) (s_next sv1) f)
    end.
  Fixpoint skip_sets (sv : svalue) (xs : list (field * pyval)) : res svalue :=
    match xs with
    | [] => Ok sv
    | (f, x) :: t => let* sv' := skip_set sv f x in skip_sets sv' t
    end.

  (** bitstring, 1017-1031 *)
  Fixpoint skip_bits_loop (k : nat) (sv : svalue) (f : field) (acc : bits) : res bits :=
    if String.eqb f "" || String.eqb f FINAL then Ok acc
    else
      match k with
      | O => Err out_of_fuel
      | S k' =>
        match is_set mt (s_value sv) f, first (fields (s_value sv) f) with
        | true, Some p =>
          if p <=? Z.of_nat (List.length acc) then
            let* b := tv_bits (typ mt f) (tv (fields (s_value sv) f)) in
            let* f' := skip_next sv f in
            skip_bits_loop k' sv f' (firstn (Z.to_nat p) acc ++ b)
          else Ok acc
        | _, _ => Ok acc
        end
      end.
  Definition skip_bitstring (sv : svalue) : res bits :=
    let* f := skip_next sv INITIAL in skip_bits_loop n sv f [].
  (** bytestring, 1045-1049: validity is not looked at; _unchecked_bytestring, 1037-1043 *)
  Definition skip_bytestring (sv : svalue) : res (list Z) :=
    let* b := skip_bitstring sv in
    check Nat.eqb (Nat.modulo (List.length b) 8) 0 msg "AssertionError"; Ok (to_bytes b).
  (** valid_message, 1096-1105, without checksums; valid_fields as in [PyMessage] *)
  Definition skip_valid_message (sv : svalue) : res bool :=
    let* l := valid_fields n mt (s_value sv) in
    match rev l with
    | [] => Ok false
    | f :: _ => let* g := skip_next sv f in Ok (String.eqb g FINAL)
    end.
End Skip.
