(** Model of the scalar, opaque and scalar-array values of
    rflx/pyrflx/typevalue.py.

    A value object is its type plus the attribute _value; the methods return the
    new _value.  Refinements of opaque values and arrays of messages need message
    values and are modelled in PyMessage.v. *)
From Coq Require Import String Ascii List ZArith Bool.
From Verif Require Import Base Expr Ident TypeSpec Bitstring.
Import ListNotations.
Local Open Scope string_scope.
Local Open Scope list_scope.
Local Open Scope Z_scope.
Local Open Scope res_scope.

(** the reserved variable "__VALUE__", typevalue.py:164-169, in lower case *)
Definition value_name : string := "__value__".

Section Values.
  (** fuel of the simplifier model *)
  Variable n : nat.
  Definition simpv : expr -> res expr := simplify expr_eqb n.

  (** And over the constraints,.substituted (mapping).simplified () == TRUE *)
  Definition constraint_true (cs : list expr) (mapping : name -> option expr) : res bool :=
    let* e := substituted (neg simpv) mapping (EAss OAnd cs) in
    let* r := simpv e in
    Ok (expr_eqb r ETrue).

  (** ** IntegerValue, typevalue.py:146-198 *)

  (** the mapping of assign, line 166 *)
  Definition int_mapping (t : scalar) (v : Z) : name -> option expr := fun m =>
    match m with
    | NVar x => if String.eqb x value_name then Some (ENum v) else None
    | NAttr ASize x => if String.eqb x value_name then Some (ENum (type_size t)) else None
    | _ => None
    end.

  (** assign, 161-173; [chk] is the parameter "check" *)
  Definition int_assign (t : scalar) (v : Z) (chk : bool) : res Z :=
    if chk then
      let* cs := constraints n t value_name chk true in
      let* b := constraint_true cs (int_mapping t v) in
      if b then Ok v else Err "value not in type range"
    else Ok v.

  (** parse, 175-178, of a Bitstring; bytes go through Bitstring.from_bytes *)
  Definition int_parse (t : scalar) (b : bits) (chk : bool) : res Z :=
    let* v := Bitstring_int b in int_assign t v chk.

  (** f"0{self.size}b" (190-193, 275-278): the size is a Number, printed with its
      base; a based literal such as 16#10# gives an invalid format specifier.
      [based] tells that the declared size is such a literal. *)
  Definition format_size (based : bool) (v : Z) (size : Z) : res bits :=
    if based then Err "ValueError: Invalid format specifier"
    else format_b v (Z.to_nat size).

  (** bitstring, 190-193; _raise_initialized 74-76 *)
  Definition int_bitstring (based : bool) (t : scalar) (v : option Z) : res bits :=
    match v with
    | None => Err "not initialized"
    | Some v => format_size based v (type_size t)
    end.

  (** ** EnumValue, typevalue.py:201-292 *)

  (** __init__, 206-217: the dict of literals, with and without package prefix *)
  Definition is_builtin (id : ident) : bool := id_eq (package id) builtins.
  Definition enum_literals (id : ident) (lits : list (ident * Z)) (imported : bool) : list (ident * Z) :=
    flat_map (fun kv =>
      (if is_builtin id || negb imported then [kv] else [])
      ++ (if negb (is_builtin id) then [(package id ++ fst kv, snd kv)] else [])) lits.

  (** dict lookup *)
  Fixpoint dict_get (d : list (ident * Z)) (k : ident) : option Z :=
    match d with
    | [] => None
    | (k', v) :: t => if id_eq k k' then Some v else dict_get t k
    end.

  (** str.startswith *)
  Fixpoint starts_with (p s : string) : bool :=
    match p, s with
    | EmptyString, _ => true
    | String c p', String d s' => Ascii.eqb c d && starts_with p' s'
    | String _ _, EmptyString => false
    end.

  (** the mapping of assign, 232-236: later entries override earlier ones *)
  Definition enum_mapping (d : list (ident * Z)) (v size : Z) : name -> option expr := fun m =>
    match m with
    | NVar x =>
      if String.eqb x value_name then Some (ENum v)
      else match find (fun kv => String.eqb x (var (fst kv))) (rev d) with
           | Some kv => Some (ENum (snd kv))
           | None => None
           end
    | NAttr ASize x => if String.eqb x value_name then Some (ENum size) else None
    | _ => None
    end.

  (** assign, 219-248 *)
  Definition enum_assign (id : ident) (lits : list (ident * Z)) (size : Z) (av imported : bool)
      (s : string) (chk : bool) : res (string * Z) :=
    let d := enum_literals id lits imported in
    let* pv := if starts_with (id_str (package id)) s || negb imported || is_builtin id
               then id_of_string s else id_mul (package id) s in
    match dict_get d pv with
    | None => Err "not a valid enum value"
    | Some _ =>
      let* nm := id_name pv in
      match dict_get lits nm with
      | None => Err "KeyError"
      | Some v =>
        let* r := if chk then
                    let* cs := constraints n (Enum id lits size av) value_name chk (negb imported) in
                    constraint_true cs (enum_mapping d v size)
                  else Ok true in
        if r then Ok (if imported && negb (is_builtin id) then id_str pv else id_str nm, v)
        else Err "AssertionError"
      end
    end.

  (** the loop 261-268: the last literal with the number wins *)
  Definition enum_search (d : list (ident * Z)) (imported : bool) (z : Z) (init : res (string * Z))
    : res (string * Z) :=
    fold_left (fun r kv =>
      let* old := r in
      if snd kv =? z then
        if imported then Ok (id_str (fst kv), snd kv)
        else let* nm := id_name (fst kv) in Ok (id_str nm, snd kv)
      else Ok old) d init.

  (** parse, 250-268 *)
  Definition enum_parse (id : ident) (lits : list (ident * Z)) (av imported : bool) (b : bits)
    : res (string * Z) :=
    let* z := Bitstring_int b in
    let d := enum_literals id lits imported in
    if negb (existsb (fun kv => snd kv =? z) d) then
      if av then Ok ("UNKNOWN", z) else Err "not a valid enum value"
    else enum_search d imported z (Ok ("", z)).

  (** bitstring, 283-286 *)
  Definition enum_bitstring (based : bool) (size : Z) (v : option (string * Z)) : res bits :=
    match v with
    | None => Err "not initialized"
    | Some (_, z) => format_size based z size
    end.

  (** ** Scalar values in general *)

  (** _value of IntegerValue and EnumValue; None before the first assignment *)
  Inductive sval := SInt (v : Z) | SEnum (s : string) (v : Z).

  (** TypeValue.construct (vtype, imported).parse (b, check), 115-128 *)
  Definition scalar_parse (t : scalar) (imported : bool) (b : bits) (chk : bool) : res sval :=
    match t with
    | Enum id lits _ av => let* r := enum_parse id lits av imported b in Ok (SEnum (fst r) (snd r))
    | _ => let* v := int_parse t b chk in Ok (SInt v)
    end.
  Definition scalar_bitstring (based : bool) (t : scalar) (v : sval) : res bits :=
    match v with
    | SInt z => format_size based z (type_size t)
    | SEnum _ z => format_size based z (type_size t)
    end.

  (** ** CompositeValue._check_size_of_assigned_value, 303-324; [expected] is
      _expected_size if it is a Number *)
  Definition check_size (expected : option Z) (len : Z) : res unit :=
    match expected with
    | Some e => if len =? e then Ok tt else Err "invalid data size"
    | None => Ok tt
    end.

  (** ** OpaqueValue without refinement, typevalue.py:330-394 *)

  (** parse of a Bitstring (345-364): _value = bytes (value) *)
  Definition opaque_parse (expected : option Z) (b : bits) (chk : bool) : res (list Z) :=
    if chk then let* _ := check_size expected (Z.of_nat (List.length b)) in Ok (to_bytes b)
    else Ok (to_bytes b).
  (** assign (bytes), 342-343 *)
  Definition opaque_assign (expected : option Z) (v : list Z) (chk : bool) : res (list Z) :=
    if chk then let* _ := check_size expected (Z.of_nat (List.length v) * 8) in Ok v else Ok v.
  (** size 369-373 and bitstring 386-394 *)
  Definition opaque_bitstring (v : option (list Z)) : res bits :=
    match v with
    | None => Err "not initialized"
    | Some v =>
      if Nat.eqb (List.length v * 8) 0 then Ok []
      else format_b (int_from_bytes v) (List.length v * 8)
    end.

  (** ** ArrayValue with a scalar element type, typevalue.py:397-497 *)

  (** the loop 463-478; an element of zero bits is read from an empty text, which
      raises; [fuel] bounds the number of elements *)
  Fixpoint array_elements (fuel : nat) (t : scalar) (imported : bool) (b : bits) (chk : bool)
    : res (list sval) :=
    match b with
    | [] => Ok []
    | _ =>
      match fuel with
      | O => Err out_of_fuel
      | S k =>
        let w := Z.to_nat (type_size t) in
        let* v := scalar_parse t imported (firstn w b) chk in
        let* vs := array_elements k t imported (skipn w b) chk in
        Ok (v :: vs)
      end
    end.

  (** parse of a Bitstring, 438-481: the previous _value does not matter; the size
      is checked even for check = False *)
  Definition array_parse (expected : option Z) (t : scalar) (imported : bool) (b : bits) (chk : bool)
    : res (list sval) :=
    let* _ := check_size expected (Z.of_nat (List.length b)) in
    array_elements (List.length b) t imported b chk.
  (** parse of bytes, 439-441 *)
  Definition array_parse_bytes (expected : option Z) (t : scalar) (imported : bool) (v : list Z) (chk : bool)
    : res (list sval) :=
    let* _ := check_size expected (Z.of_nat (List.length v) * 8) in
    let* b := from_bytes v in
    array_elements (List.length b) t imported b chk.

  (** the class of a scalar type, for equal_type (56-57): isinstance on classes *)
  Definition same_class (a b : scalar) : bool :=
    match a, b with
    | Modular _ _ _ _, Modular _ _ _ _ | Range _ _ _ _, Range _ _ _ _ | Enum _ _ _ _, Enum _ _ _ _ => true
    | _, _ => false
    end.

  (** assign of a list of scalar value objects (type, value), 408-436 *)
  Definition array_assign (expected : option Z) (t : scalar) (vs : list (scalar * sval)) (chk : bool)
    : res (list (scalar * sval)) :=
    let* _ := if chk then
                let* bs := mapr (fun tv => scalar_bitstring false (fst tv) (snd tv)) vs in
                check_size expected (Z.of_nat (List.length (join bs)))
              else Ok tt in
    if forallb (fun tv => same_class (fst tv) t) vs then Ok vs else Err "cannot assign".

  (** bitstring, 491-495 *)
  Definition array_bitstring (vs : list (scalar * sval)) : res bits :=
    let* bs := mapr (fun tv => scalar_bitstring false (fst tv) (snd tv)) vs in
    Ok (join bs).
End Values.
